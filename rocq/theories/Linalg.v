(** LAPACK-backed functions as functions on matrices, and their documented
    behaviour as separate definitions.  A call on a 2-dimensional tensor goes
    through the matrix of its entries. *)
From Coq Require Import String Ascii.
From mathcomp Require Import all_ssreflect all_algebra.
From Verif Require Import Base Tensor TN.
Set Implicit Arguments.
Unset Strict Implicit.
Unset Printing Implicit Defensive.
Import GRing.Theory Num.Theory.
Local Open Scope ring_scope.

Section Conv.
Variable C : numClosedFieldType.

(** the matrix of the entries of a 2-dimensional tensor, and back *)
Definition mx_of (m n : nat) (t : tensor C) : 'M[C]_(m, n) := \matrix_(i, j) at_ t [:: nat_of_ord i; nat_of_ord j].
Definition of_mx (m n : nat) (M : 'M[C]_(m, n)) : tensor C :=
  Tensor [:: m; n] (fun idx => match idx with
    | [:: i; j] => match insub i, insub j with Some i, Some j => M i j | _, _ => 0 end
    | _ => 0 end).

(** adjoint of a matrix *)
Definition adj (m n : nat) (M : 'M[C]_(m, n)) : 'M[C]_(n, m) := map_mx (fun x : C => x^* ) M^T.

Lemma at_of_mx m n (M : 'M[C]_(m, n)) (i : 'I_m) (j : 'I_n) : at_ (of_mx M) [:: nat_of_ord i; nat_of_ord j] = M i j.
Proof. by rewrite /= !valK. Qed.

Lemma mx_ofK m n (M : 'M[C]_(m, n)) : mx_of m n (of_mx M) = M.
Proof. by apply/matrixP => i j; rewrite mxE at_of_mx. Qed.

Lemma in_range_mx m n idx : in_range [:: m; n] idx ->
  exists (i : 'I_m) (j : 'I_n), idx = [:: nat_of_ord i; nat_of_ord j].
Proof.
case: idx => [|i [|j [|k l]]] //=; rewrite ?andbF // andbT => /andP[Hi Hj].
by exists (Ordinal Hi), (Ordinal Hj).
Qed.

Lemma of_mxK m n t : shape t = [:: m; n] -> teq (of_mx (mx_of m n t)) t.
Proof. by move=> Hs; split=> // idx /in_range_mx[i [j ->]]; rewrite at_of_mx mxE. Qed.

Lemma teq_mx m n s t : teq s t -> shape s = [:: m; n] -> mx_of m n s = mx_of m n t.
Proof. by case=> _ H Hs; apply/matrixP => i j; rewrite !mxE H // Hs /= !ltn_ord. Qed.

Lemma mx_teq m n s t : shape s = [:: m; n] -> shape t = [:: m; n] -> mx_of m n s = mx_of m n t -> teq s t.
Proof.
move=> Hs Ht E; split; first by rewrite Hs Ht.
move=> idx; rewrite Hs => /in_range_mx[i [j ->]].
by have := congr1 (fun M : 'M_(m, n) => M i j) E; rewrite !mxE.
Qed.

(** the product of two tensors is the product of their matrices *)
Lemma matmulE m k n a b : shape a = [:: m; k] -> shape b = [:: k; n] ->
  exists t, [/\ matmul a b = Ok t, shape t = [:: m; n] & mx_of m n t = mx_of m k a *m mx_of k n b].
Proof.
move=> Ha Hb; rewrite /matmul Ha Hb eqxx; eexists; split=> //.
by apply/matrixP => i j; rewrite !mxE /=; apply: eq_bigr => x _; rewrite !mxE.
Qed.

Lemma adjointE m n a : shape a = [:: m; n] ->
  shape (adjoint a) = [:: n; m] /\ mx_of n m (adjoint a) = adj (mx_of m n a).
Proof. by move=> Ha; split; rewrite /= ?Ha //; apply/matrixP => i j; rewrite !mxE. Qed.

Lemma adjK m n (M : 'M[C]_(m, n)) : adj (adj M) = M.
Proof. by apply/matrixP => i j; rewrite !mxE conjCK. Qed.

Lemma adjM m n p (M : 'M[C]_(m, n)) (N : 'M[C]_(n, p)) : adj (M *m N) = adj N *m adj M.
Proof.
apply/matrixP => i j; rewrite !mxE rmorph_sum; apply: eq_bigr => k _.
by rewrite !mxE rmorphM mulrC.
Qed.

Lemma adjD m n (M N : 'M[C]_(m, n)) : adj (M + N) = adj M + adj N.
Proof. by apply/matrixP => i j; rewrite !mxE rmorphD. Qed.

Lemma adjZ m n c (M : 'M[C]_(m, n)) : adj (c *: M) = c^* *: adj M.
Proof. by apply/matrixP => i j; rewrite !mxE rmorphM. Qed.

Lemma adj1 n : adj (1%:M : 'M[C]_n) = 1%:M.
Proof. by apply/matrixP => i j; rewrite !mxE eq_sym; case: eqP; rewrite ?rmorph1 ?rmorph0. Qed.

Lemma adj0 m n : adj (0 : 'M[C]_(m, n)) = 0.
Proof. by apply/matrixP => i j; rewrite !mxE rmorph0. Qed.

(** positivity: M^H M = 0 forces M = 0 *)
Lemma adj_mul_eq0 m n (M : 'M[C]_(m, n)) : adj M *m M = 0 -> M = 0.
Proof.
move=> H; apply/matrixP => i j; rewrite mxE.
have := congr1 (fun A : 'M_n => A j j) H; rewrite !mxE => /eqP.
rewrite psumr_eq0 => [/allP /(_ i)|k _]; rewrite !mxE mulrC -normCK ?exprn_ge0 //.
by rewrite mem_index_enum => /(_ isT) /=; rewrite expf_eq0 /= normr_eq0 => /eqP.
Qed.

End Conv.

Section Specs.
Variable C : numClosedFieldType.

(** torch.linalg.svd(A, full_matrices=False): U, s, Vh *)
Definition thin_svd_fun := forall m n, 'M[C]_(m, n) -> 'M[C]_(m, minn m n) * 'rV[C]_(minn m n) * 'M[C]_(minn m n, n).
(** torch.linalg.svd(A): U, s, Vh with square U and Vh *)
Definition full_svd_fun := forall m n, 'M[C]_(m, n) -> 'M[C]_m * 'rV[C]_(minn m n) * 'M[C]_n.
(** torch.linalg.qr(A): Q, R, reduced *)
Definition qr_fun := forall m n, 'M[C]_(m, n) -> 'M[C]_(m, minn m n) * 'M[C]_(minn m n, n).

(** singular values: real, non-negative, non-increasing *)
Definition sv_ok (k : nat) (s : 'rV[C]_k) : Prop :=
  (forall i, 0 <= s 0 i) /\ (forall i j : 'I_k, (i <= j)%N -> s 0 j <= s 0 i).

Definition thin_svd_spec (svd : thin_svd_fun) : Prop := forall m n (A : 'M[C]_(m, n)),
  let: (U, s, Vh) := svd m n A in
  [/\ adj U *m U = 1%:M, Vh *m adj Vh = 1%:M, sv_ok s & A = U *m diag_mx s *m Vh].

Definition full_svd_spec (svd : full_svd_fun) : Prop := forall m n (A : 'M[C]_(m, n)),
  let: (U, s, Vh) := svd m n A in
  [/\ adj U *m U = 1%:M, Vh *m adj Vh = 1%:M, sv_ok s &
      forall i j, A i j = \sum_(k < minn m n) U i (widen_ord (geq_minl m n) k) * s 0 k *
                                              Vh (widen_ord (geq_minr m n) k) j].

(** Q has orthonormal columns and A = Q R, R upper triangular *)
Definition qr_spec (qr : qr_fun) : Prop := forall m n (A : 'M[C]_(m, n)),
  let: (Q, R) := qr m n A in
  [/\ adj Q *m Q = 1%:M, A = Q *m R & forall (i : 'I_(minn m n)) (j : 'I_n), (j < i)%N -> R i j = 0].

End Specs.
