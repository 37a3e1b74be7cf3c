(** Property C23: the randomised singular value decompositions. *)
From Coq Require Import String Ascii.
From mathcomp Require Import all_ssreflect all_algebra.
From Verif Require Import Base Tensor TN Linalg Mat Rsvd RsvdFacts Spectral.
Set Implicit Arguments.
Unset Strict Implicit.
Unset Printing Implicit Defensive.
Import GRing.Theory Num.Theory.
Local Open Scope ring_scope.

Section C23.
Variable C : numClosedFieldType.
Notation tensor := (tensor C).
Variable R : Type.
Variable randn : R -> forall n q : nat, 'M[C]_(n, q) * R.
Variable lqr : qr_fun C.
Variable lsvd : thin_svd_fun C.

(** U (m by z), s, V (n by z) are orthonormal singular vectors and ordered
    non-negative values with U diag(s) V^H = Q Q^H A for some Q with orthonormal
    columns; the product is A if the columns of A Omega span those of A *)
Definition projected_svd m n z (A : 'M[C]_(m, n)) (Omega : 'M[C]_(n, z)) (U : tensor) (s : seq C) (V : tensor) : Prop :=
  let Um := mx_of m z U in let Vm := mx_of n z V in
  let product := Um *m diag_mx (\row_i nth 0 s i) *m adj Vm in
  [/\ [/\ shape U = [:: m; z], size s = z & shape V = [:: n; z]],
      adj Um *m Um = 1%:M /\ adj Vm *m Vm = 1%:M,
      (forall i, (i < z)%N -> 0 <= nth 0 s i) /\ (forall i j, (i <= j)%N -> (j < z)%N -> nth 0 s j <= nth 0 s i),
      exists2 Q : 'M[C]_(m, z), adj Q *m Q = 1%:M & product = Q *m adj Q *m A &
      (exists Z, A = A *m Omega *m Z) -> product = A].

Lemma lowrank_projected m n z (A : 'M[C]_(m, n)) (Om : 'M[C]_(n, z)) U s V :
  shape U = [:: m; z] -> size s = z -> shape V = [:: n; z] -> lowrank_ok A Om U s V -> projected_svd A Om U s V.
Proof.
move=> SU Ss SV [HU HV [G M] _ [Q [HQ E Ex]]]; split=> //.
  split=> [i Hi|i j Hij Hj]; first by have := G (Ordinal Hi); rewrite mxE.
  by have := M (Ordinal (leq_ltn_trans Hij Hj)) (Ordinal Hj) Hij; rewrite !mxE.
by exists Q => //; rewrite -(mulmxA Q).
Qed.

Theorem C23_rsvd r (A : tensor) m n q niter : shape A = [:: m; n] -> qr_spec lqr -> thin_svd_spec lsvd ->
  let z := minn q (minn m n) in
  exists U s V, svd_lowrank randn lqr lsvd r A q niter = Ok (U, s, V, (randn r n z).2) /\
    projected_svd (mx_of m n A) (randn r n z).1 U s V.
Proof.
move=> HA Sq Ss z; have [U [s [V [-> SU S1 SV H]]]] := svd_lowrankE randn lqr lsvd r q niter HA.
by exists U, s, V; split=> //; apply: lowrank_projected (H Sq Ss).
Qed.

(** the two-matrix variant returns exactly what the plain routine returns on the product *)
Theorem C23_fused_matmul r (A B : tensor) m k n q niter : shape A = [:: m; k] -> shape B = [:: k; n] ->
  exists P x, [/\ matmul A B = Ok P, svd_lowrank randn lqr lsvd r P q niter = Ok x &
    fused_matmul_svd_lowrank randn lqr lsvd r A B q niter = Ok x].
Proof.
move=> HA HB; have [U [s [V [-> _ _ _ [P [-> E]]]]]] := fused_matmulE randn lqr lsvd r q niter HA HB.
by exists P; eexists; split; [by []|exact: E|by []].
Qed.

(** the four-matrix variant has the guarantee of the plain routine on the
    product A B D E, with the same random draw *)
Theorem C23_fused_3matmul r (A B D E : tensor) m k1 k2 k3 n q niter :
  shape A = [:: m; k1] -> shape B = [:: k1; k2] -> shape D = [:: k2; k3] -> shape E = [:: k3; n] ->
  qr_spec lqr -> thin_svd_spec lsvd -> let z := minn q (minn m n) in
  let P := mx_of m k1 A *m mx_of k1 k2 B *m mx_of k2 k3 D *m mx_of k3 n E in
  exists U s V, fused_3matmul_svd_lowrank randn lqr lsvd r A B D E q niter = Ok (U, s, V, (randn r n z).2) /\
    projected_svd P (randn r n z).1 U s V.
Proof.
move=> HA HB HD HE Sq Ss z P.
have [U [s [V [-> SU S1 SV H]]]] := fused_3matmulE randn lqr lsvd r q niter HA HB HD HE.
by exists U, s, V; split=> //; apply: lowrank_projected (H Sq Ss).
Qed.

(** (P P^H)^niter P Omega *)
Fixpoint power_sample m n z (P : 'M[C]_(m, n)) (Omega : 'M[C]_(n, z)) (niter : nat) : 'M[C]_(m, z) :=
  match niter with
  | 0 => P *m Omega
  | k.+1 => P *m (adj P *m power_sample P Omega k)
  end.

Lemma power_sampleE m n z (P : 'M[C]_(m, n)) (Om : 'M[C]_(n, z)) k : power_sample P Om k = krylov P Om k.
Proof. by elim: k => //= k ->. Qed.

(** and reproduces the same matrix whenever the sampled matrix has full column
    rank, although it orthonormalises twice per iteration *)
Theorem C23_fused_3matmul_same r (A B D E P : tensor) m k1 k2 k3 n q niter U s V U' s' V' r1 r2 :
  shape A = [:: m; k1] -> shape B = [:: k1; k2] -> shape D = [:: k2; k3] -> shape E = [:: k3; n] -> shape P = [:: m; n] ->
  mx_of m n P = mx_of m k1 A *m mx_of k1 k2 B *m mx_of k2 k3 D *m mx_of k3 n E ->
  qr_spec lqr -> thin_svd_spec lsvd -> let z := minn q (minn m n) in
  \rank (power_sample (mx_of m n P) (randn r n z).1 niter) = z ->
  fused_3matmul_svd_lowrank randn lqr lsvd r A B D E q niter = Ok (U, s, V, r1) ->
  svd_lowrank randn lqr lsvd r P q niter = Ok (U', s', V', r2) ->
  mx_of m z U *m diag_mx (\row_i nth 0 s i) *m adj (mx_of n z V) =
  mx_of m z U' *m diag_mx (\row_i nth 0 s' i) *m adj (mx_of n z V').
Proof.
move=> HA HB HD HE HP EP Sq Ss z; rewrite power_sampleE => Hr E1 E2.
have [|Q' [HQ' C2 P2]] := svd_lowrank_krylov HP Sq Ss _ E2; first by rewrite Hr.
rewrite EP in Hr C2 P2; have [|Q [HQ C1 P1]] := fused_3matmul_krylov HA HB HD HE Sq Ss _ E1; first by rewrite Hr.
rewrite -!/(usv _ _ _ _ _ _) P1 P2; apply: same_proj => //.
by case: C1 C2 => a1 a2 [b1 b2]; split; [apply: in_cols_trans a1 b2|apply: in_cols_trans b1 a2].
Qed.
End C23.

(** With as many samples as columns and the identity as draw, a literal 2 by 3
    matrix is reproduced, with existing QR and SVD routines. *)
Example C23_example (C : numClosedFieldType) niter :
  let A : tensor C := Tensor [:: 2; 3]%N (fun i => (nth 0%N i 0 + 2 * nth 0%N i 1)%:R) in
  let draw (r : unit) n q := (\matrix_(i < n, j < q) (nat_of_ord i == nat_of_ord j)%:R : 'M[C]_(n, q), r) in
  exists U s V, [/\ svd_lowrank draw (@some_qr C) (@some_thin_svd C) tt A 2 niter = Ok (U, s, V, tt), size s = 2%N &
    mx_of 2 2 U *m diag_mx (\row_i nth 0 s i) *m adj (mx_of 3 2 V) = mx_of 2 3 A].
Proof.
move=> A draw.
have [U [s [V [E [[_ S1 _] _ _ _ H]]]]] := C23_rsvd draw tt 2 niter (erefl (shape A)) (@some_qr_spec C) (@some_thin_svd_spec C).
exists U, s, V; split; [exact: E|exact: S1|].
apply: H; pose Y : 'M[C]_2 := mx_of 2 3 A *m (draw tt 3%N 2%N).1.
have E2 : Y = \matrix_(i < 2, j < 2) (i + 2 * j)%:R.
  apply/matrixP => i j; rewrite !mxE !big_ord_recr big_ord0 /= !mxE /=.
  by case: j => [[|[|j]] Hj] //=; rewrite ?mulr0 ?mulr1 ?add0r ?addr0.
have UY : Y \in unitmx.
  rewrite unitmxE E2 (expand_det_row _ 0) !big_ord_recr big_ord0 /= /cofactor !det_mx11 !mxE /=.
  by rewrite mul0r !add0r expr1 mulN1r mulrN unitfE oppr_eq0 mulf_neq0 // pnatr_eq0.
by exists (invmx Y *m mx_of 2 3 A); rewrite -/Y mulmxA mulmxV // mul1mx.
Qed.

Print Assumptions C23_rsvd.
Print Assumptions C23_fused_matmul.
Print Assumptions C23_fused_3matmul.
Print Assumptions C23_fused_3matmul_same.
Print Assumptions C23_example.
