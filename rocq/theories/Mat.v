(** Matrices of grouped legs: a tensor with legs s1 ++ s2 read as a matrix whose
    row index is the row-major position in s1 and column index that in s2. *)
From Coq Require Import String Ascii.
From mathcomp Require Import all_ssreflect all_algebra.
From Verif Require Import Base Tensor TN Linalg.
Set Implicit Arguments.
Unset Strict Implicit.
Unset Printing Implicit Defensive.
Import GRing.Theory Num.Theory.
Local Open Scope ring_scope.

Lemma ravel_lt sh v : in_range sh v -> (ravel sh v < numel sh)%N.
Proof.
elim: sh v => [|d sh IH] [|x v] //= /andP[Hx /IH Hv].
apply: (@leq_trans (x.+1 * numel sh)); last by rewrite leq_mul2r Hx orbT.
by rewrite mulSn addnC ltn_add2r.
Qed.

Lemma unravelK sh i : (i < numel sh)%N -> ravel sh (unravel sh i) = i.
Proof.
elim: sh i => [|d sh IH] i /=; first by rewrite ltnS leqn0 => /eqP ->.
case: (posnP (numel sh)) => [->|Hp]; first by rewrite muln0.
by move=> Hi; rewrite IH ?ltn_mod // -divn_eq.
Qed.

Lemma ravelK sh v : in_range sh v -> unravel sh (ravel sh v) = v.
Proof.
elim: sh v => [|d sh IH] [|x v] //= /andP[Hx Hv]; have Hr := ravel_lt Hv.
have Hp : (0 < numel sh)%N by apply: leq_ltn_trans Hr.
by rewrite divnMDl // divn_small // addn0 modnMDl modn_small // IH.
Qed.

Lemma unravel_range sh i : (i < numel sh)%N -> in_range sh (unravel sh i).
Proof.
elim: sh i => [|d sh IH] i //=; case: (posnP (numel sh)) => [->|Hp]; first by rewrite muln0.
by move=> Hi; rewrite IH ?ltn_mod // andbT ltn_divLR.
Qed.

Lemma size_unravel sh i : size (unravel sh i) = size sh.
Proof. by elim: sh i => //= d sh IH i; rewrite IH. Qed.

Lemma numel_cat s1 s2 : numel (s1 ++ s2) = (numel s1 * numel s2)%N.
Proof. by elim: s1 => [|d s IH] /=; rewrite ?mul1n // IH mulnA. Qed.

Lemma unravel_cat s1 s2 i j : (i < numel s1)%N -> (j < numel s2)%N ->
  unravel (s1 ++ s2) (i * numel s2 + j) = unravel s1 i ++ unravel s2 j.
Proof.
move=> + Hj; have Hp : (0 < numel s2)%N by apply: leq_ltn_trans Hj.
elim: s1 i => [|d s1 IH] i /=; first by rewrite ltnS leqn0 => /eqP ->.
case: (posnP (numel s1)) => [->|Hq]; first by rewrite muln0.
move=> Hi; rewrite numel_cat.
have -> : (i * numel s2 + j = i %/ numel s1 * (numel s1 * numel s2) + (i %% numel s1 * numel s2 + j))%N.
  by rewrite {1}(divn_eq i (numel s1)) mulnDl mulnA addnA.
have Hr : (i %% numel s1 * numel s2 + j < numel s1 * numel s2)%N.
  apply: (@leq_trans ((i %% numel s1).+1 * numel s2)); last by rewrite leq_mul2r ltn_mod Hq orbT.
  by rewrite mulSn addnC ltn_add2r.
rewrite divnMDl ?muln_gt0 ?Hq // (divn_small Hr) addn0 modnMDl (modn_small Hr).
by rewrite IH // ltn_mod.
Qed.

Lemma ravel_cat s1 s2 v w : in_range s1 v -> ravel (s1 ++ s2) (v ++ w) = (ravel s1 v * numel s2 + ravel s2 w)%N.
Proof.
elim: s1 v => [|d s IH] [|x v] //= /andP[_ Hv].
by rewrite IH // numel_cat mulnDl addnA mulnA.
Qed.

Section Mat.
Variable C : numClosedFieldType.
Notation tensor := (tensor C).

Lemma sum_unravel sh n (F : seq nat -> C) : n = numel sh ->
  \sum_(v <- indices sh) F v = \sum_(i < n) F (unravel sh i).
Proof.
move=> ->; rewrite -(big_mkord xpredT (fun i => F (unravel sh i))) /index_iota subn0 -(big_map (unravel sh) xpredT).
apply: perm_big; apply: uniq_perm; first exact: uniq_indices.
  rewrite map_inj_in_uniq ?iota_uniq // => i j; rewrite !mem_iota !add0n => Hi Hj E.
  by rewrite -(unravelK Hi) E unravelK.
move=> v; rewrite mem_indices; apply/idP/mapP => [Hv|[i]].
  by exists (ravel sh v); rewrite ?mem_iota ?ravel_lt // ravelK.
by rewrite mem_iota add0n => Hi ->; apply: unravel_range.
Qed.

(** the matrix of a tensor with legs s1 ++ s2; m and n are the group sizes *)
Definition mat (m n : nat) (s1 s2 : seq nat) (t : tensor) : 'M[C]_(m, n) :=
  \matrix_(i, j) at_ t (unravel s1 i ++ unravel s2 j).

Lemma mat_teq m n s1 s2 t t' : teq t t' -> shape t = s1 ++ s2 -> m = numel s1 -> n = numel s2 ->
  mat m n s1 s2 t = mat m n s1 s2 t'.
Proof.
move=> [_ H] Hs Hm Hn; apply/matrixP => i j; rewrite !mxE H // Hs in_range_cat ?size_unravel //.
by rewrite !unravel_range -?Hm -?Hn.
Qed.

Lemma teq_mat m n s1 s2 t t' : shape t = s1 ++ s2 -> shape t' = s1 ++ s2 -> m = numel s1 -> n = numel s2 ->
  mat m n s1 s2 t = mat m n s1 s2 t' -> teq t t'.
Proof.
move=> Hs Hs' Hm Hn E; split; first by rewrite Hs Hs'.
move=> v Hv; have Hz : size v = (size s1 + size s2)%N by rewrite (in_range_size Hv) Hs size_cat.
have E1 : v = take (size s1) v ++ drop (size s1) v by rewrite cat_take_drop.
move: Hv; rewrite Hs E1 in_range_cat => [/andP[H1 H2]|]; last by rewrite size_takel // Hz leq_addr.
have L1 := ravel_lt H1; have L2 := ravel_lt H2.
rewrite -Hm in L1; rewrite -Hn in L2.
have := congr1 (fun M : 'M_(m, n) => M (Ordinal L1) (Ordinal L2)) E; rewrite !mxE /=.
by rewrite !ravelK.
Qed.

(** reshape to two legs *)
Lemma reshape2 s1 s2 m n t : shape t = s1 ++ s2 -> m = numel s1 -> n = numel s2 ->
  exists t', [/\ reshape t [:: m; n] = Ok t', shape t' = [:: m; n] & mx_of m n t' = mat m n s1 s2 t].
Proof.
move=> Hs Hm Hn; rewrite /reshape Hs numel_cat /= muln1 -Hm -Hn eqxx; eexists; split=> //.
apply/matrixP => i j; rewrite !mxE /= !muln1 addn0 -unravel_cat -?Hm -?Hn //.
Qed.

(** reshape of a matrix to the legs s1 ++ s2 *)
Lemma reshape_split s1 s2 m n t : shape t = [:: m; n] -> m = numel s1 -> n = numel s2 ->
  exists t', [/\ reshape t (s1 ++ s2) = Ok t', shape t' = s1 ++ s2 & mat m n s1 s2 t' = mx_of m n t].
Proof.
move=> Hs Hm Hn; rewrite /reshape Hs numel_cat /= muln1 -Hm -Hn eqxx; eexists; split=> //.
apply/matrixP => i j; rewrite !mxE /=.
have Hi : (i < numel s1)%N by rewrite -Hm.
have Hj : (j < numel s2)%N by rewrite -Hn.
have Hp : (0 < n)%N by apply: leq_ltn_trans (ltn_ord j).
rewrite ravel_cat ?unravel_range // !unravelK // -Hn ?muln1 divnMDl // divn_small // addn0.
by rewrite modnMDl modn_small // divn1.
Qed.

Lemma mat_tscale m n s1 s2 c t : mat m n s1 s2 (tscale c t) = c *: mat m n s1 s2 t.
Proof. by apply/matrixP => i j; rewrite !mxE. Qed.
Lemma mat_conj m n s1 s2 t : mat m n s1 s2 (conj t) = map_mx (fun x : C => x^* ) (mat m n s1 s2 t).
Proof. by apply/matrixP => i j; rewrite !mxE. Qed.
Lemma mx_tscale m n c (t : tensor) : mx_of m n (tscale c t) = c *: mx_of m n t.
Proof. by apply/matrixP => i j; rewrite !mxE. Qed.
Lemma mx_conj m n (t : tensor) : mx_of m n (conj t) = map_mx (fun x : C => x^* ) (mx_of m n t).
Proof. by apply/matrixP => i j; rewrite !mxE. Qed.

(** absolute maximum *)
Lemma absmax_ge0 (t : tensor) : 0 <= absmax t.
Proof.
rewrite /absmax; elim: indices => //= i l IH; rewrite /maxC; case: ifP => // _; exact: normr_ge0.
Qed.
Lemma absmax_real (t : tensor) : absmax t \is Num.real. Proof. exact: ger0_real (absmax_ge0 t). Qed.
Lemma absmax_le (t : tensor) i : in_range (shape t) i -> `|at_ t i| <= absmax t.
Proof.
rewrite -mem_indices /absmax; elim: indices => //= j l IH; rewrite inE /maxC.
have G : 0 <= foldr (fun i m => maxC `|at_ t i| m) 0 l.
  elim: (l) => //= k l' G; rewrite /maxC; case: ifP => // _; exact: normr_ge0.
have /orP[L|L] := real_leVge (normr_real (at_ t j)) (ger0_real G); rewrite ?L.
  by case/predU1P => [->|/IH].
move=> H; case: ifP => [L'|_].
  by case/predU1P: H => [->|/IH].
by case/predU1P: H => [->//|/IH H]; apply: Order.POrderTheory.le_trans H L.
Qed.
Lemma absmax_eq0 (t : tensor) : absmax t = 0 -> forall i, in_range (shape t) i -> at_ t i = 0.
Proof. by move=> E i /absmax_le; rewrite E normr_le0 => /eqP. Qed.
Lemma absmax_in (t : tensor) : absmax t != 0 -> exists2 i, in_range (shape t) i & at_ t i != 0.
Proof.
rewrite /absmax; have : forall i, i \in indices (shape t) -> in_range (shape t) i by move=> i; rewrite mem_indices.
elim: (indices _) => [|j l IH] S /=; first by rewrite eqxx.
rewrite {1}/maxC; case: ifP => _ N; last first.
  by exists j; [apply: S; rewrite inE eqxx|rewrite -normr_eq0].
by apply: IH => // i Hi; apply: S; rewrite inE Hi orbT.
Qed.
End Mat.
