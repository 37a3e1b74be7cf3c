(** Shapes through the renormalisation kernels and moves. *)
From Coq Require Import String Ascii.
From mathcomp Require Import all_ssreflect all_algebra.
From Verif Require Import Base Lattice LatticeFacts Mover Tensor TN Rdm RdmFacts Fits Linalg Rsvd RsvdFacts Renorm.
Set Implicit Arguments.
Unset Strict Implicit.
Unset Printing Implicit Defensive.
Import GRing.Theory Num.Theory.
Local Open Scope ring_scope.
Local Open Scope string_scope.

(** the computation ends in a result with property P, or divides by a zero norm *)
Definition okz {A} (m : res A) (P : A -> Prop) : Prop :=
  match m with Ok a => P a | Err e => e = ZeroNorm end.

Lemma okz_bind A B (m : res A) (f : A -> res B) P Q :
  okz m P -> (forall a, P a -> okz (f a) Q) -> okz (bind m f) Q.
Proof. by case: m => [a|e] //= Ha; apply. Qed.

Lemma okz_imp A (m : res A) (P Q : A -> Prop) : okz m P -> (forall a, P a -> Q a) -> okz m Q.
Proof. by case: m => [a|e] //= H; apply. Qed.

(** the shape of an executed einsum *)
Ltac tn_shape := match goal with H : rep _ _ _ ?t _ |- shape ?t = _ => exact (proj1 H) end.

Section Shapes.
Variable C : numClosedFieldType.
Notation tensor := (tensor C).

Lemma okz_tdiv (t : tensor) c : okz (tdiv t c) (fun t' => shape t' = shape t /\ c != 0).
Proof. by rewrite /tdiv; case: eqP => //= /eqP. Qed.

Lemma okz_reshape (t : tensor) sh : numel sh = numel (shape t) -> okz (reshape t sh) (fun t' => shape t' = sh).
Proof. by rewrite /reshape => ->; rewrite eqxx. Qed.

Lemma absmax_numel (t : tensor) : absmax t != 0 -> (0 < numel (shape t))%N.
Proof.
by rewrite /absmax -size_indices; case: indices => //=; rewrite eqxx.
Qed.

Lemma cj1_shape (ci ei proj : tensor) a b c x D :
  shape ei = [:: a; b; D; D] -> shape ci = [:: b; c] -> shape proj = [:: c; D; D; x] ->
  okz (renormalize_cj1 ci ei proj) (fun t => shape t = [:: a; x]).
Proof.
move=> He Hc Hp; rewrite /renormalize_cj1.
tn_setup [:: a; b; c; x; D] [:: ei; ci; proj].
repeat tn_einsum.
by apply: okz_imp (okz_tdiv _ _) _ => t' [-> _]; tn_shape.
Qed.

Lemma cj2_shape (ci ei proj : tensor) a b c x D :
  shape ci = [:: a; b] -> shape ei = [:: b; c; D; D] -> shape proj = [:: a; D; D; x] ->
  okz (renormalize_cj2 ci ei proj) (fun t => shape t = [:: x; c]).
Proof.
move=> He Hc Hp; rewrite /renormalize_cj2.
tn_setup [:: a; b; c; x; D] [:: ci; ei; proj].
repeat tn_einsum.
by apply: okz_imp (okz_tdiv _ _) _ => t' [-> _]; tn_shape.
Qed.

Lemma ej_shape (ei ai p2 p1 : tensor) a b x y D p :
  shape ei = [:: a; b; D; D] -> shape ai = [:: D; D; D; D; p] ->
  shape p2 = [:: a; D; D; y] -> shape p1 = [:: b; D; D; x] ->
  okz (renormalize_ej ei ai p2 p1) (fun t => shape t = [:: y; x; D; D]).
Proof.
move=> He Ha H2 H1; rewrite /renormalize_ej.
tn_setup [:: a; b; x; y; D; p] [:: ei; ai; p2; p1].
repeat tn_einsum.
by apply: okz_imp (okz_tdiv _ _) _ => t' [-> _]; tn_shape.
Qed.

Lemma quarter_shape (q : quarter tensor) a b c e D p :
  shape (q_c _ q) = [:: a; b] -> shape (q_e2 _ q) = [:: b; c; D; D] ->
  shape (q_e1 _ q) = [:: e; a; D; D] -> shape (q_a _ q) = [:: D; D; D; D; p] ->
  okz (make_quarter_tensor q) (fun qd => qd.2 = [:: c; D; D; e; D; D] /\
     shape qd.1 = [:: c * D * D; e * D * D]%N /\ (0 < c * D * D)%N /\ (0 < e * D * D)%N).
Proof.
move=> Hc H2 H1 Ha; rewrite /make_quarter_tensor.
set ak := q_a _ q in Ha *; set ck := q_c _ q in Hc *; set e1 := q_e1 _ q in H1 *; set e2 := q_e2 _ q in H2 *.
tn_setup [:: a; b; c; e; D; p] [:: ck; e2; e1; ak].
repeat tn_einsum.
match goal with |- context [reshape ?t _] => have Hs : shape t = [:: c; D; D; e; D; D] by tn_shape end.
rewrite Hs /=; apply: okz_bind (okz_reshape _) _; first by rewrite Hs /= !muln1 !mulnA.
move=> t5 H5; apply: okz_bind (okz_tdiv _ _) _ => t6 [H6 /absmax_numel].
rewrite H5 /= muln1 muln_gt0 => /andP[Hp1 Hp2]; split=> //; split; first by rewrite H6 H5.
by split.
Qed.


(** the tensors of a quarter fit; c and e are its two open boundary legs *)
Definition qfit (D p : nat) (q : quarter tensor) (c e : nat) : Prop :=
  exists a b, [/\ shape (q_c _ q) = [:: a; b], shape (q_e2 _ q) = [:: b; c; D; D],
     shape (q_e1 _ q) = [:: e; a; D; D] & shape (q_a _ q) = [:: D; D; D; D; p]].

Definition qout (D c e : nat) (qd : tensor * seq nat) : Prop :=
  [/\ qd.2 = [:: c; D; D; e; D; D], shape qd.1 = [:: c * D * D; e * D * D]%N,
      (0 < c * D * D)%N & (0 < e * D * D)%N].

Lemma qfit_out D p q c e : qfit D p q c e -> okz (make_quarter_tensor q) (qout D c e).
Proof.
case=> a [b [H1 H2 H3 H4]]; apply: okz_imp (quarter_shape H1 H2 H3 H4) _ => qd [H5 [H6 [H7 H8]]].
by split.
Qed.

Lemma okz_matmul (a b : tensor) m k n : shape a = [:: m; k] -> shape b = [:: k; n] ->
  okz (matmul a b) (fun t => shape t = [:: m; n]).
Proof. by move=> Ha Hb; have [t [-> H _]] := matmulE Ha Hb. Qed.

Lemma okz_rel (s : seq C) : (0 < size s)%N -> okz (rel s) (fun s' => size s' = size s).
Proof. by case: s => [|s0 s] //= _; case: eqP => //= _; rewrite size_map. Qed.

Lemma okz_weight (U : tensor) s m n c : shape U = [:: m; n] -> (c <= n)%N -> (c <= size s)%N ->
  okz (weight_cols U s c) (fun t => shape t = [:: m; c]).
Proof.
move=> HU Hn Hs; rewrite /weight_cols HU size_takel // (minn_idPl Hn) eqxx.
by case: all => //=.
Qed.

Lemma okz_view_cols (t : tensor) m c e D qD : shape t = [:: m; e * D * D]%N -> qD = [:: c; D; D; e; D; D] ->
  okz (view_cols t qD) (fun t' => shape t' = [:: m; e; D; D]).
Proof. by move=> Ht ->; rewrite /view_cols /view_rows Ht; apply: okz_reshape; rewrite Ht /= !muln1 !mulnA. Qed.

Lemma okz_view_rows (t : tensor) n c e D qD : shape t = [:: c * D * D; n]%N -> qD = [:: c; D; D; e; D; D] ->
  okz (view_rows t qD) (fun t' => shape t' = [:: c; D; D; n]).
Proof. by move=> Ht ->; rewrite /view_cols /view_rows Ht; apply: okz_reshape; rewrite Ht /= !muln1 !mulnA. Qed.

Lemma okz_proj1 (R1 U : tensor) x e D z : shape R1 = [:: x; e; D; D] -> shape U = [:: x; z] ->
  okz (einsum "xedD,xz->edDz" [:: R1; conj U]) (fun t => shape t = [:: e; D; D; z]).
Proof. by move=> H1 H2; tn_setup [:: x; e; D; z] [:: R1; U]; tn_einsum; rewrite /okz; tn_shape. Qed.

Lemma okz_proj2 (R2 V : tensor) c y D z : shape R2 = [:: c; D; D; y] -> shape V = [:: y; z] ->
  okz (einsum "cuUy,yz->cuUz" [:: R2; V]) (fun t => shape t = [:: c; D; D; z]).
Proof. by move=> H1 H2; tn_setup [:: c; y; D; z] [:: R2; V]; tn_einsum; rewrite /okz; tn_shape. Qed.

Section Proj.
Variable R : Type.
Variable randn : R -> forall n q : nat, 'M[C]_(n, q) * R.
Variable lqr : qr_fun C.
Variable lsvd : thin_svd_fun C.
Variable fsvd : full_svd_fun C.
Variable cfg : pconfig C.
Notation chi0 := (pchi cfg).

Definition proj_shape (w D : nat) (pr : tensor * tensor * R) : Prop :=
  exists2 z, (z <= chi0)%N & shape pr.1.1 = [:: w; D; D; z] /\ shape pr.1.2 = [:: w; D; D; z].

Lemma kept_le (chi : nat) (s : seq C) : (kept cfg chi s <= chi)%N /\ (kept cfg chi s <= size s)%N.
Proof.
rewrite /kept; split; first exact: geq_minl.
apply: leq_trans (geq_minr _ _) _; exact: count_size.
Qed.

Lemma svd_full_shape (t : tensor) m n : shape t = [:: m; n] ->
  exists u s vh, [/\ svd_full fsvd t = Ok (u, s, vh), shape u = [:: m; m], size s = minn m n & shape vh = [:: n; n]].
Proof.
move=> Ht; rewrite /svd_full Ht; case: (fsvd _) => [[U s] Vh]; eexists _, _, _; split=> //=.
by rewrite size_map size_enum_ord.
Qed.

Lemma half_shape r (g1 g4 : quarter tensor) D p c1 w e4 : (0 < chi0)%N ->
  qfit D p g1 c1 w -> qfit D p g4 w e4 ->
  okz (calculate_half_system randn lqr lsvd fsvd cfg r g1 g4) (proj_shape w D).
Proof.
move=> Hchi F1 F4; rewrite /calculate_half_system.
case: ifP => Hs.
  rewrite /contract_half_system.
  apply: (@okz_bind _ _ _ _ (fun x => [/\ shape x.1.1 = [:: c1 * D * D; w; D; D]%N, shape x.1.2 = [:: w; D; D; e4 * D * D]%N,
      shape x.2 = [:: c1 * D * D; e4 * D * D]%N & (0 < c1 * D * D /\ 0 < e4 * D * D)%N])).
    apply: okz_bind (qfit_out F1) _ => -[Q1 q1D] [/= E1 S1 P1 _].
    apply: okz_bind (qfit_out F4) _ => -[Q4 q4D] [/= E4 S4 _ P4].
    apply: okz_bind (okz_matmul S1 S4) _ => Rm SR.
    apply: okz_bind (okz_view_cols S1 E1) _ => Q1' S1'.
    apply: okz_bind (okz_view_rows S4 E4) _ => Q4' S4'.
    by apply: okz_bind (okz_tdiv _ _) _ => Rn [SRn _] /=; rewrite SRn SR.
  move=> [[Q1 Q4] F] /= [S1 S4 SF [P1 P4]].
  rewrite /calculate_projectors /psvd Hs.
  have [u [s [vh [-> Su Ss Sv]]]] := svd_full_shape SF; rewrite /=.
  apply: okz_bind (okz_rel _) _; first by rewrite Ss leq_min P1 P4.
  move=> s' Ss'; have [K1 K2] := kept_le chi0 s'.
  have {}K2 : (kept cfg chi0 s' <= minn (c1 * D * D) (e4 * D * D))%N by rewrite -Ss -Ss'.
  move: (K2); rewrite leq_min => /andP[K3 K4].
  apply: okz_bind (okz_weight Su K3 _) _; first by rewrite Ss' Ss.
  move=> U SU; apply: okz_bind (okz_weight (U := adjoint vh) _ K4 _) _; first by rewrite /= Sv.
    by rewrite Ss' Ss.
  move=> V SV; apply: okz_bind (okz_proj1 S1 SU) _ => p1 Sp1.
  apply: okz_bind (okz_proj2 S4 SV) _ => p2 Sp2 /=.
  by exists (kept cfg chi0 s').
apply: okz_bind (qfit_out F1) _ => -[Q1 q1D] [/= E1 S1 P1 _].
apply: okz_bind (qfit_out F4) _ => -[Q4 q4D] [/= E4 S4 _ P4].
have [U [s [V [-> SU Ss SV _]]]] := fused_matmulE randn lqr lsvd r (chi0 + rsvd_oversampling cfg) (rsvd_niter cfg) S1 S4.
rewrite [bind (Ok _) _]/bind; set z := minn _ _ in SU Ss SV *.
apply: okz_bind (okz_rel _) _; first by rewrite Ss !leq_min P1 P4 ltn_addr.
move=> s' Ss'; have [K1 K2] := kept_le chi0 s'; have K3 : (kept cfg chi0 s' <= z)%N by rewrite -Ss -Ss'.
apply: okz_bind (okz_weight SU K3 K2) _ => U' SU'; apply: okz_bind (okz_weight SV K3 K2) _ => V' SV'.
apply: okz_bind (okz_view_cols S1 E1) _ => Q1' S1'.
apply: okz_bind (okz_view_rows S4 E4) _ => Q4' S4'.
apply: okz_bind (okz_proj1 S1' SU') _ => p1 Sp1.
apply: okz_bind (okz_proj2 S4' SV') _ => p2 Sp2 /=.
by exists (kept cfg chi0 s').
Qed.

Lemma full_shape r (g1 g2 g3 g4 : quarter tensor) D p c1 c2 c3 w e3 : (0 < chi0)%N ->
  qfit D p g1 c1 w -> qfit D p g2 c2 c1 -> qfit D p g3 c3 e3 -> qfit D p g4 w c3 ->
  okz (calculate_full_system randn lqr lsvd fsvd cfg r g1 g2 g3 g4) (proj_shape w D).
Proof.
move=> Hchi F1 F2 F3 F4; rewrite /calculate_full_system.
case: ifP => Hs.
  rewrite /contract_full_system.
  apply: (@okz_bind _ _ _ _ (fun x => [/\ shape x.1.1 = [:: c2 * D * D; w; D; D]%N, shape x.1.2 = [:: w; D; D; e3 * D * D]%N,
      shape x.2 = [:: c2 * D * D; e3 * D * D]%N & (0 < c2 * D * D /\ 0 < e3 * D * D)%N])).
    apply: okz_bind (qfit_out F1) _ => -[Q1 q1D] [/= E1 S1 P1 _].
    apply: okz_bind (qfit_out F2) _ => -[Q2 q2D] [/= E2 S2 P2 _].
    apply: okz_bind (okz_matmul S2 S1) _ => R1 SR1.
    apply: okz_bind (qfit_out F3) _ => -[Q3 q3D] [/= E3 S3 _ P3].
    apply: okz_bind (qfit_out F4) _ => -[Q4 q4D] [/= E4 S4 _ P4].
    apply: okz_bind (okz_matmul S4 S3) _ => R2 SR2.
    apply: okz_bind (okz_tdiv _ _) _ => R1n [SR1n _]; apply: okz_bind (okz_tdiv _ _) _ => R2n [SR2n _].
    rewrite SR1 in SR1n; rewrite SR2 in SR2n.
    apply: okz_bind (okz_matmul SR1n SR2n) _ => F SF.
    apply: okz_bind (okz_view_cols SR1n E1) _ => R1' S1'.
    apply: okz_bind (okz_view_rows SR2n E4) _ => R2' S4'.
    by apply: okz_bind (okz_tdiv _ _) _ => Rn [SRn _] /=; rewrite SRn SF.
  move=> [[Q1 Q4] F] /= [S1 S4 SF [P1 P4]].
  rewrite /calculate_projectors /psvd Hs.
  have [u [s [vh [-> Su Ss Sv]]]] := svd_full_shape SF; rewrite /=.
  apply: okz_bind (okz_rel _) _; first by rewrite Ss leq_min P1 P4.
  move=> s' Ss'; have [K1 K2] := kept_le chi0 s'.
  have {}K2 : (kept cfg chi0 s' <= minn (c2 * D * D) (e3 * D * D))%N by rewrite -Ss -Ss'.
  move: (K2); rewrite leq_min => /andP[K3 K4].
  apply: okz_bind (okz_weight Su K3 _) _; first by rewrite Ss' Ss.
  move=> U SU; apply: okz_bind (okz_weight (U := adjoint vh) _ K4 _) _; first by rewrite /= Sv.
    by rewrite Ss' Ss.
  move=> V SV; apply: okz_bind (okz_proj1 S1 SU) _ => p1 Sp1.
  apply: okz_bind (okz_proj2 S4 SV) _ => p2 Sp2 /=.
  by exists (kept cfg chi0 s').
apply: okz_bind (qfit_out F1) _ => -[Q1 q1D] [/= E1 S1 P1 _].
apply: okz_bind (qfit_out F2) _ => -[Q2 q2D] [/= E2 S2 P2 _].
apply: okz_bind (qfit_out F3) _ => -[Q3 q3D] [/= E3 S3 _ P3].
apply: okz_bind (qfit_out F4) _ => -[Q4 q4D] [/= E4 S4 _ P4].
have [U [s [V [-> SU Ss SV _]]]] := fused_3matmulE randn lqr lsvd r (chi0 + rsvd_oversampling cfg) (rsvd_niter cfg) S2 S1 S4 S3.
rewrite [bind (Ok _) _]/bind; set z := minn _ _ in SU Ss SV *.
apply: okz_bind (okz_rel _) _; first by rewrite Ss !leq_min P2 P3 ltn_addr.
move=> s' Ss'; have [K1 K2] := kept_le chi0 s'; have K3 : (kept cfg chi0 s' <= z)%N by rewrite -Ss -Ss'.
apply: okz_bind (okz_weight SU K3 K2) _ => U' SU'; apply: okz_bind (okz_weight SV K3 K2) _ => V' SV'.
have [S1' _] := adjointE S1; have [S2' _] := adjointE S2.
apply: okz_bind (okz_matmul (b := conj U') S2' _) _; first exact: SU'.
move=> T ST; apply: okz_bind (okz_matmul S1' ST) _ => p1 Sp1.
apply: okz_bind (okz_reshape _) _; first by rewrite E1 Sp1 /= !muln1 !mulnA.
move=> p1' Sp1'; apply: okz_bind (okz_matmul S3 SV') _ => T2 ST2.
apply: okz_bind (okz_matmul S4 ST2) _ => p2 Sp2.
apply: okz_bind (okz_reshape _) _; first by rewrite E4 Sp2 /= !muln1 !mulnA.
by move=> p2' Sp2' /=; exists (kept cfg chi0 s') => //; rewrite Sp1' Sp2' E1 E4.
Qed.

End Proj.
End Shapes.
