(** Two networks whose site tensors have the same double layer up to a positive
    factor go through the renormalisation in step: congruence of all kernels with
    respect to the entries, and the double layer as the only way A enters. *)
From Coq Require Import String Ascii.
From mathcomp Require Import all_ssreflect all_algebra.
From Verif Require Import Base Lattice LatticeFacts Mover Tensor TN Rdm RdmFacts Fits Linalg Rsvd RsvdFacts EinsumLin
  Renorm RenormFacts P05_Mover MoveShape Mat.
Set Implicit Arguments.
Unset Strict Implicit.
Unset Printing Implicit Defensive.
Import GRing.Theory Num.Theory.
Local Open Scope ring_scope.
Local Open Scope string_scope.

(** both computations fail in the same way, or end in related results *)
Definition both {A B} (P : A -> B -> Prop) (x : res A) (y : res B) : Prop :=
  match x, y with Ok a, Ok b => P a b | Err e, Err f => e = f | _, _ => False end.

Lemma both_bind A B A' B' (P : A -> B -> Prop) (Q : A' -> B' -> Prop) x y f g :
  both P x y -> (forall a b, x = Ok a -> y = Ok b -> P a b -> both Q (f a) (g b)) -> both Q (bind x f) (bind y g).
Proof. by case: x => [a|e]; case: y => [b|e'] //= Pab H; apply: H. Qed.

Lemma both_imp A B (P Q : A -> B -> Prop) x y : both P x y -> (forall a b, P a b -> Q a b) -> both Q x y.
Proof. by case: x => [a|e]; case: y => [b|e'] //= H HI; apply: HI. Qed.

Lemma both_eq A (x y : res A) : both eq x y <-> x = y.
Proof. by case: x => [a|e]; case: y => [b|e'] /=; split=> // [->|[->]]. Qed.

Lemma both_for_each A S S' (P : S -> S' -> Prop) (l : seq A) f g s t : P s t ->
  (forall a s t, P s t -> both P (f a s) (g a t)) -> both P (for_each l f s) (for_each l g t).
Proof.
move=> Pst H; elim: l s t Pst => [|a l IH] s t Pst //=.
by apply: both_bind (H a _ _ Pst) _ => s' t' _ _; apply: IH.
Qed.

Section Cong.
Variable C : numClosedFieldType.
Notation tensor := (tensor C).

Lemma teq_refl (t : tensor) : teq t t. Proof. by []. Qed.
Lemma teq_sym (s t : tensor) : teq s t -> teq t s.
Proof. by case=> E H; split=> // i; rewrite -E => Hi; rewrite H. Qed.
Lemma teq_trans (s t u : tensor) : teq s t -> teq t u -> teq s u.
Proof. by case=> E H [E' H']; split=> [|i Hi]; rewrite ?E // H // H' // -E. Qed.

Fixpoint teq_all (ts' ts : seq tensor) : Prop :=
  match ts', ts with
  | [::], [::] => True
  | t' :: ts', t :: ts => teq t' t /\ teq_all ts' ts
  | _, _ => False
  end.

Lemma teq_scaled (t' t : tensor) : teq t' t <-> scaled 1 t' t.
Proof.
split=> -[E H]; split=> // i Hi; first by rewrite mul1r H // E.
by rewrite H -?E // mul1r.
Qed.

Lemma teq_all_scaled ts' ts : teq_all ts' ts -> scaled_all (nseq (size ts) 1) ts' ts.
Proof. by elim: ts ts' => [|t ts IH] [|t' ts'] //= [/teq_scaled ? /IH]. Qed.

Lemma einsum_cong spec ts' ts : teq_all ts' ts -> both (@teq C) (einsum spec ts') (einsum spec ts).
Proof.
move=> /teq_all_scaled Hs; case E: (einsum spec ts) => [f|e]; last first.
  by rewrite (einsum_scaled_err Hs E).
have [f' [-> Hf]] := einsum_scaled Hs E; apply/teq_scaled.
by move: Hf; rewrite big1_seq // => i /= /nseqP[].
Qed.

Lemma tmap_cong f (s t : tensor) : teq s t -> teq (tmap f s) (tmap f t).
Proof. by case=> E H; split=> //= i Hi; rewrite H. Qed.
Lemma conj_cong (s t : tensor) : teq s t -> teq (conj s) (conj t). Proof. exact: tmap_cong. Qed.

Lemma in_range_rcons sh d v x : in_range (rcons sh d) (rcons v x) = in_range sh v && (x < d)%N.
Proof.
elim: sh v => [|e sh IH] [|y v] //=; rewrite ?andbT ?IH ?andbA //; last by case: sh {IH} => [|? ?] //=; rewrite andbF.
by case: v => [|? ?] //=; rewrite andbF.
Qed.

Lemma in_range_rev sh v : in_range (rev sh) (rev v) = in_range sh v.
Proof.
by elim: sh v => [|e sh IH] [|y v] //=; rewrite ?rev_cons ?in_range_rcons ?IH 1?andbC //; case: (rev _).
Qed.

Lemma adjoint_cong (s t : tensor) : teq s t -> teq (adjoint s) (adjoint t).
Proof. by move=> [E H]; split; rewrite /= -?E // => i Hi; rewrite H // -in_range_rev revK. Qed.

Lemma absmax_cong (s t : tensor) : teq s t -> absmax s = absmax t.
Proof.
case=> E H; rewrite /absmax -E.
have : {subset indices (shape s) <= indices (shape s)} by [].
elim: {1 3 4}(indices (shape s)) => [|i l IH] //= Hl; rewrite IH; last by move=> j Hj; apply: Hl; rewrite inE Hj orbT.
by rewrite H // -mem_indices Hl // mem_head.
Qed.

Lemma norm_cong (s t : tensor) : teq s t -> norm s = norm t.
Proof.
case=> E H; rewrite /norm /sqnorm -E; congr sqrtC.
by rewrite !big_seq; apply: eq_bigr => i; rewrite mem_indices => Hi; rewrite H.
Qed.

Lemma reshape_cong (s t : tensor) sh : teq s t -> both (@teq C) (reshape s sh) (reshape t sh).
Proof.
case=> E H; rewrite /reshape -E; case: eqP => //= En; split=> // i /= Hi.
by rewrite H //; apply: unravel_range; rewrite -En ravel_lt.
Qed.

(** equal up to a positive factor *)
Definition prop_to (s t : tensor) : Prop := exists2 c, 0 < c & scaled c s t.

Lemma prop_teq (s t : tensor) : teq s t -> prop_to s t.
Proof. by move=> E; exists 1; [exact: ltr01|apply/teq_scaled]. Qed.
Lemma prop_to_refl (t : tensor) : prop_to t t. Proof. exact: prop_teq. Qed.
Lemma prop_shape (s t : tensor) : prop_to s t -> shape s = shape t. Proof. by case=> c _ []. Qed.

Lemma scaled_tscaleE c (s t : tensor) : scaled c s t <-> teq s (tscale c t).
Proof. by split=> -[E H]; split=> // i Hi; rewrite H // ?E // -E. Qed.

Lemma prop_trans (s t u : tensor) : prop_to s t -> prop_to t u -> prop_to s u.
Proof.
move=> [c c0 [E H]] [d d0 [F K]]; exists (c * d); first exact: mulr_gt0.
by split=> [|i Hi]; rewrite ?E // H ?F // K // mulrA.
Qed.
Lemma prop_sym (s t : tensor) : prop_to s t -> prop_to t s.
Proof.
move=> [c c0 [E H]]; exists c^-1; first by rewrite invr_gt0.
by split=> // i Hi; rewrite H -?E // mulrA mulVf ?mul1r // lt0r_neq0.
Qed.

Fixpoint prop_all (ts' ts : seq tensor) : Prop :=
  match ts', ts with
  | [::], [::] => True
  | t' :: ts', t :: ts => prop_to t' t /\ prop_all ts' ts
  | _, _ => False
  end.

Lemma prop_all_scaled ts' ts : prop_all ts' ts -> exists2 cs, 0 < \prod_(c <- cs) c & scaled_all cs ts' ts.
Proof.
elim: ts ts' => [|t ts IH] [|t' ts'] //=; first by exists [::]; rewrite ?big_nil ?ltr01.
move=> [[c c0 Hc] /IH [cs p0 Hs]]; exists (c :: cs); last by [].
by rewrite big_cons mulr_gt0.
Qed.

Lemma einsum_prop spec ts' ts : prop_all ts' ts -> both prop_to (einsum spec ts') (einsum spec ts).
Proof.
move=> /prop_all_scaled[cs p0 Hs]; case E: (einsum spec ts) => [f|e]; last first.
  by rewrite (einsum_scaled_err Hs E).
by have [f' [-> Hf]] := einsum_scaled Hs E; exists (\prod_(c <- cs) c).
Qed.

Lemma reshape_prop (s t : tensor) sh : prop_to s t -> both prop_to (reshape s sh) (reshape t sh).
Proof.
move=> [c c0 /scaled_tscaleE E]; have := reshape_cong sh E; rewrite /reshape /=.
case: eqP => // _; case: eqP => //= _ F; exists c => //; exact/scaled_tscaleE.
Qed.

Lemma maxC_scale (c x y : C) : 0 < c -> maxC (c * x) (c * y) = c * maxC x y.
Proof. by move=> c0; rewrite /maxC ler_pmul2l //; case: ifP. Qed.

Lemma absmax_scale c (t : tensor) : 0 < c -> absmax (tscale c t) = c * absmax t.
Proof.
move=> c0; rewrite /absmax /=; elim: (indices (shape t)) => [|i l IH] /=; first by rewrite mulr0.
by rewrite IH normrM (gtr0_norm c0) maxC_scale.
Qed.

Lemma norm_scale c (t : tensor) : 0 < c -> norm (tscale c t) = c * norm t.
Proof.
move=> c0; have c1 : 0 <= c by exact: Order.POrderTheory.ltW.
rewrite /norm; have -> : sqnorm (tscale c t) = c ^+ 2 * sqnorm t.
  by rewrite /sqnorm mulr_sumr; apply: eq_bigr => i _ /=; rewrite normrM (gtr0_norm c0) exprMn.
by rewrite rootCMl ?exprn_ge0 // sqrCK.
Qed.

Lemma tdiv_prop (N : tensor -> C) (s t : tensor) :
  (forall s t, teq s t -> N s = N t) -> (forall c t, 0 < c -> N (tscale c t) = c * N t) ->
  prop_to s t -> both (@teq C) (tdiv s (N s)) (tdiv t (N t)).
Proof.
move=> N1 N2 [c c0 /scaled_tscaleE E]; rewrite (N1 _ _ E) N2 // /tdiv mulf_eq0 Order.POrderTheory.gt_eqF //=.
case: eqP => //= Nt; case: E => E H; split=> // i Hi /=; rewrite H //= invfM mulrACA mulVf ?mul1r //.
by rewrite Order.POrderTheory.gt_eqF.
Qed.
Lemma tdiv_norm_prop (s t : tensor) : prop_to s t -> both (@teq C) (tdiv s (norm s)) (tdiv t (norm t)).
Proof. by apply: tdiv_prop; [exact: norm_cong|move=> *; exact: norm_scale]. Qed.
Lemma tdiv_absmax_prop (s t : tensor) : prop_to s t -> both (@teq C) (tdiv s (absmax s)) (tdiv t (absmax t)).
Proof. by apply: tdiv_prop; [exact: absmax_cong|move=> *; exact: absmax_scale]. Qed.

Lemma tdiv_cong (s t : tensor) c d : teq s t -> c = d -> both (@teq C) (tdiv s c) (tdiv t d).
Proof. by move=> E ->; rewrite /tdiv; case: eqP => //= _; apply: tmap_cong. Qed.

Lemma matmul_cong (s s' t t' : tensor) : teq s s' -> teq t t' -> both (@teq C) (matmul s t) (matmul s' t').
Proof.
move=> [E H] [F K]; rewrite /matmul -E -F.
move: H K; case: (shape s) => [|m [|k [|? ?]]] // H; case: (shape t) => [|k' [|n [|? ?]]] // K.
case: eqP => //= Ek; rewrite -Ek in K; split=> // -[|i [|j [|? ?]]] //=; rewrite ?andbF ?andbT // => /andP[Hi Hj].
by apply: eq_sumn => x Hx; rewrite H ?K //= ?Hi ?Hj ?Hx.
Qed.

End Cong.

Section Decomp.
Variable C : numClosedFieldType.
Notation tensor := (tensor C).
Variable R : Type.
Variable randn : R -> forall n q : nat, 'M[C]_(n, q) * R.
Variable lqr : qr_fun C.
Variable lsvd : thin_svd_fun C.
Variable fsvd : full_svd_fun C.

Lemma qr_q_cong (s t : tensor) : teq s t -> qr_q lqr s = qr_q lqr t.
Proof.
move=> E; case Hs: (shape s) => [|m [|n [|? ?]]]; try by rewrite /qr_q -(proj1 E) Hs.
exact: qr_q_teq Hs.
Qed.
Lemma svd_thin_cong (s t : tensor) : teq s t -> svd_thin lsvd s = svd_thin lsvd t.
Proof.
move=> E; case Hs: (shape s) => [|m [|n [|? ?]]]; try by rewrite /svd_thin -(proj1 E) Hs.
exact: svd_thin_teq Hs.
Qed.
Lemma svd_full_cong (s t : tensor) : teq s t -> svd_full fsvd s = svd_full fsvd t.
Proof.
move=> E; rewrite /svd_full -(proj1 E); case Hs: (shape s) => [|m [|n [|? ?]]] //.
by rewrite (teq_mx E Hs).
Qed.

Lemma qr_q_both (s t : tensor) : teq s t -> both (@teq C) (qr_q lqr s) (qr_q lqr t).
Proof. by move=> /qr_q_cong ->; case: (qr_q _ _). Qed.

(** U, s and V up to entries outside the shapes *)
Definition usv_rel (x y : tensor * seq C * tensor) : Prop := [/\ teq x.1.1 y.1.1, x.1.2 = y.1.2 & teq x.2 y.2].
Definition usvr_rel (x y : tensor * seq C * tensor * R) : Prop := usv_rel x.1 y.1 /\ x.2 = y.2.

Lemma finish_cong (Q Q' B B' : tensor) : teq Q Q' -> teq B B' -> both usv_rel (finish lsvd Q B) (finish lsvd Q' B').
Proof.
move=> EQ EB; rewrite /finish (svd_thin_cong EB); case: (svd_thin _ _) => [[[U s] V]|e] //=.
by apply: both_bind (matmul_cong EQ (teq_refl U)) _ => a b _ _ E.
Qed.

Lemma svd_lowrank_cong r (A A' : tensor) q niter : teq A A' ->
  both usvr_rel (svd_lowrank randn lqr lsvd r A q niter) (svd_lowrank randn lqr lsvd r A' q niter).
Proof.
move=> E; rewrite /svd_lowrank -(proj1 E); case Hs: (shape A) => [|m [|n [|? ?]]] //.
case: (randn _ _ _) => Om r'.
apply: both_bind (matmul_cong E (teq_refl _)) _ => Y Y' _ _ EY.
apply: (both_bind (P := @teq C)).
  apply: both_for_each => // _ Z Z' EZ.
  apply: both_bind (qr_q_both EZ) _ => W W' _ _ EW.
  by apply: both_bind (matmul_cong (adjoint_cong E) EW) _ => T T' _ _; apply: matmul_cong.
move=> Z Z' _ _ EZ; apply: both_bind (qr_q_both EZ) _ => Q Q' _ _ EQ.
apply: both_bind (matmul_cong (adjoint_cong EQ) E) _ => B B' _ _ EB.
by apply: both_bind (finish_cong EQ EB) _ => x y _ _ Exy.
Qed.

Lemma fused_matmul_cong r (A A' B B' : tensor) q niter : teq A A' -> teq B B' ->
  both usvr_rel (fused_matmul_svd_lowrank randn lqr lsvd r A B q niter) (fused_matmul_svd_lowrank randn lqr lsvd r A' B' q niter).
Proof.
move=> E F; rewrite /fused_matmul_svd_lowrank -(proj1 E) -(proj1 F).
case HA: (shape A) => [|m ?] //; case Hs: (shape B) => [|k [|n [|? ?]]] //.
case: (randn _ _ _) => Om r'.
apply: both_bind (matmul_cong F (teq_refl _)) _ => T T' _ _ ET.
apply: both_bind (matmul_cong E ET) _ => Y Y' _ _ EY.
apply: (both_bind (P := @teq C)).
  apply: both_for_each => // _ Z Z' EZ.
  apply: both_bind (qr_q_both EZ) _ => W W' _ _ EW.
  apply: both_bind (matmul_cong (adjoint_cong E) EW) _ => X X' _ _ EX.
  apply: both_bind (matmul_cong (adjoint_cong F) EX) _ => X1 X1' _ _ EX1.
  by apply: both_bind (matmul_cong F EX1) _ => X2 X2' _ _; apply: matmul_cong.
move=> Z Z' _ _ EZ; apply: both_bind (qr_q_both EZ) _ => Q Q' _ _ EQ.
apply: both_bind (matmul_cong (adjoint_cong EQ) E) _ => P P' _ _ EP.
apply: both_bind (matmul_cong EP F) _ => P1 P1' _ _ EP1.
by apply: both_bind (finish_cong EQ EP1) _ => x y _ _ Exy.
Qed.

Lemma fused_3matmul_cong r (A A' B B' D D' E E' : tensor) q niter : teq A A' -> teq B B' -> teq D D' -> teq E E' ->
  both usvr_rel (fused_3matmul_svd_lowrank randn lqr lsvd r A B D E q niter) (fused_3matmul_svd_lowrank randn lqr lsvd r A' B' D' E' q niter).
Proof.
move=> EA EB ED EE; rewrite /fused_3matmul_svd_lowrank -(proj1 EA) -(proj1 EE).
case HA: (shape A) => [|m ?] //; case Hs: (shape E) => [|k [|n [|? ?]]] //.
case: (randn _ _ _) => Om r'.
apply: both_bind (matmul_cong EE (teq_refl _)) _ => T T' _ _ ET.
apply: both_bind (matmul_cong ED ET) _ => T1 T1' _ _ ET1.
apply: both_bind (matmul_cong EB ET1) _ => T2 T2' _ _ ET2.
apply: both_bind (matmul_cong EA ET2) _ => Y Y' _ _ EY.
apply: (both_bind (P := @teq C)).
  apply: both_for_each => // _ Z Z' EZ.
  apply: both_bind (qr_q_both EZ) _ => W W' _ _ EW.
  apply: both_bind (matmul_cong (adjoint_cong EA) EW) _ => X X' _ _ EX.
  apply: both_bind (matmul_cong (adjoint_cong EB) EX) _ => X1 X1' _ _ EX1.
  apply: both_bind (matmul_cong (adjoint_cong ED) EX1) _ => X2 X2' _ _ EX2.
  apply: both_bind (matmul_cong (adjoint_cong EE) EX2) _ => X3 X3' _ _ EX3.
  apply: both_bind (qr_q_both EX3) _ => X4 X4' _ _ EX4.
  apply: both_bind (matmul_cong EE EX4) _ => X5 X5' _ _ EX5.
  apply: both_bind (matmul_cong ED EX5) _ => X6 X6' _ _ EX6.
  by apply: both_bind (matmul_cong EB EX6) _ => X7 X7' _ _; apply: matmul_cong.
move=> Z Z' _ _ EZ; apply: both_bind (qr_q_both EZ) _ => Q Q' _ _ EQ.
apply: both_bind (matmul_cong (adjoint_cong EQ) EA) _ => P P' _ _ EP.
apply: both_bind (matmul_cong EP EB) _ => P1 P1' _ _ EP1.
apply: both_bind (matmul_cong EP1 ED) _ => P2 P2' _ _ EP2.
apply: both_bind (matmul_cong EP2 EE) _ => P3 P3' _ _ EP3.
by apply: both_bind (finish_cong EQ EP3) _ => x y _ _ Exy.
Qed.

Variable cfg : pconfig C.

Lemma psvd_cong r (A A' : tensor) cD : teq A A' ->
  both usvr_rel (psvd randn lqr lsvd fsvd cfg r A cD) (psvd randn lqr lsvd fsvd cfg r A' cD).
Proof.
move=> E; rewrite /psvd; case: ifP => _.
  by rewrite (svd_full_cong E); case: (svd_full _ _) => [[[U s] V]|e].
by case: ifP => // _; apply: svd_lowrank_cong.
Qed.

Lemma weight_cols_cong (U U' : tensor) s c : teq U U' -> both (@teq C) (weight_cols U s c) (weight_cols U' s c).
Proof.
move=> [E H]; rewrite /weight_cols -E; move: H; case: (shape U) => [|m [|n [|? ?]]] // H.
case: ifP => // _; case: ifP => //= _; split=> // -[|i [|j [|? ?]]] //=; rewrite ?andbF ?andbT // => /andP[Hi Hj].
by rewrite H //= Hi andbT; apply: leq_trans Hj (geq_minr _ _).
Qed.

Lemma view_cols_cong (s t : tensor) qD : teq s t -> both (@teq C) (view_cols s qD) (view_cols t qD).
Proof. by move=> E; rewrite /view_cols -(proj1 E); apply: reshape_cong. Qed.
Lemma view_rows_cong (s t : tensor) qD : teq s t -> both (@teq C) (view_rows s qD) (view_rows t qD).
Proof. by move=> E; rewrite /view_rows -(proj1 E); apply: reshape_cong. Qed.

(** the two projectors and the random state *)
Definition proj_rel (x y : tensor * tensor * R) : Prop := [/\ teq x.1.1 y.1.1, teq x.1.2 y.1.2 & x.2 = y.2].
Definition qd_rel (x y : tensor * seq nat) : Prop := teq x.1 y.1 /\ x.2 = y.2.
Definition quarters_agree (g g' : quarter tensor) : Prop :=
  both qd_rel (make_quarter_tensor g) (make_quarter_tensor g').

Lemma projectors_cong r (R1 R1' R2 R2' F F' : tensor) chi : teq R1 R1' -> teq R2 R2' -> teq F F' ->
  both proj_rel (calculate_projectors randn lqr lsvd fsvd cfg r R1 R2 F chi)
                (calculate_projectors randn lqr lsvd fsvd cfg r R1' R2' F' chi).
Proof.
move=> E1 E2 EF; apply: both_bind (psvd_cong _ _ EF) _ => -[[[U s] V] r1] [[[U' s'] V'] r1'] _ _ [[/= EU <- EV] <-].
case: (rel s) => [t|e] //=.
apply: both_bind (weight_cols_cong _ _ EU) _ => W W' _ _ EW.
apply: both_bind (weight_cols_cong _ _ EV) _ => Z Z' _ _ EZ.
apply: both_bind (einsum_cong _ _) _ => [|P P' _ _ EP]; first by split=> //; split=> //; apply: conj_cong.
by apply: both_bind (einsum_cong _ _) _.
Qed.

Lemma half_cong r (g1 g1' g4 g4' : quarter tensor) : quarters_agree g1 g1' -> quarters_agree g4 g4' ->
  both proj_rel (calculate_half_system randn lqr lsvd fsvd cfg r g1 g4) (calculate_half_system randn lqr lsvd fsvd cfg r g1' g4').
Proof.
move=> H1 H4; rewrite /calculate_half_system; case: ifP => _.
  rewrite /contract_half_system.
  apply: (both_bind (P := fun x y : tensor * tensor * tensor => [/\ teq x.1.1 y.1.1, teq x.1.2 y.1.2 & teq x.2 y.2])).
    apply: both_bind H1 _ => -[Q1 d1] [Q1' d1'] _ _ [/= E1 <-].
    apply: both_bind H4 _ => -[Q4 d4] [Q4' d4'] _ _ [/= E4 <-].
    apply: both_bind (matmul_cong E1 E4) _ => X X' _ _ EX.
    apply: both_bind (view_cols_cong _ E1) _ => V1 V1' _ _ EV1.
    apply: both_bind (view_rows_cong _ E4) _ => V4 V4' _ _ EV4.
    by apply: both_bind (tdiv_cong EX (absmax_cong EX)) _.
  by move=> [[x1 x2] x3] [[y1 y2] y3] _ _ [/= E1 E2 E3]; apply: projectors_cong.
apply: both_bind H1 _ => -[Q1 d1] [Q1' d1'] _ _ [/= E1 <-].
apply: both_bind H4 _ => -[Q4 d4] [Q4' d4'] _ _ [/= E4 <-].
apply: both_bind (fused_matmul_cong _ _ _ E1 E4) _ => -[[[U s] V] r1] [[[U' s'] V'] r1'] _ _ [[/= EU <- EV] <-].
case: (rel s) => [t|e] //=.
apply: both_bind (weight_cols_cong _ _ EU) _ => W W' _ _ EW.
apply: both_bind (weight_cols_cong _ _ EV) _ => Z Z' _ _ EZ.
apply: both_bind (view_cols_cong _ E1) _ => V1 V1' _ _ EV1.
apply: both_bind (view_rows_cong _ E4) _ => V4 V4' _ _ EV4.
apply: both_bind (einsum_cong _ _) _ => [|P P' _ _ EP]; first by split=> //; split=> //; apply: conj_cong.
by apply: both_bind (einsum_cong _ _) _.
Qed.

Lemma full_cong r (g1 g1' g2 g2' g3 g3' g4 g4' : quarter tensor) :
  quarters_agree g1 g1' -> quarters_agree g2 g2' -> quarters_agree g3 g3' -> quarters_agree g4 g4' ->
  both proj_rel (calculate_full_system randn lqr lsvd fsvd cfg r g1 g2 g3 g4) (calculate_full_system randn lqr lsvd fsvd cfg r g1' g2' g3' g4').
Proof.
move=> H1 H2 H3 H4; rewrite /calculate_full_system; case: ifP => _.
  rewrite /contract_full_system.
  apply: (both_bind (P := fun x y : tensor * tensor * tensor => [/\ teq x.1.1 y.1.1, teq x.1.2 y.1.2 & teq x.2 y.2])).
    apply: both_bind H1 _ => -[Q1 d1] [Q1' d1'] _ _ [/= E1 <-].
    apply: both_bind H2 _ => -[Q2 d2] [Q2' d2'] _ _ [/= E2 _].
    apply: both_bind (matmul_cong E2 E1) _ => X X' _ _ EX.
    apply: both_bind H3 _ => -[Q3 d3] [Q3' d3'] _ _ [/= E3 _].
    apply: both_bind H4 _ => -[Q4 d4] [Q4' d4'] _ _ [/= E4 <-].
    apply: both_bind (matmul_cong E4 E3) _ => Y Y' _ _ EY.
    apply: both_bind (tdiv_cong EX (absmax_cong EX)) _ => X1 X1' _ _ EX1.
    apply: both_bind (tdiv_cong EY (absmax_cong EY)) _ => Y1 Y1' _ _ EY1.
    apply: both_bind (matmul_cong EX1 EY1) _ => F F' _ _ EF.
    apply: both_bind (view_cols_cong _ EX1) _ => V1 V1' _ _ EV1.
    apply: both_bind (view_rows_cong _ EY1) _ => V4 V4' _ _ EV4.
    by apply: both_bind (tdiv_cong EF (absmax_cong EF)) _.
  by move=> [[x1 x2] x3] [[y1 y2] y3] _ _ [/= E1 E2 E3]; apply: projectors_cong.
apply: both_bind H1 _ => -[Q1 d1] [Q1' d1'] _ _ [/= E1 <-].
apply: both_bind H2 _ => -[Q2 d2] [Q2' d2'] _ _ [/= E2 _].
apply: both_bind H3 _ => -[Q3 d3] [Q3' d3'] _ _ [/= E3 _].
apply: both_bind H4 _ => -[Q4 d4] [Q4' d4'] _ _ [/= E4 <-].
apply: both_bind (fused_3matmul_cong _ _ _ E2 E1 E4 E3) _ => -[[[U s] V] r1] [[[U' s'] V'] r1'] _ _ [[/= EU <- EV] <-].
case: (rel s) => [t|e] //=.
apply: both_bind (weight_cols_cong _ _ EU) _ => W W' _ _ EW.
apply: both_bind (weight_cols_cong _ _ EV) _ => Z Z' _ _ EZ.
apply: both_bind (matmul_cong (adjoint_cong E2) (conj_cong EW)) _ => T T' _ _ ET.
apply: both_bind (matmul_cong (adjoint_cong E1) ET) _ => P P' _ _ EP.
apply: both_bind (reshape_cong _ EP) _ => P1 P1' _ _ EP1.
apply: both_bind (matmul_cong E3 EZ) _ => T1 T1' _ _ ET1.
apply: both_bind (matmul_cong E4 ET1) _ => P2 P2' _ _ EP2.
by apply: both_bind (reshape_cong _ EP2) _ => P3 P3' _ _ EP3.
Qed.

End Decomp.

(** ---- the double layer ---- *)

Section Double.
Variable C : numClosedFieldType.
Notation tensor := (tensor C).

(** sum over the physical leg of A(l,u,r,d,p) conj(A(L,U,R,D,p)) *)
Definition layer (p : nat) (a : tensor) (i j : seq nat) : C :=
  sumn p (fun x => at_ a (rcons i x) * (at_ a (rcons j x))^* ).
(** the same double layers up to a positive factor *)
Definition same_layer (D p p' : nat) (a a' : tensor) : Prop :=
  [/\ shape a = [:: D; D; D; D; p], shape a' = [:: D; D; D; D; p'] &
      exists2 c, 0 < c & forall i j, in_range [:: D; D; D; D] i -> in_range [:: D; D; D; D] j -> layer p a i j = c * layer p' a' i j].

Lemma layerE D p (a : tensor) : shape a = [:: D; D; D; D; p] ->
  exists t, [/\ einsum "lurdp,LURDp->lLuUrRdD" [:: a; conj a] = Ok t, shape t = [:: D; D; D; D; D; D; D; D] &
    forall l u r d L U R E, at_ t [:: l; L; u; U; r; R; d; E] = layer p a [:: l; u; r; d] [:: L; U; R; E]].
Proof.
move=> Ha; rewrite /einsum /= Ha /= /dims_ok /= !eqxx /=; eexists; split; [reflexivity|by []|] => l u r d L U R E.
by rewrite /= /layer; apply: eq_sumn => x _; rewrite /factor /= ?mulr1.
Qed.

Lemma layer_prop D p p' (a a' t t' : tensor) : same_layer D p p' a a' ->
  einsum "lurdp,LURDp->lLuUrRdD" [:: a; conj a] = Ok t ->
  einsum "lurdp,LURDp->lLuUrRdD" [:: a'; conj a'] = Ok t' -> prop_to t t'.
Proof.
move=> [Ha Ha' [c c0 H]] Et Et'; exists c => //; have [s [Es Ss As]] := layerE Ha; have [s' [Es' Ss' As']] := layerE Ha'.
move: Es Es' Ss Ss' As As'; rewrite Et Et' => -[<-] [<-] Ss Ss' As As'.
split; rewrite ?Ss Ss' //.
move=> -[|l [|L [|u [|U [|r [|R [|d [|E [|? ?]]]]]]]]] //=; rewrite ?andbF // andbT.
move=> /and5P[H1 H2 H3 H4 /and4P[H5 H6 H7 H8]]; rewrite As As' H //=.
- by rewrite H1 H3 H5 H7.
by rewrite H2 H4 H6 H8.
Qed.

(** the flat quarter: corner, two edges and the double layer *)
Definition quarter_layered : string := "ab,bcuU,ealL,lLuUrRdD->crRedD".

(** the last lines of make_quarter_tensor *)
Definition scaled_quarter (qk : tensor) : res (tensor * seq nat) :=
  let qD := shape qk in let d i := nth 0%N qD i in
  let! qk := reshape qk [:: d 0 * d 1 * d 2; d 3 * d 4 * d 5]%N in
  let! qk := tdiv qk (absmax qk) in Ok (qk, qD).

Lemma quarter_lay (q : quarter tensor) dl a b c e D p :
  shape (q_c _ q) = [:: a; b] -> shape (q_e2 _ q) = [:: b; c; D; D] -> shape (q_e1 _ q) = [:: e; a; D; D] ->
  shape (q_a _ q) = [:: D; D; D; D; p] ->
  einsum "lurdp,LURDp->lLuUrRdD" [:: q_a _ q; conj (q_a _ q)] = Ok dl ->
  exists t f, [/\ make_quarter_tensor q = scaled_quarter t,
  einsum quarter_layered [:: q_c _ q; q_e2 _ q; q_e1 _ q; dl] = Ok f & teq t f].
Proof.
rewrite /make_quarter_tensor; case: q => ak ck ek1 ek2 /= H1 H2 H3 H4; tn_setup [:: a; b; c; e; D; p] [:: ck; ek2; ek1; ak].
rewrite /quarter_layered; tn_einsum => -[<-].
do 5 tn_einsum; eexists _, _; split; [reflexivity|reflexivity|tn_teq].
Qed.

(** quarters with the same boundary tensors and the same double layer, up to
    positive factors *)
Definition qrel (D p p' : nat) (q q' : quarter tensor) : Prop :=
  [/\ prop_to (q_c _ q) (q_c _ q'), prop_to (q_e1 _ q) (q_e1 _ q'), prop_to (q_e2 _ q) (q_e2 _ q') & same_layer D p p' (q_a _ q) (q_a _ q')].

Lemma scaled_quarter_cong (t t' : tensor) : prop_to t t' -> both (@qd_rel C) (scaled_quarter t) (scaled_quarter t').
Proof.
move=> E; rewrite /scaled_quarter -(prop_shape E).
apply: both_bind (reshape_prop _ E) _ => x x' _ _ Ex.
by apply: both_bind (tdiv_absmax_prop Ex) _ => y y' _ _ Ey.
Qed.

Lemma quarter_cong D p p' (q q' : quarter tensor) c e : qfit D p q c e -> qrel D p p' q q' -> quarters_agree q q'.
Proof.
move=> [a [b [H1 H2 H3 H4]]] [E1 E2 E3 Hl]; have [Ha Ha' _] := Hl.
have [dl [Ed _ _]] := layerE Ha; have [dl' [Ed' _ _]] := layerE Ha'.
have [t [f [Et Ef Etf]]] := quarter_lay H1 H2 H3 H4 Ed.
have [|||t' [f' [Et' Ef' Etf']]] := quarter_lay (a := a) (b := b) (c := c) (e := e) _ _ _ Ha' Ed'.
- by rewrite -(prop_shape E1).
- by rewrite -(prop_shape E3).
- by rewrite -(prop_shape E2).
rewrite /quarters_agree Et Et'; apply: scaled_quarter_cong.
apply: prop_trans (prop_teq Etf) (prop_trans _ (prop_teq (teq_sym Etf'))).
have := @einsum_prop C quarter_layered [:: q_c _ q; q_e2 _ q; q_e1 _ q; dl] [:: q_c _ q'; q_e2 _ q'; q_e1 _ q'; dl'].
rewrite Ef Ef'; apply; do 3 split=> //; split=> //; exact: layer_prop Hl Ed Ed'.
Qed.

Lemma cj1_cong (c c' e e' p p' : tensor) : prop_to c c' -> prop_to e e' -> teq p p' ->
  both (@teq C) (renormalize_cj1 c e p) (renormalize_cj1 c' e' p').
Proof.
move=> E1 E2 E3; apply: both_bind (einsum_prop _ _) _ => // x x' _ _ Ex.
apply: both_bind (einsum_prop _ _) _ => [|y y' _ _ Ey]; last exact: tdiv_norm_prop.
by split=> //; split=> //; apply: prop_teq.
Qed.
Lemma cj2_cong (c c' e e' p p' : tensor) : prop_to c c' -> prop_to e e' -> teq p p' ->
  both (@teq C) (renormalize_cj2 c e p) (renormalize_cj2 c' e' p').
Proof.
move=> E1 E2 E3; apply: both_bind (einsum_prop _ _) _ => // x x' _ _ Ex.
apply: both_bind (einsum_prop _ _) _ => [|y y' _ _ Ey]; last exact: tdiv_norm_prop.
by split; [apply: prop_teq|split].
Qed.

Definition ej_layered : string := "ablL,buUx,lLuUrRdD,adDy->yxrR".

Lemma ej_lay (ei ai p2 p1 dl : tensor) a b x y D p :
  shape ei = [:: a; b; D; D] -> shape ai = [:: D; D; D; D; p] ->
  shape p2 = [:: a; D; D; y] -> shape p1 = [:: b; D; D; x] ->
  einsum "lurdp,LURDp->lLuUrRdD" [:: ai; conj ai] = Ok dl ->
  exists t f, [/\ renormalize_ej ei ai p2 p1 = tdiv t (norm t),
    einsum ej_layered [:: ei; p1; dl; p2] = Ok f & teq t f].
Proof.
move=> H1 H2 H3 H4; tn_setup [:: a; b; x; y; D; p] [:: ei; ai; p2; p1].
rewrite /ej_layered /renormalize_ej; tn_einsum => -[<-].
do 5 tn_einsum; eexists _, _; split; [reflexivity|reflexivity|tn_teq].
Qed.

Lemma ej_cong (ei ei' ai ai' p2 p2' p1 p1' : tensor) a b x y D p p' :
  shape ei = [:: a; b; D; D] -> shape p2 = [:: a; D; D; y] -> shape p1 = [:: b; D; D; x] ->
  prop_to ei ei' -> same_layer D p p' ai ai' -> teq p2 p2' -> teq p1 p1' ->
  both (@teq C) (renormalize_ej ei ai p2 p1) (renormalize_ej ei' ai' p2' p1').
Proof.
move=> H1 H3 H4 E1 Hl E3 E4; have [Ha Ha' _] := Hl.
have [dl [Ed _ _]] := layerE Ha; have [dl' [Ed' _ _]] := layerE Ha'.
have [t [f [-> Ef Etf]]] := ej_lay H1 Ha H3 H4 Ed.
have [|||t' [f' [-> Ef' Etf']]] := ej_lay (a := a) (b := b) (x := x) (y := y) (ei := ei') (p2 := p2') (p1 := p1') _ Ha' _ _ Ed'.
- by rewrite -(prop_shape E1).
- by rewrite -(proj1 E3).
- by rewrite -(proj1 E4).
apply: tdiv_norm_prop; apply: prop_trans (prop_teq Etf) (prop_trans _ (prop_teq (teq_sym Etf'))).
have := @einsum_prop C ej_layered [:: ei; p1; dl; p2] [:: ei'; p1'; dl'; p2'].
rewrite Ef Ef'; apply; split=> //; split; [exact: prop_teq|]; split; [exact: layer_prop Hl Ed Ed'|]; split=> //; exact: prop_teq.
Qed.

(** turning the site does not break the relation *)
Lemma layer_permute k D p p' (a a' : tensor) : same_layer D p p' a a' ->
  same_layer D p p' (bond_permute k a) (bond_permute k a').
Proof.
move=> [Ha Ha' [c c0 H]]; split; try exact: bond_permute_shape.
have P : forall q (b : tensor) i j, in_range [:: D; D; D; D] i -> in_range [:: D; D; D; D] j ->
  layer q (bond_permute k b) i j =
  layer q b [seq nth 0%N i (index j [seq ((i + k) %% 4)%N | i <- iota 0 4]) | j <- iota 0 4]
            [seq nth 0%N j (index j0 [seq ((i + k) %% 4)%N | i <- iota 0 4]) | j0 <- iota 0 4].
  move=> q b [|l [|u [|r [|d [|? ?]]]]] [|L [|U [|R [|E [|? ?]]]]] //=; rewrite ?andbF // => _ _.
  apply: eq_sumn => x _; rewrite /bond_permute /permute /=.
  rewrite -!(modnDmr _ k); have := ltn_pmod k (isT : (0 < 4)%N).
  by set m := (k %% 4)%N; clearbody m; case: m => [|[|[|[|m]]]] Hm.
exists c => // i j Hi Hj; rewrite !P // H //.
all: rewrite /= -!(modnDmr _ k); have := ltn_pmod k (isT : (0 < 4)%N).
all: move: Hi Hj; case: i => [|l [|u [|r [|d [|? ?]]]]] //=; case: j => [|L [|U [|R [|E [|? ?]]]]] //=; rewrite ?andbF // ?andbT.
all: by move=> /and4P[? ? ? ?] /and4P[? ? ? ?]; set m := (k %% 4)%N; clearbody m; case: m => [|[|[|[|m]]]] Hm //=; do ?(apply/andP; split).
Qed.

End Double.

(** ---- moves ---- *)

Section Moves.
Variable C : numClosedFieldType.
Notation tensor := (tensor C).
Notation net := (Mover.net tensor).
Variable R : Type.
Variable randn : R -> forall n q : nat, 'M[C]_(n, q) * R.
Variable lqr : qr_fun C.
Variable lsvd : thin_svd_fun C.
Variable fsvd : full_svd_fun C.
Variable cfg : pconfig C.
Notation chi0 := (pchi cfg).
Variable pt : ptype.
Variables nx ny D p p' : nat.
Hypothesis chi_pos : (0 < chi0)%N.

(** how the boundary tensors are related: between equal and equal up to positive
    factors *)
Variable B : tensor -> tensor -> Prop.
Hypothesis B_teq : forall s t, teq s t -> B s t.
Hypothesis B_prop : forall s t, B s t -> prop_to s t.

(** related boundary tensors and double layers in the cell *)
Definition nrel (n n' : net) : Prop := forall s, in_cell nx ny s ->
  same_layer D p p' (n s SA) (n' s SA) /\
  forall d, (d < 4)%N -> B (n s (SC d)) (n' s (SC d)) /\ B (n s (SE d)) (n' s (SE d)).

Notation calc := (calc_at tensor R (@bond_permute C) (calculate_half_system randn lqr lsvd fsvd cfg)
   (calculate_full_system randn lqr lsvd fsvd cfg) pt nx ny).
Notation row_result := (row_result tensor (@bond_permute C) (@renormalize_cj1 C) (@renormalize_cj2 C) (@renormalize_ej C) nx ny).
Notation renorm_at := (renorm_at tensor (@bond_permute C) (@renormalize_cj1 C) (@renormalize_cj2 C) (@renormalize_ej C) nx ny).

Lemma quarter_of_rel n n' s kk : nrel n n' -> in_cell nx ny s -> (kk < 7)%N ->
  qrel D p p' (quarter_of tensor (@bond_permute C) n s kk) (quarter_of tensor (@bond_permute C) n' s kk).
Proof.
move=> H Hs Hk; have [HA HB] := H s Hs; rewrite /quarter_of (modE0 Hk) (modE3 Hk).
have [B0 B3] : (kk %% 4 < 4)%N /\ ((kk + 3) %% 4 < 4)%N by rewrite !ltn_mod.
have [? ?] := HB _ B0; have [? ?] := HB _ B3.
by split; try exact: B_prop; apply: layer_permute.
Qed.

Lemma quarter_of_agree chi n n' s kk : fits nx ny D p chi n -> nrel n n' -> in_cell nx ny s -> (kk < 7)%N ->
  quarters_agree (quarter_of tensor (@bond_permute C) n s kk) (quarter_of tensor (@bond_permute C) n' s kk).
Proof. by move=> Hf H Hs Hk; apply: quarter_cong (quarter_fit Hf Hs Hk) (quarter_of_rel H Hs Hk). Qed.

Lemma calc_cong chi n n' k s r : fits nx ny D p chi n -> nrel n n' -> in_cell nx ny s -> (k < 4)%N ->
  both (@proj_rel C R) (calc n k s r) (calc n' k s r).
Proof.
move=> Hf H Hs Hk; rewrite !calc_at_sites //; try exact/ltP.
rewrite !modE' //; set s2 := nbr _ _ ((k + 2) %% 4) s; set s4 := nbr _ _ ((k + 3) %% 4) s.
set s3 := nbr _ _ ((k + 2) %% 4) s4.
have C2 : in_cell nx ny s2 by apply: nbr_cell.
have C4 : in_cell nx ny s4 by apply: nbr_cell.
have C3 : in_cell nx ny s3 by apply: nbr_cell.
have Hk3 : (k + 3 < 7)%N by rewrite -[7%N]/(4 + 3)%N ltn_add2r.
have Hk2 : (k + 2 < 7)%N by apply: leq_trans Hk3; rewrite ltnS leq_add2l.
have Hk1 : (k + 1 < 7)%N by apply: leq_trans Hk3; rewrite ltnS leq_add2l.
have Hk0 : (k < 7)%N by apply: leq_trans Hk _.
rewrite /calculate; case: (pt); [apply: full_cong|apply: half_cong]; exact: quarter_of_agree Hf H _ _.
Qed.

(** ---- the dictionaries of projectors ---- *)

Definition drel (d d' : dict tensor) : Prop := forall i,
  match d i, d' i with Some a, Some b => teq a b | None, None => True | _, _ => False end.

Lemma dget_cong d d' i : drel d d' -> both (@teq C) (dget tensor d i) (dget tensor d' i).
Proof. by move=> /(_ i); rewrite /dget; case: (d i); case: (d' i). Qed.

Lemma proj_loop_cong rows f g d1 d2 d1' d2' r : drel d1 d1' -> drel d2 d2' ->
  (forall i r, List.In i rows -> both (@proj_rel C R) (f i r) (g i r)) ->
  both (fun x y => [/\ drel x.1.1 y.1.1, drel x.1.2 y.1.2 & x.2 = y.2])
    (proj_loop tensor R rows f d1 d2 r) (proj_loop tensor R rows g d1' d2' r).
Proof.
elim: rows d1 d2 d1' d2' r => [|i rows IH] d1 d2 d1' d2' r E1 E2 H //=.
apply: both_bind (H i r (or_introl erefl)) _ => -[[a b] r1] [[a' b'] r1'] _ _ [/= Ea Eb <-].
apply: IH; last by move=> j r2 Hj; apply: H; right.
  by move=> j; rewrite /dset; case: (PeanoNat.Nat.eqb _ _) => //; apply: E1.
by move=> j; rewrite /dset; case: (PeanoNat.Nat.eqb _ _) => //; apply: E2.
Qed.

(** ---- the rows ---- *)

Definition wrel (x y : tensor * tensor * tensor) : Prop := [/\ teq x.1.1 y.1.1, teq x.1.2 y.1.2 & teq x.2 y.2].

Lemma nrel_upd n n' s sl v v' : nrel n n' -> sl <> SA -> teq v v' -> nrel (upd _ n s sl v) (upd _ n' s sl v').
Proof.
move=> H Hsl E t Ht; have [HA HB] := H t Ht; split.
  by rewrite /upd; case: (site_eq_dec _ _) => _ //; case: (slot_eq_dec _ _) => [X|_] //; case: Hsl.
move=> d Hd; have [? ?] := HB d Hd.
by split; rewrite /upd; case: (site_eq_dec _ _) => _ //; case: (slot_eq_dec _ _) => [X|_] //; apply: B_teq.
Qed.

Lemma nrel_write k s w w' n n' : nrel n n' -> wrel w w' -> nrel (row_write tensor nx ny k s w n) (row_write tensor nx ny k s w' n').
Proof. by move=> H [E1 E2 E3]; do 3 apply: nrel_upd => //. Qed.

Lemma rows_cong p1 p2 p1' p2' k : (k < 4)%coq_nat -> forall ss n n',
  independent_rows nx ny k ss -> nrel n n' ->
  (forall s, List.In s ss -> both wrel (row_result p1 p2 k s n) (row_result p1' p2' k s n')) ->
  both nrel (for_each ss (renorm_at p1 p2 k) n) (for_each ss (renorm_at p1' p2' k) n').
Proof.
move=> Hk; elim=> [|s ss IH] n n' [Hnd Hi] H Hw //=; rewrite !renorm_at_eq //.
apply: (both_bind (P := nrel)).
  by apply: both_bind (Hw s (or_introl erefl)) _ => w w' _ _ Ew; apply: nrel_write.
move=> m m' Em Em' Hm; inversion Hnd as [|x l Hn Hnd' [X1 X2]]; subst; apply: IH => //.
  by split=> // t t' Ht Ht'; apply: Hi; right.
move=> t Ht; have Hst : s <> t by move=> X; rewrite X in Hn.
have [Ns _] := Hi s t (or_introl erefl) (or_intror Ht) Hst.
move: Em Em'; case: (row_result _ _ k s n) => [w|//] [<-]; case: (row_result _ _ k s n') => [w'|//] [<-].
have := Hw t (or_intror Ht).
rewrite (@row_result_ext _ _ _ _ _ _ _ p1 p2 k t n (row_write tensor nx ny k s w n)) => [|sl]; last by rewrite row_write_other // => X; apply: Ns.
rewrite (@row_result_ext _ _ _ _ _ _ _ p1' p2' k t n' (row_write tensor nx ny k s w' n')) // => sl; by rewrite row_write_other // => X; apply: Ns.
Qed.

Notation move := (move randn lqr lsvd fsvd cfg pt nx ny).

Definition nr_rel (x y : net * R) : Prop := nrel x.1 y.1 /\ x.2 = y.2.

Lemma move_cong chi n n' r k c : fits nx ny D p chi n -> nrel n n' -> (k < 4)%N -> (c < lines_of nx ny k)%coq_nat ->
  both nr_rel (move k n r c) (move k n' r c).
Proof.
move=> Hf H Hk Hc; have Hk' : (k < 4)%coq_nat by apply/ltP.
rewrite /Renorm.move !move_dir_eq //.
have Hcalc i r0 : List.In i (List.seq 0 (rows_of nx ny k)) ->
  both (@proj_rel C R) (calc n k (on_line k c i) r0) (calc n' k (on_line k c i) r0).
  by move=> /List.in_seq[_ Hi]; apply: calc_cong Hf H (line_cell Hk Hc Hi) Hk.
apply: both_bind (proj_loop_cong (d1 := dempty _) (d2 := dempty _) (d1' := dempty _) (d2' := dempty _) r _ _ Hcalc) _ => //.
move=> [[d1 d2] r1] [[d1' d2'] r1'] E _ [/= E1 E2 <-].
have [Hp _] := proj_loop_spec _ _ _ _ _ _ _ _ _ _ (List.seq_NoDup _ _) E.
apply: (both_bind (P := nrel)) => //.
apply: rows_cong => //; first exact: line_independent.
move=> s /List.in_map_iff[i [<- Hin]]; have /List.in_seq[_ Hi] := Hin.
set s0 := on_line k c i; have Hs : in_cell nx ny s0 by apply: (line_cell Hk Hc Hi).
have Ls : line_of k s0 = c by rewrite line_on.
set u := nbr nx ny (PeanoNat.Nat.modulo (k + 1)%coq_nat 4) s0.
have Eu : u = nbr nx ny ((k + 1) %% 4) s0 by rewrite /u modE'.
have Hu : in_cell nx ny u by apply: nbr_cell.
have Lu : line_of k u = c by rewrite Eu line_next.
have P t : in_cell nx ny t -> line_of k t = c -> exists a b z, [/\ d1 (row_of k t) = Some a, d2 (row_of k t) = Some b,
   shape a = [:: chi ((k + 3) %% 4)%N t; D; D; z] & shape b = [:: chi ((k + 3) %% 4)%N t; D; D; z]].
  move=> Ht Lt; have /Hp : List.In (row_of k t) (List.seq 0 (rows_of nx ny k)).
    by apply/List.in_seq; split; [exact: PeanoNat.Nat.le_0_l|exact: row_lt].
  rewrite -{1}Lt on_lineK => -[a [b [ri [rj [Ec [Ea Eb]]]]]].
  have := @calc_shape C R randn lqr lsvd fsvd cfg pt nx ny D p chi_pos chi n k t ri Hf Ht Hk.
  by rewrite Ec => -[z Hz [/= S1 S2]]; exists a, b, z.
have [a [b [z [Da Db Sa Sb]]]] := P _ Hs Ls; have [a1 [b1 [z1 [Da1 Db1 Sa1 Sb1]]]] := P _ Hu Lu.
have [HA HB] := H s0 Hs; have [_ HF] := Hf s0 Hs.
have M i0 : (PeanoNat.Nat.modulo (i0 + k)%coq_nat 4 < 4)%N by apply/ltP; apply: PeanoNat.Nat.mod_upper_bound.
have [/B_prop C0 /B_prop E0] := HB k Hk; have [/B_prop C3 /B_prop E3] := HB _ (M 3%N); have [_ /B_prop E4] := HB _ (M 2%N).
rewrite /Mover.row_result -/s0 -/u.
apply: both_bind (dget_cong _ E1) _ => x x' Ex _ Exx.
apply: both_bind (cj1_cong C3 E4 Exx) _ => c1 c1' _ _ Ec1.
apply: both_bind (dget_cong _ E2) _ => y y' Ey _ Eyy.
apply: both_bind (cj2_cong C0 E0 Eyy) _ => c2 c2' _ _ Ec2.
apply: both_bind (dget_cong _ E2) _ => v v' Ev _ Evv.
apply: both_bind (dget_cong _ E1) _ => w w' Ew _ Eww.
have Ev' : v = b by move: Ev; rewrite /dget Db => -[].
have Ew' : w = a1 by move: Ew; rewrite /dget Da1 => -[].
have [_ HE3] := HF _ (M 3%N); rewrite modE // in HE3; rewrite dir_add (dir_wrap k 1) in HE3.
apply: both_bind (ej_cong (a := chi ((k + 3) %% 4)%N s0) (b := chi ((k + 3) %% 4)%N u) (x := z1) (y := z) (D := D) (p := p) (p' := p') _ _ _ E3 (layer_permute k HA) Evv Eww) _.
- by rewrite modE // HE3 Eu.
- by rewrite Ev'.
- by rewrite Ew'.
by move=> e e' _ _ Ee.
Qed.

Lemma moves_cong ms : (forall m, List.In m ms -> valid_move nx ny m) -> forall chi n n' r,
  fits nx ny D p chi n -> nrel n n' ->
  both nr_rel (moves randn lqr lsvd fsvd cfg pt nx ny ms (n, r)) (moves randn lqr lsvd fsvd cfg pt nx ny ms (n', r)).
Proof.
elim: ms => [|[k c] ms IH] Hv chi n n' r Hf H //.
have [/ltP Hk Hc] := Hv (k, c) (or_introl erefl).
have {}IH := IH (fun m Hm => Hv m (or_intror Hm)).
rewrite /Renorm.moves /run_moves /=.
have F := @move_fits C R randn lqr lsvd fsvd cfg pt nx ny D p chi_pos chi n r k c Hf Hk Hc.
apply: both_bind (move_cong r Hf H Hk Hc) _ => -[n1 r1] [n1' r1'] E _ [/= H1 <-].
move: F; rewrite E => -[z _ /= Hf1]; exact: IH Hf1 H1.
Qed.

Lemma ctmrg_cong steps chi n n' r : fits nx ny D p chi n -> nrel n n' ->
  both nr_rel (run_ctmrg randn lqr lsvd fsvd cfg pt nx ny steps (n, r)) (run_ctmrg randn lqr lsvd fsvd cfg pt nx ny steps (n', r)).
Proof.
rewrite /Renorm.run_ctmrg /ctmrg; move: (List.seq 0 steps) => l.
elim: l chi n n' r => [|x l IH] chi n n' r Hf H //; cbn [for_each]; rewrite !ctmrg_step_eq.
have F := @moves_fits C R randn lqr lsvd fsvd cfg pt nx ny D p chi_pos _ (@sweep_valid nx ny) chi n r Hf.
apply: both_bind (moves_cong (@sweep_valid nx ny) r Hf H) _ => -[n1 r1] [n1' r1'] E _ [/= H1 <-].
move: F; rewrite /Renorm.moves in E |- *; rewrite E => -[chi1 /= Hf1 _]; exact: IH Hf1 H1.
Qed.

End Moves.
