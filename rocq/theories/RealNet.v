(** Real tensors stay real: the kernels of the boundary renormalisation and the
    directional moves with decompositions that are real on real matrices. *)
From Coq Require Import String Ascii.
From mathcomp Require Import all_ssreflect all_algebra.
From Verif Require Import Base Lattice LatticeFacts Mover Tensor TN Rdm Fits Measure FullUpdate Linalg Mat Rsvd RsvdFacts Renorm RenormFacts Spectral ProjFacts Psd Als AlsFacts EighChol UpdFacts InitFacts Dist Lambda Evolve P05_Mover MoveShape Layer P08_Control P16_Als P17_Reduced P20_Simple P22_SimpleUpdate P23_Solver P24_FullUpdate P26_SiteUpdate Session P29_Session.
Set Implicit Arguments.
Unset Strict Implicit.
Unset Printing Implicit Defensive.
Import GRing.Theory Num.Theory.
Local Open Scope ring_scope.
Local Open Scope string_scope.

(** whatever comes out satisfies P *)
Definition yields {A} (P : A -> Prop) (x : res A) : Prop := if x is Ok a then P a else True.
Lemma yields_bind A B (P : A -> Prop) (Q : B -> Prop) x f : yields P x -> (forall a, P a -> yields Q (f a)) -> yields Q (bind x f).
Proof. by case: x => //= a Ha; apply. Qed.
Lemma yields_for A S (P : S -> Prop) (l : seq A) f s : P s -> (forall a s, P s -> yields P (f a s)) -> yields P (for_each l f s).
Proof. by move=> Hs Hf; elim: l s Hs => [|a l IH] s Hs //=; apply: yields_bind (Hf a s Hs) _ => t; apply: IH. Qed.

Section Kernels.
Variable C : numClosedFieldType.
Notation tensor := (tensor C).
Notation real := (@entries_real C).

Lemma y_einsum spec (ts : seq tensor) : foldr (fun t P => real t /\ P) True ts -> yields real (einsum spec ts).
Proof. by move=> H; case E: einsum => [t|] //=; apply: einsum_real E. Qed.
Lemma y_reshape (t : tensor) sh : real t -> yields real (reshape t sh).
Proof. by move=> H; case E: reshape => [t'|] //=; apply: reshape_real E. Qed.
Lemma scale_real c (t : tensor) : c \is Num.real -> real t -> real (tscale c t).
Proof. by move=> Hc H i Hi; rewrite /= rpredM //; apply: H. Qed.
Lemma y_tdiv (t : tensor) c : c \is Num.real -> real t -> yields real (tdiv t c).
Proof. by rewrite /tdiv; case: eqP => //= _ Hc H; apply: scale_real => //; rewrite rpredV. Qed.
Lemma norm_real (t : tensor) : norm t \is Num.real.
Proof. exact: ger0_real (norm_ge0 t). Qed.
Lemma y_matmul (s t : tensor) : real s -> real t -> yields real (matmul s t).
Proof.
rewrite /matmul => Hs Ht; case Es: (shape s) => [|m [|k [|? ?]]] //; case Et: (shape t) => [|k' [|n [|? ?]]] //.
case: eqP => //= ?; subst k' => i Hi; case: i Hi => [|i [|j [|? ?]]] //=; rewrite ?andbF ?andbT // => /andP[Hi Hj].
rewrite /sumn; apply: rpred_sum => x _; rewrite rpredM //; [apply: Hs; rewrite Es|apply: Ht; rewrite Et]; by rewrite /= ?Hi ?Hj ltn_ord.
Qed.
Lemma adjoint_real (t : tensor) : real t -> real (adjoint t).
Proof. by move=> H i /= Hi; rewrite rl_conj //; apply: H; rewrite -Layer.in_range_rev revK. Qed.

Lemma mx_of_real m n (t : tensor) : shape t = [:: m; n] -> real t -> rl (mx_of m n t).
Proof. by move=> S H i j; rewrite mxE; apply: H; rewrite S /= !ltn_ord. Qed.
Lemma real_of_mx m n (A : 'M[C]_(m, n)) : rl A -> real (of_mx A).
Proof. by move=> H i _; apply: of_mx_real. Qed.

Definition usv_real (x : tensor * seq C * tensor) : Prop := [/\ real x.1.1, forall y, y \in x.1.2 -> 0 <= y & real x.2].

Section Decomp.
Variable R : Type.
Variable randn : R -> forall n q : nat, 'M[C]_(n, q) * R.
Variable lqr : qr_fun C.
Variable lsvd : thin_svd_fun C.
Variable fsvd : full_svd_fun C.
Variable cfg : pconfig C.
(** decompositions that are real on real matrices, and real random numbers *)
Definition real_thin : Prop := forall m n (A : 'M[C]_(m, n)), rl A -> rl (lsvd A).1.1 /\ rl (lsvd A).2.
Definition real_rand : Prop := forall r n q, rl (randn r n q).1.
Hypothesis Rq : real_qr lqr.
Hypothesis Ss : thin_svd_spec lsvd.
Hypothesis Sf : full_svd_spec fsvd.
Hypothesis Rf : real_svd fsvd.
Hypothesis Rt : svd_type cfg = "full-rank" \/ real_thin /\ real_rand.

Lemma y_qr_q (t : tensor) : real t -> yields real (qr_q lqr t).
Proof using Rq.
move=> H; rewrite /qr_q; case S: (shape t) => [|m [|n [|? ?]]] //=; apply: real_of_mx.
by have [] := Rq (mx_of_real S H).
Qed.
Lemma y_svd_full (t : tensor) : real t -> yields usv_real (svd_full fsvd t).
Proof using Sf Rf.
move=> H; rewrite /svd_full; case S: (shape t) => [|m [|n [|? ?]]] //=.
have := Rf (mx_of_real S H); have := Sf (mx_of m n t); case: (fsvd _) => [[U s] V] /= [_ _ [s0 _] _] [RU RV].
by split=> /=; [exact: real_of_mx|move=> y /mapP[i _ ->]; apply: s0|exact: real_of_mx].
Qed.
Lemma y_svd_thin (t : tensor) : real_thin -> real t -> yields usv_real (svd_thin lsvd t).
Proof using Ss.
move=> T H; rewrite /svd_thin; case S: (shape t) => [|m [|n [|? ?]]] //=.
have := T _ _ _ (mx_of_real S H); have := Ss (mx_of m n t); case: (lsvd _) => [[U s] V] /= [_ _ [s0 _] _] [RU RV].
by split=> /=; [exact: real_of_mx|move=> y /mapP[i _ ->]; apply: s0|exact: real_of_mx].
Qed.
Lemma y_finish (Q B : tensor) : real_thin -> real Q -> real B -> yields usv_real (Rsvd.finish lsvd Q B).
Proof using Ss.
move=> T HQ HB; rewrite /Rsvd.finish; apply: yields_bind (y_svd_thin T HB) _ => -[[U s] V] [/= RU Rs RV].
by apply: yields_bind (y_matmul HQ RU) _ => X RX; split=> //; apply: adjoint_real.
Qed.

Lemma y_lowrank r (A : tensor) q niter : real_thin -> real_rand -> real A ->
  yields (fun x => usv_real x.1) (svd_lowrank randn lqr lsvd r A q niter).
Proof using Rq Ss.
move=> T Rr HA; rewrite /svd_lowrank; case: (shape A) => [|m [|n [|? ?]]] //=.
have := Rr r n (minn q (minn m n)); case: (randn _ _ _) => [Om r'] /= ROm.
apply: yields_bind (y_matmul HA (real_of_mx ROm)) _ => Y HY.
have HA' := adjoint_real HA.
apply: (yields_bind (P := real)).
  apply: yields_for => // _ {}Y {}HY; apply: yields_bind (y_qr_q HY) _ => {}Y {}HY.
  by apply: yields_bind (y_matmul HA' HY) _ => X HX; apply: y_matmul.
move=> {}Y {}HY; apply: yields_bind (y_qr_q HY) _ => Q HQ.
apply: yields_bind (y_matmul (adjoint_real HQ) HA) _ => B HB.
by apply: yields_bind (y_finish T HQ HB) _ => usv.
Qed.

Lemma y_fused r (A B : tensor) q niter : real_thin -> real_rand -> real A -> real B ->
  yields (fun x => usv_real x.1) (fused_matmul_svd_lowrank randn lqr lsvd r A B q niter).
Proof using Rq Ss.
move=> T Rr HA HB; rewrite /fused_matmul_svd_lowrank; case: (shape A) => [|m sA] //; case: (shape B) => [|k [|n [|? ?]]] //.
have := Rr r n (minn q (minn m n)); case: (randn _ _ _) => [Om r'] /= ROm.
have HA' := adjoint_real HA; have HB' := adjoint_real HB.
apply: yields_bind (y_matmul HB (real_of_mx ROm)) _ => X HX.
apply: yields_bind (y_matmul HA HX) _ => Y HY.
apply: (yields_bind (P := real)).
  apply: yields_for => // _ {}Y {}HY; apply: yields_bind (y_qr_q HY) _ => {}Y {}HY.
  apply: yields_bind (y_matmul HA' HY) _ => {}X {}HX; apply: yields_bind (y_matmul HB' HX) _ => {}X {}HX.
  by apply: yields_bind (y_matmul HB HX) _ => {}X {}HX; apply: y_matmul.
move=> {}Y {}HY; apply: yields_bind (y_qr_q HY) _ => Q HQ.
apply: yields_bind (y_matmul (adjoint_real HQ) HA) _ => P HP; apply: yields_bind (y_matmul HP HB) _ => {}P {}HP.
by apply: yields_bind (y_finish T HQ HP) _ => usv.
Qed.

Lemma y_fused3 r (A B D E : tensor) q niter : real_thin -> real_rand -> real A -> real B -> real D -> real E ->
  yields (fun x => usv_real x.1) (fused_3matmul_svd_lowrank randn lqr lsvd r A B D E q niter).
Proof using Rq Ss.
move=> T Rr HA HB HD HE; rewrite /fused_3matmul_svd_lowrank; case: (shape A) => [|m sA] //; case: (shape E) => [|k [|n [|? ?]]] //.
have := Rr r n (minn q (minn m n)); case: (randn _ _ _) => [Om r'] /= ROm.
have HA' := adjoint_real HA; have HB' := adjoint_real HB; have HD' := adjoint_real HD; have HE' := adjoint_real HE.
apply: yields_bind (y_matmul HE (real_of_mx ROm)) _ => X HX.
apply: yields_bind (y_matmul HD HX) _ => {}X {}HX; apply: yields_bind (y_matmul HB HX) _ => {}X {}HX.
apply: yields_bind (y_matmul HA HX) _ => Y HY.
apply: (yields_bind (P := real)).
  apply: yields_for => // _ {}Y {}HY; apply: yields_bind (y_qr_q HY) _ => {}Y {}HY.
  apply: yields_bind (y_matmul HA' HY) _ => {}X {}HX; apply: yields_bind (y_matmul HB' HX) _ => {}X {}HX.
  apply: yields_bind (y_matmul HD' HX) _ => {}X {}HX; apply: yields_bind (y_matmul HE' HX) _ => {}Y {}HY.
  apply: yields_bind (y_qr_q HY) _ => {}Y {}HY.
  apply: yields_bind (y_matmul HE HY) _ => {}X {}HX; apply: yields_bind (y_matmul HD HX) _ => {}X {}HX.
  by apply: yields_bind (y_matmul HB HX) _ => {}X {}HX; apply: y_matmul.
move=> {}Y {}HY; apply: yields_bind (y_qr_q HY) _ => Q HQ.
apply: yields_bind (y_matmul (adjoint_real HQ) HA) _ => P HP; apply: yields_bind (y_matmul HP HB) _ => {}P {}HP.
apply: yields_bind (y_matmul HP HD) _ => {}P {}HP; apply: yields_bind (y_matmul HP HE) _ => {}P {}HP.
by apply: yields_bind (y_finish T HQ HP) _ => usv.
Qed.

Lemma y_psvd r (A : tensor) cD : real A -> yields (fun x => usv_real x.1) (psvd randn lqr lsvd fsvd cfg r A cD).
Proof using Rq Ss Sf Rf Rt.
move=> HA; rewrite /psvd; case: ifP => [_|H].
  apply: yields_bind (y_svd_full HA) _ => -[[U s] V] [/= RU Rs RV]; split=> //; exact: adjoint_real.
case: ifP => // _; case: Rt => [E|[T Rr]]; first by rewrite E in H.
exact: y_lowrank.
Qed.

Definition nonneg (s : seq C) : Prop := forall y, y \in s -> 0 <= y.
Lemma y_rel (s : seq C) : nonneg s -> yields nonneg (Renorm.rel s).
Proof.
case: s => [|s0 s] // H; rewrite /Renorm.rel; case: eqP => // _ y /mapP[x Hx ->]; rewrite divr_ge0 //; [exact: H|by apply: H; rewrite inE eqxx].
Qed.
Lemma y_weight (U : tensor) s c : real U -> nonneg s -> yields real (weight_cols U s c).
Proof.
rewrite /weight_cols => HU Hs; case S: (shape U) => [|m [|n [|? ?]]] //; case: ifP => //; case: ifP => //= _ _ i Hi.
rewrite rpredM //.
  apply: HU; rewrite S; case: i Hi => [|i [|j [|? ?]]] //=; rewrite ?andbF // => /and3P[-> Hj _].
  by rewrite (leq_trans Hj (geq_minr _ _)).
rewrite rpredV ger0_real // sqrtC_ge0.
case: (ltnP (nth 0%N i 1) (size s)) => Hl; [exact/Hs/mem_nth|by rewrite nth_default].
Qed.

Definition proj_real (x : tensor * tensor * R) : Prop := real x.1.1 /\ real x.1.2.
Lemma y_projectors r (R1 R2 F : tensor) chi : real R1 -> real R2 -> real F ->
  yields proj_real (calculate_projectors randn lqr lsvd fsvd cfg r R1 R2 F chi).
Proof using Rq Ss Sf Rf Rt.
move=> H1 H2 HF; rewrite /calculate_projectors; apply: yields_bind (y_psvd r chi HF) _ => -[[[U s] V] r'] [/= RU Rs RV].
apply: yields_bind (y_rel Rs) _ => {}s {}Rs.
apply: yields_bind (y_weight _ RU Rs) _ => {}U {}RU; apply: yields_bind (y_weight _ RV Rs) _ => {}V {}RV.
apply: (yields_bind (P := real)) => [|P1 RP1]; first by apply: y_einsum; do ?split=> //; apply: conj_real.
by apply: (yields_bind (P := real)) => [|P2 RP2]; first by apply: y_einsum.
Qed.

Definition quarter_real (q : quarter tensor) : Prop := [/\ real (q_a _ q), real (q_c _ q), real (q_e1 _ q) & real (q_e2 _ q)].
Lemma y_quarter (q : quarter tensor) : quarter_real q -> yields (fun x => real x.1) (make_quarter_tensor q).
Proof.
case=> Ha Hc H1 H2; rewrite /make_quarter_tensor.
apply: (yields_bind (P := real)) => [|t Ht]; first by apply: y_einsum.
apply: (yields_bind (P := real)) => [|{Ht}t Ht]; first by apply: y_einsum.
apply: (yields_bind (P := real)) => [|{Ht}t Ht]; first by apply: y_einsum; do ?split=> //; apply: conj_real.
apply: (yields_bind (P := real)) => [|{Ht}t Ht]; first by apply: y_einsum.
apply: yields_bind (y_reshape _ Ht) _ => {Ht}x Hx.
by apply: yields_bind (y_tdiv (absmax_real x) Hx) _.
Qed.

Lemma y_half r (g1 g4 : quarter tensor) : quarter_real g1 -> quarter_real g4 ->
  yields proj_real (calculate_half_system randn lqr lsvd fsvd cfg r g1 g4).
Proof using Rq Ss Sf Rf Rt.
move=> H1 H4; rewrite /calculate_half_system; case: ifP => [_|H].
  apply: (yields_bind (P := fun x => [/\ real x.1.1, real x.1.2 & real x.2])) => [|[[Q1 Q4] F] [/= RQ1 RQ4 RF]]; last exact: y_projectors.
  rewrite /contract_half_system; apply: yields_bind (y_quarter H1) _ => -[Q1 d1] /= RQ1; apply: yields_bind (y_quarter H4) _ => -[Q4 d4] /= RQ4.
  apply: yields_bind (y_matmul RQ1 RQ4) _ => F RF.
  apply: yields_bind (y_reshape _ RQ1) _ => Q1' RQ1'; apply: yields_bind (y_reshape _ RQ4) _ => Q4' RQ4'.
  by apply: yields_bind (y_tdiv (absmax_real F) RF) _.
case: Rt => [E|[T Rr]]; first by rewrite E in H.
apply: yields_bind (y_quarter H1) _ => -[Q1 d1] /= RQ1; apply: yields_bind (y_quarter H4) _ => -[Q4 d4] /= RQ4.
apply: yields_bind (y_fused _ _ _ T Rr RQ1 RQ4) _ => -[[[U s] V] r'] [/= RU Rs RV].
apply: yields_bind (y_rel Rs) _ => {}s {}Rs.
apply: yields_bind (y_weight _ RU Rs) _ => {}U {}RU; apply: yields_bind (y_weight _ RV Rs) _ => {}V {}RV.
apply: yields_bind (y_reshape _ RQ1) _ => Q1' RQ1'; apply: yields_bind (y_reshape _ RQ4) _ => Q4' RQ4'.
apply: (yields_bind (P := real)) => [|P1 RP1]; first by apply: y_einsum; do ?split=> //; apply: conj_real.
by apply: (yields_bind (P := real)) => [|P2 RP2]; first by apply: y_einsum.
Qed.

Lemma y_full r (g1 g2 g3 g4 : quarter tensor) : quarter_real g1 -> quarter_real g2 -> quarter_real g3 -> quarter_real g4 ->
  yields proj_real (calculate_full_system randn lqr lsvd fsvd cfg r g1 g2 g3 g4).
Proof using Rq Ss Sf Rf Rt.
move=> H1 H2 H3 H4; rewrite /calculate_full_system; case: ifP => [_|H].
  apply: (yields_bind (P := fun x => [/\ real x.1.1, real x.1.2 & real x.2])) => [|[[Q1 Q4] F] [/= RQ1 RQ4 RF]]; last exact: y_projectors.
  rewrite /contract_full_system; apply: yields_bind (y_quarter H1) _ => -[Q1 d1] /= RQ1; apply: yields_bind (y_quarter H2) _ => -[Q2 d2] /= RQ2.
  apply: yields_bind (y_matmul RQ2 RQ1) _ => R1 RR1.
  apply: yields_bind (y_quarter H3) _ => -[Q3 d3] /= RQ3; apply: yields_bind (y_quarter H4) _ => -[Q4 d4] /= RQ4.
  apply: yields_bind (y_matmul RQ4 RQ3) _ => R2 RR2.
  apply: yields_bind (y_tdiv (absmax_real R1) RR1) _ => {}R1 {}RR1; apply: yields_bind (y_tdiv (absmax_real R2) RR2) _ => {}R2 {}RR2.
  apply: yields_bind (y_matmul RR1 RR2) _ => F RF.
  apply: yields_bind (y_reshape _ RR1) _ => R1' RR1'; apply: yields_bind (y_reshape _ RR2) _ => R2' RR2'.
  by apply: yields_bind (y_tdiv (absmax_real F) RF) _.
case: Rt => [E|[T Rr]]; first by rewrite E in H.
apply: yields_bind (y_quarter H1) _ => -[Q1 d1] /= RQ1; apply: yields_bind (y_quarter H2) _ => -[Q2 d2] /= RQ2.
apply: yields_bind (y_quarter H3) _ => -[Q3 d3] /= RQ3; apply: yields_bind (y_quarter H4) _ => -[Q4 d4] /= RQ4.
apply: yields_bind (y_fused3 _ _ _ T Rr RQ2 RQ1 RQ4 RQ3) _ => -[[[U s] V] r'] [/= RU Rs RV].
apply: yields_bind (y_rel Rs) _ => {}s {}Rs.
apply: yields_bind (y_weight _ RU Rs) _ => {}U {}RU; apply: yields_bind (y_weight _ RV Rs) _ => {}V {}RV.
apply: yields_bind (y_matmul (adjoint_real RQ2) (conj_real RU)) _ => X RX.
apply: yields_bind (y_matmul (adjoint_real RQ1) RX) _ => P1 RP1.
apply: yields_bind (y_reshape _ RP1) _ => {}P1 {}RP1.
apply: yields_bind (y_matmul RQ3 RV) _ => Y RY; apply: yields_bind (y_matmul RQ4 RY) _ => P2 RP2.
by apply: yields_bind (y_reshape _ RP2) _ => {}P2 {}RP2.
Qed.

Lemma y_cj1 (c e q : tensor) : real c -> real e -> real q -> yields real (renormalize_cj1 c e q).
Proof.
move=> Hc He Hq; rewrite /renormalize_cj1.
apply: (yields_bind (P := real)) => [|t Ht]; first by apply: y_einsum.
apply: (yields_bind (P := real)) => [|{Ht}t Ht]; first by apply: y_einsum.
exact: y_tdiv (norm_real t) Ht.
Qed.
Lemma y_cj2 (c e q : tensor) : real c -> real e -> real q -> yields real (renormalize_cj2 c e q).
Proof.
move=> Hc He Hq; rewrite /renormalize_cj2.
apply: (yields_bind (P := real)) => [|t Ht]; first by apply: y_einsum.
apply: (yields_bind (P := real)) => [|{Ht}t Ht]; first by apply: y_einsum.
exact: y_tdiv (norm_real t) Ht.
Qed.
Lemma y_ej (e a q2 q1 : tensor) : real e -> real a -> real q2 -> real q1 -> yields real (renormalize_ej e a q2 q1).
Proof.
move=> He Ha H2 H1; rewrite /renormalize_ej.
apply: (yields_bind (P := real)) => [|t Ht]; first by apply: y_einsum.
apply: (yields_bind (P := real)) => [|{Ht}t Ht]; first by apply: y_einsum; do ?split=> //; apply: conj_real.
apply: (yields_bind (P := real)) => [|{Ht}t Ht]; first by apply: y_einsum.
apply: (yields_bind (P := real)) => [|{Ht}t Ht]; first by apply: y_einsum.
exact: y_tdiv (norm_real t) Ht.
Qed.

Section Moves.
Variables (pt : ptype) (nx ny b p : nat).
Notation net := (Mover.net tensor).
(** all tensors of the cell are real *)
Definition real_net (n : net) : Prop := forall s, in_cell nx ny s ->
  shape (n s SA) = [:: b; b; b; b; p] /\ forall w, real (n s w).

Lemma perm_real k (a : tensor) : shape a = [:: b; b; b; b; p] -> real a -> real (bond_permute k a).
Proof.
have -> : bond_permute k a = bond_permute (k %% 4) a.
  by rewrite /bond_permute; congr (permute _ (_ ++ _)%SEQ); apply: eq_map => i; rewrite modnDmr.
by move=> S; apply: permute_real S; rewrite ltn_pmod.
Qed.

Lemma quarter_of_real (n : net) s k : real_net n -> in_cell nx ny s -> quarter_real (quarter_of tensor (@bond_permute C) n s k).
Proof. by move=> Hn Hs; have [Sa H] := Hn s Hs; split=> //=; apply: perm_real. Qed.

Lemma y_calc (n : net) k s r : real_net n -> in_cell nx ny s -> (k < 4)%N ->
  yields proj_real (calc_at tensor R (@bond_permute C) (calculate_half_system randn lqr lsvd fsvd cfg)
   (calculate_full_system randn lqr lsvd fsvd cfg) pt nx ny n k s r).
Proof using Rq Ss Sf Rf Rt.
move=> Hn Hs Hk; rewrite /calc_at /calculate.
have N d : in_cell nx ny (nbr nx ny (PeanoNat.Nat.modulo d 4) s) by apply: nbr_cell.
have Q := quarter_of_real _ Hn.
case: pt; last by apply: y_half; apply: Q.
apply: y_full; [exact: Q|exact: Q| |exact: Q]; apply: Q.
have [A1 A2] := N (k + 2)%coq_nat; have [B1 B2] := N (k + 3)%coq_nat.
by case: (k) Hk A1 A2 B1 B2 => [|[|[|[|?]]]].
Qed.

Definition dict_real (d : Mover.dict tensor) : Prop := forall i, if d i is Some t then real t else True.
Lemma y_proj_loop rows f d1 d2 r : dict_real d1 -> dict_real d2 ->
  (forall i r, List.In i rows -> yields proj_real (f i r)) ->
  yields (fun x => dict_real x.1.1 /\ dict_real x.1.2) (proj_loop tensor R rows f d1 d2 r).
Proof.
elim: rows d1 d2 r => [|i rows IH] d1 d2 r H1 H2 Hf //=.
apply: yields_bind (Hf i r (or_introl erefl)) _ => -[[a c] r'] [/= Ra Rc].
apply: IH => [j|j|j r'' Hj]; rewrite ?/Mover.dset; [by case: (PeanoNat.Nat.eqb j i) => //; apply: H1|by case: (PeanoNat.Nat.eqb j i) => //; apply: H2|by apply: Hf; right].
Qed.
Lemma y_dget d i : dict_real d -> yields real (Mover.dget tensor d i).
Proof. by rewrite /Mover.dget => /(_ i); case: (d i). Qed.

Lemma upd_real (n : net) s sl v : sl <> SA -> real v -> real_net n -> real_net (upd tensor n s sl v).
Proof.
move=> N Hv Hn x Hx; have [S H] := Hn x Hx; rewrite /upd; split=> [|w].
  by case: site_eq_dec => // _; case: slot_eq_dec => // E; case: N.
by case: site_eq_dec => // _; case: slot_eq_dec.
Qed.

Lemma y_renorm p1 p2 k s (n : net) : dict_real p1 -> dict_real p2 -> real_net n -> in_cell nx ny s ->
  yields real_net (renorm_at tensor (@bond_permute C) (@renormalize_cj1 C) (@renormalize_cj2 C) (@renormalize_ej C) nx ny p1 p2 k s n).
Proof.
move=> H1 H2 Hn Hs; rewrite /renorm_at /renormalize_boundary.
apply: yields_bind (y_dget _ H1) _ => q1 R1.
have [Sa Ha] := Hn s Hs.
apply: yields_bind (y_cj1 (Ha _) (Ha _) R1) _ => c1 Rc1.
set n1 := upd _ _ _ _ _; have Hn1 : real_net n1 by apply: upd_real.
have [Sa1 Ha1] := Hn1 s Hs.
apply: yields_bind (y_dget _ H2) _ => q2 R2.
apply: yields_bind (y_cj2 (Ha1 _) (Ha1 _) R2) _ => c2 Rc2.
set n2 := upd _ _ _ _ _; have Hn2 : real_net n2 by apply: upd_real.
have [Sa2 Ha2] := Hn2 s Hs.
apply: yields_bind (y_dget _ H2) _ => q3 R3; apply: yields_bind (y_dget _ H1) _ => q4 R4.
apply: (yields_bind (P := real)) => [|e Re]; first by apply: y_ej => //; exact: perm_real.
exact: upd_real.
Qed.

Lemma y_rows p1 p2 k ss (n : net) : dict_real p1 -> dict_real p2 -> (forall s, List.In s ss -> in_cell nx ny s) -> real_net n ->
  yields real_net (for_each ss (renorm_at tensor (@bond_permute C) (@renormalize_cj1 C) (@renormalize_cj2 C) (@renormalize_ej C) nx ny p1 p2 k) n).
Proof.
move=> H1 H2; elim: ss n => [|s ss IH] n Hs Hn //=; apply: yields_bind (y_renorm k H1 H2 Hn (Hs s (or_introl erefl))) _ => n' Hn'.
by apply: IH => // x Hx; apply: Hs; right.
Qed.

Notation move := (move randn lqr lsvd fsvd cfg pt nx ny).
Lemma y_move (n : net) r k c : real_net n -> (k < 4)%N -> (c < lines_of nx ny k)%coq_nat -> yields (fun x => real_net x.1) (move k n r c).
Proof using Rq Ss Sf Rf Rt.
move=> Hn Hk Hc; rewrite /move move_dir_eq; last exact/ltP.
have L i : List.In i (List.seq 0 (rows_of nx ny k)) -> in_cell nx ny (on_line k c i).
  by move=> /List.in_seq [_ Hi]; apply: line_cell.
apply: (yields_bind (P := fun x => dict_real x.1.1 /\ dict_real x.1.2)).
  by apply: y_proj_loop => // i r' Hi; apply: y_calc => //; apply: L.
case=> [[p1 p2] r'] [/= H1 H2].
by apply: (yields_bind (P := real_net)) => //; apply: y_rows => // s /List.in_map_iff [i [<- Hi]]; apply: L.
Qed.

Lemma y_moves ms : (forall m, List.In m ms -> valid_move nx ny m) -> forall (n : net) r, real_net n ->
  yields (fun x => real_net x.1) (moves randn lqr lsvd fsvd cfg pt nx ny ms (n, r)).
Proof using Rq Ss Sf Rf Rt.
elim: ms => [|[k c] ms IH] Hv n r Hn //; have [/ltP Hk Hc] := Hv (k, c) (or_introl erefl).
rewrite /moves /run_moves /=; apply: yields_bind (y_move r Hn Hk Hc) _ => -[n' r'] Hn'.
by apply: IH => // m Hm; apply: Hv; right.
Qed.

Lemma y_ctmrg steps (n : net) r : real_net n -> yields (fun x => real_net x.1) (run_ctmrg randn lqr lsvd fsvd cfg pt nx ny steps (n, r)).
Proof using Rq Ss Sf Rf Rt.
move=> Hn; rewrite /run_ctmrg /ctmrg; apply: yields_for => // _ [n1 r1] Hn1; rewrite ctmrg_step_eq.
exact: y_moves (@sweep_valid nx ny) _ _ Hn1.
Qed.
End Moves.
End Decomp.
End Kernels.
