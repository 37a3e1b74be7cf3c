(** Real tensors stay real: the full update of a bond, and whole calls. *)
From Coq Require Import String Ascii Permutation.
From mathcomp Require Import all_ssreflect all_algebra.
From Verif Require Import Base Lattice LatticeFacts Mover Tensor TN Rdm Fits Measure FullUpdate Linalg Mat Rsvd RsvdFacts Renorm RenormFacts Spectral ProjFacts Psd Als AlsFacts EighChol UpdFacts InitFacts Dist Lambda Evolve P05_Mover MoveShape Layer P08_Control P16_Als P17_Reduced P20_Simple P22_SimpleUpdate P23_Solver P24_FullUpdate P26_SiteUpdate Cutensor P27_Cutensor Session P29_Session RealNet.
Set Implicit Arguments.
Unset Strict Implicit.
Unset Printing Implicit Defensive.
Import GRing.Theory Num.Theory.
Local Open Scope ring_scope.
Local Open Scope string_scope.

Definition oyields {A} (P : A -> Prop) (x : option (res A)) : Prop := if x is Some y then yields P y else True.

Section Update.
Variable C : numClosedFieldType.
Notation tensor := (tensor C).
Notation net := (Mover.net tensor).
Notation real := (@entries_real C).
Variable lqr : qr_fun C.
Variable lsvd : thin_svd_fun C.
Variable fsvd : full_svd_fun C.
Variable leigh : eigh_fun C.
Variable lchol : chol_fun C.
Variable rtol : nat -> nat -> C.
Variable cfg : econfig C.
Hypothesis Rq : real_qr lqr.
Hypothesis Ss : thin_svd_spec lsvd.
Hypothesis Rt : use_gauge_fix cfg -> real_thin lsvd.
Hypothesis Sf : full_svd_spec fsvd.
Hypothesis Rf : real_svd fsvd.
Hypothesis Se : eigh_spec leigh.
Hypothesis Re : real_eigh leigh.
Hypothesis tot : forall m (A : 'M[C]_m), leigh A.
Hypothesis c0 : 0 <= positive_approx_cutoff cfg.
Hypothesis Hc : als_method cfg = "cholesky" -> chol_spec lchol /\ 0 <= als_epsilon cfg.
Notation pair_real := (fun x : tensor * tensor => real x.1 /\ real x.2).

Lemma y_qr (t : tensor) : real t -> yields pair_real (qr lqr t).
Proof using Rq. by move=> H; case E: qr => [[q r]|] //=; apply: qr_real E. Qed.

Lemma y_pinv atol (t : tensor) : use_gauge_fix cfg -> real t -> yields real (pinv lsvd rtol atol t).
Proof using Rt Ss.
move=> ug H; rewrite /pinv; case S: (shape t) => [|m [|n [|? ?]]] //=; apply: real_of_mx.
have := Rt ug (mx_of_real S H); have := Ss (mx_of m n t); rewrite /pinv_mx; case: (lsvd (mx_of m n t)) => [[U s] V] /= [_ _ [s0 _] _] [RU RV].
apply: rlM (rl_adj RU); apply: rlM (rl_adj RV) _ => i j; rewrite !mxE.
case: eqP => _; rewrite ?mulr0n ?rpred0 //= mulr1n; case: ifP => _; rewrite ?rpred0 // realV; exact: ger0_real (s0 _).
Qed.

Lemma y_qr_shape m n (t : tensor) : shape t = [:: m; n] -> real t -> yields (fun x => [/\ real x.1, real x.2 & shape x.2 = [:: minn m n; n]]) (qr lqr t).
Proof using Rq. by move=> S H; have := y_qr H; rewrite /qr S; case: (lqr _) => Q R' /= []. Qed.
Lemma y_pinv_shape atol m n (t : tensor) : use_gauge_fix cfg -> shape t = [:: m; n] -> real t -> yields (fun x => real x /\ shape x = [:: n; m]) (pinv lsvd rtol atol t).
Proof using Rt Ss. by move=> ug S H; have := y_pinv atol ug H; rewrite /pinv S. Qed.
Lemma y_reshape_shape (t : tensor) sh : real t -> yields (fun x => real x /\ shape x = sh) (reshape t sh).
Proof. by move=> H; have := y_reshape sh H; rewrite /reshape; case: ifP. Qed.

Definition gauge_opt (x : option (tensor * tensor)) : Prop := if x is Some y then pair_real y else True.
Definition prepared n p (x : tensor * tensor * option (tensor * tensor)) : Prop :=
  [/\ real x.1.1, real x.1.2, gauge_opt x.2, shape x.1.1 = [:: n; n; n; n] & shape x.1.2 = [:: n; n; p; p]].
Lemma y_gauge n p (nz g : tensor) : use_gauge_fix cfg -> (0 < n)%N -> shape nz = [:: n; n; n ^ 2]%N -> shape g = [:: n; n; p; p] -> real nz -> real g ->
  yields (fun x => prepared n p (x.1.1.1.1, x.1.1.1.2, Some (x.1.1.2, x.1.2))) (gauge_fix lqr lsvd rtol nz g (gauge_fix_atol cfg)).
Proof using Rt Ss Rq.
move=> ug n0 Sn Sg Hn Hg; rewrite /gauge_fix Sg.
have E3 : minn (n ^ 3) n = n by apply/minn_idPr; rewrite expnS leq_pmulr // expn_gt0 n0.
apply: (yields_bind (P := real)) => [|t Ht]; first by apply: y_einsum.
apply: yields_bind (y_reshape_shape _ Ht) _ => {Ht}t [Ht St].
apply: yields_bind (y_qr_shape St Ht) _ => -[q ry] [/= _ Ry]; rewrite E3 => Sy.
apply: (yields_bind (P := real)) => [|{St Ht}t Ht]; first by apply: y_einsum.
apply: yields_bind (y_reshape_shape _ Ht) _ => {Ht}t [Ht St].
apply: yields_bind (y_qr_shape St Ht) _ => -[q' rx] [/= _ Rx]; rewrite E3 => Sx.
apply: yields_bind (y_pinv_shape _ ug Sy Ry) _ => yi [Ryi Syi]; apply: yields_bind (y_pinv_shape _ ug Sx Rx) _ => xi [Rxi Sxi].
apply: (yields_bind (P := fun t => real t /\ shape t = [:: n; n ^ 2; n]%N)) => [|{Hn}u1 [Hn S1]].
  case E: einsum => [w|] //=; split; first exact: einsum_real E.
  by move: E; rewrite /einsum /= Sn Sxi /= /dims_ok /= !eqxx /= => -[<-].
apply: (yields_bind (P := fun t => real t /\ shape t = [:: n ^ 2; n; n]%N)) => [|{Hn S1}u2 [Hn S1]].
  case E: einsum => [w|] //=; split; first exact: einsum_real E.
  by move: E; rewrite /einsum /= S1 Syi /= /dims_ok /= !eqxx /= => -[<-].
apply: (yields_bind (P := fun t => real t /\ shape t = [:: n; n; n; n])) => [|N [HN SN]].
  case E: einsum => [w|] //=; split; first by apply: einsum_real E; do ?split=> //; apply: conj_real.
  by move: E; rewrite /einsum /= S1 /= /dims_ok /= !eqxx /= => -[<-].
apply: (yields_bind (P := fun t => real t /\ shape t = [:: n; n; p; p])) => [|{Hg}g1 [Hg Sg1]].
  case E: einsum => [w|] //=; split; first exact: einsum_real E.
  by move: E; rewrite /einsum /= Sx Sg /= /dims_ok /= !eqxx /= => -[<-].
apply: (yields_bind (P := fun t => real t /\ shape t = [:: n; n; p; p])) => [|{Hg}g2 [Hg Sg2]]; last by split.
case E: einsum => [w|] //=; split; first exact: einsum_real E.
by move: E; rewrite /einsum /= Sy Sg1 /= /dims_ok /= !eqxx /= => -[<-].
Qed.

Lemma y_precondition n p (nz g : tensor) : (0 < n)%N -> shape nz = [:: n; n; n ^ 2]%N -> shape g = [:: n; n; p; p] -> real nz -> real g ->
  yields (prepared n p) (precondition_norm_tensor lqr lsvd rtol cfg nz g).
Proof using Rt Ss Rq.
move=> n0 Sn Sg Hn Hg; rewrite /precondition_norm_tensor; case: ifP => [ug|_].
  by apply: yields_bind (y_gauge ug n0 Sn Sg Hn Hg) _ => -[[[[N g'] xi] yi] ?] [].
apply: (yields_bind (P := fun t => real t /\ shape t = [:: n; n; n; n])) => [|N [HN SN]]; last by split.
case E: einsum => [w|] //=; split; first by apply: einsum_real E; do ?split=> //; apply: conj_real.
by move: E; rewrite /einsum /= Sn /= /dims_ok /= !eqxx /= => -[<-].
Qed.

Lemma y_positive n (N : tensor) fuel : (0 < n)%N -> shape N = [:: n; n; n; n] -> real N ->
  oyields (fun x => real x /\ shape x = [:: n; n; n ^ 2]%N) (positive_approx fsvd leigh fuel.+1 (positive_approx_cutoff cfg) N).
Proof using Se Sf Re tot c0.
move=> n0 SN RN; case E: positive_approx => [[nz|]|] //=.
have H := pos_real Sf Se n0 SN c0 tot Re _ E.
have Sz : shape nz = [:: n; n; n ^ 2]%N.
  have [k Ek] : exists k, k.+1 = (n ^ 2)%N by exists (n ^ 2).-1; rewrite prednK // expn_gt0 n0.
  have [d [N' [w [V [E' _]]]]] := @one_shift C fsvd leigh (positive_approx_cutoff cfg) Se Sf k fuel (mat k.+1 k.+1 [:: n; n] [:: n; n] N) tot (ger0_real c0).
  have [_ /(_ _ _ _ E') [t [Et St Mt]]] := @posE C fsvd leigh (positive_approx_cutoff cfg) n k N fuel.+1 Ek SN.
  by move: Et; rewrite E => -[->]; rewrite St Ek.
split=> // i; rewrite Sz; case: i => [|y [|x [|z [|? ?]]]] //=; rewrite ?andbF // => /and4P[Hy Hx Hz _]; apply: H => //.
by move=> y' x' Y X Hy' Hx' HY HX; apply: RN; rewrite SN /= Hy' Hx' HY HX.
Qed.

(** ---- the alternating least squares ---- *)
Definition fits3 n D p (a : tensor) : Prop := shape a = [:: n; D; p] /\ real a.
Lemma y_solve n D p (Rm Sm : tensor) : shape Rm = [:: n; D; n; D] -> shape Sm = [:: n; D; p] -> real Rm -> real Sm ->
  yields (fits3 n D p) (solve_ar leigh lchol cfg Rm Sm).
Proof using Re Se Hc.
move=> SR SS RR RS; case E: solve_ar => [X|] //=; split.
  by move: E; rewrite /solve_ar SS; do ?[case: (reshape _ _) => //= ?]; case: (tadd _ _) => //= ?;
    case: (if _ then _ else _) => //= ?; rewrite /reshape; case: ifP => // _ [<-].
case: (String.eqb_spec (als_method cfg) "cholesky") => Em.
  have [Sc e0] := Hc Em; exact: (@solve_real C leigh lchol cfg AlsLoop.Cholesky n D p Rm Sm X).
case: (String.eqb_spec (als_method cfg) "pinv") => Ep; first exact: (@solve_real C leigh lchol cfg AlsLoop.Pinv n D p Rm Sm X).
move: E; rewrite /solve_ar SS; do ?[case: (reshape _ _) => //= ?]; case: (tadd _ _) => //= ?.
by case: String.eqb_spec => //; case: String.eqb_spec.
Qed.

Section Als.
Variables (n D p : nat) (N g n12g : tensor).
Hypotheses (SN : shape N = [:: n; n; n; n]) (Sg : shape g = [:: n; n; p; p]) (Sng : shape n12g = [:: n; n; p; p]).
Hypotheses (RN : real N) (Rg : real g) (Rng : real n12g).

Lemma y_solve1 a2 : fits3 n D p a2 -> yields (fits3 n D p) (solve_a1r leigh lchol cfg N n12g a2).
Proof using Re Se Hc SN Sng RN Rng.
case=> S2 R2; rewrite /solve_a1r.
apply: (yields_bind (P := fits3 n D p)) => [|Sm [SS RS]].
  rewrite /build_s1; case E: einsum => [t|] //=; split; last by apply: einsum_real E; do ?split=> //; apply: conj_real.
  by move: E; rewrite /einsum /= Sng S2 /= /dims_ok /= !eqxx /= => -[<-].
apply: (yields_bind (P := fun t => shape t = [:: n; D; n; D] /\ real t)) => [|Rm [SR RR]]; last exact: y_solve.
rewrite /build_r1; apply: (yields_bind (P := fun t => shape t = [:: n; n; n; D; p] /\ real t)) => [|T [ST RT]].
  case E: einsum => [t|] //=; split; last by apply: einsum_real E.
  by move: E; rewrite /einsum /= SN S2 /= /dims_ok /= !eqxx /= => -[<-].
case E: einsum => [t|] //=; split; last by apply: einsum_real E; do ?split=> //; apply: conj_real.
by move: E; rewrite /einsum /= ST S2 /= /dims_ok /= !eqxx /= => -[<-].
Qed.
Lemma y_solve2 a1 : fits3 n D p a1 -> yields (fits3 n D p) (solve_a2r leigh lchol cfg N n12g a1).
Proof using Re Se Hc SN Sng RN Rng.
case=> S2 R2; rewrite /solve_a2r.
apply: (yields_bind (P := fits3 n D p)) => [|Sm [SS RS]].
  rewrite /build_s2; case E: einsum => [t|] //=; split; last by apply: einsum_real E; do ?split=> //; apply: conj_real.
  by move: E; rewrite /einsum /= Sng S2 /= /dims_ok /= !eqxx /= => -[<-].
apply: (yields_bind (P := fun t => shape t = [:: n; D; n; D] /\ real t)) => [|Rm [SR RR]]; last exact: y_solve.
rewrite /build_r2; apply: (yields_bind (P := fun t => shape t = [:: n; n; n; D; p] /\ real t)) => [|T [ST RT]].
  case E: einsum => [t|] //=; split; last by apply: einsum_real E.
  by move: E; rewrite /einsum /= SN S2 /= /dims_ok /= !eqxx /= => -[<-].
case E: einsum => [t|] //=; split; last by apply: einsum_real E; do ?split=> //; apply: conj_real.
by move: E; rewrite /einsum /= ST S2 /= /dims_ok /= !eqxx /= => -[<-].
Qed.
Notation fits_pair := (fun x : tensor * tensor => fits3 n D p x.1 /\ fits3 n D p x.2).
Lemma y_loop k i a1 a2 d : fits3 n D p a1 -> fits3 n D p a2 -> yields fits_pair (als_loop leigh lchol cfg N n12g g k i a1 a2 d).
Proof using Re Se Hc SN Sng RN Rng.
elim: k i a1 a2 d => [|k IH] i a1 a2 d H1 H2 //=.
apply: yields_bind (y_solve1 H2) _ => {H1}a1 H1; apply: yields_bind (y_solve2 H1) _ => {H2}a2 H2.
apply: (yields_bind (P := fun _ => True)) => [|d' _]; first by case: calculate_cost.
by case: ifP => _ //; apply: IH.
Qed.
End Als.

Lemma y_als n D p (N g : tensor) : shape N = [:: n; n; n; n] -> shape g = [:: n; n; p; p] -> real N -> real g ->
  yields (fun x => fits3 n D p x.1 /\ fits3 n D p x.2) (als_solve fsvd leigh lchol cfg N g n D p).
Proof using Re Se Hc Sf Rf.
move=> SN Sg RN Rg; rewrite /als_solve.
apply: (yields_bind (P := fun x => fits3 n D p x.1 /\ fits3 n D p x.2)) => [|[a1 a2] [/= H1 H2]].
  case E: initialize_reduced_tensors => [[a1 a2]|] //=.
  have [? ?] := guess_real Sf Rf Rg E; have [? ?] := init_shape E; by do 2 split.
apply: (yields_bind (P := fun t => shape t = [:: n; n; p; p] /\ real t)) => [|n12g [Sn Rn]].
  case E: einsum => [t|] //=; split; last by apply: einsum_real E.
  by move: E; rewrite /einsum /= SN Sg /= /dims_ok /= !eqxx /= => -[<-].
apply: (yields_bind (P := fun _ => True)) => [|d' _]; first by case: calculate_cost.
exact: y_loop.
Qed.

Lemma y_sqrt (s : seq C) k d : nonneg s -> 0 <= d -> yields real (sqrt_weights s k d).
Proof.
rewrite /sqrt_weights => Hs Hd; case: ifP => //= _ i _ /=; rewrite ger0_real // sqrtC_ge0 divr_ge0 //.
by case: (ltnP (nth 0%N i 0) (size s)) => Hl; [exact/Hs/mem_nth|rewrite nth_default].
Qed.
Lemma cols_real (t : tensor) k m n : shape t = [:: m; n] -> real t -> real (cols t k).
Proof.
move=> S H i; rewrite /cols S /=; case: i => [|i [|j [|? ?]]] //=; rewrite ?andbF // => /and3P[Hi Hj _].
by apply: H; rewrite S /= Hi (leq_trans Hj (geq_minr _ _)).
Qed.
Lemma rows_real (t : tensor) k m n : shape t = [:: m; n] -> real t -> real (rows t k).
Proof.
move=> S H i; rewrite /rows S /=; case: i => [|i [|j [|? ?]]] //=; rewrite ?andbF // => /and3P[Hi Hj _].
by apply: H; rewrite S /= Hj (leq_trans Hi (geq_minr _ _)).
Qed.
Lemma svd_full_shapes (t : tensor) : yields (fun x => (exists m n, shape x.1.1 = [:: m; n]) /\ exists m n, shape x.2 = [:: m; n]) (svd_full fsvd t).
Proof.
by rewrite /svd_full; case: (shape t) => [|m [|n [|? ?]]] //=; case: (fsvd _) => [[U s] V] /=; split; do 2 eexists.
Qed.
Lemma yields_and A (P Q : A -> Prop) x : yields P x -> yields Q x -> yields (fun a => P a /\ Q a) x.
Proof. by case: x. Qed.
Lemma norm_list_ge0 (s : seq C) : 0 <= norm_list s.
Proof. by rewrite sqrtC_ge0 sumr_ge0 // => x _; rewrite exprn_ge0 ?normr_ge0. Qed.

Lemma y_finalize gauge (a1 a2 : tensor) : gauge_opt gauge -> real a1 -> real a2 ->
  yields pair_real (finalize_reduced_tensors lqr fsvd gauge a1 a2).
Proof using Rq Sf Rf.
move=> Hg H1 H2; rewrite /finalize_reduced_tensors.
apply: (yields_bind (P := pair_real)) => [|[{H1}a1 {H2}a2] [/= H1 H2]].
  case: gauge Hg => [[xi yi] [/= Rx Ry]|_] //.
  apply: (yields_bind (P := real)) => [|{H1}a1 H1]; first by apply: y_einsum.
  by apply: (yields_bind (P := real)) => [|{H2}a2 H2]; first by apply: y_einsum.
case: (shape a1) => [|nD [|bD [|pD [|? ?]]]] //.
apply: (yields_bind (P := real)) => [|t Ht]; first by apply: y_einsum.
apply: yields_bind (y_reshape _ Ht) _ => {}t {}Ht.
apply: yields_bind (y_qr Ht) _ => -[q1 r1] [/= Q1 R1].
apply: (yields_bind (P := real)) => [|{Ht}t Ht]; first by apply: y_einsum.
apply: yields_bind (y_reshape _ Ht) _ => {}t {}Ht.
apply: yields_bind (y_qr Ht) _ => -[q2 r2] [/= Q2 R2].
apply: (yields_bind (P := real)) => [|{Ht}t Ht]; first by apply: y_einsum.
apply: yields_bind (yields_and (y_svd_full Sf Rf Ht) (svd_full_shapes t)) _ => -[[U s] V] [[/= RU Rs RV] [[m [m' SU]] [l [l' SV]]]].
apply: yields_bind (y_sqrt _ Rs (norm_list_ge0 s)) _ => w Rw.
apply: (yields_bind (P := real)) => [|{R1}r1 R1]; first by apply: y_einsum; do ?split=> //; apply: cols_real SU RU.
apply: (yields_bind (P := real)) => [|{R2}r2 R2]; first by apply: y_einsum; do ?split=> //; apply: rows_real SV RV.
apply: yields_bind (y_reshape _ Q1) _ => {Q1}q1 Q1; apply: yields_bind (y_reshape _ Q2) _ => {Q2}q2 Q2.
apply: (yields_bind (P := real)) => [|{H1}a1 H1]; first by apply: y_einsum.
by apply: (yields_bind (P := real)) => [|{H2}a2 H2]; first by apply: y_einsum.
Qed.

Lemma y_reduced n D p (a1 a2 N gate : tensor) fuel : (0 < n)%N -> fits3 n D p a1 -> fits3 n D p a2 -> shape N = [:: n; n; n; n] -> real N ->
  shape gate = [:: p; p; p; p] -> real gate ->
  oyields pair_real (update_reduced_tensors lqr lsvd fsvd leigh lchol rtol cfg fuel.+1 a1 a2 N gate).
Proof using Rq Ss Rt Sf Rf Se Re tot c0 Hc.
move=> n0 [S1 R1] [S2 R2] SN RN Sg Rg; rewrite /update_reduced_tensors.
have [g -> [Sg' Rg']] : exists2 g, (let! a12g := einsum "yup,xuq->yxpq" [:: a1; a2] in einsum "yxpq,pqrs->yxrs" [:: a12g; gate]) = Ok g & shape g = [:: n; n; p; p] /\ real g.
  case E: (bind _ _) => [g|e].
    exists g => //; move: E; case E1: (einsum _ _) => [w|] //=.
    have Sw : shape w = [:: n; n; p; p] by move: E1; rewrite /einsum /= S1 S2 /= /dims_ok /= !eqxx /= => -[<-].
    move=> E2; split; first by move: E2; rewrite /einsum /= Sw Sg /= /dims_ok /= !eqxx /= => -[<-].
    apply: einsum_real E2; do ?split=> //; exact: einsum_real E1.
  by move: E; rewrite /einsum /= S1 S2 /= /dims_ok /= !eqxx /= Sg /= /dims_ok /= !eqxx.
have := y_positive fuel n0 SN RN; case: positive_approx => [[nz|e]|] //= [Rz Sz].
apply: yields_bind (y_precondition n0 Sz Sg' Rz Rg') _ => -[[N' g'] gauge] [/= RN' Rg'' Hga SN' Sg''].
rewrite S1; apply: yields_bind (y_als D SN' Sg'' RN' Rg'') _ => -[b1 b2] [[_ /= B1] [_ /= B2]].
exact: y_finalize.
Qed.

Lemma y_core (c12 e12 e11 c13 e13 a1q c21 e21 e24 c24 e23 a2q : tensor) :
  foldr (fun t P => real t /\ P) True [:: c12; e12; e11; c13; e13; a1q; c21; e21; e24; c24; e23; a2q] ->
  yields real (norm_tensor_core c12 e12 e11 c13 e13 a1q c21 e21 e24 c24 e23 a2q).
Proof.
case=> H1 [H2 [H3 [H4 [H5 [H6 [G1 [G2 [G3 [G4 [G5 [G6 _]]]]]]]]]]]; rewrite /norm_tensor_core.
have K6 := conj_real H6; have L6 := conj_real G6.
apply: (yields_bind (P := real)) => [|t1 T1]; first by apply: y_einsum.
apply: (yields_bind (P := real)) => [|t2 T2]; first by apply: y_einsum.
apply: (yields_bind (P := real)) => [|t3 T3]; first by apply: y_einsum.
apply: (yields_bind (P := real)) => [|t4 T4]; first by apply: y_einsum.
apply: (yields_bind (P := real)) => [|t5 T5]; first by apply: y_einsum.
apply: (yields_bind (P := real)) => [|t6 T6]; first by apply: y_einsum.
apply: (yields_bind (P := real)) => [|t7 T7]; first by apply: y_einsum.
apply: (yields_bind (P := real)) => [|t8 T8]; first by apply: y_einsum.
apply: (yields_bind (P := real)) => [|t9 T9]; first by apply: y_einsum.
apply: (yields_bind (P := real)) => [|t10 T10]; first by apply: y_einsum.
apply: (yields_bind (P := real)) => [|t11 T11]; first by apply: y_einsum.
apply: (yields_bind (P := real)) => [|t12 T12]; first by apply: y_einsum.
exact: y_einsum.
Qed.

Definition five (t : tensor) : Prop := real t /\ size (shape t) = 5%N.
Lemma perm_five k (t : tensor) : five t -> real (bond_permute k t).
Proof.
have -> : bond_permute k t = bond_permute (k %% 4) t.
  by rewrite /bond_permute; congr (permute _ (_ ++ _)%SEQ); apply: eq_map => i; rewrite modnDmr.
case; case S: (shape t) => [|a [|c [|d [|e [|f [|? ?]]]]]] // H _.
have : (k %% 4 < 4)%N by rewrite ltn_pmod.
by case: (k %% 4)%N => [|[|[|[|//]]]] _ i /=; rewrite S /=; case: i => [|i0 [|i1 [|i2 [|i3 [|i4 [|? ?]]]]]] //=; rewrite ?andbF // => /and5P[h0 h1 h2 h3 /andP[h4 _]];
  apply: H; rewrite S /= h0 h1 h2 h3 h4.
Qed.
Lemma y_recompose (q1 r1 q2 r2 : tensor) : real q1 -> real r1 -> real q2 -> real r2 ->
  yields (fun x => five x.1 /\ five x.2) (recompose_site_tensors q1 r1 q2 r2).
Proof.
move=> Q1 R1 Q2 R2; rewrite /recompose_site_tensors.
apply: (yields_bind (P := five)) => [|a1 A1]; last apply: (yields_bind (P := five)) => [|a2 A2] //.
  case E: einsum => [t|] //=; split; first by apply: einsum_real E.
  by move: E; rewrite /einsum /=; do 2 case: ifP => // _; case=> <-.
case E: einsum => [t|] //=; split; first by apply: einsum_real E.
by move: E; rewrite /einsum /=; do 2 case: ifP => // _; case=> <-.
Qed.
Lemma y_tdiv_five (t : tensor) : five t -> yields five (tdiv t (norm t)).
Proof. by case=> H S; have := y_tdiv (norm_real t) H; rewrite /tdiv; case: ifP. Qed.

Section Bond.
Variables (nx ny b p : nat).
Hypotheses (Sq : qr_spec lqr) (b0 : (0 < b)%N) (p0 : (0 < p)%N).
Lemma y_update chi (n : net) s k fuel gate one : fits nx ny b p chi n -> in_cell nx ny s -> (k < 4)%N -> real_net nx ny b p n ->
  shape gate = [:: p; p; p; p] -> real gate -> gauge_opt one ->
  oyields pair_real (full_bond_update lqr lsvd fsvd leigh lchol rtol cfg fuel.+1 n (Bond s (nbr nx ny k s) k) gate one).
Proof using Rq Ss Rt Sf Rf Se Re tot c0 Hc Sq b0 p0.
move=> Hf Hs Hk Hn Sg Rg Ho; have Hs2 : in_cell nx ny (nbr nx ny k s) by apply: nbr_cell.
have [SA1 H1] := Hn s Hs; have [SA2 H2] := Hn _ Hs2.
have [q1 [r1 [q2 [r2 [N [E [Ed [Q1 Q2 R1 R2] _ [_ EN SN _ _] _]]]]]]] := open_bond Sq Hf Hs Hk.
have [Rq1 Rr1 Rq2 Rr2] := decompose_real Rq (permute_real Hk SA1 (H1 SA)) (permute_real Hk SA2 (H2 SA)) Ed.
have RN : real N.
  have := @y_core (n s (SC ((k + 1) %% 4)%N)) (n s (SE ((k + 1) %% 4)%N)) (n s (SE ((k + 0) %% 4)%N)) (n s (SC ((k + 2) %% 4)%N)) (n s (SE ((k + 2) %% 4)%N)) q1
    (n (nbr nx ny k s) (SC ((k + 0) %% 4)%N)) (n (nbr nx ny k s) (SE ((k + 0) %% 4)%N)) (n (nbr nx ny k s) (SE ((k + 3) %% 4)%N))
    (n (nbr nx ny k s) (SC ((k + 3) %% 4)%N)) (n (nbr nx ny k s) (SE ((k + 2) %% 4)%N)) q2.
  by move: EN; rewrite /build_norm_tensor [b_k _]/= [b_s1 _]/= [b_s2 _]/= => -> H; apply: H; do ?split.
have n0 : (0 < minn (b ^ 3) (p * b))%N by rewrite leq_min expn_gt0 b0 muln_gt0 p0.
have := @y_reduced _ b p r1 r2 N gate fuel n0 (Logic.conj R1 Rr1) (Logic.conj R2 Rr2) SN RN Sg Rg.
case Er: update_reduced_tensors => [x|] Hx; last first.
  by rewrite /full_bond_update /full_tensor_update [b_k _]/= [b_s1 _]/= [b_s2 _]/= Ed [bind (Ok _) _]/bind EN [bind (Ok N) _]/bind Er.
rewrite (updateE one Ed EN Er) /=; apply: yields_bind Hx _ => -[b1 b2] [/= B1 B2].
rewrite /back; apply: yields_bind (y_recompose Rq1 B1 Rq2 B2) _ => -[e1 e2] [/= E1 E2].
apply: yields_bind (y_tdiv_five E1) _ => {E1}e1 E1; apply: yields_bind (y_tdiv_five E2) _ => {E2}e2 E2.
have F1 := @perm_five (4 - k)%N _ E1; have F2 := @perm_five (4 - k)%N _ E2.
case: one Ho => [[g1 g2] [/= G1 G2]|_] //.
apply: (yields_bind (P := real)) => [|f1 K1]; first by apply: y_einsum.
by apply: (yields_bind (P := real)) => [|f2 K2]; first by apply: y_einsum.
Qed.
End Bond.
End Update.
