(** C95: evolving a classical model never raises its energy. *)
From Coq Require Import String Ascii Permutation.
From mathcomp Require Import all_ssreflect all_algebra.
From Verif Require Import Base Lattice LatticeFacts Mover Neel Gate GateSum P04_GateSum Tensor TN Rdm RdmFacts Fits Measure MeasureFacts FullUpdate Linalg Mat Rsvd RsvdFacts Renorm RenormFacts Spectral ProjFacts Psd Als AlsFacts EighChol UpdFacts InitFacts Dist Lambda Evolve P05_Mover MoveShape P08_Control P09_Rdm P13_Renorm P16_Als P17_Reduced Eckart P20_Simple P22_SimpleUpdate P23_Solver P24_FullUpdate P26_SiteUpdate Cutensor P27_Cutensor Session P29_Session RealNet RealUpd P30_Product P31_Calls P32_Basis Layer CoverFacts Torus P34_State FreeCount P36_Free P37_FreeState P38_Cutoff P39_Classical ProductState P41_FullState Pauli Samples P40_Samples P42_ClassicalFull.
Set Implicit Arguments.
Unset Strict Implicit.
Unset Printing Implicit Defensive.
Import Order.POrderTheory GRing.Theory Num.Theory.
Local Open Scope ring_scope.
Local Open Scope string_scope.

(** ** Averages with changed weights *)
Section Chebyshev.
Variable C : numClosedFieldType.
Variable I : finType.
Variables (q E w D : I -> C).
Hypothesis q0 : forall i, 0 <= q i.
(** w grows where E falls, and so does D *)
Hypothesis E_real : forall i, E i \is Num.real.
Hypothesis w_anti : forall i j, E i <= E j -> w j <= w i.
Hypothesis D_anti : forall i j, E i <= E j -> D j <= D i.
Lemma alg1 (a b c d e f : C) : a * b * (c * d) + c * e * (a * f) = a * c * (b * d + e * f).
Proof. by rewrite mulrDr [a * b * _]mulrACA [c * e * _]mulrACA [c * a]mulrC. Qed.
Lemma alg2 (a c w1 w2 d1 d2 : C) : a * w1 * d1 * c + c * w2 * d2 * a = a * c * (w1 * d1 + w2 * d2).
Proof. by rewrite mulrDr -[a * w1 * d1]mulrA -[c * w2 * d2]mulrA [a * (_ * _) * c]mulrAC [c * (_ * _) * a]mulrAC [c * a]mulrC. Qed.
Lemma alg3 (a b c d : C) : a * c + b * d - (c * b + d * a) = (a - b) * (c - d).
Proof. by rewrite mulrBl !mulrBr opprB addrACA -opprD [c * b]mulrC [d * a]mulrC [b * c + _]addrC. Qed.

Lemma pair_terms i j : 0 <= q i * w i * D i * q j + q j * w j * D j * q i - (q i * D i * (q j * w j) + q j * D j * (q i * w i)).
Proof.
rewrite alg1 alg2 -mulrBr alg3; apply: mulr_ge0; first exact: mulr_ge0.
case/orP: (real_leVge (E_real i) (E_real j)) => H.
  by apply: mulr_ge0; rewrite subr_ge0; [apply: w_anti|apply: D_anti].
by rewrite -mulrNN !opprB; apply: mulr_ge0; rewrite subr_ge0; [apply: w_anti|apply: D_anti].
Qed.

Lemma chebyshev_diff : ((\sum_i q i * w i * D i) * (\sum_i q i) - (\sum_i q i * D i) * (\sum_i q i * w i)) *+ 2 =
  \sum_i \sum_j (q i * w i * D i * q j + q j * w j * D j * q i - (q i * D i * (q j * w j) + q j * D j * (q i * w i))).
Proof.
have dd (F G : I -> C) : (\sum_i F i) * (\sum_j G j) = \sum_i \sum_j F i * G j by rewrite mulr_suml; apply: eq_bigr => i _; rewrite mulr_sumr.
have dbl (F : I -> I -> C) : (\sum_i \sum_j F i j) *+ 2 = \sum_i \sum_j (F i j + F j i).
  by rewrite mulr2n {2}exchange_big -big_split; apply: eq_bigr => i _; rewrite -big_split.
by rewrite mulrnBl !dd !dbl -sumrB; apply: eq_bigr => i _; rewrite -sumrB.
Qed.

(** the average of D does not fall when the weights are multiplied by w *)
Lemma chebyshev : (\sum_i q i * D i) * (\sum_i q i * w i) <= (\sum_i q i * w i * D i) * (\sum_i q i).
Proof.
rewrite -subr_ge0 -(pmulrn_lge0 _ (isT : (0 < 2)%N)) chebyshev_diff.
by apply: sumr_ge0 => i _; apply: sumr_ge0 => j _; apply: pair_terms.
Qed.
Lemma chebyshev_lt i j : 0 < q i -> 0 < q j -> w j < w i -> D j < D i ->
  (\sum_i q i * D i) * (\sum_i q i * w i) < (\sum_i q i * w i * D i) * (\sum_i q i).
Proof.
move=> qi qj Hw HD; rewrite -subr_gt0 -(pmulrn_lgt0 _ (isT : (0 < 2)%N)) chebyshev_diff.
rewrite (bigD1 i) //= (bigD1 j) //=; apply: ltr_paddr; first by apply: sumr_ge0 => k _; apply: sumr_ge0 => l _; apply: pair_terms.
apply: ltr_paddr; first by apply: sumr_ge0 => k _; apply: pair_terms.
by rewrite alg1 alg2 -mulrBr alg3; apply: mulr_gt0; apply: mulr_gt0; rewrite ?subr_gt0.
Qed.
End Chebyshev.

(** ** States of a lattice *)
Section Average.
Variable C : numClosedFieldType.
Variable T : finType.
Variable p : nat.

(** ---- specification ---- *)
(** the square of the norm of a state given by its amplitudes *)
Definition norm2 (psi : (T -> nat) -> C) : C := \sum_(x : {ffun T -> 'I_p}) `|psi (fun t => x t)| ^+ 2.
(** the expectation value of a diagonal observable *)
Definition average (O : (T -> nat) -> C) (psi : (T -> nat) -> C) : C :=
  (\sum_(x : {ffun T -> 'I_p}) O (fun t => x t) * `|psi (fun t => x t)| ^+ 2) / norm2 psi.
(** the probability of an energy of at most a *)
Definition share (E : (T -> nat) -> C) (a : C) (psi : (T -> nat) -> C) : C := average (fun f => if E f <= a then 1 else 0) psi.
(** the second state is cooler than the first: its energy is not larger, and no
    probability of a low energy is smaller *)
Definition cooler (E : (T -> nat) -> C) (psi psi' : (T -> nat) -> C) : Prop :=
  average E psi' <= average E psi /\ forall a, a \is Num.real -> share E a psi <= share E a psi'.

(** ---- proofs ---- *)
Variables (E w : (T -> nat) -> C) (psi psi' : (T -> nat) -> C) (d : C).
Hypothesis d0 : 0 < d.
Hypothesis Hpsi : forall f, config p f -> psi' f = d * (w f * psi f).
Hypothesis ER : forall f, config p f -> E f \is Num.real.
Hypothesis wE : forall f g, config p f -> config p g -> E f <= E g -> 0 <= w g <= w f.
Hypothesis N0 : exists x : {ffun T -> 'I_p}, psi' (fun t => x t) != 0.

Let conf (x : {ffun T -> 'I_p}) : T -> nat := fun t => x t.
Let confP x : config p (conf x). Proof. by move=> t; apply: ltn_ord. Qed.
Let q x : C := `|psi (conf x)| ^+ 2.
Let v x : C := w (conf x) ^+ 2.

Lemma w_ge0 x : 0 <= w (conf x).
Proof. by have /andP[] := wE (confP x) (confP x) (lexx _). Qed.
Lemma new_weight x : `|psi' (conf x)| ^+ 2 = d ^+ 2 * (q x * v x).
Proof. by rewrite Hpsi; [rewrite !normrM (ger0_norm (w_ge0 x)) (gtr0_norm d0) !exprMn [X in _ * X]mulrC|apply: confP]. Qed.
Lemma q_ge0 x : 0 <= q x. Proof. by rewrite exprn_ge0. Qed.
Lemma v_anti x y : E (conf x) <= E (conf y) -> v y <= v x.
Proof.
move=> H; have /andP[A B] := wE (confP x) (confP y) H.
by rewrite /v ler_expn2r // nnegrE (le_trans A).
Qed.
Lemma norm_new : norm2 psi' = d ^+ 2 * \sum_x q x * v x.
Proof. by rewrite /norm2 mulr_sumr; apply: eq_bigr => x _; apply: new_weight. Qed.
Lemma norm_pos : 0 < \sum_x q x * v x.
Proof.
have [x Nx] := N0; rewrite lt_neqAle sumr_ge0 ?andbT => [|y _]; last by rewrite mulr_ge0 ?q_ge0 ?exprn_ge0 ?w_ge0.
rewrite eq_sym psumr_eq0 => [|y _]; last by rewrite mulr_ge0 ?q_ge0 ?exprn_ge0 ?w_ge0.
apply/allPn; exists x; rewrite ?mem_index_enum //=; apply: contra Nx => /eqP H.
by rewrite -normr_eq0 -sqrf_eq0 (new_weight x) H mulr0.
Qed.
Lemma norm_pos0 : 0 < \sum_x q x.
Proof.
have [x Nx] := N0; rewrite lt_neqAle sumr_ge0 ?andbT => [|y _]; last exact: q_ge0.
rewrite eq_sym psumr_eq0 => [|y _]; last exact: q_ge0.
apply/allPn; exists x; rewrite ?mem_index_enum //=; apply: contra Nx => /eqP H.
by rewrite -normr_eq0 -sqrf_eq0 (new_weight x) H mul0r mulr0.
Qed.

Lemma average_new (O : (T -> nat) -> C) : average O psi' = (\sum_x q x * v x * O (conf x)) / (\sum_x q x * v x).
Proof.
have D : d ^+ 2 != 0 by rewrite expf_neq0 // lt0r_neq0.
rewrite /average norm_new (eq_bigr (fun x => d ^+ 2 * (q x * v x * O (conf x)))) => [|x _]; last by rewrite new_weight [RHS]mulrA [LHS]mulrC.
by rewrite -mulr_sumr -mulf_div divff // mul1r.
Qed.
Lemma average_old (O : (T -> nat) -> C) : average O psi = (\sum_x q x * O (conf x)) / (\sum_x q x).
Proof. by rewrite /average; congr (_ / _); apply: eq_bigr => x _; rewrite mulrC. Qed.

(** observables that grow where the energy falls *)
Lemma average_grows (O : (T -> nat) -> C) : (forall f g, config p f -> config p g -> E f <= E g -> O g <= O f) -> average O psi <= average O psi'.
Proof.
move=> HO; rewrite average_old average_new ler_pdivr_mulr ?norm_pos0 // mulrAC ler_pdivl_mulr ?norm_pos //.
apply: (@chebyshev C _ q (fun x => E (conf x)) v (fun x => O (conf x))).
- exact: q_ge0.
- by move=> x; apply: ER.
- exact: v_anti.
- by move=> x y; apply: HO.
Qed.
Lemma average_opp (O : (T -> nat) -> C) f : average (fun g => - O g) f = - average O f.
Proof. by rewrite /average -mulNr -sumrN; congr (_ / _); apply: eq_bigr => x _; rewrite mulNr. Qed.

Lemma reweighted_cooler : cooler E psi psi'.
Proof.
split=> [|a Ra].
  by rewrite -ler_opp2 -!average_opp; apply: average_grows => f g _ _; rewrite ler_opp2.
apply: average_grows => f g Hf Hg Hfg; case: ifP => H; first by rewrite (le_trans Hfg H).
by case: ifP => _; rewrite ?ler01 ?lexx.
Qed.

(** if two energies with different weights occur, the energy falls *)
Lemma reweighted_strictly (x y : {ffun T -> 'I_p}) : psi (conf x) != 0 -> psi (conf y) != 0 -> E (conf x) < E (conf y) -> w (conf y) < w (conf x) ->
  average E psi' < average E psi.
Proof.
move=> Nx Ny HE Hw; rewrite -ltr_opp2 -!average_opp average_old average_new ltr_pdivr_mulr ?norm_pos0 // mulrAC ltr_pdivl_mulr ?norm_pos //.
apply: (@chebyshev_lt C _ q (fun x => E (conf x)) v (fun x => - E (conf x)) _ _ _ _ x y) => //.
- exact: q_ge0.
- by move=> z; apply: ER.
- exact: v_anti.
- by move=> z z'; rewrite ler_opp2.
- by rewrite exprn_gt0 // normr_gt0.
- by rewrite exprn_gt0 // normr_gt0.
- by rewrite /v ltr_expn2r // ?nnegrE w_ge0.
- by rewrite ltr_opp2.
Qed.
End Average.

(** ** Evolutions *)
Section Run.
Variable C : numClosedFieldType.
Notation tensor := (tensor C).
Variable R : Type.
Variable randn : R -> forall n q : nat, 'M[C]_(n, q) * R.
Variable trand : R -> nat -> nat -> tensor * R.
Variable lqr : qr_fun C.
Variable lsvd : thin_svd_fun C.
Variable fsvd : full_svd_fun C.
Variable leigh : eigh_fun C.
Variable lchol : chol_fun C.
Variable rtol : nat -> nat -> C.
Variable noise : C.
Variable fuel : nat.
Variable mexp : forall n, 'M[C]_n -> 'M[C]_n.
Variable u : setup C.
Notation nx := (u_nx u).
Notation ny := (u_ny u).
Notation b := (u_bond u).
Notation p := (u_phys u).
Notation cfg := (u_evo u).
Notation state := (Session.state C R).
Variable one : site -> option tensor.
Variable two : bond -> tensor.
Hypothesis Sq : qr_spec lqr.
Hypothesis Sf : full_svd_spec fsvd.
Hypotheses (nx1 : (1 < nx)%N) (ny1 : (1 < ny)%N) (b0 : (0 < b)%N) (p0 : (0 < p)%N).
Variable T : finType.
Variables (nb : nat -> T -> T) (cell : T -> site).
Hypothesis cov : covers nb nx ny cell.
Notation evolve lcut := (Session.evolve randn trand lqr lsvd fsvd leigh lchol rtol lcut noise fuel u).
Notation amplitude := (@P34_State.amplitude C u T nb cell).
Notation energy := (@P39_Classical.energy C u one two T nb cell).
Notation gates_for th bl dtau := (model_gates mexp p (Gate.Model tensor one (Gate.Fresh tensor two)) dtau bl (build_site_list nx ny) th).
Variable lab : site -> nat -> nat -> nat.
Hypothesis M : classical_model u one two.

(** the terms of the model are real *)
Definition real_terms : Prop :=
  (forall x P, in_cell nx ny x -> (P < p)%N -> field one x P \is Num.real) /\
  (forall x P Q, List.In x (build_bond_list nx ny) -> (P < p)%N -> (Q < p)%N -> coupling u two x P Q \is Num.real).
(** e is not negative and grows *)
Definition growing (S : C -> Prop) (e : C -> C) : Prop := forall a c, S a -> S c -> a <= c -> 0 <= e a <= e c.
Hypothesis Hr : real_terms.

Lemma bond_at_in k t : (k == 1)%N || (k == 2)%N -> List.In (bond_at u k (cell t)) (build_bond_list nx ny).
Proof using cov.
have [_ Hc _] := cov; move=> Hk; apply/in_bond_list; exists (cell t); split; first exact: Hc.
by case/orP: Hk => /eqP->; [right|left].
Qed.

Lemma energy_real f : config p f -> energy f \is Num.real.
Proof using Hr cov.
have [Rf Rc] := Hr; have [_ Hc _] := cov; move=> Hf; apply: rpred_sum => t _.
apply: rpredD; last by apply: rpredM; [apply: rpred_div; apply: rpred_nat|apply: Rf].
by apply: rpredD; apply: Rc => //; apply: bond_at_in.
Qed.

Lemma energy_in S e dtau steps f : exponential S e -> all_in u one two S dtau -> config p f -> S (- (dtau * steps%:R) * energy f).
Proof using nx1 ny1 cov.
move=> HE HS Hf; have [S0 e0 SD eD] := HE.
have S1 : S (- dtau * energy f).
  rewrite -(shared_energy one two nx1 ny1 cov) mulr_sumr.
  have SF t : S (- dtau * (shared u one two (bond_at u 2 (cell t)) (f t) (f (nb 2 t)) + shared u one two (bond_at u 1 (cell t)) (f t) (f (nb 1 t)))).
    by rewrite mulrDr; apply: SD; apply: (proj1 (shared_parts HE HS _ _ _)) => //; apply: bond_at_in.
  by have [] := exp_sum (index_enum T) HE SF.
elim: steps => [|n IH]; first by rewrite mulr0 oppr0 mul0r.
by rewrite -addn1 natrD mulrDr mulr1 opprD mulrDl; apply: SD.
Qed.

Variables (S : C -> Prop) (e : C -> C) (dtau : C).
Hypothesis He : exp_diag mexp u e.
Hypothesis HE : exponential S e.
Hypothesis HS : all_in u one two S dtau.
Hypothesis Hm : growing S e.
Hypothesis t0 : 0 <= dtau.
Hypothesis Hn : narrow_model u two lab.

(** what both kinds of updates do, see C88 and C91 *)
Definition multiplied (steps : nat) (psi psi' : (T -> nat) -> C) : Prop := exists2 d, 0 < d & forall f, config p f ->
  psi' f = d * (e (- (dtau * steps%:R) * energy f) * psi f).

Lemma weights_fall steps f g : config p f -> config p g -> energy f <= energy g ->
  0 <= e (- (dtau * steps%:R) * energy g) <= e (- (dtau * steps%:R) * energy f).
Proof using nx1 ny1 cov HE HS Hm t0.
move=> Hf Hg H; apply: Hm; try exact: energy_in HE HS _.
by rewrite !mulNr ler_opp2; apply: ler_wpmul2l => //; rewrite mulr_ge0 ?ler0n.
Qed.
Lemma weight_pow steps f : config p f -> e (- dtau * energy f) != 0 -> e (- (dtau * steps%:R) * energy f) != 0.
Proof using nx1 ny1 cov HE HS.
move=> Hf H; have S1 : S (- dtau * energy f) by rewrite -[dtau]mulr1; apply: (energy_in 1 HE HS).
by rewrite [dtau * _]mulrC -mulrN -mulrA (exp_pow _ HE S1) expf_neq0.
Qed.

Lemma multiplied_cooler steps psi psi' (x : {ffun T -> 'I_p}) : multiplied steps psi psi' ->
  e (- dtau * energy (fun t => x t)) != 0 -> psi (fun t => x t) != 0 ->
  cooler p energy psi psi' /\
  forall y z : {ffun T -> 'I_p}, psi (fun t => y t) != 0 -> psi (fun t => z t) != 0 -> energy (fun t => y t) < energy (fun t => z t) ->
    e (- (dtau * steps%:R) * energy (fun t => z t)) < e (- (dtau * steps%:R) * energy (fun t => y t)) ->
    average p energy psi' < average p energy psi.
Proof using nx1 ny1 cov Hr HE HS Hm t0.
move=> [d d0 Hd] e0 Nx.
have Hx : config p (fun t => x t) by move=> t; apply: ltn_ord.
have N' : exists y : {ffun T -> 'I_p}, psi' (fun t => y t) != 0.
  by exists x; rewrite Hd //; apply: mulf_neq0; [apply: lt0r_neq0|apply: mulf_neq0 => //; apply: weight_pow].
split; first by apply: (reweighted_cooler d0 Hd) => // [f|f g]; [apply: energy_real|apply: weights_fall].
move=> y z Ny Nz Hyz Hw.
by apply: (reweighted_strictly d0 Hd _ _ N' Ny Nz Hyz Hw) => [f|f g]; [apply: energy_real|apply: weights_fall].
Qed.

(** the state after the call is cooler; and its energy is really smaller if two
    configurations of different energies, with different exponentials, occur *)
Definition cooled (steps : nat) (n n' : Mover.net tensor) : Prop :=
  cooler p energy (amplitude n) (amplitude n') /\
  forall y z : {ffun T -> 'I_p}, amplitude n (fun t => y t) != 0 -> amplitude n (fun t => z t) != 0 -> energy (fun t => y t) < energy (fun t => z t) ->
    e (- (dtau * steps%:R) * energy (fun t => z t)) < e (- (dtau * steps%:R) * energy (fun t => y t)) ->
    average p energy (amplitude n') < average p energy (amplitude n).

(** C95.  Evolving a real classical model by simple updates cools the state of the whole
    lattice: neither the time step nor the number of steps can raise the energy. *)
Theorem C95_simple th steps (s : state) (x : {ffun T -> 'I_p}) : u_type u = "simple" -> s_init s = true ->
  Permutation (s_bonds s) (build_bond_list nx ny) ->
  (forall x, in_cell nx ny x -> shape (s_net s x SA) = [:: b; b; b; b; p]) -> classical u lab (s_net s) ->
  e (- dtau * energy (fun t => x t)) != 0 -> amplitude (s_net s) (fun t => x t) != 0 ->
  exists2 m, 0 < m & forall lcut st s', 0 < lcut <= m -> evolve lcut st (gates_for th (s_bonds s) dtau) steps s = Some (Ok s') ->
    cooled steps (s_net s) (s_net s').
Proof using All.
move=> Hu Hi HP Hs Hc e0 A0.
have [m m0 H] := @C88_energy C R randn trand lqr lsvd fsvd leigh lchol rtol noise fuel mexp u one two Sq Sf nx1 ny1 b0 p0 T nb cell cov lab M S e th dtau steps s He HE HS Hn Hu Hi HP Hs Hc.
exists m => // lcut st s' Hl Ev; exact: multiplied_cooler (H _ _ _ Hl Ev) e0 A0.
Qed.

(** C95.  The updates do not fail. *)
Theorem C95_succeeds th steps (s : state) (x : {ffun T -> 'I_p}) : (forall s, in_cell nx ny s -> exists t, cell t = s) -> u_type u = "simple" ->
  Permutation (s_bonds s) (build_bond_list nx ny) ->
  (forall x, in_cell nx ny x -> shape (s_net s x SA) = [:: b; b; b; b; p]) -> classical u lab (s_net s) ->
  e (- dtau * energy (fun t => x t)) != 0 -> amplitude (s_net s) (fun t => x t) != 0 ->
  exists2 m, 0 < m & forall lcut, 0 < lcut <= m ->
    exists2 s', Session.evolve_tensors randn lqr lsvd fsvd leigh lchol rtol lcut fuel u (gates_for th (s_bonds s) dtau) steps s = Some (Ok s') &
      cooled steps (s_net s) (s_net s').
Proof using Sq Sf nx1 ny1 b0 p0 cov M Hr He HE HS Hm t0 Hn.
move=> onto Hu HP Hs Hc e0 A0.
have Hf : config p (fun t => x t) by move=> t; apply: ltn_ord.
have [m m0 H] := @C88_energy_succeeds C R randn lqr lsvd fsvd leigh lchol rtol fuel mexp u one two Sq Sf nx1 ny1 b0 p0 T nb cell cov lab M onto S e th dtau steps s _ He HE HS Hn Hu HP Hs Hc Hf e0 A0.
exists m => // lcut Hl; have [s' Ev X] := H _ Hl; exists s' => //; exact: multiplied_cooler X e0 A0.
Qed.

Hypothesis Ss : thin_svd_spec lsvd.
Hypothesis Se : eigh_spec leigh.
Hypothesis tot : forall m (A : 'M[C]_m), leigh A.
Hypothesis Rq : real_qr lqr.
Hypothesis Rl : real_thin lsvd.
Hypothesis Rf : real_svd fsvd.
Hypothesis Re : real_eigh leigh.
Hypothesis Rr : real_rand randn.
Hypothesis Hx : exact_method leigh lchol cfg.
Hypothesis it : (0 < als_niter cfg)%N.
Hypothesis c0 : 0 < positive_approx_cutoff cfg.
Hypothesis a0 : use_gauge_fix cfg -> 0 < gauge_fix_atol cfg /\ gauge_fix_atol cfg ^+ 2 < positive_approx_cutoff cfg *+ minn (b ^ 3) (p * b).
Hypothesis onto : forall s, in_cell nx ny s -> exists t, cell t = s.

(** C95.  And so do full updates of real states, whatever the boundary tensors. *)
Theorem C95_full th lcut c st steps (s s' : state) (x : {ffun T -> 'I_p}) : u_type u = "full" -> s_init s = true -> healthy u c s ->
  RealNet.real_net nx ny b p (s_net s) -> classical u lab (s_net s) ->
  e (- dtau * energy (fun t => x t)) != 0 -> amplitude (s_net s) (fun t => x t) != 0 ->
  Session.evolve randn trand lqr lsvd fsvd leigh lchol rtol lcut noise fuel.+1 u st (gates_for th (s_bonds s) dtau) steps s = Some (Ok s') ->
  cooled steps (s_net s) (s_net s').
Proof using All.
move=> Tf Hi Hs Hn' Hc e0 A0 Ev.
have HR a : S a -> e a \is Num.real by move=> Sa; rewrite ger0_real //; have /andP[] := Hm Sa Sa (lexx _).
have Hf : config p (fun t => x t) by move=> t; apply: ltn_ord.
have [_ H] := C91_energy Sq Ss Sf Se tot Rq Rl Rf Re Rr b0 p0 nx1 ny1 Hx it c0 a0 Tf cov onto M He HE HS HR Hn Hi Hs Hn' Hc Hf e0 A0 Ev.
exact: multiplied_cooler H e0 A0.
Qed.
End Run.

(** ** The samples *)
Section Samples.
Variable C : numClosedFieldType.
Notation tensor := (tensor C).
Variable R : Type.
Variable randn : R -> forall n q : nat, 'M[C]_(n, q) * R.
Variable trand : R -> nat -> nat -> tensor * R.
Variable lqr : qr_fun C.
Variable lsvd : thin_svd_fun C.
Variable fsvd : full_svd_fun C.
Variable leigh : eigh_fun C.
Variable lchol : chol_fun C.
Variable rtol : nat -> nat -> C.
Variable noise : C.
Variable fuel : nat.
Variable u : setup C.
Notation nx := (u_nx u).
Notation ny := (u_ny u).
Notation b := (u_bond u).
Notation p := (u_phys u).
Notation cfg := (u_evo u).
Notation state := (Session.state C R).
Hypothesis Sq : qr_spec lqr.
Hypothesis Ss : thin_svd_spec lsvd.
Hypothesis Sf : full_svd_spec fsvd.
Hypothesis Se : eigh_spec leigh.
Hypothesis tot : forall m (A : 'M[C]_m), leigh A.
Hypothesis Rq : real_qr lqr.
Hypothesis Rl : real_thin lsvd.
Hypothesis Rf : real_svd fsvd.
Hypothesis Re : real_eigh leigh.
Hypothesis Rr : real_rand randn.
Hypotheses (b1 : (1 < b)%N) (nx1 : (1 < nx)%N) (ny1 : (1 < ny)%N).
Hypothesis Hx : exact_method leigh lchol cfg.
Hypothesis it : (0 < als_niter cfg)%N.
Hypothesis c0 : 0 < positive_approx_cutoff cfg.
Hypothesis a0 : use_gauge_fix cfg -> 0 < gauge_fix_atol cfg /\ gauge_fix_atol cfg ^+ 2 < positive_approx_cutoff cfg *+ minn (b ^ 3) (p * b).
Variable T : finType.
Variables (nb : nat -> T -> T) (cell : T -> site).
Hypothesis cov : covers nb nx ny cell.
Hypothesis onto : forall s, in_cell nx ny s -> exists t, cell t = s.
Variable mexp : forall n, 'M[C]_n -> 'M[C]_n.
Variable cx : bool.
Variable jz : C.
Notation amplitude := (@P34_State.amplitude C u T nb cell).

(** evolving the model with these terms cools the state with respect to the energy E *)
Definition cools (one : site -> pexpr C) (two : bond -> option (pexpr C)) (lab : site -> nat -> nat -> nat) (E : (T -> nat) -> C) : Prop :=
  forall S e th dtau c steps (s : state) (x : {ffun T -> 'I_p}), exp_diag mexp u e -> exponential S e -> growing S e ->
  S (dtau * jz / 4%:R) -> S (- (dtau * jz / 4%:R)) -> 0 <= dtau ->
  s_init s = true -> healthy u c s -> classical u lab (s_net s) -> amplitude (s_net s) (fun t => x t) != 0 ->
  let g := model_gates mexp p (Gate.Model tensor (fun x => Some (matrix cx (one x))) (Gate.Fresh tensor (fun x => matrix_opt cx (two x)))) dtau (s_bonds s) (build_site_list nx ny) th in
  let after lcut st s' := Session.evolve randn trand lqr lsvd fsvd leigh lchol rtol lcut noise fuel.+1 u st g steps s = Some (Ok s') in
  (u_type u = "simple" -> exists2 m, 0 < m & forall lcut st s', 0 < lcut <= m -> after lcut st s' -> cooler p E (amplitude (s_net s)) (amplitude (s_net s'))) /\
  (u_type u = "full" -> RealNet.real_net nx ny b p (s_net s) -> forall lcut st s', after lcut st s' -> cooler p E (amplitude (s_net s)) (amplitude (s_net s'))).

Lemma cooler_ext (E E' : (T -> nat) -> C) psi psi' : (forall f, config p f -> E f = E' f) -> cooler p E psi psi' -> cooler p E' psi psi'.
Proof.
move=> H; have A (O O' : (T -> nat) -> C) f : (forall f, config p f -> O f = O' f) -> average p O f = average p O' f.
  by move=> HO; rewrite /average; congr (_ / _); apply: eq_bigr => x _; rewrite HO // => t; apply: ltn_ord.
move=> [H1 H2]; split; first by rewrite -!(A E E').
by move=> a Ra; rewrite /share -!(A (fun f => if E f <= a then 1 else 0)); [apply: H2| |] => // f Hf; rewrite H.
Qed.

Lemma cools_by one two lab E w : jz \is Num.real -> ising_terms cx u nb cell jz one two lab E w -> cools one two lab E.
Proof using All.
move=> Rj Hi S e th dtau c steps s x He HE Hm Sp Sn t0 Ei Hs Hc A0 g after.
have [Mc [S' [HE' HS SS]] N0] := ising_ready nx1 ny1 cov Hi HE Sp Sn.
have [[HM Ep] Hnr M1 M2 HEn] := Hi.
have b0 : (0 < b)%N by apply: ltnW.
have p0 : (0 < p)%N by rewrite Ep expn_gt0.
have Hf : config p (fun t => x t) by move=> t; apply: ltn_ord.
have e0 : e (- dtau * energy u (fun x => Some (matrix cx (one x))) (fun x => matrix_opt cx (two x)) nb cell (fun t => x t)) != 0 by rewrite HEn //; apply: N0.
have [_ Hfield Hcoup] := spin_classical cx HM Ep.
have Rm v : multiple jz v -> v \is Num.real by case=> k ->; rewrite rpredM ?rpred_int.
have Hr : real_terms u (fun x => Some (matrix cx (one x))) (fun x => matrix_opt cx (two x)).
  split=> [y P _ HP|y P Q Hy HP HQ]; first by rewrite Hfield //; apply: Rm; apply: M1.
  by have [_ H2] := HM; have [ex Ex _] := H2 y Hy; rewrite (Hcoup _ _ _ _ Hy Ex) //; apply: Rm; apply: M2 Ex _ _.
have Hm' : growing S' e by move=> a a' Ha Ha'; apply: Hm; apply: SS.
have [Hw HP _] := Hs.
have Sh y : in_cell nx ny y -> shape (s_net s y SA) = [:: b; b; b; b; p] by move=> Hy; have [chi Hfit _] := Hw; have [] := Hfit y Hy.
split=> [Tu|Tu Rn].
- have [m m0 H] := C95_simple randn trand lsvd leigh lchol rtol noise fuel.+1 Sq Sf nx1 ny1 b0 p0 cov Mc Hr He HE' HS Hm' t0 Hnr th steps Tu Ei HP Sh Hc e0 A0.
  by exists m => // lcut st s' Hl Ev; have [X _] := H _ _ _ Hl Ev; apply: cooler_ext X.
- move=> lcut st s' Ev.
  have [X _] := C95_full Sq Sf nx1 ny1 b0 p0 cov Mc Hr He HE' HS Hm' t0 Hnr Ss Se tot Rq Rl Rf Re Rr Hx it c0 a0 onto Tu Ei Hs Rn Hc e0 A0 Ev.
  by apply: cooler_ext X.
Qed.

(** C95.  The Ising models of the library and of the samples, without a field. *)
Theorem C95_square : jz \is Num.real -> p = 2%N -> cools (square_one 0) (fun x => Some (square_two jz x)) plain (square_energy nb jz).
Proof using All. move=> Rj Ep; exact: cools_by Rj (square_terms cx nx1 ny1 b1 cov jz Ep). Qed.
Theorem C95_honeycomb : jz \is Num.real -> p = 4%N -> cools (honeycomb_one jz 0) (honeycomb_two jz) honeycomb_lab (honeycomb_energy nb jz).
Proof using All. move=> Rj Ep; exact: cools_by Rj (honeycomb_terms cx nx1 ny1 b1 cov jz Ep). Qed.
Theorem C95_kagome : jz \is Num.real -> p = 8%N -> cools (kagome_one jz 0) (kagome_two jz) kagome_lab (kagome_energy nb jz).
Proof using All. move=> Rj Ep; exact: cools_by Rj (kagome_terms cx nx1 ny1 b1 cov jz Ep). Qed.
End Samples.

(** ** A concrete case *)
Section Example.
Variable C : numClosedFieldType.
Notation tensor := (tensor C).
Notation u2 := (plain_setup C 2 "simple").
Notation nb := (tnbr (nx := 2) (ny := 2)).
Notation cell a c := (tcell (a := a) (c := c) (nx := 2) (ny := 2)).
Notation amp a c := (amplitude u2 nb (cell a c)).
Notation evolve_tensors lcut := (@Session.evolve_tensors C unit (fun r _ _ => (0, r)) (@some_qr C) (@some_thin_svd C) (@some_full_svd C) (@some_eigh C) (@some_chol C) (fun _ _ => 0) lcut 1).
Notation uniform chi := (State (uniform_net C) tt (build_bond_list 2 2) chi true : Session.state C unit).
Notation E a c := (energy u2 (fun _ => None) (fun _ => walls C) nb (cell a c)).

(** domain walls cost energy one; from the uniform state, the energy really falls on
    lattices of all sizes *)
Example C95_walls a c steps chi th : (0 < a)%N -> (0 < c)%N -> (0 < steps)%N -> exists2 m, 0 < m & forall lcut, 0 < lcut <= m ->
  exists2 s', evolve_tensors lcut u2 (model_gates (@freeze C) 2 (Gate.Model tensor (fun _ => None) (Gate.Fresh tensor (fun _ => walls C))) 1 (build_bond_list 2 2) (build_site_list 2 2) th) steps (uniform chi) = Some (Ok s') &
    average 2 (E a c) (amp a c (s_net s')) < average 2 (E a c) (amp a c (uniform_net C)).
Proof.
move=> a0 c0 n0; have cov := @torus_covers a c 2 2 a0 c0 isT isT.
pose s0 : Session.state C unit := uniform chi.
have HP : Permutation (s_bonds s0) (build_bond_list 2 2) by exact: Permutation_refl.
have Hf x : in_cell 2 2 x -> shape (s_net s0 x SA) = [:: 2; 2; 2; 2; 2]%N by [].
have [N N0 HN] := uniform_amp C a c.
have M : classical_model u2 (fun _ => None) (fun _ => walls C).
  by split=> // x _; split=> // i j _ _ /negPf /= ->.
have He : @exp_diag C (@freeze C) u2 (@frozen C) by move=> A _ i j; rewrite mxE.
have HE : exponential (fun x : C => x <= 0) (@frozen C).
  split; rewrite /frozen ?eqxx //; first by move=> x y Hx Hy; rewrite -(addr0 0) ler_add.
  by move=> x y Hx Hy; rewrite -oppr_eq0 opprD paddr_eq0 ?oppr_ge0 // !oppr_eq0 -natrM mulnb.
have Hg : growing (fun x : C => x <= 0) (@frozen C).
  move=> x y Hx Hy Hxy; rewrite /frozen ler0n /=; case: (eqVneq x 0) => [Ex|_]; last exact: ler0n.
  by rewrite Ex in Hxy; rewrite (_ : y == 0) // eq_le Hy Hxy.
have EC' x P Q : (P < 2)%N -> (Q < 2)%N -> coupling u2 (fun _ => walls C) x P Q = (P != Q)%:R.
  by case: P => [|[|]] // _; case: Q => [|[|]] // _; rewrite /coupling /= ?eqxx.
have HS : all_in u2 (fun _ => None) (fun _ => walls C) (fun x : C => x <= 0) 1.
  by split=> [x P Q _ HP' HQ|x P _ _]; rewrite mulN1r oppr_le0 ?EC' ?ler0n // /field mul0r.
have Hr : real_terms u2 (fun _ => None) (fun _ => walls C).
  by split=> [x P _ _|x P Q _ HP' HQ]; rewrite ?EC' ?realn // /field real0.
have Hnr : narrow_model u2 (fun _ => walls C) plain.
  by move=> x _; split; [exists (coupling u2 (fun _ => walls C) x)|left].
have En f : config 2 f -> E a c f = (\sum_t ((f t != f (nb 2 t)) + (f t != f (nb 1 t))))%:R.
  move=> Hcf; rewrite /energy natr_sum; apply: eq_bigr => t _; rewrite /field mulr0 addr0 natrD.
  by rewrite !EC'.
pose y : {ffun torus a c 2 2 -> 'I_2} := [ffun _ => ord0].
have In0 : in_cell 2 2 (0, 0)%N by split; apply/ltP.
have [t Ht] := P39_Classical.torus_onto a0 c0 In0.
pose z : {ffun torus a c 2 2 -> 'I_2} := [ffun t' => if t' == t then @Ordinal 2 1 isT else ord0].
have Hy : config 2 (fun t => y t) by move=> t'; apply: ltn_ord.
have Hz : config 2 (fun t => z t) by move=> t'; apply: ltn_ord.
have Ey : E a c (fun t => y t) = 0 by rewrite En // big1 // => t' _; rewrite !ffunE.
have Nt : nb 2 t != t.
  apply/eqP => X; have [_ _ H] := cov; have := H 2%N t; rewrite X Ht => /(_ isT).
  by move=> [].
have Ez : 0 < E a c (fun t => z t).
  rewrite En // ltr0n (bigD1 t) //= !ffunE eqxx (negbTE Nt) /=; exact: ltn_addr.
have Ap x : amp a c (s_net s0) x != 0 by rewrite HN lt0r_neq0.
have e0 : frozen (- 1 * E a c (fun t => y t)) != 0 by rewrite Ey mulr0 /frozen eqxx oner_eq0.
have [m m0 H] := @C95_succeeds C unit (fun r _ _ => (0, r)) (@some_qr C) (@some_thin_svd C) (@some_full_svd C) (@some_eigh C) (@some_chol C) (fun _ _ => 0) 1 (@freeze C) u2 (fun _ => None) (fun _ => walls C)
  (@some_qr_spec C) (@some_full_svd_spec C) isT isT isT isT _ _ _ cov plain M Hr (fun x => x <= 0) (@frozen C) 1 He HE HS Hg ler01 Hnr th steps s0 y (P39_Classical.torus_onto a0 c0) erefl HP Hf (@uniform_classical C plain) e0 (Ap _).
exists m => // lcut Hl; have [s' Ev [_ X]] := H lcut Hl; exists s' => //.
apply: (X y z) => //; first by rewrite Ey.
rewrite Ey mulr0 /frozen eqxx mulr1n (_ : _ == 0 = false) ?ltr01 //.
by rewrite mulNr oppr_eq0 !mulf_eq0 oner_eq0 pnatr_eq0 eqn0Ngt n0 /= gt_eqF.
Qed.
End Example.

Print Assumptions C95_simple.
Print Assumptions C95_succeeds.
Print Assumptions C95_full.
Print Assumptions C95_square.
Print Assumptions C95_honeycomb.
Print Assumptions C95_kagome.
Print Assumptions C95_walls.
