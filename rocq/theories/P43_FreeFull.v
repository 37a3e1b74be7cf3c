(** C92: models without interactions are evolved exactly by full updates too, and simple
    and full updates agree as long as neither loses anything. *)
From Coq Require Import String Ascii Permutation.
From mathcomp Require Import all_ssreflect all_algebra.
From Verif Require Import Base Lattice LatticeFacts Mover Neel Gate GateSum P04_GateSum Tensor TN Rdm RdmFacts Fits Measure MeasureFacts FullUpdate Linalg Mat Rsvd RsvdFacts Renorm RenormFacts Spectral ProjFacts Psd Als AlsFacts EighChol UpdFacts InitFacts Dist Lambda Evolve P05_Mover MoveShape P08_Control P09_Rdm P13_Renorm P16_Als P17_Reduced Eckart P20_Simple P22_SimpleUpdate P23_Solver P24_FullUpdate P26_SiteUpdate Cutensor P27_Cutensor Session P29_Session RealNet RealUpd ProductFacts P30_Product P31_Calls P32_Basis Layer CoverFacts Torus P34_State FreeCount P36_Free P37_FreeState P38_Cutoff P39_Classical ProductState P41_FullState P42_ClassicalFull.
Set Implicit Arguments.
Unset Strict Implicit.
Unset Printing Implicit Defensive.
Import GRing.Theory Num.Theory.
Local Open Scope ring_scope.
Local Open Scope string_scope.

(** ** Two configurations of the same lattice *)
Section Same.
Variable C : numClosedFieldType.
(** they may differ in bond dimension, update type and all settings *)
Definition same_lattice (u u' : setup C) : Prop := [/\ u_nx u' = u_nx u, u_ny u' = u_ny u & u_phys u' = u_phys u].

Lemma act_bonds_same u u' (T : finType) (nb : nat -> T -> T) cell g l F f : same_lattice u u' -> act_bonds u' nb cell g l F f = act_bonds u nb cell g l F f.
Proof. by case: u u' => nx ny b p pt st ct ty ev [nx' ny' b' p' pt' st' ct' ty' ev'] [/= -> -> ->]. Qed.
Lemma gates_ok_same u u' g : same_lattice u u' -> gates_ok u g -> gates_ok u' g.
Proof. by case: u u' => nx ny b p pt st ct ty ev [nx' ny' b' p' pt' st' ct' ty' ev'] [/= -> -> ->]. Qed.
Lemma exact_same mexp u u' one (T : finType) (cell : T -> site) tau F f : same_lattice u u' -> exact mexp u' one cell tau F f = exact mexp u one cell tau F f.
Proof. by case: u u' => nx ny b p pt st ct ty ev [nx' ny' b' p' pt' st' ct' ty' ev'] [/= -> -> ->]. Qed.
End Same.

(** ** Models without interactions *)
Section Free.
Variable C : numClosedFieldType.
Notation tensor := (tensor C).
Variable mexp : forall n, 'M[C]_n -> 'M[C]_n.
Variable u : setup C.
Notation nx := (u_nx u).
Notation ny := (u_ny u).
Notation p := (u_phys u).
Variable one : site -> option tensor.
Hypothesis L : exp_laws mexp u one.
Variable T : finType.
Variables (nb : nat -> T -> T) (cell : T -> site).
Hypothesis cov : covers nb nx ny cell.

Lemma acts_points (U : T -> 'M[C]_p) : acts U (act_points U).
Proof. by []. Qed.

(** imaginary times add up *)
Lemma exact_add a b f s : cext p f -> config p s -> exact mexp u one cell a (exact mexp u one cell b f) s = exact mexp u one cell (a + b) f s.
Proof using L cov.
move=> Hf Hs; have [_ _ La _] := L; have [_ Hc _] := cov.
rewrite /exact; have := acts_comp (@acts_points (fun t => mexp ((- a * (quarters u one (cell t))%:R / 4%:R) *: term u one (cell t))))
  (@acts_points (fun t => mexp ((- b * (quarters u one (cell t))%:R / 4%:R) *: term u one (cell t)))) Hf Hs.
move=> /= ->; apply: eq_bigr => s' _; congr (_ * _); apply: eq_bigr => t _.
by rewrite -La // -!mulrDl -opprD addrC.
Qed.

Lemma exact0 f s : cext p f -> config p s -> exact mexp u one cell 0 f s = f s.
Proof using L.
move=> Hf Hs; have [L0 _ _ _] := L.
transitivity (act_points (fun _ : T => 1%:M : 'M[C]_p) f s); last by have := @acts_nil C u T f Hf s Hs.
rewrite /exact; apply: eq_bigr => s' _; congr (_ * _); apply: eq_bigr => t _.
by rewrite oppr0 !mul0r scale0r L0.
Qed.

(** so the exact evolution sends no state to zero *)
Lemma exact_lives tau f : cext p f -> ~ vanishes u f -> ~ vanishes u (exact mexp u one cell tau f).
Proof using L cov.
move=> Hf N V; apply: N => s Hs; have := @exact_add (- tau) tau f s Hf Hs; rewrite addNr exact0 // => <-.
by apply: big1 => s' _; rewrite [X in _ * X](_ : _ = 0) ?mulr0 //; apply: V => t.
Qed.
End Free.

Section Run.
Variable C : numClosedFieldType.
Notation tensor := (tensor C).
Notation net := (Mover.net tensor).
Variable R : Type.
Variable randn : R -> forall n q : nat, 'M[C]_(n, q) * R.
Variable trand : R -> nat -> nat -> tensor * R.
Variable lqr : qr_fun C.
Variable lsvd : thin_svd_fun C.
Variable fsvd : full_svd_fun C.
Variable leigh : eigh_fun C.
Variable lchol : chol_fun C.
Variable rtol : nat -> nat -> C.
Variables (lcut noise : C).
Variable fuel : nat.
Variable u : setup C.
Notation nx := (u_nx u).
Notation ny := (u_ny u).
Notation b := (u_bond u).
Notation p := (u_phys u).
Notation cfg := (u_evo u).
Notation state := (Session.state C R).
Hypothesis Sq : qr_spec lqr.
Hypothesis Ss : thin_svd_spec lsvd.
Hypothesis Sf : full_svd_spec fsvd.
Hypothesis Se : eigh_spec leigh.
Hypothesis tot : forall m (A : 'M[C]_m), leigh A.
Hypothesis Rq : real_qr lqr.
Hypothesis Rl : real_thin lsvd.
Hypothesis Rf : real_svd fsvd.
Hypothesis Re : real_eigh leigh.
Hypothesis Rr : real_rand randn.
Hypotheses (b0 : (0 < b)%N) (p0 : (0 < p)%N).
Notation real_net := (RealNet.real_net nx ny b p).
Notation wide := (P29_Session.wide u).
Notation renormalize := (Session.renormalize randn lqr lsvd fsvd u).
Notation evolve := (Session.evolve randn trand lqr lsvd fsvd leigh lchol rtol lcut noise fuel.+1 u).
Notation gates_real := (@P41_FullState.gates_real C u).
Hypotheses (nx1 : (1 < nx)%N) (ny1 : (1 < ny)%N).
Hypothesis Hx : exact_method leigh lchol cfg.
Hypothesis it : (0 < als_niter cfg)%N.
Hypothesis c0 : 0 < positive_approx_cutoff cfg.
Hypothesis a0 : use_gauge_fix cfg -> 0 < gauge_fix_atol cfg /\ gauge_fix_atol cfg ^+ 2 < positive_approx_cutoff cfg *+ minn (b ^ 3) (p * b).
Hypothesis Tf : u_type u = "full".
Variable T : finType.
Variables (nb : nat -> T -> T) (cell : T -> site).
Hypothesis cov : covers nb nx ny cell.
Hypothesis onto : forall s, in_cell nx ny s -> exists t, cell t = s.
Notation amplitude := (P34_State.amplitude u nb cell).
Notation vanishes := (@P41_FullState.vanishes C u T).

Variable mexp : forall n, 'M[C]_n -> 'M[C]_n.
Variable one : site -> option tensor.
Variable two : bond -> tensor.
Hypothesis L : exp_laws mexp u one.
(** the exponentials of the terms at real times are real *)
Hypothesis LR : forall x a, in_cell nx ny x -> a \is Num.real -> forall i j, mexp (a *: term u one x) i j \is Num.real.
Hypothesis Sh : forall x h, one x = Some h -> shape h = [:: p; p].
Hypothesis H2 : no_bonds u two.
Notation gates_for th bl dtau := (model_gates mexp p (Gate.Model tensor one (Gate.Fresh tensor two)) dtau bl (build_site_list nx ny) th).
Notation exact := (@P37_FreeState.exact C mexp u one T cell).

Lemma ent_real n (A : 'M[C]_n) i j : (forall i j, A i j \is Num.real) -> (i < n)%N -> (j < n)%N -> ent A i j \is Num.real.
Proof. by move=> H Hi Hj; rewrite -[i]/(nat_of_ord (Ordinal Hi)) -[j]/(nat_of_ord (Ordinal Hj)) ent_ord. Qed.

Lemma free_real th bl dtau : dtau \is Num.real -> Permutation bl (build_bond_list nx ny) -> gates_real (gates_for th bl dtau).
Proof using L LR Sh H2 nx1 ny1.
move=> Rd HP; have [[Sg _] Hs _] := free_ok L Sh H2 th dtau HP; split=> // x Hxx i; rewrite Sg //.
case: i => [|P [|Q [|r [|q [|]]]]] //=; rewrite ?andbF // andbT => /and4P[HP' HQ Hr Hq].
have [_ ->] // := Hs x Hxx; have [s [k [Hs' Hk Ex]]] := bond_in (Permutation_refl _) Hxx; subst x.
have R4 : - dtau / 4%:R \is Num.real by rewrite realM ?realN // realV realn.
by rewrite /factors /=; case: ifP => _ /=; rewrite realM // ent_real // => i j; [apply: LR|apply: LR => //; apply: nbr_cell|rewrite mxE; case: (_ == _); rewrite ?real1 ?real0..].
Qed.

(** C92.  Full updates evolve a real state under a model without interactions exactly,
    whatever the bond dimension, the time step and the boundary tensors. *)
Theorem C92_evolve th c st dtau steps (s s' : state) : dtau \is Num.real -> s_init s = true -> healthy u c s -> real_net (s_net s) ->
  ~ vanishes (amplitude (s_net s)) ->
  evolve st (gates_for th (s_bonds s) dtau) steps s = Some (Ok s') ->
  exists2 d, 0 < d & forall f, config p f -> amplitude (s_net s') f = d * exact (dtau * steps%:R) (amplitude (s_net s)) f.
Proof using All.
move=> Rd Ei Hs Hn Hv E; have [_ HP _] := Hs; have [Hg Hsp Hpg] := free_ok L Sh H2 th dtau HP; have Gr := free_real th Rd HP.
have AE f : config p f -> P34_State.act_bonds u nb cell (gates_for th (s_bonds s) dtau) (schedule bond (s_bonds s) steps) (amplitude (s_net s)) f = exact (dtau * steps%:R) (amplitude (s_net s)) f.
  by move=> Hf; apply: (acts_schedule L nx1 ny1 cov _ _ Hsp HP) => //; exact: amplitude_cext.
have [|d d0 Hd] := C90_product Sq Ss Sf Se tot Rq Rl Rf Re Rr b0 p0 nx1 ny1 Hx it c0 a0 Tf cov onto Ei Hg Gr Hpg Hs Hn _ E.
  move=> V; apply: (exact_lives L cov (tau := dtau * steps%:R) (@amplitude_cext C u T nb cell (s_net s)) Hv) => f Hf; by rewrite -AE // V.
by exists d => // f Hf; rewrite Hd // AE.
Qed.

(** With bond dimension 1 and the pseudoinverse it does not fail. *)
Theorem C92_succeeds th c st dtau steps (s : state) : b = 1%N -> als_method cfg = "pinv" -> svd_type (u_ctm u) = "full-rank" -> 0 <= svd_cutoff (u_ctm u) -> svd_cutoff (u_ctm u) < 1 ->
  dtau \is Num.real -> s_init s = true -> healthy u c s -> real_net (s_net s) -> live_edges u (s_net s) ->
  ~ vanishes (amplitude (s_net s)) ->
  exists s', evolve st (gates_for th (s_bonds s) dtau) steps s = Some (Ok s').
Proof using All.
move=> b1 Mp Tp k0 k1 Rd Ei Hs Hn He Hv; have [_ HP _] := Hs; have [Hg Hsp Hpg] := free_ok L Sh H2 th dtau HP; have Gr := free_real th Rd HP.
have AE f : config p f -> P34_State.act_bonds u nb cell (gates_for th (s_bonds s) dtau) (schedule bond (s_bonds s) steps) (amplitude (s_net s)) f = exact (dtau * steps%:R) (amplitude (s_net s)) f.
  by move=> Hf; apply: (acts_schedule L nx1 ny1 cov _ _ Hsp HP) => //; exact: amplitude_cext.
apply: (C90_succeeds trand lcut noise Sq Ss Sf Se tot Rq Rl Rf Re Rr b0 p0 nx1 ny1 Hx it c0 a0 Tf cov onto b1 Mp Tp k0 k1 st Ei Hg Gr Hs Hn He).
- by move=> s1 _; apply: product_enough HP _ => // x; apply: in_sched.
- move=> V; apply: (exact_lives L cov (tau := dtau * steps%:R) (@amplitude_cext C u T nb cell (s_net s)) Hv) => f Hf; by rewrite -AE // V.
Qed.

(** ** Simple and full updates *)
Section Agree.
(** another configuration of the same lattice, with simple updates *)
Variable us : setup C.
Hypothesis Hs : same_lattice u us.
Hypothesis Ts : u_type us = "simple".
Hypothesis bs : (0 < u_bond us)%N.
Notation simple_evolve cut := (Session.evolve randn trand lqr lsvd fsvd leigh lchol rtol cut noise fuel.+1 us).
Notation amp_s := (P34_State.amplitude us nb cell).
(** two networks describe the same state, up to a positive factor *)
Definition same_state (n n' : net) : Prop := exists2 d, 0 < d & forall f, config p f -> amp_s n f = d * amplitude n' f.

(** C92.  From the same state, with the same gates and the same order of the bonds,
    simple updates with a small enough cutoff and full updates reach the same state,
    if neither is asked for more than its bonds can carry: the approximations the two
    make of the surroundings of a bond do not matter then. *)
Theorem C92_agree c g steps (s1 s2 : state) : s_init s1 = true -> s_init s2 = true -> gates_ok u g -> gates_real g ->
  s_bonds s1 = s_bonds s2 ->
  (forall x, in_cell nx ny x -> shape (s_net s1 x SA) = [:: u_bond us; u_bond us; u_bond us; u_bond us; p]) ->
  healthy u c s2 -> real_net (s_net s2) ->
  (forall s, renormalize s2 = Ok s -> enough_along randn lqr lsvd fsvd leigh lchol rtol fuel u (s_chi s2) g (schedule bond (s_bonds s2) steps) (s_net s, s_rng s)) ->
  ~ vanishes (P34_State.act_bonds u nb cell g (schedule bond (s_bonds s2) steps) (amplitude (s_net s2))) ->
  same_state (s_net s1) (s_net s2) ->
  exists2 m, 0 < m & forall cut st st' s1' s2', 0 < cut <= m ->
    along lqr fsvd cut (fits us) g (schedule bond (s_bonds s1) steps) (s_net s1, new_lambda tensor (ones_vec us) (s_bonds s1)) ->
    simple_evolve cut st g steps s1 = Some (Ok s1') -> evolve st' g steps s2 = Some (Ok s2') ->
    same_state (s_net s1') (s_net s2').
Proof using Sq Ss Sf Se tot Rq Rl Rf Re Rr b0 p0 nx1 ny1 Hx it c0 a0 Tf cov onto Hs Ts bs.
move=> I1 I2 Hg Gr EB H1 H2' Hn He Hv [d d0 Hd]; have [Enx Eny Ep] := Hs; have [_ HP _] := H2'.
have Hg' := gates_ok_same Hs Hg.
have x1 : (1 < u_nx us)%N by rewrite Enx.
have y1 : (1 < u_ny us)%N by rewrite Eny.
have q1 : (0 < u_phys us)%N by rewrite Ep.
have cov' : covers nb (u_nx us) (u_ny us) cell by rewrite Enx Eny.
have HP' : Permutation (s_bonds s1) (build_bond_list (u_nx us) (u_ny us)) by rewrite EB Enx Eny.
have [|m m0 Hm] := @C87_small C R randn trand lqr lsvd fsvd leigh lchol rtol noise fuel.+1 us Sq Sf x1 y1 bs q1 T nb cell cov' g steps s1 Ts I1 Hg' HP'.
  by move=> x; rewrite Enx Eny Ep; apply: H1.
exists m => // cut st st' s1' s2' Hc Hf E1 E2.
have [d1 d10 H1'] := Hm cut st s1' Hc Hf E1.
have [d2 d20 H2''] := C90_evolve Sq Ss Sf Se tot Rq Rl Rf Re Rr b0 p0 nx1 ny1 Hx it c0 a0 Tf cov onto I2 Hg Gr H2' Hn He Hv E2.
exists (d1 * d / d2) => [|f Hf']; first by rewrite divr_gt0 // mulr_gt0.
rewrite H1' ?Ep // (act_bonds_same _ _ _ _ _ _ Hs) EB (act_bonds_ext nb cell g _ Hd Hf') H2'' //.
by rewrite -!mulrA (mulKf (lt0r_neq0 d20)).
Qed.

(** C92.  Under a model without interactions both reach the same state, whatever the
    orders of the bonds, the bond dimensions and the time steps, if the total imaginary
    times are the same. *)
Theorem C92_agree_free th1 th2 c dtau1 dtau2 steps1 steps2 (s1 s2 : state) : dtau2 \is Num.real -> dtau1 * steps1%:R = dtau2 * steps2%:R ->
  s_init s1 = true -> s_init s2 = true -> Permutation (s_bonds s1) (build_bond_list nx ny) ->
  (forall x, in_cell nx ny x -> shape (s_net s1 x SA) = [:: u_bond us; u_bond us; u_bond us; u_bond us; p]) ->
  healthy u c s2 -> real_net (s_net s2) -> ~ vanishes (amplitude (s_net s2)) -> same_state (s_net s1) (s_net s2) ->
  exists2 m, 0 < m & forall cut st st' s1' s2', 0 < cut <= m ->
    simple_evolve cut st (gates_for th1 (s_bonds s1) dtau1) steps1 s1 = Some (Ok s1') -> evolve st' (gates_for th2 (s_bonds s2) dtau2) steps2 s2 = Some (Ok s2') ->
    same_state (s_net s1') (s_net s2').
Proof using All.
move=> Rd Et I1 I2 HP H1 H2' Hn Hv [d d0 Hd]; have [Enx Eny Ep] := Hs.
have x1 : (1 < u_nx us)%N by rewrite Enx.
have y1 : (1 < u_ny us)%N by rewrite Eny.
have q1 : (0 < u_phys us)%N by rewrite Ep.
have cov' : covers nb (u_nx us) (u_ny us) cell by rewrite Enx Eny.
have HP' : Permutation (s_bonds s1) (build_bond_list (u_nx us) (u_ny us)) by rewrite Enx Eny.
have [L' Z'] : exp_laws mexp us one /\ no_bonds us two.
  by split; [move: L|move: H2]; case: (u) (us) Hs => ? ? ? ? ? ? ? ? ? [? ? ? ? ? ? ? ? ?] [/= -> -> ->].
have Sh' x h : one x = Some h -> shape h = [:: u_phys us; u_phys us] by rewrite Ep; apply: Sh.
have [|m m0 Hm] := @C87_free C R randn trand lqr lsvd fsvd leigh lchol rtol noise fuel.+1 mexp us one two Sq Sf x1 y1 bs q1 L' Sh' Z' T nb cell cov' th1 dtau1 steps1 s1 Ts I1 HP'.
  by move=> x; rewrite Enx Eny Ep; apply: H1.
exists m => // cut st st' s1' s2' Hc E1 E2.
have [|d1 d10 H1'] := Hm cut st s1' Hc; first by rewrite Enx Eny Ep; exact: E1.
have [d2 d20 H2''] := C92_evolve Rd I2 H2' Hn Hv E2.
exists (d1 * d / d2) => [|f Hf']; first by rewrite divr_gt0 // mulr_gt0.
rewrite H1' ?Ep // (exact_same _ _ _ _ _ _ Hs) Et H2'' //.
have -> : exact (dtau2 * steps2%:R) (amp_s (s_net s1)) f = d * exact (dtau2 * steps2%:R) (amplitude (s_net s2)) f.
  rewrite /P37_FreeState.exact /act_points mulr_sumr; apply: eq_bigr => s' _; rewrite Hd; first by rewrite mulrCA.
  by move=> t.
by rewrite -!mulrA (mulKf (lt0r_neq0 d20)).
Qed.

(** C92.  So they do under a model with real diagonal terms, from states of copy form. *)
Theorem C92_agree_classical lab1 lab2 S1 S2 e th1 th2 c dtau1 dtau2 steps1 steps2 (s1 s2 : state) f0 : classical_model u one two ->
  exp_diag mexp u e -> exponential S1 e -> exponential S2 e -> all_in u one two S1 dtau1 -> all_in u one two S2 dtau2 -> (forall a, S2 a -> e a \is Num.real) ->
  narrow_model us two lab1 -> narrow_model u two lab2 -> dtau1 * steps1%:R = dtau2 * steps2%:R ->
  s_init s1 = true -> s_init s2 = true -> Permutation (s_bonds s1) (build_bond_list nx ny) ->
  (forall x, in_cell nx ny x -> shape (s_net s1 x SA) = [:: u_bond us; u_bond us; u_bond us; u_bond us; p]) -> classical us lab1 (s_net s1) ->
  healthy u c s2 -> real_net (s_net s2) -> classical u lab2 (s_net s2) ->
  config p f0 -> e (- dtau2 * energy u one two nb cell f0) != 0 -> amplitude (s_net s2) f0 != 0 -> same_state (s_net s1) (s_net s2) ->
  exists2 m, 0 < m & forall cut st st' s1' s2', 0 < cut <= m ->
    simple_evolve cut st (gates_for th1 (s_bonds s1) dtau1) steps1 s1 = Some (Ok s1') -> evolve st' (gates_for th2 (s_bonds s2) dtau2) steps2 s2 = Some (Ok s2') ->
    same_state (s_net s1') (s_net s2').
Proof using Sq Ss Sf Se tot Rq Rl Rf Re Rr b0 p0 nx1 ny1 Hx it c0 a0 Tf cov onto Hs Ts bs.
move=> M He E1 E2 A1 A2 Re2 N1 N2 Et I1 I2 HP H1 K1 H2' Hn K2 Hf0 e0 a00 [d d0 Hd]; have [Enx Eny Ep] := Hs.
have x1 : (1 < u_nx us)%N by rewrite Enx.
have y1 : (1 < u_ny us)%N by rewrite Eny.
have q1 : (0 < u_phys us)%N by rewrite Ep.
have cov' : covers nb (u_nx us) (u_ny us) cell by rewrite Enx Eny.
have HP' : Permutation (s_bonds s1) (build_bond_list (u_nx us) (u_ny us)) by rewrite Enx Eny.
have [M' He' A1' EE] : [/\ classical_model us one two, exp_diag mexp us e, all_in us one two S1 dtau1 & forall f, energy us one two nb cell f = energy u one two nb cell f].
  by split; [move: M|move: He|move: A1|]; case: (u) (us) Hs => ? ? ? ? ? ? ? ? ? [? ? ? ? ? ? ? ? ?] [/= -> -> ->].
have [|m m0 Hm] := @C88_energy C R randn trand lqr lsvd fsvd leigh lchol rtol noise fuel.+1 mexp us one two Sq Sf x1 y1 bs q1 T nb cell cov' lab1 M' S1 e th1 dtau1 steps1 s1 He' E1 A1' N1 Ts I1 HP' _ K1.
  by move=> x; rewrite Enx Eny Ep; apply: H1.
exists m => // cut st st' s1' s2' Hc R1 R2.
have [|d1 d10 H1'] := Hm cut st s1' Hc; first by rewrite Enx Eny Ep; exact: R1.
have [_ [d2 d20 H2'']] := C91_energy Sq Ss Sf Se tot Rq Rl Rf Re Rr b0 p0 nx1 ny1 Hx it c0 a0 Tf cov onto M He E2 A2 Re2 N2 I2 H2' Hn K2 Hf0 e0 a00 R2.
exists (d1 * d / d2) => [|f Hf']; first by rewrite divr_gt0 // mulr_gt0.
rewrite H1' ?Ep // EE Et H2'' // Hd // -!mulrA (mulKf (lt0r_neq0 d20)); congr (_ * _); exact: mulrCA.
Qed.
End Agree.
End Run.

(** ** A concrete case *)
Section Example.
Variable C : numClosedFieldType.
Notation tensor := (tensor C).
Notation us := (cell_setup C 2 2).
Notation uf := (fset C).
Notation nb := (tnbr (nx := 2) (ny := 2)).
Notation cell a c := (tcell (a := a) (c := c) (nx := 2) (ny := 2)).
Notation one := (fun _ : site => Some (raise C)).
Notation evolve u cut := (@Session.evolve C unit (fun r _ _ => (0, r)) (@zeros_rand C) (@some_qr C) (@some_thin_svd C) (@some_full_svd C) (@some_eigh C) (@some_chol C) (fun _ _ => 0) cut 0 1 u).
Notation gates_for th dtau := (model_gates (@series C) 2 (Gate.Model tensor one (Gate.Fresh tensor (@nothing C))) dtau (build_bond_list 2 2) (build_site_list 2 2) th).

(** a field that raises the spins, with different time steps: on a lattice of any size
    simple and full updates succeed and reach the same state *)
Example C92_example th1 th2 st dtau1 dtau2 steps1 steps2 a c : (0 < a)%N -> (0 < c)%N -> dtau2 \is Num.real -> dtau1 * steps1%:R = dtau2 * steps2%:R ->
  exists2 m, 0 < m & forall cut, 0 < cut <= m -> exists s1 s2,
  [/\ evolve us cut (fun _ => [:: 1; 0]) (gates_for th1 dtau1) steps1 (up_state C) = Some (Ok s1),
      evolve uf 1 st (gates_for th2 dtau2) steps2 (up_state C) = Some (Ok s2),
      same_state uf nb (cell a c) us (s_net s1) (s_net s2) &
      exists2 d, 0 < d & forall f, config 2 f ->
        amplitude uf nb (cell a c) (s_net s2) f = d * act_points (fun _ => 1%:M - (dtau2 * steps2%:R) *: mx_of 2 2 (raise C)) (amplitude uf nb (cell a c) (up_net C)) f].
Proof.
move=> a1 c1 Rd Et.
have tot n (A : 'M[C]_n) : some_eigh A by [].
have Hx : exact_method (@some_eigh C) (@some_chol C) (u_evo uf) by split=> //; right; split=> //; exact: some_eigh_spec.
have Rr : real_rand (fun (r : unit) n q => ((0 : 'M[C]_(n, q)), r)) by move=> r n q i j; rewrite mxE rpred0.
have c0 : 0 < positive_approx_cutoff (u_evo uf) by rewrite ltr0n.
have a0 : use_gauge_fix (u_evo uf) -> 0 < gauge_fix_atol (u_evo uf) /\ gauge_fix_atol (u_evo uf) ^+ 2 < positive_approx_cutoff (u_evo uf) *+ minn (1 ^ 3) (2 * 1).
  by move=> _; split; rewrite /= ?ltr01 // expr1n mulr1n ltr1n.
have Hs : healthy uf 3 (up_state C).
  by split=> //; exists (fun _ _ => 1%N) => // x Hx'; split=> // k Hk.
have Hn : RealNet.real_net 2 2 1 2 (s_net (up_state C)).
  by move=> x Hx'; split=> // w i _; case: w => *; rewrite /= ?realn ?real1.
have Ho : live_edges uf (s_net (up_state C)) by move=> x Hx' k Hk; split; split=> //=; rewrite oner_neq0.
have L : exp_laws (@series C) uf one := series_laws C 2 2.
have LR (x : site) t : in_cell 2 2 x -> t \is Num.real -> forall i j, series (t *: term uf one x) i j \is Num.real.
  move=> _ Rt i j; rewrite -[term _ _ _]/(mx_of 2 2 (raise C)) series1 !mxE realD ?realn // realM //=.
  by case: ifP => _; rewrite ?real1 ?real0.
have Sh (x : site) (h : tensor) : one x = Some h -> shape h = [:: 2; 2]%N by case=> <-.
have H2 : no_bonds uf (@nothing C) by move=> b _; split=> //; apply/matrixP => i j; rewrite !mxE.
have V a' c' : ~ vanishes uf (amplitude uf nb (cell a' c') (up_net C)).
  move=> /(_ (fun _ => 0%N) (fun _ => isT)) /eqP; apply/negP/lt0r_neq0.
  rewrite /amplitude /psi (bigD1 [ffun _ => ord0]) //=; apply: ltr_paddr.
    by apply: sumr_ge0 => m _; apply: prodr_ge0 => t _; rewrite ler0n.
  by rewrite big1 ?ltr01.
have Sa : same_lattice uf us by [].
have S0 : same_state uf nb (cell a c) us (up_net C) (up_net C) by exists 1 => [|f _]; [exact: ltr01|rewrite mul1r].
have cov := @torus_covers a c 2 2 a1 c1 isT isT.
have [s2 E2] := @C92_succeeds C unit (fun r _ _ => (0, r)) (@zeros_rand C) _ _ _ _ (@some_chol C) (fun _ _ => 0) 1 0 0 uf (@some_qr_spec C) (@some_thin_svd_spec C) (@some_full_svd_spec C) (@some_eigh_spec C) tot
  (@some_qr_real C) (@some_thin_svd_real C) (@some_full_svd_real C) (@some_eigh_real C) Rr isT isT isT isT Hx isT c0 a0 erefl _ _ _ cov (@P41_FullState.torus_onto a c 2 2 a1 c1)
  (@series C) one (@nothing C) L LR Sh H2 th2 3 st dtau2 steps2 (up_state C) erefl erefl erefl (Order.POrderTheory.lexx 0) ltr01 Rd erefl Hs Hn Ho (V a c).
have [|m m0 Hm] := @C92_agree_free C unit (fun r _ _ => (0, r)) (@zeros_rand C) _ _ _ _ (@some_chol C) (fun _ _ => 0) 1 0 0 uf (@some_qr_spec C) (@some_thin_svd_spec C) (@some_full_svd_spec C) (@some_eigh_spec C) tot
  (@some_qr_real C) (@some_thin_svd_real C) (@some_full_svd_real C) (@some_eigh_real C) Rr isT isT isT isT Hx isT c0 a0 erefl _ _ _ cov (@P41_FullState.torus_onto a c 2 2 a1 c1)
  (@series C) one (@nothing C) L LR Sh H2 us Sa erefl isT th1 th2 3 dtau1 dtau2 steps1 steps2 (up_state C) (up_state C) Rd Et erefl erefl (Permutation_refl _) _ Hs Hn (V a c) S0.
  by [].
exists m => // cut Hc; have cut0 : 0 < cut by case/andP: Hc.
pose v (_ : site) (q : nat) : C := (q == 0%N)%:R.
have P0 : product us (PState v (build_bond_list 2 2) true) (up_state C).
  split=> //; last by move=> x _; exists 1; rewrite ?oner_neq0 // => q _; rewrite mul1r.
  exists (fun _ _ => 1) => x Hx'; split=> // k Hk; rewrite /Ring.R2 /Ring.R4 /Ring.along conjC1 !mulr1; split; split=> //; exact: ltr01.
have A0 : alive us (p_vec (PState v (build_bond_list 2 2) true)) by move=> x _; exists 0%N => //; rewrite oner_neq0.
pose rq := AskEvolve th1 (build_bond_list 2 2) (fun _ => [:: 1; 0]) dtau1 steps1.
have Hr : request_ok us rq by split.
have Hk : request_kind (@zeros_rand C) 0 us rq by move=> y r2 _; exists 0%N; rewrite //= mul0r add0r oner_eq0.
have Srand r : shape (@zeros_rand C r 1 2).1 = [:: 1; 1; 1; 1; 2]%N by [].
have Hm' : als_method (u_evo us) = "cholesky" \/ als_method (u_evo us) = "pinv" by right.
have ni : u_type us = "full" -> (0 < als_niter (u_evo us))%N by [].
have Hp : u_ptype us = Half \/ svd_type (u_ctm us) = "full-rank" by right.
have [s1 [o1 [E1 _]]] := perform_total (u := us) (lcut := cut) (noise := 0) (fun (r : unit) (n q : nat) => (0 : 'M[C]_(n, q), r)) (@some_chol C) (fun _ _ => 0) 0 (fun _ => Tensor [::] (fun _ => 0))
  (@some_qr_spec C) (@some_thin_svd_spec C) (@some_full_svd_spec C) (@some_eigh_spec C) tot Srand Hm' (Order.POrderTheory.lexx 0) (fun _ => ltr01) cut0 isT isT isT erefl ni Hp erefl erefl
  (Order.POrderTheory.lexx 0) ltr01 P0 A0 (request_ask (series_laws C 2 2) Sh H2 Hr) (request_kindly (@nothing C) (series_laws C 2 2) Hk).
have {}E1 : evolve us cut (fun _ => [:: 1; 0]) (gates_for th1 dtau1) steps1 (up_state C) = Some (Ok s1).
  move: E1; cbn [call_of rq Session.perform]; case: Session.evolve => [[s3|]|] //=. by case=> ->.
exists s1, s2; split=> //; first exact: Hm Hc E1 E2.
have [d d0 Hd] := @C92_evolve C unit (fun r _ _ => (0, r)) (@zeros_rand C) _ _ _ _ (@some_chol C) (fun _ _ => 0) 1 0 0 uf (@some_qr_spec C) (@some_thin_svd_spec C) (@some_full_svd_spec C) (@some_eigh_spec C) tot
  (@some_qr_real C) (@some_thin_svd_real C) (@some_full_svd_real C) (@some_eigh_real C) Rr isT isT isT isT Hx isT c0 a0 erefl _ _ _ cov (@P41_FullState.torus_onto a c 2 2 a1 c1)
  (@series C) one (@nothing C) L LR Sh H2 th2 3 st dtau2 steps2 (up_state C) s2 Rd erefl Hs Hn (V a c) E2.
exists d => // f Hf; rewrite Hd //; congr (_ * _); apply: eq_bigr => s' _; congr (_ * _); apply: eq_bigr => t _.
have -> : quarters uf one (cell a c t) = 4%N by rewrite /quarters /has sum_nat_const card_ord.
by rewrite mulfK ?pnatr_eq0 // -[term _ _ _]/(mx_of 2 2 (raise C)) series1 scaleNr.
Qed.
End Example.

Print Assumptions C92_evolve.
Print Assumptions C92_succeeds.
Print Assumptions C92_agree.
Print Assumptions C92_agree_free.
Print Assumptions C92_agree_classical.
Print Assumptions C92_example.
