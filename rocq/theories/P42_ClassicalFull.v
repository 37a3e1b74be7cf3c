(** C91: classical models, whose terms are all diagonal, are evolved exactly by full
    updates from real states of copy form, whatever the boundary tensors. *)
From Coq Require Import String Ascii Permutation.
From mathcomp Require Import all_ssreflect all_algebra.
From Verif Require Import Base Lattice LatticeFacts Mover Neel Gate GateSum P04_GateSum Tensor TN Rdm RdmFacts Fits Measure MeasureFacts FullUpdate Linalg Mat Rsvd RsvdFacts Renorm RenormFacts Spectral ProjFacts Psd Als AlsFacts EighChol UpdFacts InitFacts Dist Lambda Evolve P05_Mover MoveShape P08_Control P09_Rdm P13_Renorm P16_Als P17_Reduced Eckart P20_Simple P22_SimpleUpdate P23_Solver P24_FullUpdate P26_SiteUpdate Cutensor P27_Cutensor Session P29_Session RealNet RealUpd P30_Product P31_Calls P32_Basis Layer CoverFacts Torus P34_State FreeCount P36_Free P37_FreeState P38_Cutoff P39_Classical ProductState P41_FullState Pauli Samples P40_Samples.
Set Implicit Arguments.
Unset Strict Implicit.
Unset Printing Implicit Defensive.
Import GRing.Theory Num.Theory.
Local Open Scope ring_scope.
Local Open Scope string_scope.

(** ** One bond *)
Section Bond.
Variable C : numClosedFieldType.
Notation tensor := (tensor C).
Notation pair := (nat -> nat -> nat -> nat -> C).

(** each tensor of a pair with orthogonal bond states is made of the state of the pair *)
Lemma span_of b p (e1 e2 : nat -> nat -> nat -> C) (w : nat -> C) (goal : pair) c :
  (forall P Q y x, (P < p)%N -> (Q < p)%N -> (y < b ^ 3)%N -> (x < b ^ 3)%N -> sumn b (fun v => e1 v y P * e2 v x Q) = c * goal P Q y x) ->
  (forall u v, (u < b)%N -> (v < b)%N -> overlap b p e1 u v = w u *+ (u == v)) ->
  (forall u v, (u < b)%N -> (v < b)%N -> overlap b p e2 u v = w u *+ (u == v)) ->
  exists z1 z2 : nat -> nat -> nat -> C,
    (forall u y P, (u < b)%N -> (y < b ^ 3)%N -> (P < p)%N -> e1 u y P = sumn (b ^ 3) (fun x => sumn p (fun Q => goal P Q y x * z1 u x Q))) /\
    (forall u x Q, (u < b)%N -> (x < b ^ 3)%N -> (Q < p)%N -> e2 u x Q = sumn (b ^ 3) (fun y => sumn p (fun P => goal P Q y x * z2 u y P))).
Proof.
move=> Es O1 O2.
have pick (F : nat -> C) u l : (u < b)%N -> sumn b (fun v => F v * (l *+ (u == v))) = F u * l.
  move=> Hu; rewrite /sumn (bigD1 (Ordinal Hu)) //= eqxx mulr1n big1 ?addr0 // => v Nv.
  by rewrite [u == v](_ : _ = false) ?mulr0n ?mulr0 //; apply: contraNF Nv => /eqP E'; apply/eqP/val_inj.
have none (e : nat -> nat -> nat -> C) u : overlap b p e u u = 0 -> forall y P, (y < b ^ 3)%N -> (P < p)%N -> e u y P = 0.
  rewrite /overlap /sumn => /eqP H y P Hy HP; move: H; rewrite psumr_eq0 => [/allP H|i _]; last first.
    by apply: sumr_ge0 => j _; rewrite mulrC mul_conjC_ge0.
  have := H (Ordinal Hy) (mem_index_enum _); rewrite psumr_eq0 => [/allP {}H|j _]; last by rewrite mulrC mul_conjC_ge0.
  by have := H (Ordinal HP) (mem_index_enum _); rewrite /= mulrC mul_conjC_eq0 => /eqP.
exists (fun u x Q => c * (e2 u x Q)^* / w u), (fun u y P => c * (e1 u y P)^* / w u); split.
- move=> u y P Hu Hy HP; case: (eqVneq (w u) 0) => [L0|L0].
    rewrite (none e1 u) // ?O1 // L0 ?mul0rn // /sumn big1 // => x _; rewrite big1 // => Q _; by rewrite invr0 !mulr0.
  apply: (mulIf L0); rewrite -(pick (fun v => e1 v y P)) //.
  transitivity (sumn b (fun v => e1 v y P * overlap b p e2 u v)).
    by apply: eq_sumn => v Hv; rewrite O2.
  rewrite /overlap; transitivity (sumn (b ^ 3) (fun x => sumn p (fun Q => sumn b (fun v => e1 v y P * e2 v x Q) * (e2 u x Q)^*))).
    transitivity (sumn b (fun v => sumn (b ^ 3) (fun x => sumn p (fun Q => e1 v y P * e2 v x Q * (e2 u x Q)^*)))).
      apply: eq_sumn => v _; rewrite sumn_mull; apply: eq_sumn => x _; rewrite sumn_mull; apply: eq_sumn => Q _.
      by rewrite [(_)^* * _]mulrC mulrA.
    rewrite sumnC; apply: eq_sumn => x _; rewrite sumnC; apply: eq_sumn => Q _; by rewrite sumn_mulr.
  rewrite sumn_mulr; apply: eq_sumn => x Hx; rewrite sumn_mulr; apply: eq_sumn => Q HQ; rewrite Es //.
  by rewrite -!mulrA (mulVf L0) mulr1 mulrCA.
move=> u x Q Hu Hx HQ; case: (eqVneq (w u) 0) => [L0|L0].
  rewrite (none e2 u) // ?O2 // L0 ?mul0rn // /sumn big1 // => y _; rewrite big1 // => P _; by rewrite invr0 !mulr0.
apply: (mulIf L0); rewrite -(pick (fun v => e2 v x Q)) //.
transitivity (sumn b (fun v => e2 v x Q * overlap b p e1 u v)).
  by apply: eq_sumn => v Hv; rewrite O1.
rewrite /overlap; transitivity (sumn (b ^ 3) (fun y => sumn p (fun P => sumn b (fun v => e1 v y P * e2 v x Q) * (e1 u y P)^*))).
  transitivity (sumn b (fun v => sumn (b ^ 3) (fun y => sumn p (fun P => e1 v y P * e2 v x Q * (e1 u y P)^*)))).
    apply: eq_sumn => v _; rewrite sumn_mull; apply: eq_sumn => y _; rewrite sumn_mull; apply: eq_sumn => P _.
    by rewrite [(_)^* * _]mulrC mulrA [e2 _ _ _ * _]mulrC.
  rewrite sumnC; apply: eq_sumn => y _; rewrite sumnC; apply: eq_sumn => P _; by rewrite sumn_mulr.
rewrite sumn_mulr; apply: eq_sumn => y Hy; rewrite sumn_mulr; apply: eq_sumn => P HP; rewrite Es //.
by rewrite -!mulrA (mulVf L0) mulr1 mulrCA.
Qed.

Let uw (d : nat) : tensor := Tensor [::] (fun _ => 1).
Lemma uw1 b k y : wgt1 b k uw id y = 1 :> C. Proof. by rewrite /wgt1 /wprod big1. Qed.
Lemma uw2 b k y : wgt2 b k uw id y = 1 :> C. Proof. by rewrite /wgt2 /wprod big1. Qed.
Lemma pair_uw b k (a1 a2 : tensor) P Q y x : (k < 4)%N -> pair_state b k id uw uw a1 a2 P Q y x = bond_state b k a1 a2 P Q y x.
Proof. by move=> Hk; rewrite pair_joined // uw1 uw2 !mul1r. Qed.
Lemma gate_uw b p k (a1 a2 gate : tensor) P Q y x : (k < 4)%N ->
  two_site_gate p gate (pair_state b k id uw uw a1 a2) P Q y x = two_site_gate p gate (bond_state b k a1 a2) P Q y x.
Proof. by move=> Hk; apply: eq_sumn => P' _; apply: eq_sumn => Q' _; rewrite pair_uw. Qed.

Variables (b p k : nat) (gate : tensor) (h : nat -> nat -> C) (lab1 lab2 : nat -> nat -> nat).
Hypothesis Hk : (k < 4)%N.
Hypothesis Hg : diagonal_gate p gate h.
Hypothesis Hh : through p h (lab1 k) (lab2 ((k + 2) %% 4)%N).

(** a diagonal gate does not ask for more bond states than labels *)
Lemma copy_bond_within (a1 a2 : tensor) : few b p (lab1 k) \/ few b p (lab2 ((k + 2) %% 4)%N) -> copy_form b p lab1 a1 -> copy_form b p lab2 a2 ->
  P34_State.within b p (two_site_gate p gate (bond_state b k a1 a2)).
Proof.
move=> Hb K1 K2; have [b1 [b2 H]] := @copy_within C b p k uw uw a1 a2 gate h lab1 lab2 Hk Hg Hh Hb K1 K2.
by exists b1, b2 => P Q y x HP HQ Hy Hx; rewrite -H // gate_uw.
Qed.

(** tensors with orthogonal bond states that describe the new pair are of copy form *)
Lemma copy_canonical (a1 a2 a1' a2' : tensor) c : copy_form b p lab1 a1 -> copy_form b p lab2 a2 ->
  (forall P Q y x, (P < p)%N -> (Q < p)%N -> (y < b ^ 3)%N -> (x < b ^ 3)%N ->
    bond_state b k a1' a2' P Q y x = c * two_site_gate p gate (bond_state b k a1 a2) P Q y x) ->
  canonical b p k a1' a2' -> copy_form b p lab1 a1' /\ copy_form b p lab2 a2'.
Proof.
move=> K1 K2 Es [w [_ _ _ O1 O2]].
have [z1 [z2 [X1 X2]]] := @span_of b p (fun v y P => at_ a1' (leg1 k v (unravel [:: b; b; b] y) P)) (fun v y P => at_ a2' (leg2 k v (unravel [:: b; b; b] y) P)) w _ c Es O1 O2.
have [al [be [hh Hhh]]] := Hh; have [c1 [F1 H1]] := K1; have [c2 [F2 H2]] := K2.
have G P Q y x HP HQ Hy Hx := @copy_goal C b p k uw uw a1 a2 gate h lab1 lab2 al be hh c1 c2 F1 F2 Hk Hg Hhh H1 H2 P Q y x HP HQ Hy Hx.
have {}G P Q y x : (P < p)%N -> (Q < p)%N -> (y < b ^ 3)%N -> (x < b ^ 3)%N -> two_site_gate p gate (bond_state b k a1 a2) P Q y x =
    al P * out1 lab1 c1 F1 b k y P * (be Q * out2 lab2 c2 F2 b k x Q) * (hh (lab1 k P) (lab2 ((k + 2) %% 4)%N Q) * sumn b (fun v => F1 k v (lab1 k P) * F2 ((k + 2) %% 4)%N v (lab2 ((k + 2) %% 4)%N Q))).
  by move=> HP HQ Hy Hx; rewrite -gate_uw // G // uw1 uw2 !mul1r.
pose M l m := hh l m * sumn b (fun v => F1 k v l * F2 ((k + 2) %% 4)%N v m).
have Hk2 : ((k + 2) %% 4 < 4)%N by rewrite ltn_mod.
split.
  pose Y u l := sumn (b ^ 3) (fun x => sumn p (fun Q => be Q * out2 lab2 c2 F2 b k x Q * M l (lab2 ((k + 2) %% 4)%N Q) * z1 u x Q)).
  pose F' d i l := if d == k then Y i l else F1 d i l.
  exists (fun P => al P * c1 P), F' => v Hv.
  have [u [y [P [Hu Hy HP ->]]]] := leg1_onto Hk Hv; rewrite (prod1 (fun d i P => F' d i (lab1 d P))) // leg1_4 // {1}/F' eqxx.
  rewrite X1 //.
  have -> : outer1 (fun d i P => F' d i (lab1 d P)) b k y P = outer1 (fun d i P => F1 d i (lab1 d P)) b k y P.
    by rewrite /outer1; apply: eq_bigr => d Nd; rewrite /F' (negPf Nd).
  set O := outer1 _ _ _ _ _.
  rewrite mulrCA [RHS]mulrC /Y sumn_mull; apply: eq_sumn => x Hx; rewrite sumn_mull; apply: eq_sumn => Q HQ.
  by rewrite G // -/(M _ _) /out1 -/O !mulrA.
pose Y u m := sumn (b ^ 3) (fun y => sumn p (fun P => (al P * out1 lab1 c1 F1 b k y P) * M (lab1 k P) m * z2 u y P)).
pose F' d i l := if d == ((k + 2) %% 4)%N then Y i l else F2 d i l.
exists (fun P => be P * c2 P), F' => v Hv.
have [u [x [Q [Hu Hx HQ ->]]]] := leg2_onto Hk Hv; rewrite (prod2 (fun d i P => F' d i (lab2 d P))) // leg2_4 // {1}/F' eqxx.
rewrite X2 //.
have -> : outer2 (fun d i P => F' d i (lab2 d P)) b k x Q = outer2 (fun d i P => F2 d i (lab2 d P)) b k x Q.
  by rewrite /outer2; apply: eq_bigr => d Nd; rewrite /F' (negPf Nd).
set O := outer2 _ _ _ _ _.
rewrite mulrCA [RHS]mulrC /Y sumn_mull; apply: eq_sumn => y Hy; rewrite sumn_mull; apply: eq_sumn => P HP.
by rewrite G // -/(M _ _) /out2 -/O [al P * _ * _]mulrC !mulrA.
Qed.
End Bond.

(** ** Evolutions *)
Section Run.
Variable C : numClosedFieldType.
Notation tensor := (tensor C).
Notation net := (Mover.net tensor).
Notation real := (@entries_real C).
Variable R : Type.
Variable randn : R -> forall n q : nat, 'M[C]_(n, q) * R.
Variable trand : R -> nat -> nat -> tensor * R.
Variable lqr : qr_fun C.
Variable lsvd : thin_svd_fun C.
Variable fsvd : full_svd_fun C.
Variable leigh : eigh_fun C.
Variable lchol : chol_fun C.
Variable rtol : nat -> nat -> C.
Variables (lcut noise : C).
Variable fuel : nat.
Variable u : setup C.
Notation nx := (u_nx u).
Notation ny := (u_ny u).
Notation b := (u_bond u).
Notation p := (u_phys u).
Notation cfg := (u_evo u).
Notation state := (Session.state C R).
Hypothesis Sq : qr_spec lqr.
Hypothesis Ss : thin_svd_spec lsvd.
Hypothesis Sf : full_svd_spec fsvd.
Hypothesis Se : eigh_spec leigh.
Hypothesis tot : forall m (A : 'M[C]_m), leigh A.
Hypothesis Rq : real_qr lqr.
Hypothesis Rl : real_thin lsvd.
Hypothesis Rf : real_svd fsvd.
Hypothesis Re : real_eigh leigh.
Hypothesis Rr : real_rand randn.
Hypotheses (b0 : (0 < b)%N) (p0 : (0 < p)%N).
Notation real_net := (RealNet.real_net nx ny b p).
Notation wide := (P29_Session.wide u).
Notation full_step := (Session.full_step randn lqr lsvd fsvd leigh lchol rtol fuel.+1 u).
Notation renormalize := (Session.renormalize randn lqr lsvd fsvd u).
Notation evolve := (Session.evolve randn trand lqr lsvd fsvd leigh lchol rtol lcut noise fuel.+1 u).
Notation enough := (@P41_FullState.enough C u).
Notation enough_along := (@P41_FullState.enough_along C R randn lqr lsvd fsvd leigh lchol rtol fuel u).
Notation gates_real := (@P41_FullState.gates_real C u).

Hypotheses (nx1 : (1 < nx)%N) (ny1 : (1 < ny)%N).
Hypothesis Hx : exact_method leigh lchol cfg.
Hypothesis it : (0 < als_niter cfg)%N.
Hypothesis c0 : 0 < positive_approx_cutoff cfg.
Hypothesis a0 : use_gauge_fix cfg -> 0 < gauge_fix_atol cfg /\ gauge_fix_atol cfg ^+ 2 < positive_approx_cutoff cfg *+ minn (b ^ 3) (p * b).
Hypothesis Tf : u_type u = "full".
Variable T : finType.
Variables (nb : nat -> T -> T) (cell : T -> site).
Hypothesis cov : covers nb nx ny cell.
Hypothesis onto : forall s, in_cell nx ny s -> exists t, cell t = s.
Notation amplitude := (P34_State.amplitude u nb cell).
Notation act_bond := (P34_State.act_bond u nb cell).
Notation act_bonds := (P34_State.act_bonds u nb cell).
Notation vanishes := (@P41_FullState.vanishes C u T).
Notation bond_weight := (@P39_Classical.bond_weight C T nb cell).
Notation lattice_weight := (@P39_Classical.lattice_weight C u T nb cell).
Variable lab : site -> nat -> nat -> nat.
Notation classical := (@P39_Classical.classical C u lab).
Notation narrow := (@P39_Classical.narrow C u lab).

Lemma classical_enough h g x bl (n : net) : diagonal_gates u h g -> narrow h -> Permutation bl (build_bond_list nx ny) -> List.In x bl -> classical n -> enough g x n.
Proof using nx1 ny1.
move=> [_ Hd] Hnr HP Hin Hc; have Hin' := Permutation_in _ HP Hin.
have [s [k [Hs Hk Ex]]] := bond_in HP Hin; have [Ht Hf] := Hnr x Hin'; have {}Hd := Hd x Hin'; subst x.
by apply: (@copy_bond_within C b p k (g_two g _) (h _) (lab s) (lab (nbr nx ny k s)) Hk Hd Ht _ _ Hf); apply: Hc => //; apply: nbr_cell.
Qed.

(** C91.  One full update with a diagonal gate *)
Theorem C91_step c chi0 h g x nr bl nr' f0 : (0 < chi0 <= c)%N -> gates_ok u g -> gates_real g -> diagonal_gates u h g -> narrow h ->
  Permutation bl (build_bond_list nx ny) -> List.In x bl -> wide c nr.1 -> real_net nr.1 -> classical nr.1 ->
  config p f0 -> amplitude nr.1 f0 != 0 -> bond_weight h f0 x != 0 ->
  full_step chi0 g x nr = Some (Ok nr') ->
  [/\ wide c nr'.1, real_net nr'.1, classical nr'.1 &
    exists2 d, 0 < d & forall f, config p f -> amplitude nr'.1 f = d * (bond_weight h f x * amplitude nr.1 f)].
Proof using All.
move=> H0 Hg Gr Hd Hnr HP Hin Hw Hn Hc Hf0 A0 W0 E.
have a0' : use_gauge_fix cfg -> 0 < gauge_fix_atol cfg by move=> /a0 [].
have Hin' := Permutation_in _ HP Hin.
have He := classical_enough Hd Hnr HP Hin Hc.
have AE f : config p f -> act_bond g x (amplitude nr.1) f = bond_weight h f x * amplitude nr.1 f.
  by move=> Hf; apply: act_bond_diag => //; apply: amplitude_cext.
have Hv : ~ vanishes (act_bond g x (amplitude nr.1)).
  by move=> /(_ _ Hf0) /eqP; rewrite AE // mulf_eq0 (negPf A0) (negPf W0).
have [W' N' [a1 [a2 [Eu Ew]]]] := full_real Sq Ss Sf Se tot Rq Rl Rf Re Rr b0 p0 (method_known Hx) (method_chol Hx) (Order.POrderTheory.ltW c0) a0' H0 Hg Gr Tf HP Hin Hw Hn E.
have := @update_state C R randn trand lqr lsvd fsvd leigh lchol rtol lcut noise fuel u Sq Ss Sf Se tot Rq Rl Rf Re Rr b0 p0 nx1 ny1 Hx it c0 a0 Tf T nb cell cov onto c g x nr.1 bl Hg Gr HP Hin Hw Hn He Hv.
rewrite Eu => -[r [<-]] [[]//|[d1 [d2 [[E1 E2] _ [d d0 Hb] Hcan Hamp]]]]; subst d1 d2.
have O : one_of g x = None by rewrite /one_of; case: Hd => ->.
split=> //; last first.
  have [d' d'0 Hd'] := Hamp _ Ew; exists d' => // f Hf; by rewrite Hd' // AE.
have [s [k [Hs Hk Ex]]] := bond_in HP Hin; have [Ht Hfw] := Hnr x Hin'; have Hdx := (proj2 Hd) x Hin'; rewrite O in Hb; move: (Hcan O) => {}Hcan.
have [|||K1 K2] := @copy_canonical C b p (b_k x) (g_two g x) (h x) (lab (b_s1 x)) (lab (b_s2 x)) _ Hdx Ht (nr.1 (b_s1 x) SA) (nr.1 (b_s2 x) SA) a1 a2 d _ _ Hb Hcan.
- by subst x.
- by apply: Hc; subst x.
- by apply: Hc; subst x; apply: nbr_cell.
move=> y Hy; rewrite Ew /write_pair /upd; case: site_eq_dec => [->|N2] //=; case: site_eq_dec => [->|N1] //=; exact: Hc.
Qed.

(** C91.  With the pseudoinverse the update itself does not fail. *)
Theorem C91_update c h g x bl (n : net) f0 : gates_ok u g -> gates_real g -> diagonal_gates u h g -> narrow h ->
  Permutation bl (build_bond_list nx ny) -> List.In x bl -> wide c n -> real_net n -> classical n ->
  config p f0 -> amplitude n f0 != 0 -> bond_weight h f0 x != 0 -> als_method cfg = "pinv" ->
  exists a1 a2, full_bond_update lqr lsvd fsvd leigh lchol rtol cfg fuel.+1 n x (g_two g x) (one_of g x) = Some (Ok (a1, a2)) /\
    exists2 d, 0 < d & forall f, config p f -> amplitude (write_pair x a1 a2 n) f = d * (bond_weight h f x * amplitude n f).
Proof using All.
move=> Hg Gr Hd Hnr HP Hin Hw Hn Hc Hf0 A0 W0 Mp; have Hin' := Permutation_in _ HP Hin.
have He := classical_enough Hd Hnr HP Hin Hc.
have AE f : config p f -> act_bond g x (amplitude n) f = bond_weight h f x * amplitude n f.
  by move=> Hf; apply: act_bond_diag => //; apply: amplitude_cext.
have Hv : ~ vanishes (act_bond g x (amplitude n)).
  by move=> /(_ _ Hf0) /eqP; rewrite AE // mulf_eq0 (negPf A0) (negPf W0).
have [r -> [[_]|]] := @update_state C R randn trand lqr lsvd fsvd leigh lchol rtol lcut noise fuel u Sq Ss Sf Se tot Rq Rl Rf Re Rr b0 p0 nx1 ny1 Hx it c0 a0 Tf T nb cell cov onto c g x n bl Hg Gr HP Hin Hw Hn He Hv.
  by rewrite Mp.
move=> [a1 [a2 [-> _ _ _ Ha]]]; exists a1, a2; split=> //; have [d d0 Hdd] := Ha (write_pair x a1 a2 n) (fun _ => erefl).
by exists d => // f Hf; rewrite Hdd // AE.
Qed.

Lemma run_full c chi0 h g bl l nr nr' f0 : (0 < chi0 <= c)%N -> gates_ok u g -> gates_real g -> diagonal_gates u h g -> narrow h ->
  Permutation bl (build_bond_list nx ny) -> (forall x, List.In x l -> List.In x bl) -> wide c nr.1 -> real_net nr.1 -> classical nr.1 ->
  config p f0 -> amplitude nr.1 f0 != 0 -> (forall x, List.In x l -> bond_weight h f0 x != 0) ->
  run_updates bond (option (res (net * R))) unit (guard (full_step chi0 g)) (Some (Ok nr)) l = Some (Ok nr') ->
  classical nr'.1 /\ exists2 d, 0 < d & forall f, config p f -> amplitude nr'.1 f = d * ((\prod_(x <- l) bond_weight h f x) * amplitude nr.1 f).
Proof using All.
move=> H0 Hg Gr Hd Hnr HP; elim: l nr => [|x l IH] nr Hl Hw Hn Hc Hf0 A0 W0 /=.
  by move=> [<-]; split=> //; exists 1; [apply: ltr01|move=> s _; rewrite big_nil !mul1r].
have G : forall l o, (forall s : net * R, o <> Some (Ok s)) -> forall s, run_updates bond (option (res (net * R))) unit (guard (full_step chi0 g)) o l <> Some (Ok s).
  by elim=> [|y l' IH'] o Ho //=; apply: IH'; case: o Ho => [[s /(_ s)|e]|].
move=> E; case E1: (full_step chi0 g x nr) => [[nr1|e]|]; first last.
- by case: (G l None _ nr') => //; move: E; rewrite /run_updates /= E1.
- by case: (G l (Some (Err e)) _ nr') => //; move: E; rewrite /run_updates /= E1.
have [Hw1 Hn1 Hc1 [d1 d10 Hd1]] := C91_step H0 Hg Gr Hd Hnr HP (Hl x (or_introl erefl)) Hw Hn Hc Hf0 A0 (W0 x (or_introl erefl)) E1.
have [|||Hc' [d d0 Hdd]] := IH nr1 (fun y Hy => Hl y (or_intror Hy)) Hw1 Hn1 Hc1 Hf0.
- by rewrite Hd1 //; apply: mulf_neq0; [rewrite (Order.POrderTheory.gt_eqF d10)|apply: mulf_neq0 => //; apply: W0; left].
- by move=> y Hy; apply: W0; right.
- by move: E; rewrite /run_updates /= E1.
split=> //; exists (d * d1); first exact: mulr_gt0.
move=> f Hf; rewrite Hdd // Hd1 // big_cons; move: (\prod_(_ <- _) _) (bond_weight h f x) (amplitude _ _) => A B X.
by rewrite -!mulrA; congr (_ * _); rewrite mulrCA; congr (_ * _); rewrite mulrCA.
Qed.

(** C91.  An evolution by full updates with real diagonal gates keeps real tensors of
    copy form in copy form, and multiplies the amplitude of every configuration of the
    whole lattice by the weight of the configuration, once per step, up to one positive
    factor, if some configuration keeps an amplitude.  Whatever the boundary tensors
    and the boundary dimension: they do not enter. *)
Theorem C91_diagonal c st h g steps (s s' : state) f0 : s_init s = true -> gates_ok u g -> gates_real g -> diagonal_gates u h g -> narrow h ->
  healthy u c s -> real_net (s_net s) -> classical (s_net s) ->
  config p f0 -> lattice_weight h f0 != 0 -> amplitude (s_net s) f0 != 0 ->
  evolve st g steps s = Some (Ok s') ->
  classical (s_net s') /\ exists2 d, 0 < d & forall f, config p f ->
    amplitude (s_net s') f = d * (lattice_weight h f ^+ steps * amplitude (s_net s) f).
Proof using All.
move=> Ei Hg Gr Hd Hnr Hs Hn Hc Hf0 W0 A0; rewrite /Session.evolve Ei /=; case E1: Session.renormalize => [s1|] //=.
have [A1 B1] := renorm_alike E1; have [Hs1 Hn1 Ec] := renorm_real Ss Sf Rq Rl Rf Rr Hs Hn E1.
rewrite /Session.evolve_tensors Tf /= /evolve_run evolve_state evolve_bonds B1 Ec.
case E2: (run_updates _ _ _ _ _ _) => [[[n2 w2]|]|] //= [E3]; have [A3 B3] := renorm_alike E3.
have [Hw HP H0] := Hs1; rewrite Ec in H0; rewrite B1 in HP.
have W1 x : List.In x (schedule bond (s_bonds s) steps) -> bond_weight h f0 x != 0.
  move=> /in_sched Hxx; move: W0; rewrite -(weight_bonds cov h f0 HP); elim: (s_bonds s) Hxx => // y l IH [->|/IH {}IH]; rewrite big_cons mulf_eq0 negb_or => /andP[] //.
have [||K [d d0 Hdd]] := @run_full c (s_chi s) h g (s_bonds s) _ (s_net s1, s_rng s1) (n2, w2) f0 H0 Hg Gr Hd Hnr HP (fun x => @in_sched x _ _) Hw Hn1 _ Hf0 _ W1 E2.
- by move=> x Hx' /=; rewrite A1; apply: Hc.
- by rewrite /= (amplitude_alike u nb cell f0 A1).
split; first by move=> x Hx'; rewrite A3; apply: K.
exists d => // f Hf; rewrite (amplitude_alike u nb cell f A3) Hdd //= (amplitude_alike u nb cell f A1).
by rewrite prod_schedule (weight_bonds cov h f HP).
Qed.

(** ** Models *)
Section Model.
Variable mexp : forall n, 'M[C]_n -> 'M[C]_n.
Variable one : site -> option tensor.
Variable two : bond -> tensor.
Notation gates_for th bl dtau := (model_gates mexp p (Gate.Model tensor one (Gate.Fresh tensor two)) dtau bl (build_site_list nx ny) th).
Hypothesis M : classical_model u one two.
Notation energy := (@P39_Classical.energy C u one two T nb cell).

(** real exponentials make real gates *)
Lemma model_real S e th bl dtau : exp_diag mexp u e -> exponential S e -> all_in u one two S dtau -> (forall a, S a -> e a \is Num.real) ->
  Permutation bl (build_bond_list nx ny) -> gates_real (gates_for th bl dtau).
Proof using M p0.
move=> He HE HS HR HP; have [[Sg _] [_ Hd]] := classical_gates p0 M th dtau He HP; split=> // x Hxx i; rewrite Sg //.
case: i => [|P [|Q [|r [|q [|]]]]] //=; rewrite ?andbF // andbT => /and4P[HP' HQ Hr Hq]; rewrite (Hd x Hxx) //.
case: ifP => _; last exact: rpred0.
by apply: HR; have [] := shared_parts HE HS Hxx HP' HQ.
Qed.

(** C91.  Full updates evolve a real model with diagonal terms exactly: whatever the time
    step and the boundary tensors, the amplitude of every configuration is multiplied by
    the exponential of its energy times the total imaginary time, up to one positive
    factor. *)
Theorem C91_energy S e th dtau c st steps (s s' : state) f0 : exp_diag mexp u e -> exponential S e ->
  all_in u one two S dtau -> (forall a, S a -> e a \is Num.real) -> narrow_model u two lab ->
  s_init s = true -> healthy u c s -> real_net (s_net s) -> classical (s_net s) ->
  config p f0 -> e (- dtau * energy f0) != 0 -> amplitude (s_net s) f0 != 0 ->
  evolve st (gates_for th (s_bonds s) dtau) steps s = Some (Ok s') ->
  classical (s_net s') /\ exists2 d, 0 < d & forall f, config p f ->
    amplitude (s_net s') f = d * (e (- (dtau * steps%:R) * energy f) * amplitude (s_net s) f).
Proof using All.
move=> He HE HS HR Hn Hi Hs Hr Hc Hf0 e0 A0 E; have [_ HP _] := Hs.
have [Hg Hd] := classical_gates p0 M th dtau He HP; have Hnr := narrow_weights HE HS Hn; have Gr := model_real th He HE HS HR HP.
have W : lattice_weight (fun x P Q => e (- dtau * shared u one two x P Q)) f0 != 0.
  by rewrite -[P39_Classical.lattice_weight _ _ _ _ _]expr1 (energy_weight nx1 ny1 cov 1 HE) // mulr1.
have [K [d d0 Hdd]] := C91_diagonal Hi Hg Gr Hd Hnr Hs Hr Hc Hf0 W A0 E.
by split=> //; exists d => // f Hf; rewrite Hdd // (energy_weight nx1 ny1 cov _ HE).
Qed.
End Model.

(** ** The samples *)
Section Ising.
Variable mexp : forall n, 'M[C]_n -> 'M[C]_n.
Variable cx : bool.
Variable jz : C.
Hypothesis b1 : (1 < b)%N.

(** a model with these terms is evolved exactly with the energy E by full updates *)
Definition exactly_by_full_updates (one : site -> pexpr C) (two : bond -> option (pexpr C)) (lab : site -> nat -> nat -> nat) (E : (T -> nat) -> C) : Prop :=
  forall S e th dtau c st steps (s s' : state) f0, exp_diag mexp u e -> exponential S e -> S (dtau * jz / 4%:R) -> S (- (dtau * jz / 4%:R)) ->
  (forall a, S a -> e a \is Num.real) ->
  s_init s = true -> healthy u c s -> real_net (s_net s) -> P39_Classical.classical u lab (s_net s) ->
  config p f0 -> amplitude (s_net s) f0 != 0 ->
  let g := model_gates mexp p (Gate.Model tensor (fun x => Some (matrix cx (one x))) (Gate.Fresh tensor (fun x => matrix_opt cx (two x)))) dtau (s_bonds s) (build_site_list nx ny) th in
  evolve st g steps s = Some (Ok s') ->
  exists2 d, 0 < d & forall f, config p f -> amplitude (s_net s') f = d * (e (- (dtau * steps%:R) * E f) * amplitude (s_net s) f).
End Ising.
End Run.

Section Samples.
Variable C : numClosedFieldType.
Notation tensor := (tensor C).
Variable R : Type.
Variable randn : R -> forall n q : nat, 'M[C]_(n, q) * R.
Variable trand : R -> nat -> nat -> tensor * R.
Variable lqr : qr_fun C.
Variable lsvd : thin_svd_fun C.
Variable fsvd : full_svd_fun C.
Variable leigh : eigh_fun C.
Variable lchol : chol_fun C.
Variable rtol : nat -> nat -> C.
Variables (lcut noise : C).
Variable fuel : nat.
Variable u : setup C.
Notation nx := (u_nx u).
Notation ny := (u_ny u).
Notation b := (u_bond u).
Notation p := (u_phys u).
Notation cfg := (u_evo u).
Hypothesis Sq : qr_spec lqr.
Hypothesis Ss : thin_svd_spec lsvd.
Hypothesis Sf : full_svd_spec fsvd.
Hypothesis Se : eigh_spec leigh.
Hypothesis tot : forall m (A : 'M[C]_m), leigh A.
Hypothesis Rq : real_qr lqr.
Hypothesis Rl : real_thin lsvd.
Hypothesis Rf : real_svd fsvd.
Hypothesis Re : real_eigh leigh.
Hypothesis Rr : real_rand randn.
Hypotheses (b1 : (1 < b)%N) (nx1 : (1 < nx)%N) (ny1 : (1 < ny)%N).
Hypothesis Hx : exact_method leigh lchol cfg.
Hypothesis it : (0 < als_niter cfg)%N.
Hypothesis c0 : 0 < positive_approx_cutoff cfg.
Hypothesis a0 : use_gauge_fix cfg -> 0 < gauge_fix_atol cfg /\ gauge_fix_atol cfg ^+ 2 < positive_approx_cutoff cfg *+ minn (b ^ 3) (p * b).
Hypothesis Tf : u_type u = "full".
Variable T : finType.
Variables (nb : nat -> T -> T) (cell : T -> site).
Hypothesis cov : covers nb nx ny cell.
Hypothesis onto : forall s, in_cell nx ny s -> exists t, cell t = s.
Variable mexp : forall n, 'M[C]_n -> 'M[C]_n.
Variable cx : bool.
Variable jz : C.
Notation exactly := (@exactly_by_full_updates C R randn trand lqr lsvd fsvd leigh lchol rtol lcut noise fuel u T nb cell mexp cx jz).

Lemma full_by one two lab E w : ising_terms cx u nb cell jz one two lab E w -> exactly one two lab E.
Proof using All.
move=> Hi S e th dtau c st steps s s' f0 He HE Sp Sn HR Ei Hs Hn Hc Hf0 A0 g E1.
have [Mc [S' [HE' HS SS]] N0] := ising_ready nx1 ny1 cov Hi HE Sp Sn.
have [[HM Ep] Hnr _ _ HEn] := Hi.
have b0 : (0 < b)%N by apply: ltnW.
have p0 : (0 < p)%N by rewrite Ep expn_gt0.
have e0 : e (- dtau * energy u (fun x => Some (matrix cx (one x))) (fun x => matrix_opt cx (two x)) nb cell f0) != 0 by rewrite HEn //; apply: N0.
have [_ [d d0 Hd]] := C91_energy Sq Ss Sf Se tot Rq Rl Rf Re Rr b0 p0 nx1 ny1 Hx it c0 a0 Tf cov onto Mc He HE' HS (fun a Ha => HR a (SS a Ha)) Hnr Ei Hs Hn Hc Hf0 e0 A0 E1.
by exists d => // f Hf; rewrite Hd // HEn.
Qed.

(** C91.  The Ising models of the library and of the samples, without a field. *)
Theorem C91_square : p = 2%N -> exactly (square_one 0) (fun x => Some (square_two jz x)) plain (square_energy nb jz).
Proof using All. move=> Ep; exact: full_by (square_terms cx nx1 ny1 b1 cov jz Ep). Qed.
Theorem C91_honeycomb : p = 4%N -> exactly (honeycomb_one jz 0) (honeycomb_two jz) honeycomb_lab (honeycomb_energy nb jz).
Proof using All. move=> Ep; exact: full_by (honeycomb_terms cx nx1 ny1 b1 cov jz Ep). Qed.
Theorem C91_kagome : p = 8%N -> exactly (kagome_one jz 0) (kagome_two jz) kagome_lab (kagome_energy nb jz).
Proof using All. move=> Ep; exact: full_by (kagome_terms cx nx1 ny1 b1 cov jz Ep). Qed.
End Samples.

(** ** Concrete cases *)
Section Examples.
Variable C : numClosedFieldType.
Notation tensor := (tensor C).
Notation nb := (tnbr (nx := 2) (ny := 2)).
Notation cell a c := (tcell (a := a) (c := c) (nx := 2) (ny := 2)).
Notation fset2 := (fset2 C).
Notation fset := (fset C).
Notation update := (full_bond_update (@some_qr C) (@some_thin_svd C) (@some_full_svd C) (@some_eigh C) (@some_chol C) (fun _ _ => 0) (u_evo fset2) 1).

(** all configurations alike, in a boundary of numbers *)
Definition flat_net : Mover.net tensor := fun _ sl =>
  match sl with
  | SA => Tensor [:: 2; 2; 2; 2; 2]%N (fun _ => 1)
  | SC _ => Tensor [:: 1; 1]%N (fun _ => 1)
  | SE _ => Tensor [:: 1; 1; 2; 2]%N (fun i => (nth 0%N i 2 == nth 0%N i 3)%:R)
  end.

(** a full update with the gate of the Ising interaction, on a bond of dimension 2 *)
Example C91_ising w w' : w \is Num.real -> w' \is Num.real -> w != 0 -> exists a1 a2, update flat_net bond0 (g_two (ising w w') bond0) None = Some (Ok (a1, a2)) /\
  exists2 d, 0 < d & forall f, config 2 f ->
    amplitude fset2 nb (cell 1 1) (write_pair bond0 a1 a2 flat_net) f = d * \prod_(t | cell 1 1 t == (0, 0)%N) (if f t == f (nb 2 t) then w else w').
Proof.
move=> Rw Rw' w0.
have tot n (A : 'M[C]_n) : some_eigh A by [].
have Hx : exact_method (@some_eigh C) (@some_chol C) (u_evo fset2) by split=> //; right; split=> //; exact: some_eigh_spec.
have Rr : real_rand (fun (r : unit) n q => ((0 : 'M[C]_(n, q)), r)) by move=> r n q i j; rewrite mxE rpred0.
have c0 : 0 < positive_approx_cutoff (u_evo fset2) by rewrite ltr0n.
have a0 : use_gauge_fix (u_evo fset2) -> 0 < gauge_fix_atol (u_evo fset2) /\ gauge_fix_atol (u_evo fset2) ^+ 2 < positive_approx_cutoff (u_evo fset2) *+ minn (2 ^ 3) (2 * 2).
  by move=> _; split; rewrite /= ?ltr01 // expr1n -mulrnA ltr1n.
pose h (x : bond) (P Q : nat) := if P == Q then w else w'.
have Hg : gates_ok fset2 (ising w w') by split.
have Gr : gates_real fset2 (ising w w').
  by split=> // x _ i _ /=; case: ifP => _; [case: ifP|rewrite real0].
have Hd : diagonal_gates fset2 h (ising w w') by split.
have Hnr : narrow fset2 plain h by apply: narrow_plain.
have Hb : List.In bond0 (build_bond_list 2 2) by left.
have Hw : wide fset2 3 flat_net by exists (fun _ _ => 1%N) => // x Hx'; split=> // k Hk.
have Hn : RealNet.real_net 2 2 2 2 flat_net by move=> x Hx'; split=> // sl i _; case: sl => *; rewrite /= ?realn ?real1.
have Hc : classical fset2 plain flat_net by move=> x Hx'; exists (fun _ => 1), (fun _ _ _ => 1) => v _; rewrite big1 ?mulr1.
have [d0 d00 Ha] := uniform_amp C 1 1.
have A f : amplitude fset2 nb (cell 1 1) flat_net f = d0 by exact: Ha.
have Hz : config 2 (fun _ : torus 1 1 2 2 => 0%N) by [].
have [||a1 [a2 [E [d dp Hdd]]]] := @C91_update C unit (fun r _ _ => (0, r)) (@zeros_rand C) (@some_qr C) (@some_thin_svd C) (@some_full_svd C) (@some_eigh C) (@some_chol C) (fun _ _ => 0) 1 0 0 fset2
  (@some_qr_spec C) (@some_thin_svd_spec C) (@some_full_svd_spec C) (@some_eigh_spec C) tot (@some_qr_real C) (@some_thin_svd_real C) (@some_full_svd_real C) (@some_eigh_real C) Rr isT isT isT isT Hx isT c0 a0 erefl
  (torus 1 1 2 2) nb (cell 1 1) (@torus_covers 1 1 2 2 isT isT isT isT) (@P41_FullState.torus_onto 1 1 2 2 isT isT) plain 3 h (ising w w') bond0 (build_bond_list 2 2) flat_net (fun _ => 0%N) Hg Gr Hd Hnr (Permutation_refl _) Hb Hw Hn Hc Hz _ _ erefl.
- by rewrite A (Order.POrderTheory.gt_eqF d00).
- by apply/prodf_neq0 => t _.
exists a1, a2; split=> //; exists (d * d0) => [|f Hf]; first exact: mulr_gt0.
by rewrite (Hdd f Hf) A /bond_weight /h mulrA mulrAC.
Qed.

(** a whole evolution by full updates, with bond dimension 1: a field at every site *)
Definition even_net : Mover.net tensor := fun _ sl =>
  match sl with
  | SA => Tensor [:: 1; 1; 1; 1; 2]%N (fun _ => 1)
  | SC _ => Tensor [:: 1; 1]%N (fun _ => 1)
  | SE _ => Tensor [:: 1; 1; 1; 1]%N (fun _ => 1)
  end.
Definition even_state : Session.state C unit := State even_net tt (build_bond_list 2 2) 3 true.
Definition lean (w : C) : gates C := Gates (fun _ => Tensor [:: 2; 2; 2; 2]%N (fun i =>
  if (nth 0%N i 0 == nth 0%N i 2) && (nth 0%N i 1 == nth 0%N i 3) then w ^+ nth 0%N i 0 * w ^+ nth 0%N i 1 else 0)) None.
Notation evolve := (@Session.evolve C unit (fun r _ _ => (0, r)) (@zeros_rand C) (@some_qr C) (@some_thin_svd C) (@some_full_svd C) (@some_eigh C) (@some_chol C) (fun _ _ => 0) 1 0 1).

Example C91_session w st steps : w \is Num.real -> exists2 s', evolve fset st (lean w) steps even_state = Some (Ok s') &
  forall a c, (0 < a)%N -> (0 < c)%N -> exists2 d, 0 < d & forall f, config 2 f ->
    amplitude fset nb (cell a c) (s_net s') f = d * (\prod_t w ^+ f t) ^+ (4 * steps).
Proof.
move=> Rw.
have tot n (A : 'M[C]_n) : some_eigh A by [].
have Hx : exact_method (@some_eigh C) (@some_chol C) (u_evo fset) by split=> //; right; split=> //; exact: some_eigh_spec.
have Rr : real_rand (fun (r : unit) n q => ((0 : 'M[C]_(n, q)), r)) by move=> r n q i j; rewrite mxE rpred0.
have c0 : 0 < positive_approx_cutoff (u_evo fset) by rewrite ltr0n.
have a0 : use_gauge_fix (u_evo fset) -> 0 < gauge_fix_atol (u_evo fset) /\ gauge_fix_atol (u_evo fset) ^+ 2 < positive_approx_cutoff (u_evo fset) *+ minn (1 ^ 3) (2 * 1).
  by move=> _; split; rewrite /= ?ltr01 // expr1n mulr1n ltr1n.
pose h (x : bond) (P Q : nat) := w ^+ P * w ^+ Q.
have Hg : gates_ok fset (lean w) by split.
have Gr : gates_real fset (lean w).
  by split=> // x _ i _ /=; case: ifP => _; rewrite ?real0 // realM ?realX.
have Hd : diagonal_gates fset h (lean w) by split.
pose lab (x : site) (d P : nat) := 0%N.
have Hnr : narrow fset lab h.
  move=> x _; split; last by left.
  by exists (fun P => w ^+ P), (fun P => w ^+ P), (fun _ _ => 1) => P Q _ _; rewrite mulr1.
have Hs : healthy fset 3 even_state.
  by split=> //; exists (fun _ _ => 1%N) => // x Hx'; split=> // k Hk.
have Hn : RealNet.real_net 2 2 1 2 (s_net even_state).
  by move=> x Hx'; split=> // sl i _; case: sl => *; rewrite /= ?real1.
have Hc : classical fset lab (s_net even_state) by move=> x Hx'; exists (fun _ => 1), (fun _ _ _ => 1) => v _; rewrite big1 ?mulr1.
have Ho : live_edges fset (s_net even_state) by move=> x Hx' k Hk; split; split=> //=; rewrite oner_neq0.
have A a c f : amplitude fset nb (cell a c) even_net f = 1.
  rewrite /amplitude /psi (bigD1 [ffun _ => ord0]) //= big1 ?big1 ?addr0 // => m.
  by case/eqP; apply/ffunP => z; rewrite !ffunE; apply/val_inj; case: (m z) => [[|[]]].
have W a c f : (0 < a)%N -> (0 < c)%N -> lattice_weight fset nb (cell a c) h f = (\prod_t w ^+ f t) ^+ 4.
  move=> a1 c1; have cov := @torus_covers a c 2 2 a1 c1 isT isT.
  have X k : (k < 4)%N -> \prod_t w ^+ f (nb k t) = \prod_t w ^+ f t.
    by move=> Hk; rewrite [RHS](reindex (nb k)) //; apply: onW_bij; apply: (@paired_bij C fset _ _ _ cov).
  rewrite /lattice_weight /h !big_split /= X // X // !exprS expr0 mulr1 !mulrA //.
have Hz a c : config 2 (fun _ : torus a c 2 2 => 0%N) by [].
have W0 a c : (0 < a)%N -> (0 < c)%N -> lattice_weight fset nb (cell a c) h (fun _ => 0%N) != 0.
  by move=> a1 c1; rewrite W // expf_neq0 //; apply/prodf_neq0 => t _; rewrite expr0 oner_neq0.
have A0 a c : amplitude fset nb (cell a c) (s_net even_state) (fun _ => 0%N) != 0 by rewrite A oner_neq0.
have [||s' E] := @C90_succeeds _ _ _ (@zeros_rand C) _ _ _ _ (@some_chol C) (fun _ _ => 0) 1 0 0 fset (@some_qr_spec C) (@some_thin_svd_spec C) (@some_full_svd_spec C) (@some_eigh_spec C) tot
  (@some_qr_real C) (@some_thin_svd_real C) (@some_full_svd_real C) (@some_eigh_real C) Rr isT isT isT isT Hx isT c0 a0 erefl _ _ _ (@torus_covers 1 1 2 2 isT isT isT isT) (@P41_FullState.torus_onto 1 1 2 2 isT isT)
  erefl erefl erefl (Order.POrderTheory.lexx 0) ltr01 3 st (lean w) steps even_state erefl Hg Gr Hs Hn Ho.
- move=> s1 _; apply: product_enough (Permutation_refl _) _ => [|x]; last exact: in_sched.
  move=> x _; exists (fun P r => if P == r then w ^+ P else 0), (fun P r => if P == r then w ^+ P else 0).
  move=> P Q r s /= *; case: eqP => _ /=; last by rewrite mul0r.
  by case: eqP => _ //; rewrite mulr0.
- move=> /(_ _ (Hz 1%N 1%N)) /eqP.
  rewrite (@act_schedule_diag C fset isT isT _ _ _ (@torus_covers 1 1 2 2 isT isT isT isT) h (lean w) _ steps _ _ Hd) //.
  by apply/negP; rewrite mulf_neq0 // expf_neq0 // W0.
exists s' => // a c a1 c1.
have [_ [d d0 Hdd]] := @C91_diagonal C unit (fun r _ _ => (0, r)) (@zeros_rand C) (@some_qr C) (@some_thin_svd C) (@some_full_svd C) (@some_eigh C) (@some_chol C) (fun _ _ => 0) 1 0 0 fset
  (@some_qr_spec C) (@some_thin_svd_spec C) (@some_full_svd_spec C) (@some_eigh_spec C) tot (@some_qr_real C) (@some_thin_svd_real C) (@some_full_svd_real C) (@some_eigh_real C) Rr isT isT isT isT Hx isT c0 a0 erefl
  (torus a c 2 2) nb (cell a c) (@torus_covers a c 2 2 a1 c1 isT isT) (@P41_FullState.torus_onto a c 2 2 a1 c1) lab 3 st h (lean w) steps even_state s' (fun _ => 0%N) erefl Hg Gr Hd Hnr Hs Hn Hc (Hz a c) (W0 a c a1 c1) (A0 a c) E.
by exists d => // f Hf; rewrite [LHS]Hdd // [amplitude _ _ _ _ _]A W // mulr1 exprM.
Qed.
End Examples.

Print Assumptions C91_step.
Print Assumptions C91_update.
Print Assumptions C91_diagonal.
Print Assumptions C91_energy.
Print Assumptions C91_square.
Print Assumptions C91_honeycomb.
Print Assumptions C91_kagome.
Print Assumptions C91_ising.
Print Assumptions C91_session.
