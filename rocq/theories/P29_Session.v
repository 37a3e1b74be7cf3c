(** C74-C75: whole sessions with a network (acetn/ipeps/ipeps.py). *)
From Coq Require Import String Ascii Permutation.
From mathcomp Require Import all_ssreflect all_algebra.
From Verif Require Import Base Lattice LatticeFacts Mover Tensor TN Rdm RdmFacts Fits Measure MeasureFacts FullUpdate Linalg Mat Rsvd RsvdFacts Renorm RenormFacts Spectral ProjFacts Psd Als AlsFacts EighChol UpdFacts InitFacts Dist Lambda Evolve P05_Mover MoveShape P08_Control P09_Rdm P13_Renorm P16_Als P17_Reduced P18_Positive P19_Gauge Eckart P20_Simple P22_SimpleUpdate P23_Solver P24_FullUpdate P26_SiteUpdate Session.
Set Implicit Arguments.
Unset Strict Implicit.
Unset Printing Implicit Defensive.
Import GRing.Theory Num.Theory.
Local Open Scope ring_scope.
Local Open Scope string_scope.

(** ---- one full update: which outcomes, which shapes ---- *)
Section Shapes.
Variable C : numClosedFieldType.
Notation tensor := (tensor C).
Notation net := (Mover.net tensor).
Variable lqr : qr_fun C.
Variable lsvd : thin_svd_fun C.
Variable fsvd : full_svd_fun C.
Variable leigh : eigh_fun C.
Variable lchol : chol_fun C.
Variable rtol : nat -> nat -> C.
Variable cfg : econfig C.
Hypothesis Sq : qr_spec lqr.
Hypothesis Ss : thin_svd_spec lsvd.
Hypothesis Sf : full_svd_spec fsvd.
Hypothesis Se : eigh_spec leigh.
Hypothesis Hm : als_method cfg = "cholesky" \/ als_method cfg = "pinv".
Hypothesis tot : forall m (A : 'M[C]_m), leigh A.
Hypothesis c0 : 0 <= positive_approx_cutoff cfg.
Hypothesis a0 : use_gauge_fix cfg -> 0 < gauge_fix_atol cfg.

Lemma pre_shape n p q (nz g : tensor) : shape nz = [:: n; n; n ^ 2]%N -> shape g = [:: n; n; p; q] ->
  exists N' g' gauge, [/\ precondition_norm_tensor lqr lsvd rtol cfg nz g = Ok (N', g', gauge), shape N' = [:: n; n; n; n],
    shape g' = [:: n; n; p; q], norm_psd n N' & if gauge is Some (xi, yi) then shape xi = [:: n; n] /\ shape yi = [:: n; n] else True].
Proof using Sq Ss a0.
move=> Sn Sg; case Eg : (use_gauge_fix cfg).
  rewrite /precondition_norm_tensor Eg.
  have [N' [g' [xi [yi [rx [ry [-> [[SN Sg' Sx Sy] [F [HF _]] _ _]]]]]]]] := gaugeE Ss rtol Sq Sn Sg (a0 Eg).
  by eexists _, _, _; split=> //; exact: (gram_psd4 (fun y x Y X _ _ _ _ => HF y x Y X)).
rewrite /precondition_norm_tensor Eg.
have [N' [-> SN HN]] : exists t, [/\ einsum "xyz,XYz->xyXY" [:: nz; conj nz] = Ok t, shape t = [:: n; n; n; n]%N &
    forall v w V W, at_ t [:: v; w; V; W] = sumn (n ^ 2) (fun z => at_ nz [:: v; w; z] * (at_ nz [:: V; W; z])^* )].
  by rewrite /einsum /= Sn /= /dims_ok /= ?eqxx /=; eexists; split=> // *; rewrite /= /factor /=.
by eexists _, _, _; split=> //; exact: (gram_psd4 (fun y x Y X _ _ _ _ => HN y x Y X)).
Qed.

Lemma finalize_shape n D p gauge (a1 a2 : tensor) : (if gauge is Some (xi, yi) then shape xi = [:: n; n] /\ shape yi = [:: n; n] else True) ->
  shape a1 = [:: n; D; p] -> shape a2 = [:: n; D; p] -> (D <= n * p)%N ->
  finalize_reduced_tensors lqr fsvd gauge a1 a2 = Err ZeroNorm \/
  exists b1 b2, [/\ finalize_reduced_tensors lqr fsvd gauge a1 a2 = Ok (b1, b2), shape b1 = [:: n; D; p], shape b2 = [:: n; D; p] & balanced n D p b1 b2].
Proof using Sq Sf.
move=> Hg S1 S2 HD.
have [t1 [t2 [-> T1 T2]]] : exists t1 t2, [/\ finalize_reduced_tensors lqr fsvd gauge a1 a2 = finalize_reduced_tensors lqr fsvd None t1 t2,
    shape t1 = [:: n; D; p] & shape t2 = [:: n; D; p]].
  case: gauge Hg => [[xi yi] [Sx Sy]|_]; last by exists a1, a2.
  have [b1 [E1 T1]] : exists t, [/\ einsum "yz,zup->yup" [:: yi; a1] = Ok t & shape t = [:: n; D; p]%N].
    by rewrite /einsum /= Sy S1 /= /dims_ok /= ?eqxx /=; eexists.
  have [b2 [E2 T2]] : exists t, [/\ einsum "xw,wvq->xvq" [:: xi; a2] = Ok t & shape t = [:: n; D; p]%N].
    by rewrite /einsum /= Sx S2 /= /dims_ok /= ?eqxx /=; eexists.
  by exists b1, b2; split=> //; rewrite {1}/finalize_reduced_tensors E1 [bind (Ok b1) _]/bind E2.
case: (C46_balance T1 T2 HD Sq Sf) => [[_ ->]|[b1 [b2 [c [w [-> [Sb1 Sb2] Hc Tot Hw]]]]]]; [by left|right].
by exists b1, b2; split=> //; split=> //; exists w.
Qed.

Lemma reduced_shape n D p (a1 a2 N gate : tensor) fuel : (0 < n)%N -> (0 < p)%N -> (D <= n * p)%N ->
  shape a1 = [:: n; D; p] -> shape a2 = [:: n; D; p] -> shape N = [:: n; n; n; n] -> shape gate = [:: p; p; p; p] ->
  exists2 r, update_reduced_tensors lqr lsvd fsvd leigh lchol rtol cfg fuel.+1 a1 a2 N gate = Some r &
  r = Err ZeroNorm \/ (r = Err RuntimeError /\ als_method cfg = "cholesky") \/
  exists b1 b2, [/\ r = Ok (b1, b2), shape b1 = [:: n; D; p], shape b2 = [:: n; D; p] & balanced n D p b1 b2].
Proof using Sq Ss Sf Se Hm tot c0 a0.
move=> n0 p0 HD S1 S2 SN Sg.
have [t [g [E1 E2 Sg0 Hg]]] := goalE S1 S2 Sg.
have [nz [d [EP Snz _ _ _]]] := C44_positive Se Sf fuel n0 SN c0 tot.
have [N' [g' [gauge [EPN SN' Sg' PN' Hga]]]] := pre_shape Snz Sg0.
have np : (0 < n * p)%N by rewrite muln_gt0 n0 p0.
have [n12g Eg Hrun] := solve_run leigh lchol Sf Hm SN' Sg' PN' np HD.
rewrite /update_reduced_tensors E1 [bind (Ok t) _]/bind E2 EP [bind (Ok nz) _]/bind EPN [bind (Ok (N', _, _)) _]/bind S1.
eexists; first by reflexivity.
case: Hrun => [[EI ->]|[x [EI Gx [k [k0 -> Hk]]]]]; first by left.
have {}Hk : (sweeps leigh lchol cfg N' n12g x k = Err RuntimeError /\ als_method cfg = "cholesky") \/
    exists2 y, sweeps leigh lchol cfg N' n12g x k = Ok y & shape y.1 = [:: n; D; p] /\ shape y.2 = [:: n; D; p].
  case: Hm => [mc|mp]; first by case: Hk => [->|]; [left|right].
  by right; have [y Ey Gy] := sweeps_pinv lchol Hm SN' Sg' Eg k Gx mp tot; exists y.
case: Hk => [[-> mc]|[[y1 y2] -> [T1 T2]]]; first by right; left.
by case: (finalize_shape Hga T1 T2 HD) => E; [left|right; right].
Qed.
End Shapes.

(** ---- norms through the legs of a bond ---- *)
Section Norms.
Variable C : numClosedFieldType.
Notation tensor := (tensor C).

Lemma sqnorm_turn b p k (a : tensor) : (k < 4)%N -> shape a = [:: b; b; b; b; p] -> sqnorm (bond_permute k a) = sqnorm a.
Proof.
move=> Hk S; rewrite (sqnorm5 (bperm_shape' Hk S)) (sqnorm5 S).
have H F : sumn b (fun l => sumn b (fun u => sumn b (fun r => sumn b (fun d => F l u r d)))) =
    sumn b (fun l => sumn b (fun u => sumn b (fun r => sumn b (fun d => F u r d l)))) :> C.
  transitivity (sumn b (fun l => sumn b (fun u => sumn b (fun d => sumn b (fun r => F l u r d))))).
    by apply: eq_sumn => l _; apply: eq_sumn => u _; rewrite sumnC.
  transitivity (sumn b (fun l => sumn b (fun d => sumn b (fun u => sumn b (fun r => F l u r d))))).
    by apply: eq_sumn => l _; rewrite sumnC.
  by rewrite sumnC.
case: k Hk => [|[|[|[|k]]]] Hk //; by rewrite [LHS]H.
Qed.

Lemma canonical_norm b p k (a1 a2 : tensor) : (k < 4)%N -> shape a1 = [:: b; b; b; b; p] -> shape a2 = [:: b; b; b; b; p] ->
  canonical b p k a1 a2 -> norm a1 = 1 /\ norm a2 = 1.
Proof.
move=> Hk S1 S2 [w [_ _ Hw H1 H2]].
have E (a : tensor) (f : nat -> nat -> nat -> C) : sqnorm a = sumn b (fun v => overlap b p f v v) ->
    (forall u v, (u < b)%N -> (v < b)%N -> overlap b p f u v = w u *+ (u == v)) -> norm a = 1.
  move=> Es Ho; rewrite /norm Es (_ : sumn b _ = 1) ?sqrtC1 // -[RHS]Hw; apply: eq_sumn => u Hu.
  by rewrite Ho // eqxx.
split.
- apply: (E _ _ _ H1); rewrite -(sqnorm_turn Hk S1) (sqnorm1 (bperm_shape' Hk S1)); apply: eq_sumn => v _.
  by apply: eq_sumn => y _; apply: eq_sumn => P _; rewrite leg1_rot.
apply: (E _ _ _ H2); rewrite -(sqnorm_turn Hk S2) (sqnorm2 (bperm_shape' Hk S2)); apply: eq_sumn => v _.
by apply: eq_sumn => y _; apply: eq_sumn => P _; rewrite leg2_rot.
Qed.
End Norms.

(** ---- sessions ---- *)
Section Sessions.
Variable C : numClosedFieldType.
Notation tensor := (tensor C).
Notation net := (Mover.net tensor).
Variable R : Type.
Variable randn : R -> forall n q : nat, 'M[C]_(n, q) * R.
Variable trand : R -> nat -> nat -> tensor * R.
Variable lqr : qr_fun C.
Variable lsvd : thin_svd_fun C.
Variable fsvd : full_svd_fun C.
Variable leigh : eigh_fun C.
Variable lchol : chol_fun C.
Variable rtol : nat -> nat -> C.
Variables (lcut noise : C).
Variable fuel : nat.
Variable empty : nat -> tensor.
Variable u : setup C.
Notation nx := (u_nx u).
Notation ny := (u_ny u).
Notation b := (u_bond u).
Notation p := (u_phys u).
Notation cfg := (u_evo u).
Notation state := (Session.state C R).
Notation call := (call C).

(** the library functions are what their documentation says, the configuration
    makes sense *)
Hypothesis Sq : qr_spec lqr.
Hypothesis Ss : thin_svd_spec lsvd.
Hypothesis Sf : full_svd_spec fsvd.
Hypothesis Se : eigh_spec leigh.
Hypothesis tot : forall m (A : 'M[C]_m), leigh A.
Hypothesis Srand : forall r, shape (trand r b p).1 = [:: b; b; b; b; p].
Hypothesis Hm : als_method cfg = "cholesky" \/ als_method cfg = "pinv".
Hypothesis Ht : u_type u = "full" \/ u_type u = "simple".
Hypothesis c0 : 0 <= positive_approx_cutoff cfg.
Hypothesis a0 : use_gauge_fix cfg -> 0 < gauge_fix_atol cfg.
Hypothesis l0 : 0 < lcut.
Hypotheses (nx0 : (0 < nx)%N) (ny0 : (0 < ny)%N) (b0 : (0 < b)%N) (p0 : (0 < p)%N).

(** the failures a session may meet: a zero norm, or a failed Cholesky solve in a
    full update *)
Definition allowed (e : exn) : Prop :=
  e = ZeroNorm \/ [/\ e = RuntimeError, u_type u = "full" & als_method cfg = "cholesky"].
(** the computation ends, with a result as described or with such a failure *)
Definition ends_well {A} (x : option (res A)) (P : A -> Prop) : Prop :=
  match x with Some (Ok a) => P a | Some (Err e) => allowed e | None => False end.

(** the tensors fit together and no boundary leg exceeds c *)
Definition wide (c : nat) (n : net) : Prop :=
  exists2 chi, fits nx ny b p chi n & forall d t, (d < 4)%N -> in_cell nx ny t -> (chi d t <= c)%N.
Definition unit_sites (n : net) : Prop := forall s, in_cell nx ny s -> norm (n s SA) = 1.
Definition healthy (c : nat) (s : state) : Prop :=
  [/\ wide c (s_net s), Permutation (s_bonds s) (build_bond_list nx ny) & (0 < s_chi s <= c)%N].

Lemma okz_fine A (x : res A) (P : A -> Prop) : okz x P -> ends_well (Some x) P.
Proof. by case: x => //= e ->; left. Qed.

Lemma fine_imp A (x : option (res A)) (P Q : A -> Prop) : (forall a, P a -> Q a) -> ends_well x P -> ends_well x Q.
Proof. by case: x => [[a|e]|] //= H; apply: H. Qed.

Lemma fine_bind A B (x : option (res A)) (f : A -> res B) (P : A -> Prop) (Q : B -> Prop) : ends_well x P -> (forall a, P a -> ends_well (Some (f a)) Q) ->
  ends_well (match x with None => None | Some y => Some (let! a := y in f a) end) Q.
Proof. by case: x => [[a|e]|] //= H; apply. Qed.

(** ---- the lists ---- *)
Lemma bond_in bl x : Permutation bl (build_bond_list nx ny) -> List.In x bl ->
  exists s k, [/\ in_cell nx ny s, (k < 4)%N & x = Bond s (nbr nx ny k s) k].
Proof.
move=> HP Hx; have /in_bond_list [s [Hs H]] : List.In x (build_bond_list nx ny) by apply: Permutation_in HP Hx.
by case: H => ->; [exists s, 2%N|exists s, 1%N].
Qed.

Lemma in_step x (bl : seq bond) i : List.In x (step_bonds bond bl i) -> List.In x bl.
Proof. by rewrite /step_bonds; case: ifP => // _ H; apply/List.in_rev. Qed.

Lemma in_sched x (bl : seq bond) n : List.In x (schedule bond bl n) -> List.In x bl.
Proof. by move=> /List.in_flat_map [i [_ /in_step]]. Qed.

Lemma perm_step (bl : seq bond) i l : Permutation bl l -> Permutation (step_bonds bond bl i) l.
Proof. by rewrite /step_bonds; case: ifP => // _ HP; apply: Permutation_trans HP; apply: Permutation_sym; apply: Permutation_rev. Qed.

(** an invariant of the bond updates is one of the evolution *)
Lemma run_inv S (f : bond -> S -> option (res S)) (I : S -> Prop) steps x bl :
  (forall y s, List.In y bl -> I s -> ends_well (f y s) I) -> I x ->
  ends_well (evolve_run f steps x bl) (fun xb => I xb.1 /\ xb.2 = step_bonds bond bl steps).
Proof.
move=> Hf Hx; rewrite /evolve_run evolve_state evolve_bonds.
have : forall l o, (forall y, List.In y l -> List.In y bl) -> ends_well o I ->
    ends_well (run_updates bond (option (res S)) unit (guard f) o l) I.
  elim=> [|y l IH] o Hl Ho //=; apply: IH => [z Hz|]; first by apply: Hl; right.
  by case: o Ho => [[s|e]|] //= Hs; apply: Hf => //; apply: Hl; left.
move=> /(_ (schedule bond bl steps) (Some (Ok x)) (fun y => @in_sched y bl steps) Hx).
by case: (run_updates _ _ _ _ _ _) => [[s|e]|].
Qed.

(** ---- renormalisation ---- *)
Lemma moves_sites pt cf ms (n : net) r n' r' : (forall m, List.In m ms -> valid_move nx ny m) ->
  moves randn lqr lsvd fsvd cf pt nx ny ms (n, r) = Ok (n', r') -> forall s, n' s SA = n s SA.
Proof.
move=> Hv E; by have [] := @run_moves_good _ _ _ _ _ _ _ _ pt nx ny (fun _ => True) (fun _ => True)
  (fun _ _ _ _ _ => I) (fun _ _ _ _ _ => I) (fun _ _ _ _ _ _ => I) ms Hv n r n' r' E.
Qed.

Lemma ctmrg_sites pt cf steps (n : net) r n' r' :
  run_ctmrg randn lqr lsvd fsvd cf pt nx ny steps (n, r) = Ok (n', r') -> forall s, n' s SA = n s SA.
Proof.
rewrite /run_ctmrg /ctmrg; elim: (List.seq 0 steps) n r => [|i l IH] n r; first by move=> [-> _].
rewrite /=; case E: (ctmrg_step _ _ _ _ _ _ _ _ _ _ _ _) => [[n1 r1]|] //= E'.
move=> s; rewrite (IH _ _ E').
by have [-> _] := @sweep_good _ _ _ _ _ _ _ _ pt nx ny (fun _ => True) (fun _ => True)
  (fun _ _ _ _ _ => I) (fun _ _ _ _ _ => I) (fun _ _ _ _ _ _ => I) n r n1 r1 E.
Qed.

Notation renormalize := (Session.renormalize randn lqr lsvd fsvd u).
Lemma renorm_ok c (s : state) : healthy c s ->
  okz (renormalize s) (fun s' => [/\ healthy c s', s_chi s' = s_chi s /\ s_init s' = s_init s, forall x, s_net s' x SA = s_net s x SA &
    (0 < u_steps u)%N -> wide (s_chi s') (s_net s')]).
Proof.
case=> -[chi Hf Hc] HP /andP[H0 H1]; rewrite /renormalize.
have := @ctmrg_fits _ _ randn lqr lsvd fsvd (ctm_config u (s_chi s)) (u_ptype u) nx ny b p H0 (u_steps u) chi (s_net s) (s_rng s) Hf.
case E: (run_ctmrg _ _ _ _ _ _ _ _ _ _) => [[n r]|e] //= -[chi' Hf' [M1 M2]]; split=> //; last by move=> St; exists chi' => // d t Hd Hx; apply: M2.
- split=> //; last by rewrite /= H0.
  exists chi' => // d t Hd Hx; apply: leq_trans (M1 d t Hx) _; by rewrite geq_max H1 Hc.
by move=> x; rewrite (ctmrg_sites E).
Qed.

(** ---- one bond ---- *)
Lemma write_fits chi (n : net) x (a1 a2 : tensor) : fits nx ny b p chi n ->
  shape a1 = [:: b; b; b; b; p] -> shape a2 = [:: b; b; b; b; p] -> fits nx ny b p chi (write_pair x a1 a2 n).
Proof.
move=> Hf S1 S2 s Hs; have [HA H] := Hf s Hs; rewrite /write_pair /upd.
split=> [|k Hk]; first by case: site_eq_dec => /= _; first (by []); case: site_eq_dec.
by have := H k Hk; do 2 case: site_eq_dec.
Qed.

Lemma write_unit (n : net) x (a1 a2 : tensor) : norm a1 = 1 -> norm a2 = 1 -> unit_sites n -> unit_sites (write_pair x a1 a2 n).
Proof.
move=> N1 N2 Hn s Hs; have := Hn s Hs; rewrite /write_pair /upd.
by case: site_eq_dec => //= _; case: site_eq_dec.
Qed.

Lemma wide_le c c' (n : net) : (c <= c')%N -> wide c n -> wide c' n.
Proof. by move=> Hc [chi Hf H]; exists chi => // d t Hd Hx; apply: leq_trans (H d t Hd Hx) Hc. Qed.

Lemma absorb_ok c chi0 s k (n : net) r : (0 < chi0 <= c)%N -> in_cell nx ny s -> (k < 4)%N -> wide c n ->
  okz (absorb_pair randn lqr lsvd fsvd u chi0 (Bond s (nbr nx ny k s) k) (n, r)) (fun nr => wide c nr.1 /\ forall x, nr.1 x SA = n x SA).
Proof.
move=> /andP[H0 H1] Hs Hk [chi Hf Hc].
have Hk' : (k < 4)%coq_nat by apply/ltP.
have Hs2 : in_cell nx ny (nbr nx ny k s) by apply: nbr_cell.
rewrite /absorb_pair absorb_bond_eq //= /seq_pair.
set ms := [:: (PeanoNat.Nat.modulo (k + 2) 4, line_of k s); (PeanoNat.Nat.modulo (PeanoNat.Nat.modulo (k + 2) 4 + 2) 4, line_of k (nbr nx ny k s))].
have Hv m : List.In m ms -> valid_move nx ny m.
  have L x : in_cell nx ny x -> (line_of k x < lines_of nx ny k)%coq_nat by move=> Hx; have [] := @in_cell_bounds nx ny k x Hk' Hx.
  have := L _ Hs; have := L _ Hs2.
  by rewrite /ms; case: (k) Hk => [|[|[|[|]]]] //= _ L2 L1 [<-|[<-|[]]]; split=> //=; apply/ltP.
have := @moves_fits _ _ randn lqr lsvd fsvd (ctm_config u chi0) (u_ptype u) nx ny b p H0 ms Hv chi n r Hf.
have := @moves_sites (u_ptype u) (ctm_config u chi0) ms n r _ _ Hv.
rewrite /moves /run_moves /ms /=.
case: (move_dir _ _ _ _ _ _ _ _ _ _ _ _ _ _ _) => [[n1 r1]|e] //=.
case: (move_dir _ _ _ _ _ _ _ _ _ _ _ _ _ _ _) => [[n2 r2]|e] //= Hsite [chi' Hf' [M1 _]].
split; last exact: Hsite.
by exists chi' => // d t Hd Hx; apply: leq_trans (M1 d t Hx) _; rewrite geq_max H1 Hc.
Qed.

Lemma update_ok chi (n : net) s k gate one : fits nx ny b p chi n -> in_cell nx ny s -> (k < 4)%N ->
  shape gate = [:: p; p; p; p] -> one_ok p one -> u_type u = "full" ->
  ends_well (full_bond_update lqr lsvd fsvd leigh lchol rtol cfg fuel.+1 n (Bond s (nbr nx ny k s) k) gate one) (fun a =>
    [/\ shape a.1 = [:: b; b; b; b; p], shape a.2 = [:: b; b; b; b; p] & one = None -> norm a.1 = 1 /\ norm a.2 = 1]).
Proof using Sq Ss Sf Se Hm tot c0 a0 b0 p0.
move=> Hf Hs Hk Sg So Tf.
have [q1 [r1 [q2 [r2 [N [E [Ed [Q1 Q2 R1 R2] [I1 I2] [_ EN SN _ _] _]]]]]]] := open_bond Sq Hf Hs Hk.
set nn := minn _ _ in Q1 Q2 R1 R2 I1 I2 SN.
have n0 : (0 < nn)%N by rewrite leq_min expn_gt0 b0 muln_gt0 p0.
have Hb : (b <= nn * p)%N.
  apply: (@leq_trans nn); last by rewrite leq_pmulr.
  by rewrite leq_min leq_pmull // andbT expnS leq_pmulr // expn_gt0 b0.
have [r Er Hr] := reduced_shape lchol rtol Sq Ss Sf Se Hm tot c0 a0 fuel n0 p0 Hb R1 R2 SN Sg.
rewrite (updateE one Ed EN Er); case: Hr => [->|[[-> mc]|[b1 [b2 [-> B1 B2 Bal]]]]]; [by left|by right|].
rewrite [bind _ _]/=; have [a1 [a2 [c [-> [S1 S2] _ _ Can]]]] := backE Hk Q1 Q2 I1 I2 B1 B2 Bal So.
by split=> // /Can; apply: canonical_norm.
Qed.

(** what a Gate object must provide *)
Definition gates_ok (g : gates C) : Prop :=
  (forall x, List.In x (build_bond_list nx ny) -> shape (g_two g x) = [:: p; p; p; p]) /\
  (forall f x, g_one g = Some f -> in_cell nx ny x -> shape (f x) = [:: p; p]).

Lemma one_fits g s k : gates_ok g -> in_cell nx ny s -> one_ok p (one_of g (Bond s (nbr nx ny k s) k)).
Proof.
move=> [_ H] Hs; rewrite /one_of; case E: (g_one g) => [f|] //=; split; apply: (H _ _ E) => //; exact: nbr_cell.
Qed.

Lemma full_ok c chi0 g x nr bl : (0 < chi0 <= c)%N -> gates_ok g -> u_type u = "full" -> Permutation bl (build_bond_list nx ny) ->
  List.In x bl -> wide c nr.1 ->
  ends_well (full_step randn lqr lsvd fsvd leigh lchol rtol fuel.+1 u chi0 g x nr) (fun nr' => wide c nr'.1 /\ (g_one g = None -> unit_sites nr.1 -> unit_sites nr'.1)).
Proof using Sq Ss Sf Se Hm tot c0 a0 b0 p0.
case: nr => n r Hc Hg Tf HP Hx [chi Hf Hcc].
have [s [k [Hs Hk Ex]]] := bond_in HP Hx.
have Sg : shape (g_two g x) = [:: p; p; p; p] by apply: (proj1 Hg); apply: Permutation_in HP Hx.
rewrite /full_step [(n, r).1]/= [(n, r).2]/=; subst x.
have := update_ok Hf Hs Hk Sg (one_fits k Hg Hs) Tf.
case: full_bond_update => [[[a1 a2]|e]|] //= [S1 S2 Hn].
have W : wide c (write_pair (Bond s (nbr nx ny k s) k) a1 a2 n) by exists chi => //; apply: write_fits.
have := absorb_ok r Hc Hs Hk W; case: absorb_pair => [[n' r']|e] /=; last by left.
move=> [W' A]; split=> // G Hu y Hy; rewrite A.
have [|N1 N2] := Hn; first by rewrite /one_of G.
exact: (write_unit _ N1 N2 Hu Hy).
Qed.

(** ---- simple update ---- *)
Notation ones := (ones_vec u).
Definition vectors (h : seq (bond * tensor)) : Prop := forall e, List.In e h -> shape e.2 = [:: b].

Lemma weight_shape h x : vectors h -> shape (weight_of tensor ones h x) = [:: b].
Proof.
rewrite /weight_of => Hh; case E: (last_set _ h x) => [v|] //.
elim: h Hh E => [|[y w] h IH] Hh //=; case E: (last_set _ h x) => [v'|].
  by move=> Ev; apply: IH; [move=> e He; apply: Hh; right|rewrite E].
by case: bond_eq_dec => // _ [<-]; apply: (Hh (y, w)); left.
Qed.

Lemma weights_ok bl h x : Permutation bl (build_bond_list nx ny) -> in_cell nx ny x -> vectors h ->
  exists2 w, all_weights (run_sets tensor h (new_lambda tensor ones bl)) x = Ok w & forall d, (d < 4)%N -> shape (w d) = [:: b].
Proof.
move=> HP Hx Hh.
have L d : (d < 4)%N -> exists2 v, get_weight tensor (run_sets tensor h (new_lambda tensor ones bl)) x d = Ok v & shape v = [:: b].
  move=> /ltP Hd; have [y [_ [_ [_ E]]]] := @C52_lookup tensor ones nx ny bl h x d HP Hx Hd.
  by exists (weight_of tensor ones h y) => //; apply: weight_shape.
have [w0 E0 H0] := L 0%N isT; have [w1 E1 H1] := L 1%N isT; have [w2 E2 H2] := L 2%N isT; have [w3 E3 H3] := L 3%N isT.
by rewrite /all_weights E0 /= E1 /= E2 /= E3 /=; eexists; first reflexivity; case=> [|[|[|[|]]]].
Qed.

Lemma simple_ok c g x nw bl : gates_ok g -> Permutation bl (build_bond_list nx ny) -> List.In x bl ->
  let I := fun nw : net * lam tensor => wide c nw.1 /\ exists2 h, nw.2 = run_sets tensor h (new_lambda tensor ones bl) & vectors h in
  I nw -> okz (simple_step lqr fsvd lcut g x nw) I.
Proof using Sq Sf l0 p0.
case: nw => n w Hg HP Hx I [[chi Hf Hc] [h Ew Hh]].
have [s [k [Hs Hk Ex]]] := bond_in HP Hx.
have Sg : shape (g_two g x) = [:: p; p; p; p] by apply: (proj1 Hg); apply: Permutation_in HP Hx.
have Hs2 : in_cell nx ny (nbr nx ny k s) by apply: nbr_cell.
rewrite /= in Ew; subst x w; rewrite /simple_step [(n, _).1]/= [(n, _).2]/= [b_s1 _]/= [b_s2 _]/= [b_k _]/=.
have [w1 -> W1] := weights_ok HP Hs Hh; have [w2 -> W2] := weights_ok HP Hs2 Hh.
rewrite [bind (Ok w1) _]/bind [bind (Ok w2) _]/bind.
have [SA1 _] := Hf s Hs; have [SA2 _] := Hf _ Hs2.
have M1 : matching (fun _ => b) p w1 (n s SA) by [].
have M2 : matching (fun _ => b) p w2 (n (nbr nx ny k s) SA) by [].
have [t [_ H]] := C65_simple_update Sq Sf Hk p0 l0 M1 M2 Sg (one_fits k Hg Hs).
case: H => [[_ ->]|[a1 [a2 [lam [c' [-> [S1 S2 Sl] _ _ _]]]]]] //=; split=> /=.
  by exists chi => //; apply: write_fits => //; rewrite ?S1 ?S2.
exists (cat h [:: (Bond s (nbr nx ny k s) k, lam)]); first by rewrite /run_sets List.fold_left_app.
by move=> e He; case: (List.in_app_or _ _ _ He) => [/Hh|[<-|[]]].
Qed.

(** ---- initial tensors ---- *)
Definition fresh_site (f : slot -> tensor) : Prop :=
  [/\ shape (f SA) = [:: b; b; b; b; p], norm (f SA) = 1 &
    forall k, (k < 4)%N -> shape (f (SC k)) = [:: b * b; b * b]%N /\ shape (f (SE k)) = [:: b * b; b * b; b; b]%N].

Lemma init_ok (st : seq C) (rand : tensor) : shape rand = [:: b; b; b; b; p] -> (size st <= p)%N ->
  (exists2 t, init_site b p st noise rand = Ok t & fresh_site (site_slots t)) \/
  (init_site b p st noise rand = Err ZeroNorm /\ ~ has_entry b p st noise rand).
Proof using b0.
move=> Sr Hz.
have [H|H] : has_entry b p st noise rand \/ ~ has_entry b p st noise rand.
  case E: [exists l : 'I_b, [exists x : 'I_b, [exists r : 'I_b, [exists d : 'I_b, [exists q : 'I_p, site_raw st noise rand l x r d q != 0]]]]].
    left; move/existsP: E => [l /existsP [x /existsP [r /existsP [d /existsP [q Hq]]]]].
    by exists l, x, r, d, q; split=> //; split.
  right=> -[l [x [r [d [q [[Hl Hx Hr Hd Hq] N]]]]]]; have := negbT E; apply/negP/negPn.
  apply/existsP; exists (Ordinal Hl); apply/existsP; exists (Ordinal Hx); apply/existsP; exists (Ordinal Hr).
  by apply/existsP; exists (Ordinal Hd); apply/existsP; exists (Ordinal Hq).
- left; have [A [Cs [Es [-> [S1 N1] _ HK]]]] := C56_initial_site Sr Hz H.
  by eexists; first reflexivity; split=> //= k Hk; have [[]] := HK k Hk.
by right; split=> //; have [_ ->] := C56_errors st noise Sr.
Qed.

Notation initialize_site_tensors := (Session.initialize_site_tensors trand noise u).
Lemma initialize_ok c st (s : state) : (0 < s_chi s <= c)%N -> (b * b <= c)%N -> (forall x, in_cell nx ny x -> (size (st x) <= p)%N) ->
  match initialize_site_tensors st s with
  | Ok s' => [/\ healthy c s', unit_sites (s_net s'), s_chi s' = s_chi s & s_init s' = true]
  | Err e => e = ZeroNorm /\ exists x r, in_cell nx ny x /\ ~ has_entry b p (st x) noise (trand r b p).1
  end.
Proof using Srand b0.
move=> Hc Hb Hz; rewrite /initialize_site_tensors.
set body := fun x nr => _.
have L : forall l (nr : net * R), (forall x, List.In x l -> in_cell nx ny x) ->
    (forall x, in_cell nx ny x -> List.In x l \/ fresh_site (nr.1 x)) ->
    match for_each l body nr with
    | Ok nr' => forall x, in_cell nx ny x -> fresh_site (nr'.1 x)
    | Err e => e = ZeroNorm /\ exists x r, in_cell nx ny x /\ ~ has_entry b p (st x) noise (trand r b p).1
    end.
  elim=> [|x l IH] [n r] Hl Hn /=; first by move=> x /Hn [].
  have Hx : in_cell nx ny x by apply: Hl; left.
  rewrite {1}/body [(n, r).1]/= [(n, r).2]/=; case E: (trand r b p) => [t r'].
  have St : shape t = [:: b; b; b; b; p] by have := Srand r; rewrite E.
  case: (init_ok St (Hz x Hx)) => [[a -> Fa]|[-> Na]] /=; last by split=> //; exists x, r; rewrite E.
  apply: IH => [y Hy|y Hy] /=; first by apply: Hl; right.
  by case: (site_eq_dec y x) => [e|Ne]; [right|case: (Hn y Hy) => [[Exy|Hyl]|Hf]; [by case: Ne|left|right]].
have := L (build_site_list nx ny) (s_net s, s_rng s) (fun x Hx => proj1 (in_site_list nx ny x) Hx) (fun x Hx => or_introl (proj2 (in_site_list nx ny x) Hx)).
case: for_each => [[n r]|e] //= H; split=> //; last by move=> x /H [].
split=> //=; exists (fun _ _ => (b * b)%N) => // x Hx.
by have [S1 _ HK] := H x Hx; split=> // k Hk; have [-> ->] := HK k Hk.
Qed.

(** ---- measuring ---- *)
Definition model_ok (m : model C) : Prop :=
  [/\ m_dim m = p,
      forall x, in_cell nx ny x -> (forall h, one_site_hamiltonian m x = Some h -> shape h = [:: p; p]) /\
        (forall kv, List.In kv (one_site_observables m x) -> shape kv.2 = [:: p; p]) /\
        keys (one_site_observables m x) = keys (one_site_observables m (0, 0)%N) &
      forall x, List.In x (build_bond_list nx ny) -> shape (two_site_hamiltonian m x) = [:: p * p; p * p]%N /\
        (forall kv, List.In kv (two_site_observables m x) -> shape kv.2 = [:: p * p; p * p]%N) /\
        forall y, List.In y (build_bond_list nx ny) -> keys (two_site_observables m x) = keys (two_site_observables m y)].

Definition has_keys (ks : seq string) (d : dict C) : Prop := forall k, inks k ks -> inks k (keys d).

Lemma add_ok ks k v (d : dict C) : inks k ks -> has_keys ks d -> okz (dict_add k v d) (has_keys ks).
Proof.
move=> Hk Hd; have := Hd k Hk; rewrite dget_keys /dict_add; case: (dget k d) => [x|] //= _ j Hj.
by have := Hd j Hj; rewrite !dget_keys dget_dset; case: String.eqb.
Qed.
Lemma div_ok ks k n (d : dict C) : (0 < n)%N -> inks k ks -> has_keys ks d -> okz (dict_div k n d) (has_keys ks).
Proof.
case: n => // n _ Hk Hd; have := Hd k Hk; rewrite dget_keys /dict_div; case: (dget k d) => [x|] //= _ j Hj.
by have := Hd j Hj; rewrite !dget_keys dget_dset; case: String.eqb.
Qed.

Lemma okz_for A S (l : seq A) (body : A -> S -> res S) (I : S -> Prop) x :
  (forall a y, List.In a l -> I y -> okz (body a y) I) -> I x -> okz (for_each l body x) I.
Proof.
elim: l x => [|a l IH] x //= H Hx; apply: okz_bind (H a x (or_introl erefl) Hx) _ => y Hy.
by apply: IH => // c z Hc; apply: H; right.
Qed.

Lemma okz_rdiv (x y : C) : okz (rdiv x y) (fun _ => True).
Proof. by rewrite /rdiv; case: ifP. Qed.

Lemma okz_one (rho op : tensor) : shape rho = [:: p; p] -> shape op = [:: p; p] -> okz (measure_one_site rho op) (fun _ => True).
Proof. by move=> Hr Ho; rewrite /measure_one_site /einsum /= Hr Ho /= /dims_ok /= !eqxx. Qed.
Lemma okz_two (rho op : tensor) : shape rho = [:: p; p; p; p] -> shape op = [:: p; p; p; p] -> okz (measure_two_site rho op) (fun _ => True).
Proof. by move=> Hr Ho; rewrite /measure_two_site /einsum /= Hr Ho /= /dims_ok /= !eqxx. Qed.

Lemma in_inks (V : Type) kv (l : seq (string * V)) : List.In kv l -> inks kv.1 (keys l).
Proof.
elim: l => [|a l IH] //= [->|H]; rewrite /inks /= -/(inks kv.1 (keys l)); first by rewrite String.eqb_refl.
by rewrite IH // orbT.
Qed.
Lemma inks_in k ks : List.In k ks -> inks k ks.
Proof. by elim: ks => [|j ks IH] //= [->|/IH H]; rewrite /inks /= ?String.eqb_refl // -/(inks k ks) H orbT. Qed.

Notation measured := (Session.measured empty u).
Lemma measured_ok c m (s : state) : healthy c s -> model_ok m ->
  okz (measured m s) (fun d => inks "Energy" (keys d) /\
    (forall x, in_cell nx ny x -> has_keys (keys (one_site_observables m x)) d) /\
    (forall x, List.In x (build_bond_list nx ny) -> has_keys (keys (two_site_observables m x)) d)).
Proof using nx0 ny0.
case=> -[chi Hf _] HP _ [Hd H1 H2]; rewrite /measured /measure.
set sl := build_site_list nx ny; set k1 := keys (one_site_observables m (0, 0)%N).
have sl0 : (0 < size sl)%N.
  have : List.In (0, 0)%N sl by apply/in_site_list; split; apply/ltP.
  by case: sl.
have bl0 : build_bond_list nx ny <> [::].
  move=> E; have := length_bond_list nx ny; rewrite E /=; move: nx0 ny0; case: (nx) => // n; by case: (ny).
apply: (@okz_bind _ _ _ _ (has_keys ("Energy" :: k1))) => [|ave Have].
  rewrite /calculate_one_site_measurements -/k1.
  apply: (@okz_bind _ _ _ _ (has_keys ("Energy" :: k1))) => [|ave Have].
    apply: okz_for => [x ave /in_site_list Hx Have|]; last first.
      move=> k; rewrite dget_keys init_get /inks /= -/(inks k k1); by case: inks => //; rewrite orbF => ->.
    have [Hh [Ho Ek]] := H1 x Hx.
    have [rho [f [-> _ Sr _]]] := C31_site_rdm Hf Hx; rewrite [bind (Ok rho) _]/bind.
    apply: (@okz_bind _ _ _ _ (fun _ => True)) => [|nrm _].
      by rewrite /site_norm /einsum /= Sr /= /dims_ok /= !eqxx.
    apply: (@okz_bind _ _ _ _ (fun _ => True)) => [|e _].
      rewrite /measure_site_energy; case Eh: (one_site_hamiltonian m x) => [h|] //.
      by apply: okz_bind (okz_one Sr (Hh _ Eh)) _ => *; apply: okz_rdiv.
    have InE : inks "Energy" ("Energy" :: k1) by [].
    apply: okz_bind (add_ok e InE Have) _ => ave' Have'.
    case: nonempty => //; apply: okz_for => // -[k op] a Hk Ha; have So : shape op = [:: p; p] := Ho _ Hk; cbv beta iota.
    apply: okz_bind (okz_one Sr So) _ => y _; apply: okz_bind (okz_rdiv _ _) _ => v _; apply: add_ok => //.
    by rewrite /inks /= -/(inks k k1) /k1 -Ek (in_inks Hk) orbT.
  by apply: okz_for => // k a Hk Ha; apply: div_ok => //; rewrite /inks /= -/(inks k k1) (inks_in Hk) orbT.
case Eb: (s_bonds s) => [|x0 bs]; first by case: bl0; apply: Permutation_nil; rewrite -Eb.
rewrite /calculate_two_site_measurements -Eb; set k2 := keys (two_site_observables m x0).
have Hx0 : List.In x0 (build_bond_list nx ny) by apply: Permutation_in HP _; rewrite Eb; left.
have sb0 : (0 < size (s_bonds s))%N by rewrite Eb.
have {}Eb x : List.In x (s_bonds s) -> List.In x (build_bond_list nx ny) by apply: Permutation_in.
pose ks := cat ("Energy" :: k1) k2.
have InE : inks "Energy" ks by [].
have In1 k : inks k ("Energy" :: k1) -> inks k ks by rewrite /inks /ks has_cat => ->.
have In2 k : inks k k2 -> inks k ks by rewrite /inks /ks has_cat => ->; rewrite orbT.
apply: (@okz_bind _ _ _ _ (has_keys ks)) => [|{}ave {}Have].
  apply: (@okz_bind _ _ _ _ (has_keys ks)) => [|{}ave {}Have]; last first.
    by apply: okz_for => // k a Hk Ha; apply: div_ok => //; apply: In2; apply: inks_in.
  apply: okz_for => [x a Hx Ha|]; last first.
    move=> k; have -> : inks k ks = inks k ("Energy" :: k1) || inks k k2 by apply: has_cat.
    rewrite (dget_keys k (foldl _ _ _)) init_get; case: (inks k k2) => //; rewrite orbF => Hk.
    by have := Have k Hk; rewrite dget_keys.
  have [s1 [k [Hs Hk Ex]]] := bond_in HP Hx; have [Hh [Ho Ek]] := H2 x (Eb x Hx); subst x.
  have [rho [f [_ [-> _ _ [Sr _] [_ Sf']]]]] := C32_bond_rdm empty Hf Hs Hk; rewrite Sf' in Sr.
  rewrite [bind (Ok rho) _]/bind.
  have V (op : tensor) : shape op = [:: p * p; p * p]%N -> okz (reshape op (nseq 4 (m_dim m))) (fun t => shape t = [:: p; p; p; p]).
    by move=> So; rewrite Hd; apply: okz_reshape; rewrite So /= !muln1 !mulnA.
  apply: (@okz_bind _ _ _ _ (fun _ => True)) => [|nrm _].
    by rewrite /bond_norm /einsum /= Sr /= /dims_ok /= !eqxx.
  apply: (@okz_bind _ _ _ _ (fun _ => True)) => [|e _].
    rewrite /measure_bond_energy; apply: okz_bind (V _ Hh) _ => h Sh; apply: okz_bind (okz_two Sr Sh) _ => *; exact: okz_rdiv.
  apply: okz_bind (add_ok e InE Ha) _ => a' Ha'.
  case: nonempty => //; apply: okz_for => // -[j op] a2 Hj Ha2; have So : shape op = [:: p * p; p * p]%N := Ho _ Hj; cbv beta iota.
  apply: okz_bind (V _ So) _ => h Sh; apply: okz_bind (okz_two Sr Sh) _ => y _; apply: okz_bind (okz_rdiv _ _) _ => v _.
  by apply: add_ok => //; apply: In2; rewrite /k2 -(Ek _ Hx0) (in_inks Hj).
apply: okz_imp (div_ok sl0 InE Have) _ => d {}Hd; split; first exact: Hd.
split=> [x Hx k Hk|x Hx k Hk]; apply: Hd.
  by apply: In1; have [_ [_ Ek]] := H1 x Hx; rewrite /inks /= -/(inks k k1) /k1 -Ek Hk orbT.
by apply: In2; have [_ [_ Ek]] := H2 x Hx; rewrite /k2 -(Ek _ Hx0).
Qed.

(** ---- evolution and whole sessions ---- *)
Notation evolve := (Session.evolve randn trand lqr lsvd fsvd leigh lchol rtol lcut noise fuel.+1 u).
Notation perform := (Session.perform randn trand lqr lsvd fsvd leigh lchol rtol lcut noise fuel.+1 empty u).
Notation session := (Session.session randn trand lqr lsvd fsvd leigh lchol rtol lcut noise fuel.+1 empty u).
Notation construct := (Session.construct trand noise u).

(** what may be asked of a session whose boundary legs are to stay within c *)
Definition call_ok (c : nat) (x : call) : Prop :=
  match x with
  | SetChi chi => (0 < chi <= c)%N
  | Renormalize => True
  | Evolve st g _ => gates_ok g /\ forall s, in_cell nx ny s -> (size (st s) <= p)%N
  | Measure m => model_ok m
  end.
(** no separate one-site gates *)
Definition plain (x : call) : Prop := if x is Evolve _ g _ then g_one g = None else True.
Definition is_measure (x : call) : bool := if x is Measure _ then true else false.

Lemma evolve_tensors_ok c g steps (s : state) : healthy c s -> gates_ok g ->
  ends_well (evolve_tensors randn lqr lsvd fsvd leigh lchol rtol lcut fuel.+1 u g steps s) (fun s' =>
    [/\ healthy c s', s_chi s' = s_chi s /\ s_init s' = s_init s &
        u_type u = "full" -> g_one g = None -> unit_sites (s_net s) -> unit_sites (s_net s')]).
Proof using Sq Ss Sf Se Hm Ht tot c0 a0 b0 p0 l0.
case: s => n r bl chi i [Hw HP Hc] Hg; rewrite /= in Hw HP Hc; rewrite /evolve_tensors /=.
case: Ht => Tt; rewrite Tt /=.
- pose I := fun nr : net * R => wide c nr.1 /\ (g_one g = None -> unit_sites n -> unit_sites nr.1).
  apply: (fine_bind (P := fun xb => I xb.1 /\ xb.2 = step_bonds bond bl steps)).
    apply: run_inv => // x nr Hx [W U].
    by apply: fine_imp (full_ok Hc Hg Tt HP Hx W) => nr' [W' U']; split=> // G Hn; apply: U' => //; apply: U.
  move=> [[n' r'] bl'] [[W U] /= ->]; split=> //; split=> //; exact: perm_step.
pose I := fun nw : net * lam tensor => wide c nw.1 /\ exists2 h, nw.2 = run_sets tensor h (new_lambda tensor ones bl) & vectors h.
apply: (fine_bind (P := fun xb => I xb.1 /\ xb.2 = step_bonds bond bl steps)).
  apply: run_inv => [x nw Hx Hi|]; first by apply: okz_fine; apply: simple_ok.
  by split=> //; exists [::].
by move=> [[n' w'] bl'] [[W _] /= ->]; split=> //; split=> //; apply: perm_step.
Qed.

Lemma evolve_ok c st g steps (s : state) : healthy c s -> (b * b <= c)%N -> gates_ok g -> (forall x, in_cell nx ny x -> (size (st x) <= p)%N) ->
  ends_well (evolve st g steps s) (fun s' =>
    [/\ healthy c s', s_chi s' = s_chi s /\ s_init s' = true, (0 < u_steps u)%N -> wide (s_chi s') (s_net s') &
        u_type u = "full" -> g_one g = None -> unit_sites (s_net s) -> unit_sites (s_net s')]).
Proof using Sq Ss Sf Se Hm Ht tot c0 a0 b0 p0 l0 Srand.
move=> Hs Hb Hg Hz; rewrite /evolve.
have Hi : okz (if s_init s then Ok s else initialize_site_tensors st s) (fun s' => [/\ healthy c s', s_chi s' = s_chi s, s_init s' = true & unit_sites (s_net s) -> unit_sites (s_net s')]).
  case E: (s_init s); first by split.
  have [_ _ Hc] := Hs; have := initialize_ok Hc Hb Hz; case: initialize_site_tensors => [s'|e] /=; last by case.
  by case.
have := okz_bind Hi (f := renormalize) (Q := fun s' => [/\ healthy c s', s_chi s' = s_chi s, s_init s' = true & unit_sites (s_net s) -> unit_sites (s_net s')]).
case: bind => [s1|e] /= H; last by left; apply: H => s' [H1 E1 I1 U1]; apply: okz_imp (renorm_ok H1) _ => s2 [? [? ?] A _]; split=> //; [congruence|congruence|move=> Hu x Hx; rewrite A; exact: U1].
have {H} [H1 E1 I1 U1] : [/\ healthy c s1, s_chi s1 = s_chi s, s_init s1 = true & unit_sites (s_net s) -> unit_sites (s_net s1)].
  apply: H => s' [H1 E1 I1 U1]; apply: okz_imp (renorm_ok H1) _ => s2 [? [? ?] A _]; split=> //; [congruence|congruence|move=> Hu x Hx; rewrite A; exact: U1].
apply: fine_bind (evolve_tensors_ok steps H1 Hg) _ => s2 [H2 [E2 I2] U2]; apply: okz_fine.
apply: okz_imp (renorm_ok H2) _ => s3 [H3 [E3 I3] A Hw]; split=> //; first by split; congruence.
by move=> Tf G Hu x Hx; rewrite A; apply: U2 => //; apply: U1.
Qed.

Lemma perform_ok c x (s : state) : healthy c s -> (b * b <= c)%N -> call_ok c x ->
  ends_well (perform x s) (fun so => [/\ healthy c so.1, size so.2 = is_measure x,
    forall d, List.In d so.2 -> inks "Energy" (keys d) & u_type u = "full" -> plain x -> unit_sites (s_net s) -> unit_sites (s_net so.1)]).
Proof using Sq Ss Sf Se Hm Ht tot c0 a0 b0 p0 l0 Srand nx0 ny0.
move=> Hs Hb; case: x => [chi|| st g steps|m] /= Hx.
- by split=> //; case: Hs => ? ? _.
- apply: (@okz_fine _ (let! s := renormalize s in Ok (s, [::]))); apply: okz_bind (renorm_ok Hs) _ => s' [H1 _ A _]; split=> //.
  by move=> _ _ Hu x Hc; rewrite A; apply: Hu.
- have [Hg Hz] := Hx; apply: fine_bind (evolve_ok steps Hs Hb Hg Hz) _ => s' [H1 _ _ U]; split=> //.
apply: (@okz_fine _ (let! d := measured m s in Ok (s, [:: d]))).
by apply: okz_bind (measured_ok Hs Hx) _ => d [Hd _]; split=> // d' [<-|[]].
Qed.

(** C74.  A session, started from a network whose tensors fit together with
    boundary legs of at most c, ends, whatever calls are made in whatever order
    with gates, states and models of the right sizes and boundary dimensions of at
    most c.  If it fails it is for a zero norm or, with the full update and the
    Cholesky solver, a failed factorisation; never because two tensors do not fit
    together, a name is missing or a list is empty.  Otherwise the tensors still
    fit together with boundary legs of at most c, and there is one result for each
    measurement. *)
Theorem C74_session c (cs : seq call) (s : state) : healthy c s -> (b * b <= c)%N -> (forall x, List.In x cs -> call_ok c x) ->
  ends_well (session cs s) (fun so => [/\ healthy c so.1, size so.2 = count is_measure cs & forall d, List.In d so.2 -> inks "Energy" (keys d)]).
Proof using Sq Ss Sf Se Hm Ht tot c0 a0 b0 p0 l0 Srand nx0 ny0.
move=> + Hb; elim: cs s => [|x cs IH] s Hs Hc //=.
have := perform_ok Hs Hb (Hc x (or_introl erefl)).
case: perform => [[[s1 o1]|e]|] //= [H1 S1 E1 _].
have := IH s1 H1 (fun y Hy => Hc y (or_intror Hy)).
case: session => [[[s2 o2]|e]|] //= [H2 S2 E2]; split=> //; first by rewrite size_cat S1 S2.
by move=> d Hd; case: (List.in_app_or _ _ _ Hd) => [/E1|/E2].
Qed.

(** Renormalising and evolving bring the boundary legs down to the boundary
    dimension set last. *)
Theorem C74_boundary c x (s s' : state) out : healthy c s -> (b * b <= c)%N -> call_ok c x -> (0 < u_steps u)%N ->
  perform x s = Some (Ok (s', out)) -> x = Renormalize C \/ (exists st g steps, x = Evolve st g steps) -> wide (s_chi s') (s_net s').
Proof using Sq Ss Sf Se Hm Ht tot c0 a0 b0 p0 l0 Srand.
move=> Hs Hb Hx St E [Ex|[st [g [steps Ex]]]]; subst x; move: E => /=.
  have := renorm_ok Hs; case: renormalize => [s1|e] //= [_ _ _ Hw] [<- _]; exact: Hw.
have [Hg Hz] := Hx; have := evolve_ok steps Hs Hb Hg Hz; case: evolve => [[s1|e]|] //= [_ _ Hw _] [<- _]; exact: Hw.
Qed.

(** The start: torch.rand has no negative entries, so the state of all bond
    indices zero has weight, and the construction succeeds. *)
Theorem C74_construct (n : net) r chi : (forall r i, 0 <= at_ (trand r b p).1 i) -> 0 <= noise -> (0 < chi)%N ->
  exists s, [/\ construct n r chi = Ok s, healthy (maxn (b * b) chi) s, unit_sites (s_net s) & s_chi s = chi /\ s_init s = false].
Proof using Srand b0 p0.
move=> Hr Hn Hc; rewrite /construct.
have Hc' : (0 < chi <= maxn (b * b) chi)%N by rewrite Hc leq_maxr.
pose st (_ : site) : seq C := 1 :: nseq p.-1 0.
have Hz x : in_cell nx ny x -> (size (st x) <= p)%N by rewrite /= size_nseq prednK.
have := @initialize_ok (maxn (b * b) chi) st (State n r [::] chi false) Hc' (leq_maxl _ _) Hz.
case: initialize_site_tensors => [s|e] /=.
  by case=> [[W HP Hs] U E _]; exists (State (s_net s) (s_rng s) (s_bonds s) (s_chi s) false).
case=> _ [x [r' [_ []]]]; exists 0%N, 0%N, 0%N, 0%N, 0%N; split=> //.
by rewrite /site_raw /= lt0r_neq0 // ltr_paddl ?mulr_ge0 ?ltr01.
Qed.

(** C75.  With the full update and no separate one-site gates, every site tensor
    keeps norm one through the whole session. *)
Theorem C75_unit_sites c (cs : seq call) (s s' : state) out : healthy c s -> (b * b <= c)%N -> (forall x, List.In x cs -> call_ok c x /\ plain x) ->
  u_type u = "full" -> unit_sites (s_net s) -> session cs s = Some (Ok (s', out)) -> unit_sites (s_net s').
Proof using Sq Ss Sf Se Hm Ht tot c0 a0 b0 p0 l0 Srand nx0 ny0.
move=> + Hb + Tf; elim: cs s out => [|x cs IH] s out Hs Hc Hu /=; first by move=> [<- _].
have [Hx Px] := Hc x (or_introl erefl).
have := perform_ok Hs Hb Hx; case: perform => [[[s1 o1]|e]|] //= [H1 _ _ U1].
have {}IH o := IH s1 o H1 (fun y Hy => Hc y (or_intror Hy)) (U1 Tf Px Hu).
by case E: (session cs s1) => [[[s2 o2]|e]|] //= [Es _]; apply: (IH o2); rewrite E Es.
Qed.
End Sessions.

(** ---- concrete sessions ---- *)
Section Examples.
Variable C : numClosedFieldType.
Notation tensor := (tensor C).

Definition zeros_rand (r : unit) (D p : nat) : tensor * unit := (Tensor [:: D; D; D; D; p] (fun _ => 0), r).
Definition plain_setup (D : nat) (t : string) : setup C :=
  Setup 2 2 D 2 Full 3 (PConfig "full-rank" 0 2 2 3) t (EConfig "pinv" 1 1 10 true 1 0).
Definition blank : Mover.net tensor := fun _ _ => Tensor [::] (fun _ => 0).
(** gates that do nothing, and a model with one field and one coupling *)
Definition idle : gates C := Gates (fun _ => Tensor [:: 2; 2; 2; 2]%N (fun i => ((nth 0%N i 0 == nth 0%N i 2) && (nth 0%N i 1 == nth 0%N i 3))%:R)) None.
Definition zmat : tensor := Tensor [:: 2; 2]%N (fun i => if nth 0%N i 0 == nth 0%N i 1 then (if nth 0%N i 0 == 0%N then 1 else -1) else 0).
Definition zz : tensor := Tensor [:: 4; 4]%N (fun i => if nth 0%N i 0 == nth 0%N i 1 then (if (nth 0%N i 0 == 0%N) || (nth 0%N i 0 == 3%N) then 1 else -1) else 0).
Definition small_model : model C := Model 2 (fun _ => [:: ("sz", zmat)]) (fun _ => [:: ("zz", zz)]) (fun _ => Some zmat) (fun _ => zz).

Notation session := (@Session.session C unit (fun r _ _ => (0, r)) zeros_rand (@some_qr C) (@some_thin_svd C) (@some_full_svd C) (@some_eigh C) (@some_chol C) (fun _ _ => 0) 1 0 1 (fun _ => Tensor [::] (fun _ => 0))).
Notation construct := (@Session.construct C unit zeros_rand 0).

(** everything asked of a session holds of this one, with bond dimension 2 and
    either update; at the end the boundary legs are at most 4 and, with the full
    update, the site tensors have norm 1 *)
Example C74_example t : t = "full" \/ t = "simple" -> exists2 s, construct (plain_setup 2 t) blank tt 3 = Ok s &
  let cs := [:: Renormalize C; Evolve (fun _ => [:: 1; 1]) idle 5; SetChi C 4; Measure small_model; Evolve (fun _ => [:: 1; 1]) idle 2; Measure small_model] in
  match session (plain_setup 2 t) cs s with
  | Some (Ok (s', out)) => [/\ healthy (plain_setup 2 t) 4 s', size out = 2%N & t = "full" -> unit_sites (plain_setup 2 t) (s_net s')]
  | Some (Err e) => e = ZeroNorm
  | None => False
  end.
Proof.
move=> Ht; have Srand r : shape (zeros_rand r 2 2).1 = [:: 2; 2; 2; 2; 2]%N by [].
have [s [Es Hs Us _]] := @C74_construct C unit zeros_rand 0 (plain_setup 2 t) Srand isT isT blank tt 3 (fun _ _ => Order.POrderTheory.lexx 0) (Order.POrderTheory.lexx 0) isT.
exists s; first by rewrite Es.
move=> cs.
have Hcs x : List.In x cs -> call_ok (plain_setup 2 t) 4 x /\ plain x.
  have Hg : gates_ok (plain_setup 2 t) idle by split.
  have Hmod : model_ok (plain_setup 2 t) small_model.
    split=> [//|y _|y _].
      by split; [move=> h [<-]|split=> [kv [<-|[]]|]].
    by split=> //; split=> [kv [<-|[]]|].
  case=> [<-|]; first by split.
  case=> [<-|]; first by split; [split|].
  case=> [<-|]; first by split.
  case=> [<-|]; first by split.
  case=> [<-|]; first by split; [split|].
  by case=> [<-|[]]; split.
have tot m (A : 'M[C]_m) : @some_eigh C m A by [].
have Hm : als_method (u_evo (plain_setup 2 t)) = "cholesky" \/ als_method (u_evo (plain_setup 2 t)) = "pinv" by right.
have H := @C74_session C unit (fun r _ _ => (0, r)) zeros_rand _ _ _ _ (@some_chol C) (fun _ _ => 0) 1 0 0 (fun _ => Tensor [::] (fun _ => 0)) (plain_setup 2 t)
  (@some_qr_spec C) (@some_thin_svd_spec C) (@some_full_svd_spec C) (@some_eigh_spec C) tot Srand Hm Ht (Order.POrderTheory.lexx 0) (fun _ => ltr01) ltr01 isT isT isT isT 4 cs s Hs isT (fun x Hx => proj1 (Hcs x Hx)).
have U := @C75_unit_sites C unit (fun r _ _ => (0, r)) zeros_rand _ _ _ _ (@some_chol C) (fun _ _ => 0) 1 0 0 (fun _ => Tensor [::] (fun _ => 0)) (plain_setup 2 t)
  (@some_qr_spec C) (@some_thin_svd_spec C) (@some_full_svd_spec C) (@some_eigh_spec C) tot Srand Hm Ht (Order.POrderTheory.lexx 0) (fun _ => ltr01) ltr01 isT isT isT isT 4 cs s.
move: H (fun s' out => U s' out Hs isT Hcs); case: session => [[[s' out]|e]|] //=.
  by move=> [H1 H2 _] H3; split=> // Tf; apply: H3 Tf Us erefl.
by move=> [->|[_ _]].
Qed.

End Examples.

Print Assumptions C74_session.
Print Assumptions C74_boundary.
Print Assumptions C74_construct.
Print Assumptions C75_unit_sites.
