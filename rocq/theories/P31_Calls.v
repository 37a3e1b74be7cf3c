(** C78-C80: how the calls of a session work together (acetn/ipeps/ipeps.py,
    acetn/evolution/evolve.py, simple_update.py). *)
From Coq Require Import String Ascii Permutation.
From mathcomp Require Import all_ssreflect all_algebra.
From Verif Require Import Base Lattice LatticeFacts Mover Tensor TN Rdm RdmFacts Fits EinsumLin Measure MeasureFacts FullUpdate Linalg Mat Rsvd RsvdFacts Renorm RenormFacts Spectral ProjFacts Psd Als AlsFacts EighChol UpdFacts InitFacts ProductState Dist Lambda Evolve P05_Mover MoveShape P08_Control P09_Rdm P11_Measure P13_Renorm P16_Als P17_Reduced P18_Positive P19_Gauge Eckart P20_Simple P22_SimpleUpdate P23_Solver P24_FullUpdate P26_SiteUpdate Session P29_Session Ring ProductFacts P30_Product.
Set Implicit Arguments.
Unset Strict Implicit.
Unset Printing Implicit Defensive.
Import GRing.Theory Num.Theory.
Local Open Scope ring_scope.
Local Open Scope string_scope.

Section Calls.
Variable C : numClosedFieldType.
Notation tensor := (tensor C).
Notation net := (Mover.net tensor).
Variable R : Type.
Variable randn : R -> forall n q : nat, 'M[C]_(n, q) * R.
Variable trand : R -> nat -> nat -> tensor * R.
Variable lqr : qr_fun C.
Variable lsvd : thin_svd_fun C.
Variable fsvd : full_svd_fun C.
Variable leigh : eigh_fun C.
Variable lchol : chol_fun C.
Variable rtol : nat -> nat -> C.
Variables (lcut noise : C).
Variable fuel : nat.
Variable empty : nat -> tensor.
Notation state := (Session.state C R).
Notation call := (call C).
Notation initialize_site_tensors := (Session.initialize_site_tensors trand noise).
Notation renormalize := (Session.renormalize randn lqr lsvd fsvd).
Notation evolve_tensors := (Session.evolve_tensors randn lqr lsvd fsvd leigh lchol rtol lcut fuel).
Notation evolve := (Session.evolve randn trand lqr lsvd fsvd leigh lchol rtol lcut noise fuel).
Notation measured := (Session.measured empty).
Notation perform := (Session.perform randn trand lqr lsvd fsvd leigh lchol rtol lcut noise fuel empty).
Notation session := (Session.session randn trand lqr lsvd fsvd leigh lchol rtol lcut noise fuel empty).

(** ---- calls one after the other ---- *)

(** C78.  A session of two parts is the second part after the first, with the
    results in the order of the calls. *)
Theorem C78_compose u (cs1 cs2 : seq call) (s : state) :
  session u (cs1 ++ cs2)%SEQ s =
  match session u cs1 s with
  | Some (Ok (s1, out1)) =>
      match session u cs2 s1 with
      | Some (Ok (s2, out2)) => Some (Ok (s2, (out1 ++ out2)%SEQ))
      | x => x
      end
  | x => x
  end.
Proof.
elim: cs1 s => [|c cs IH] s.
  by rewrite cat0s /=; case: session => [[[s2 o]|e]|].
rewrite cat_cons /=; case: (perform u c s) => [[[s1 o]|e]|] //; rewrite IH.
case: (session u cs s1) => [[[s2 o2]|e]|] //; case: (session u cs2 s2) => [[[s3 o3]|e]|] //.
by rewrite catA.
Qed.

(** A measurement reports what the network holds at that point of the session,
    and has no influence on the rest of it. *)
Theorem C78_measure u (cs1 cs2 : seq call) m (s s' : state) out :
  session u (cs1 ++ Measure m :: cs2)%SEQ s = Some (Ok (s', out)) ->
  exists s1 out1 d out2, [/\ session u cs1 s = Some (Ok (s1, out1)), measured u m s1 = Ok d,
    session u cs2 s1 = Some (Ok (s', out2)), out = (out1 ++ d :: out2)%SEQ &
    session u (cs1 ++ cs2)%SEQ s = Some (Ok (s', (out1 ++ out2)%SEQ))].
Proof.
rewrite !C78_compose; case E1: (session u cs1 s) => [[[s1 o1]|e]|] //=.
case Em: (measured u m s1) => [d|] //=.
case E2: (session u cs2 s1) => [[[s2 o2]|e]|] //= [<- <-].
by exists s1, o1, d, o2.
Qed.

(** the boundary dimension set last *)
Fixpoint last_chi (cs : seq call) (chi : nat) : nat :=
  match cs with
  | [::] => chi
  | SetChi c :: cs => last_chi cs c
  | _ :: cs => last_chi cs chi
  end.

Lemma renorm_chi u (s s' : state) : renormalize u s = Ok s' ->
  [/\ s_chi s' = s_chi s, s_bonds s' = s_bonds s & s_init s' = s_init s].
Proof. by rewrite /renormalize; case: run_ctmrg => [[n r]|] //= -[<-]. Qed.

Lemma evolve_tensors_chi u g steps (s s' : state) : evolve_tensors u g steps s = Some (Ok s') -> s_chi s' = s_chi s /\ s_init s' = s_init s.
Proof.
rewrite /evolve_tensors; case: ifP => _.
  by case: evolve_run => [[[[n r] bl]|]|] //= [<-].
case: ifP => // _; by case: evolve_run => [[[[n r] bl]|]|] //= [<-].
Qed.

Lemma initialize_chi u st (s s' : state) : initialize_site_tensors u st s = Ok s' -> s_chi s' = s_chi s /\ s_init s' = true.
Proof. by rewrite /initialize_site_tensors; case: for_each => [[n r]|] //= -[<-]. Qed.

Lemma evolve_parts u st g steps (s s' : state) : evolve u st g steps s = Some (Ok s') ->
  exists s1 s2 s3, [/\ (if s_init s then Ok s else initialize_site_tensors u st s) = Ok s1, renormalize u s1 = Ok s2,
    evolve_tensors u g steps s2 = Some (Ok s3) & renormalize u s3 = Ok s'].
Proof.
rewrite /evolve; case E1: (if s_init s then _ else _) => [s1|] //=; case E2: (renormalize u s1) => [s2|] //=.
case E3: (evolve_tensors u g steps s2) => [[s3|]|] //= [E4].
by exists s1, s2, s3.
Qed.

Lemma evolve_chi u st g steps (s s' : state) : evolve u st g steps s = Some (Ok s') -> s_chi s' = s_chi s /\ s_init s' = true.
Proof.
move=> /evolve_parts [s1 [s2 [s3 [E1 /renorm_chi [C1 _ I1] /evolve_tensors_chi [C2 I2] /renorm_chi [C3 _ I3]]]]].
rewrite C3 I3 C2 I2 C1 I1; case Hi: (s_init s) E1 => [] E1; first by case: E1 => <-.
by apply: initialize_chi E1.
Qed.

Theorem C78_chi u (cs : seq call) (s s' : state) out :
  session u cs s = Some (Ok (s', out)) -> s_chi s' = last_chi cs (s_chi s).
Proof.
elim: cs s out => [|c cs IH] s out /=; first by case=> <-.
case E: (perform u c s) => [[[s1 o]|e]|] //.
case E2: (session u cs s1) => [[[s2 o2]|e]|] //= [Es _]; subst s2; rewrite (IH _ _ E2).
case: c E => [chi||st g n|m] /=.
- by case=> <-.
- by case E3: (renormalize u s) => [s3|] //= [<- _]; have [->] := renorm_chi E3.
- by case E3: (evolve u _ _ _ s) => [[s3|]|] //= [<- _]; have [->] := evolve_chi E3.
- by case: (measured u _ s) => [d|] //= [<-].
Qed.

(** which calls refresh the boundary, which change its dimension *)
Definition refreshes (c : call) : bool := match c with Renormalize | Evolve _ _ _ => true | _ => false end.
Definition sets_chi (c : call) : bool := if c is SetChi _ then true else false.

Lemma last_chi_cat (cs1 cs2 : seq call) chi : last_chi (cs1 ++ cs2)%SEQ chi = last_chi cs2 (last_chi cs1 chi).
Proof. by elim: cs1 chi => [|[c||st g n|m] cs IH] chi //=. Qed.
Lemma last_chi_keep (cs : seq call) chi : (forall x, List.In x cs -> ~~ sets_chi x) -> last_chi cs chi = chi.
Proof.
elim: cs chi => [|c cs IH] chi //= H; have Hc := H c (or_introl erefl).
have {}IH := IH chi (fun x Hx => H x (or_intror Hx)).
by case: c {H} Hc => [k||st g n|m] //=.
Qed.

Section Setup.
Variable u : setup C.
Notation nx := (u_nx u).
Notation ny := (u_ny u).
Notation b := (u_bond u).
Notation p := (u_phys u).
Notation cfg := (u_evo u).
Hypothesis Sq : qr_spec lqr.
Hypothesis Ss : thin_svd_spec lsvd.
Hypothesis Sf : full_svd_spec fsvd.
Hypothesis Se : eigh_spec leigh.
Hypothesis tot : forall m (A : 'M[C]_m), leigh A.
Hypothesis Srand : forall r, shape (trand r b p).1 = [:: b; b; b; b; p].
Hypothesis Hm : als_method cfg = "cholesky" \/ als_method cfg = "pinv".
Hypothesis Ht : u_type u = "full" \/ u_type u = "simple".
Hypothesis c0 : 0 <= positive_approx_cutoff cfg.
Hypothesis a0 : use_gauge_fix cfg -> 0 < gauge_fix_atol cfg.
Hypothesis l0 : 0 < lcut.
Hypotheses (nx0 : (0 < nx)%N) (ny0 : (0 < ny)%N) (b0 : (0 < b)%N) (p0 : (0 < p)%N).
Hypothesis f0 : (0 < fuel)%N.

Lemma call_healthy c x (s s1 : state) o : healthy u c s -> (b * b <= c)%N -> call_ok u c x -> perform u x s = Some (Ok (s1, o)) -> healthy u c s1.
Proof using Sq Ss Sf Se tot Srand Hm Ht c0 a0 l0 nx0 ny0 b0 p0 f0.
move=> Hs Hb Hx; case: fuel f0 => // f _ E.
by have := perform_ok randn lchol rtol noise f empty Sq Ss Sf Se tot Srand Hm Ht c0 a0 l0 nx0 ny0 b0 p0 Hs Hb Hx; rewrite E => -[].
Qed.

Lemma call_refreshes c x (s s1 : state) o : healthy u c s -> (b * b <= c)%N -> call_ok u c x -> (0 < u_steps u)%N -> refreshes x ->
  perform u x s = Some (Ok (s1, o)) -> wide u (s_chi s1) (s_net s1).
Proof using Sq Ss Sf Se tot Srand Hm Ht c0 a0 l0 b0 p0 f0.
move=> Hs Hb Hx St Hr; case: fuel f0 => // f _ E.
apply: (C74_boundary Sq Ss Sf Se tot Srand Hm Ht c0 a0 l0 b0 p0 Hs Hb Hx St E).
by case: (x) Hr => // [|y g n] _; [left|right; exists y, g, n].
Qed.

(** Once the network has been renormalised or evolved after the last change of
    the boundary dimension, its boundary legs are no longer than that. *)
Theorem C78_boundary c (cs1 cs2 : seq call) x (s s' : state) out : healthy u c s -> (b * b <= c)%N ->
  (forall y, List.In y (cs1 ++ x :: cs2)%SEQ -> call_ok u c y) -> (0 < u_steps u)%N ->
  refreshes x -> (forall y, List.In y cs2 -> ~~ sets_chi y) ->
  session u (cs1 ++ x :: cs2)%SEQ s = Some (Ok (s', out)) -> wide u (last_chi cs1 (s_chi s)) (s_net s').
Proof using Sq Ss Sf Se tot Srand Hm Ht c0 a0 l0 nx0 ny0 b0 p0 f0.
move=> Hs Hb Hc St Hx Hk; elim: cs1 s out Hs Hc => [|y cs IH] s0 out0 Hs Hc.
  rewrite cat0s /=; case E: (perform u x s0) => [[[s1 o1]|e]|] //.
  case E2: (session u cs2 s1) => [[[s2 o2]|e]|] //= [Es _]; subst s2.
  have Hx' : call_ok u c x by apply: Hc; left.
  have H1 := call_healthy Hs Hb Hx' E; have W1 := call_refreshes Hs Hb Hx' St Hx E.
  have C1 : s_chi s1 = s_chi s0.
    have := @C78_chi u [:: x] s0 s1 (o1 ++ [::])%SEQ; rewrite /= E => ->//; by case: (x) Hx.
  rewrite -C1; have Hc2 y : List.In y cs2 -> call_ok u c y by move=> Hy; apply: Hc; right.
  elim: (cs2) s1 o2 Hk Hc2 H1 W1 {E C1} E2 => [|y cs IH] s1 o2 Hk2 Hc2 H1 W1 /=; first by case=> <-.
  case E: (perform u y s1) => [[[s3 o3]|e]|] //.
  case E2: (session u cs s3) => [[[s4 o4]|e]|] //= [Es _]; subst s4.
  have Hy : call_ok u c y by apply: Hc2; left.
  have Ny : ~~ sets_chi y by apply: Hk2; left.
  have C3 : s_chi s3 = s_chi s1.
    have := @C78_chi u [:: y] s1 s3 (o3 ++ [::])%SEQ; rewrite /= E => ->//; by case: (y) Ny.
  rewrite -C3; apply: (IH s3 o4) => //.
  - by move=> z Hz; apply: Hk2; right.
  - by move=> z Hz; apply: Hc2; right.
  - exact: call_healthy H1 Hb Hy E.
  case Ry: (refreshes y); first exact: call_refreshes H1 Hb Hy St Ry E.
  case: y E Ry Ny {Hy Hk2 Hc2} => [k||st g n|m] //=; case: (measured u m s1) => [d|] //= [<- _] _ _; exact: W1.
rewrite cat_cons /=; case E: (perform u y s0) => [[[s1 o1]|e]|] //.
case E2: (session u (cs ++ x :: cs2)%SEQ s1) => [[[s2 o2]|e]|] //= [Es _]; subst s2.
have Hy : call_ok u c y by apply: Hc; left.
have := IH s1 o2 (call_healthy Hs Hb Hy E) (fun z Hz => Hc z (or_intror Hz)) E2.
have := @C78_chi u [:: y] s0 s1 (o1 ++ [::])%SEQ; rewrite /= E => ->//.
by case: (y).
Qed.
End Setup.

(** Renormalising twice, with k and then m CTMRG steps, is renormalising once
    with k + m. *)
Definition with_steps (u : setup C) (k : nat) : setup C :=
  Setup (u_nx u) (u_ny u) (u_bond u) (u_phys u) (u_ptype u) k (u_ctm u) (u_type u) (u_evo u).
Theorem C78_renormalize_again u k m (s : state) :
  (let! s' := renormalize (with_steps u k) s in renormalize (with_steps u m) s') = renormalize (with_steps u (k + m)) s.
Proof.
rewrite /renormalize /run_ctmrg /ctmrg [u_steps _]/= [u_steps _]/= [u_steps _]/= List.seq_app for_each_app.
case: for_each => [[n r]|e] //=.
have X (A : Type) (f : A -> res A) j1 j2 l (x : A) : for_each (List.seq j1 l) (fun _ => f) x = for_each (List.seq j2 l) (fun _ => f) x.
  by elim: l j1 j2 x => [|l IH] j1 j2 x //=; case: (f x) => //= y; apply: IH.
by rewrite (X _ _ k 0%N).
Qed.

(** An evolution of no steps of an initialised network renormalises it twice. *)
Theorem C78_no_steps u st g (s : state) : u_type u = "full" \/ u_type u = "simple" -> s_init s ->
  evolve u st g 0 s = Some (let! s := renormalize u s in renormalize u s).
Proof.
move=> Ht Hi; rewrite /evolve Hi [bind (Ok s) _]/bind; case E: (renormalize u s) => [s1|e] //=.
rewrite /evolve_tensors; have -> : evolve_run (full_step randn lqr lsvd fsvd leigh lchol rtol fuel u (s_chi s1) g) 0 (s_net s1, s_rng s1) (s_bonds s1) = Some (Ok ((s_net s1, s_rng s1), s_bonds s1)) by [].
by case: Ht => -> /=; case: (s1).
Qed.

(** ---- the weights of the simple update ---- *)

(** C79.  Specification: a vector for each leg of each site; a bond update uses
    the vectors of its two sites and puts the new one on both ends of its bond. *)
Definition is_end (x : bond) (s : site) (d : nat) : bool :=
  (if site_eq_dec s (b_s1 x) then d == b_k x else false) || (if site_eq_dec s (b_s2 x) then d == ((b_k x + 2) %% 4)%N else false).
Definition weighted_step (g : gates C) (x : bond) (nw : net * (site -> nat -> tensor)) : res (net * (site -> nat -> tensor)) :=
  let! (a1, a2, lambda) := simple_bond_update lqr fsvd lcut (nw.2 (b_s1 x)) (nw.2 (b_s2 x)) (b_k x)
    (nw.1 (b_s1 x) SA) (nw.1 (b_s2 x) SA) (g_two g x) (one_of g x) in
  Ok (write_pair x a1 a2 nw.1, fun s d => if is_end x s d then lambda else nw.2 s d).

Lemma update_weights (w1 w1' w2 w2' : nat -> tensor) k (a1 a2 gate : tensor) one :
  (forall d, (d < 4)%N -> w1 d = w1' d) -> (forall d, (d < 4)%N -> w2 d = w2' d) ->
  simple_bond_update lqr fsvd lcut w1 w2 k a1 a2 gate one = simple_bond_update lqr fsvd lcut w1' w2' k a1 a2 gate one.
Proof. by move=> H1 H2; rewrite /simple_bond_update /absorb /strip !H1 // !H2. Qed.

(** the table of the code holds the vectors of the specification *)
Definition holds (nx ny : nat) (w : lam tensor) (W : site -> nat -> tensor) : Prop :=
  forall s d, in_cell nx ny s -> (d < 4)%N -> get_weight tensor w s d = Ok (W s d).

Lemma all_holds nx ny w W s : holds nx ny w W -> in_cell nx ny s ->
  exists2 v, all_weights w s = Ok v & forall d, (d < 4)%N -> v d = W s d.
Proof.
move=> H Hs; rewrite /all_weights (H s 0%N) //= (H s 1%N) //= (H s 2%N) //= (H s 3%N) //=.
by eexists; first reflexivity; case=> [|[|[|[|]]]].
Qed.

Theorem C79_weights u g steps (s : state) : Permutation (s_bonds s) (build_bond_list (u_nx u) (u_ny u)) -> u_type u = "simple" ->
  evolve_tensors u g steps s =
  Some (let! (n, _) := for_each (schedule bond (s_bonds s) steps) (weighted_step g) (s_net s, fun _ _ => ones_vec u) in
        Ok (State n (s_rng s) (step_bonds bond (s_bonds s) steps) (s_chi s) (s_init s))).
Proof.
move=> HP Ht; rewrite /evolve_tensors Ht /= /evolve_run evolve_state evolve_bonds.
set bl := s_bonds s in HP *; set w0 := new_lambda _ _ _.
pose I w W := holds (u_nx u) (u_ny u) w W /\ exists h, w = run_sets tensor h w0.
have Er l e : run_updates bond (option (res (net * lam tensor))) unit (guard (fun x nw => Some (simple_step lqr fsvd lcut g x nw))) (Some (Err e)) l = Some (Err e).
  by elim: l.
have L : forall l n w W, (forall y, List.In y l -> List.In y bl) -> I w W ->
    match run_updates bond (option (res (net * lam tensor))) unit (guard (fun x nw => Some (simple_step lqr fsvd lcut g x nw))) (Some (Ok (n, w))) l with
    | Some x => Some (let! (n', _) := x in Ok n')
    | None => None
    end = Some (let! (n', _) := for_each l (weighted_step g) (n, W) in Ok n').
  elim=> [|x l IH] n w W Hl [Hw [h Eh]] //=.
  have Hx : List.In x bl by apply: Hl; left.
  have [t [k [Ht' Hk Ex]]] := bond_in HP Hx.
  have Ht2 : in_cell (u_nx u) (u_ny u) (nbr (u_nx u) (u_ny u) k t) by apply: nbr_cell.
  rewrite /simple_step /weighted_step [(n, w).1]/= [(n, w).2]/= [(n, W).1]/= [(n, W).2]/=.
  have E1 : b_s1 x = t by rewrite Ex.
  have E2 : b_s2 x = nbr (u_nx u) (u_ny u) k t by rewrite Ex.
  have [v1 -> V1] := all_holds Hw (eq_ind_r _ Ht' E1); have [v2 -> V2] := all_holds Hw (eq_ind_r _ Ht2 E2).
  rewrite [bind (Ok v1) _]/bind [bind (Ok v2) _]/bind (update_weights (b_k x) _ _ _ _ V1 V2).
  case: simple_bond_update => [[[a1 a2] lam]|e] /=; last by rewrite Er.
  apply: IH => [y Hy|]; first by apply: Hl; right.
  split; last by exists (cat h [:: (x, lam)]); rewrite /run_sets List.fold_left_app Eh.
  move=> y d Hy Hd; have := @C52_update tensor (ones_vec u) (u_nx u) (u_ny u) bl h x lam y d HP Hx Hy (ltP Hd).
  cbv zeta; rewrite -/w0 -Eh => H; rewrite [get_weight _ _ _ _]H (Hw y d Hy Hd) /is_end.
  have En i j : PeanoNat.Nat.eqb i j = (i == j) by case: (PeanoNat.Nat.eqb_spec i j) => [->|/eqP/negbTE ->]; rewrite ?eqxx.
  have -> : PeanoNat.Nat.modulo (b_k x + 2) 4 = ((b_k x + 2) %% 4)%N by rewrite Ex; case: (k) Hk => [|[|[|[|]]]].
  by rewrite !En; do 2 case: site_eq_dec => ? /=; by case: (d == b_k x); case: (d == ((b_k x + 2) %% 4)%N).
have I0 : I w0 (fun _ _ => ones_vec u).
  split; last by exists [::].
  by move=> y d Hy Hd; have [z [_ [_ [_ ->]]]] := @C52_lookup tensor (ones_vec u) (u_nx u) (u_ny u) bl [::] y d HP Hy (ltP Hd).
have := L _ (s_net s) w0 _ (fun y => @in_sched y bl steps) I0.
case: (run_updates _ _ _ _ _ _) => [[[n w]|e]|] //=; case: for_each => [[n' W']|e'] //= [<-] //.
Qed.

(** ---- the simple update does not look at the boundary ---- *)

(** C80.  The evolve calls of a session, without all the others *)
Definition is_evolve (c : call) : bool := if c is Evolve _ _ _ then true else false.
Definition same_sites (s s' : state) : Prop := (forall x, s_net s x SA = s_net s' x SA) /\ s_bonds s = s_bonds s' /\ s_init s = s_init s'.

Lemma weighted_sites g l (n n' : net) W : (forall x, n x SA = n' x SA) ->
  match for_each l (weighted_step g) (n, W), for_each l (weighted_step g) (n', W) with
  | Ok (m, V), Ok (m', V') => (forall x, m x SA = m' x SA) /\ V = V'
  | Err e, Err e' => e = e'
  | _, _ => False
  end.
Proof.
elim: l n n' W => [|x l IH] n n' W H //=.
rewrite /weighted_step [(n, W).1]/= [(n', W).1]/= [(n, W).2]/= [(n', W).2]/= !H.
case: simple_bond_update => [[[a1 a2] lam]|e] //=; apply: IH => y; rewrite /write_pair /upd.
by do 2 case: site_eq_dec => ? //=; apply: H.
Qed.

Definition same_sim (u v : setup C) : Prop :=
  [/\ u_nx u = u_nx v, u_ny u = u_ny v, u_bond u = u_bond v, u_phys u = u_phys v & u_type u = u_type v].

Lemma evolve_sites u v g k (s t s' : state) : same_sim u v -> u_type u = "simple" ->
  Permutation (s_bonds s) (build_bond_list (u_nx u) (u_ny u)) -> same_sites s t ->
  evolve_tensors u g k s = Some (Ok s') ->
  Permutation (s_bonds s') (build_bond_list (u_nx u) (u_ny u)) /\ exists2 t', evolve_tensors v g k t = Some (Ok t') & same_sites s' t'.
Proof.
move=> [Ex Ey Eb _ Et] Ht HP [Hn [Hb Hi]]; rewrite (C79_weights _ _ HP Ht).
rewrite C79_weights -?Et -?Ex -?Ey -?Hb // /ones_vec -Eb -/(ones_vec u).
have := weighted_sites g (schedule bond (s_bonds s) k) (fun _ _ => ones_vec u) Hn.
case: for_each => [[m V]|e] //=; case: for_each => [[m' V']|e] //= [Hm _] [<-] /=; split; first exact: perm_step.
by eexists; first reflexivity; split.
Qed.

Lemma renorm_sites u (s s' : state) : renormalize u s = Ok s' -> same_sites s' s.
Proof. rewrite /renormalize; case E: run_ctmrg => [[n r]|] //= -[<-]; split=> //= x; apply: ctmrg_sites E x. Qed.

Lemma same_trans (s t r : state) : same_sites s t -> same_sites t r -> same_sites s r.
Proof. by move=> [A [B D]] [A' [B' D']]; split=> [x|]; rewrite ?A ?A' // B B' D D'. Qed.
Lemma same_sym (s t : state) : same_sites s t -> same_sites t s.
Proof. by move=> [A [B D]]; split=> [x|]; rewrite ?A // B D. Qed.

(** the evolutions alone *)
Fixpoint evolutions (u : setup C) (cs : seq call) (s : state) : option (res state) :=
  match cs with
  | [::] => Some (Ok s)
  | Evolve _ g k :: cs =>
      match evolve_tensors u g k s with Some (Ok s') => evolutions u cs s' | x => x end
  | _ :: cs => evolutions u cs s
  end.

Lemma session_evolutions u v (cs : seq call) (s t s' : state) out : same_sim u v -> u_type u = "simple" ->
  Permutation (s_bonds s) (build_bond_list (u_nx u) (u_ny u)) -> s_init s -> same_sites s t ->
  session u cs s = Some (Ok (s', out)) ->
  exists2 t', evolutions v (filter is_evolve cs) t = Some (Ok t') & same_sites s' t'.
Proof.
move=> Hu Ht; elim: cs s t out => [|c cs IH] s t out HP Hi Hs.
  by case=> <- _; exists t.
rewrite [session _ _ _]/=; case E: (perform u c s) => [[[s1 o1]|e]|] //.
case E2: (session u cs s1) => [[[s2 o2]|e]|] //= [Es _]; subst s2.
have Keep : same_sites s1 s -> ~~ is_evolve c -> exists2 t', evolutions v (filter is_evolve (c :: cs)) t = Some (Ok t') & same_sites s' t'.
  move=> H1 Nc; rewrite /= (negbTE Nc); apply: (IH s1 t o2) => //.
  - by case: H1 => _ [-> _].
  - by case: H1 => _ [_ ->].
  exact: same_trans H1 Hs.
case: c E Keep => [k||st g k|m] /=.
- by case=> <- _; apply.
- by case Er: (renormalize u s) => [s3|] //= [<- _]; apply=> //; apply: renorm_sites Er.
- case Ev: (evolve u st g k s) => [[s3|]|] //= [E13 _] _; subst s1; have [x1 [x2 [x3 [E1 Er2 E3 Er4]]]] := evolve_parts Ev.
  move: E1; rewrite Hi => -[E1]; subst x1.
  have S2 := renorm_sites Er2; have S4 := renorm_sites Er4.
  have HP2 : Permutation (s_bonds x2) (build_bond_list (u_nx u) (u_ny u)) by case: S2 => _ [-> _].
  have [HP3 [t1 -> S3]] := evolve_sites Hu Ht HP2 (same_trans S2 Hs) E3.
  have St : same_sites s3 t1 := same_trans S4 S3.
  have HP4 : Permutation (s_bonds s3) (build_bond_list (u_nx u) (u_ny u)) by case: S4 => _ [-> _].
  have I4 : s_init s3 by have [_ ->] := evolve_chi Ev.
  by rewrite /=; apply: (IH s3 t1 o2).
- by case: (measured u m s) => [d|] //= [<- _]; apply.
Qed.

(** Two setups that differ in the treatment of the boundary only: projectors,
    numbers of CTMRG steps; and two sessions with the same evolve calls but
    otherwise arbitrary renormalisations, boundary dimensions and measurements in
    between, from networks with arbitrary boundaries.  If both run through they
    end with the same site tensors. *)
Theorem C80_boundary_blind u v (cs ds : seq call) (s t s' t' : state) out out' : same_sim u v -> u_type u = "simple" ->
  Permutation (s_bonds s) (build_bond_list (u_nx u) (u_ny u)) -> s_init s -> same_sites s t ->
  filter is_evolve cs = filter is_evolve ds ->
  session u cs s = Some (Ok (s', out)) -> session v ds t = Some (Ok (t', out')) -> same_sites s' t'.
Proof.
move=> Hu Ht HP Hi Hst Ef E1 E2.
have [Ex Ey Eb Ep Et] := Hu.
have Hv : same_sim v v by [].
have Hss : same_sites s s by [].
have HPt : Permutation (s_bonds t) (build_bond_list (u_nx v) (u_ny v)) by case: Hst => _ [<- _]; rewrite -Ex -Ey.
have It : s_init t by case: Hst => _ [_ <-].
have Htv : u_type v = "simple" by rewrite -Et.
have [x' F1 S1] := session_evolutions Hu Ht HP Hi Hss E1.
have [y' F2 S2] := session_evolutions Hv Htv HPt It (same_sym Hst) E2.
move: F2; rewrite -Ef F1 => -[Exy]; subst y'.
exact: same_trans S1 (same_sym S2).
Qed.

(** ---- the initial tensors ---- *)

(** the random state after i draws of torch.rand(bD, bD, bD, bD, pD), and the
    i-th draw *)
Fixpoint after (r : R) (D p i : nat) : R := if i is j.+1 then after (trand r D p).2 D p j else r.
Definition draw (r : R) (D p i : nat) : tensor := (trand (after r D p i) D p).1.

(** C56.  The i-th site of the cell gets the i-th draw, with the state given for
    that site; one draw is consumed per site, sites outside the cell and the
    boundary dimension stay as they are. *)
Theorem C56_draws u st (s s' : state) : initialize_site_tensors u st s = Ok s' ->
  [/\ forall i x, List.nth_error (build_site_list (u_nx u) (u_ny u)) i = Some x ->
      exists2 t, init_site (u_bond u) (u_phys u) (st x) noise (draw (s_rng s) (u_bond u) (u_phys u) i) = Ok t & forall sl, s_net s' x sl = site_slots t sl,
    s_rng s' = after (s_rng s) (u_bond u) (u_phys u) (u_nx u * u_ny u)%N,
    forall x sl, ~ in_cell (u_nx u) (u_ny u) x -> s_net s' x sl = s_net s x sl &
    s_chi s' = s_chi s].
Proof.
have Hl : List.length (build_site_list (u_nx u) (u_ny u)) = (u_nx u * u_ny u)%N by exact: length_site_list.
rewrite -Hl /initialize_site_tensors; set body := (X in for_each _ X _).
have L : forall l n r n' r', List.NoDup l -> for_each l body (n, r) = Ok (n', r') ->
    (forall i x, List.nth_error l i = Some x ->
       exists2 t, init_site (u_bond u) (u_phys u) (st x) noise (draw r (u_bond u) (u_phys u) i) = Ok t & forall sl, n' x sl = site_slots t sl) /\
    (forall x, ~ List.In x l -> forall sl, n' x sl = n x sl) /\
    r' = after r (u_bond u) (u_phys u) (List.length l).
  elim=> [|y l IH] n r n' r' Hd; first by case=> <- <-; split=> // -[].
  have [Ny Hd'] : ~ List.In y l /\ List.NoDup l by inversion Hd.
  rewrite [for_each _ _ _]/=; case E: (body y (n, r)) => [[n1 r1]|] //= E2.
  move: E; rewrite /body [(n, r).1]/= [(n, r).2]/=; case Er: (trand r _ _) => [t r2].
  case Ei: (init_site _ _ _ _ t) => [a|] //= [E1 Er1]; subst r2.
  have [H1 [H2 H3]] := IH _ _ _ _ Hd' E2; split=> [i x|]; [|split=> [x Nx sl|]]; last (rewrite H3 /=; by rewrite ?Er).
    case: i => [|i] /=; last by move=> /H1 [t' Et Hs]; exists t' => //; rewrite /draw /= Er.
    case=> <-; exists a; first by rewrite /draw /= Er.
    by move=> sl; rewrite (H2 y Ny) -E1; case: site_eq_dec.
  rewrite H2; last by move=> Hx; apply: Nx; right.
  by rewrite -E1; case: site_eq_dec => // Exy; case: Nx; left.
case E: (for_each _ _ _) => [[n r]|] //= [<-].
have [H [H2 H3]] := L _ _ _ _ _ (NoDup_site_list _ _) E; split=> [i x Hi| |x sl Hx|] //.
  by have [t Et Hs] := H i x Hi; exists t.
by apply: H2 => /in_site_list.
Qed.
End Calls.

(** ---- sessions by hand ---- *)
Section Examples.
Variable C : numClosedFieldType.
Notation tensor := (tensor C).
Notation session := (@Session.session C unit (fun r _ _ => (0, r)) (@zeros_rand C) (@some_qr C) (@some_thin_svd C) (@some_full_svd C) (@some_eigh C) (@some_chol C) (fun _ _ => 0) 1 0 1 (fun _ => Tensor [::] (fun _ => 0))).
Notation construct := (@Session.construct C unit (@zeros_rand C) 0).
Notation u := (plain_setup C 1 "simple").

Definition kick (k : nat) : call C := Evolve (fun _ => [:: 1; 0]) (shears C) k.
Inductive common : call C -> Prop :=
  | Common_chi c : (0 < c)%N -> common (SetChi C c)
  | Common_renorm : common (Renormalize C)
  | Common_kick k : common (kick k)
  | Common_measure : common (Measure (small_model C)).

Lemma common_runs (cs : seq (call C)) : (forall x, List.In x cs -> common x) ->
  exists2 s, construct u (@blank C) tt 3 = Ok s & exists s' out, session u cs s = Some (Ok (s', out)).
Proof.
move=> Hc.
have Srand r : shape (@zeros_rand C r 1 2).1 = [:: 1; 1; 1; 1; 2]%N by [].
have Srand' r : shape (@zeros_rand C r (u_bond u) 2).1 = [:: 1; 1; 1; 1; 2]%N by [].
have [s [Es Hs Us _]] := @C74_construct C unit (@zeros_rand C) 0 u Srand' isT isT (@blank C) tt 3 (fun _ _ => Order.POrderTheory.lexx 0) (Order.POrderTheory.lexx 0) isT.
exists s; first by rewrite Es.
have [v Iv Pv] := @C77_start C unit (@zeros_rand C) 0 u Srand isT erefl (@blank C) tt 3 s isT Es.
pose F (_ : gates C) (_ : bond) := (@shear C, @unit2 C).
have Hcs x : List.In x cs -> ask_ok u F x /\ kind (@zeros_rand C) 0 u F x.
  move=> /Hc [c Hc0||k|]; first by [].
  - by [].
  - split; first by split=> [||y _]; [split=> //|split=> // i j r q _ _ _ _|].
    split=> [y r _|y w _ [q Hq N]]; first by exists 0%N; rewrite //= mul0r add0r oner_eq0.
    have N0 a b : [:: a; b] = [:: w 0%N; w 1%N] -> (a != 0) || (b != 0).
      by case=> -> ->; case: q Hq N => [|[|]] // _ ->; rewrite ?orbT.
    have /orP H := N0 _ _ erefl.
    split; rewrite /local /= /act.
      case: (eqVneq (w 0%N) 0) H => [E0 /= [//|N1]|N0' _]; [exists 1%N|exists 0%N] => //; rewrite !big_ord_recl big_ord0 /= /shear /=.
        by rewrite E0 mul0r add0r addr0 mulr1.
      by rewrite mulr1 mulr0 !addr0.
    case: H => H; [exists 0%N|exists 1%N] => //; rewrite !big_ord_recl big_ord0 /= /unit2 /=; by rewrite mulr1 mulr0 ?add0r !addr0.
  split=> //; split; last first.
    split=> //= b _; split=> // X; rewrite /inks /= !orbF; case EX: (String.eqb X "sz") => //=.
    by move/String.eqb_eq: EX => ->.
  split=> [//|y _|y _].
    by split; [move=> h [<-]|split=> [kv [<-|[]]|]].
  by split=> //; split=> [kv [<-|[]]|].
have tot m (A : 'M[C]_m) : @some_eigh C m A by [].
have Hm : als_method (u_evo u) = "cholesky" \/ als_method (u_evo u) = "pinv" by right.
have ni : u_type u = "full" -> (0 < als_niter (u_evo u))%N by [].
have Hp : u_ptype u = Half \/ svd_type (u_ctm u) = "full-rank" by right.
have Ha : alive u (p_vec (PState v (build_bond_list 2 2) false)).
  by move=> x /Iv [r Hr]; exists 0%N; rewrite //= Hr // mul0r add0r oner_eq0.
exact: (@C77_succeeds C unit (fun r _ _ => (0, r)) (@zeros_rand C) _ _ _ _ (@some_chol C) (fun _ _ => 0) 1 0 0 (fun _ => Tensor [::] (fun _ => 0)) u
  (@some_qr_spec C) (@some_thin_svd_spec C) (@some_full_svd_spec C) (@some_eigh_spec C) tot Srand Hm (Order.POrderTheory.lexx 0) (fun _ => ltr01) ltr01 isT isT isT erefl ni Hp erefl erefl
  (Order.POrderTheory.lexx 0) ltr01 F cs _ s Pv Ha Hcs).
Qed.

Lemma listed (P : call C -> Prop) (l : seq (call C)) : List.Forall P l -> forall x, List.In x l -> P x.
Proof. by move/List.Forall_forall. Qed.
Ltac listed := apply: listed; repeat (constructor; try by constructor).

(** C78: a session with two measurements and a change of the boundary dimension *)
Example C78_example : exists2 s, construct u (@blank C) tt 3 = Ok s & exists s' s1 d1 out,
  [/\ session u [:: kick 1; Measure (small_model C); SetChi C 2; kick 3; Measure (small_model C)] s = Some (Ok (s', d1 :: out)),
      s_chi s' = 2%N, session u [:: kick 1] s = Some (Ok (s1, [::])), measured (fun _ => Tensor [::] (fun _ => 0)) u (small_model C) s1 = Ok d1 &
      session u [:: kick 1; SetChi C 2; kick 3; Measure (small_model C)] s = Some (Ok (s', out))].
Proof.
have [|s Es [s' [out E]]] := @common_runs [:: kick 1; Measure (small_model C); SetChi C 2; kick 3; Measure (small_model C)].
  by listed.
exists s => //; have Ec := C78_chi E.
have [s1 [o1 [d [o2 [E1 Em E2 Eo E3]]]]] := C78_measure (cs1 := [:: kick 1]) E.
have O1 : o1 = [::].
  by move: E1; rewrite /=; case: (Session.evolve _ _ _ _ _ _ _ _ _ _ _ _ _ _ _ _) => [[s2|]|] //= [_ <-].
exists s', s1, d, o2; rewrite O1 in E1 Eo E3; split=> //.
by rewrite E Eo.
Qed.

(** C80: the same two evolutions, once alone and once with other calls around *)
Example C80_example : exists2 s, construct u (@blank C) tt 3 = Ok s & exists s1 out1 s2 out2 s3 out3,
  [/\ session u [:: kick 1] s = Some (Ok (s1, out1)),
      session u [:: kick 2; kick 3] s1 = Some (Ok (s2, out2)),
      session u [:: SetChi C 1; Renormalize C; kick 2; Measure (small_model C); SetChi C 5; kick 3; Renormalize C] s1 = Some (Ok (s3, out3)) &
      forall x, s_net s2 x SA = s_net s3 x SA].
Proof.
have [|s Es [s2 [o2 E2]]] := @common_runs [:: kick 1; kick 2; kick 3]; first by listed.
have [|s' Es' [s3 [o3 E3]]] := @common_runs [:: kick 1; SetChi C 1; Renormalize C; kick 2; Measure (small_model C); SetChi C 5; kick 3; Renormalize C]; first by listed.
move: Es'; rewrite Es => -[Ess]; subst s'; exists s => //.
move: E2; rewrite (C78_compose _ _ _ _ _ _ _ _ _ _ _ _ _ [:: kick 1]); case E1: (session u [:: kick 1] s) => [[[s1 o1]|]|] //.
move: E3; rewrite (C78_compose _ _ _ _ _ _ _ _ _ _ _ _ _ [:: kick 1]) E1.
set ds := [:: SetChi C 1; _; _; _; _; _; _]; case E3: (session u ds s1) => [[[s3' o3']|]|] // [Es3 _]; subst s3'.
case E2: (session u [:: kick 2; kick 3] s1) => [[[s2' o2']|]|] // [Es2 _]; subst s2'.
exists s1, o1, s2, o2', s3, o3'; split=> //.
have I1 : s_init s1.
  move: E1; rewrite /=; case Ev: (Session.evolve _ _ _ _ _ _ _ _ _ _ _ _ _ _ _ _) => [[s4|]|] //= [<- _].
  by have [_ ->] := evolve_chi Ev.
have HP : Permutation (s_bonds s1) (build_bond_list 2 2).
  have [|] := @C74_construct C unit (@zeros_rand C) 0 u _ isT isT (@blank C) tt 3 (fun _ _ => Order.POrderTheory.lexx 0) (Order.POrderTheory.lexx 0) isT; first by [].
  move=> s0 []; rewrite Es => -[Es0]; subst s0 => Hs _ _.
  have tot m (A : 'M[C]_m) : @some_eigh C m A by [].
  have Hm : als_method (u_evo u) = "cholesky" \/ als_method (u_evo u) = "pinv" by right.
  have Ht : u_type u = "full" \/ u_type u = "simple" by right.
  have Srand r : shape (@zeros_rand C r (u_bond u) (u_phys u)).1 = [:: 1; 1; 1; 1; 2]%N by [].
  have Hk x : List.In x [:: kick 1] -> call_ok u 3 x by case=> [<-|[]]; split=> //; split.
  have := @C74_session C unit (fun r _ _ => (0, r)) (@zeros_rand C) _ _ _ _ (@some_chol C) (fun _ _ => 0) 1 0 0 (fun _ => Tensor [::] (fun _ => 0)) u
    (@some_qr_spec C) (@some_thin_svd_spec C) (@some_full_svd_spec C) (@some_eigh_spec C) tot Srand Hm Ht (Order.POrderTheory.lexx 0) (fun _ => ltr01) ltr01 isT isT isT isT
    3 [:: kick 1] s Hs isT Hk.
  by rewrite E1 => -[[_ HP _] _ _].
have Hss : same_sites s1 s1 by [].
by have [] := C80_boundary_blind (u := u) (v := u) (cs := [:: kick 2; kick 3]) (ds := ds) _ erefl HP I1 Hss erefl E2 E3.
Qed.
End Examples.

Section DrawExample.
Variable C : numClosedFieldType.
Notation tensor := (tensor C).
(** C56: a generator that counts: its i-th tensor has all entries i + 1.  With
    noise 1 and state (0, 0) the initial tensors of the second and third site are
    those of the entries 2 and 3. *)
Definition counting (r : nat) (D p : nat) : tensor * nat := (Tensor [:: D; D; D; D; p] (fun _ => r.+1%:R), r.+1).
Example C56_draws_example (n : Mover.net tensor) : exists s',
  [/\ Session.initialize_site_tensors counting 1 (plain_setup C 1 "simple") (fun _ => [:: 0; 0]) (State n 0%N [::] 1 false) = Ok s',
   exists2 t, init_site 1 2 [:: 0; 0] 1 (Tensor [:: 1; 1; 1; 1; 2]%N (fun _ => 2%:R)) = Ok t & forall sl, s_net s' (0, 1)%N sl = site_slots t sl &
   exists2 t, init_site 1 2 [:: 0; 0] 1 (Tensor [:: 1; 1; 1; 1; 2]%N (fun _ => 3%:R)) = Ok t & forall sl, s_net s' (1, 0)%N sl = site_slots t sl].
Proof.
pose u := plain_setup C 1 "simple".
have Srand r : shape (counting r (u_bond u) (u_phys u)).1 = [:: 1; 1; 1; 1; 2]%N by [].
have := @initialize_ok C nat counting 1 u Srand isT 1 (fun _ => [:: 0; 0]) (State n 0%N [::] 1 false) isT isT (fun _ _ => isT).
case E: (Session.initialize_site_tensors _ _ _ _ _) => [s'|e]; last first.
  case=> _ [x [r [_ []]]]; exists 0%N, 0%N, 0%N, 0%N, 0%N; split=> //.
  by rewrite /site_raw /= mul1r addr0 pnatr_eq0.
by move=> _; exists s'; have [H _ _ _] := C56_draws E; split=> //; [apply: (H 1%N)|apply: (H 2%N)].
Qed.
End DrawExample.

Print Assumptions C78_compose.
Print Assumptions C78_measure.
Print Assumptions C78_chi.
Print Assumptions C78_boundary.
Print Assumptions C78_renormalize_again.
Print Assumptions C78_no_steps.
Print Assumptions C79_weights.
Print Assumptions C80_boundary_blind.
Print Assumptions C56_draws.
