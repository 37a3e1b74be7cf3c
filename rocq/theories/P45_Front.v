(** C94: evolve calls that are refused, and what they leave behind. *)
From Coq Require Import String.
From Coq Require Import List Arith Lia Bool Permutation.
From Verif Require Import ListAux Lattice LatticeFacts Base Evolve Lambda P08_Control Process P07_Process Front.
Import ListNotations.
Local Open Scope string_scope.

Lemma dset_same {V} (d : sdict V) s v : dget d s = Some v -> dset d s v = d.
Proof.
  induction d as [|[t w] d IH]; cbn; [discriminate|].
  destruct (site_eq_dec s t) as [->|N]; intros E; [congruence|]. now rewrite IH.
Qed.
Lemma list_set_same {A} (l : list A) i a : nth_error l i = Some a -> list_set l i a = l.
Proof. revert i; induction l as [|b l IH]; intros [|i]; cbn; intros E; try congruence; try discriminate. now rewrite IH. Qed.

(** ---- types of tensors in the simple update ---- *)
Section Kinds.
Variables nx ny : nat.
Variable bl : list bond.
Hypothesis HP : Permutation bl (build_bond_list nx ny).

Lemma ends_in b : In b bl -> in_cell nx ny (b_s1 b) /\ in_cell nx ny (b_s2 b) /\ b_k b < 4.
Proof.
  intros H. apply (Permutation_in _ HP) in H. apply in_bond_list in H as ([x y] & [Hx Hy] & [-> | ->]); cbn in *.
  - repeat split; cbn; auto; try lia; apply Nat.mod_upper_bound; lia.
  - repeat split; cbn; auto; try lia; apply Nat.mod_upper_bound; lia.
Qed.

Lemma weights_same k h s d : (forall b v, In (b, v) h -> v = k) -> in_cell nx ny s -> d < 4 ->
  get_weight kind (run_sets kind h (new_lambda kind k bl)) s d = Ok k.
Proof.
  intros Hh Hs Hd. destruct (C52_lookup kind k nx ny bl h s d HP Hs Hd) as (b & _ & _ & _ & ->). f_equal.
  unfold weight_of. destruct (last_set kind h b) as [v|] eqn:E; [|reflexivity].
  revert v E. induction h as [|[b' v'] h IH]; cbn; [discriminate|]. intros v.
  destruct (last_set kind h b) as [w|] eqn:E'.
  - intros [= <-]. apply IH; auto. intros b0 v0 H0. apply (Hh b0 v0). now right.
  - destruct (bond_eq_dec b' b); [|discriminate]. intros [= <-]. apply (Hh b' v'). now left.
Qed.

(** the first update of complex tensors with complex gates *)
Lemma complex_first b (t : site -> kind) : In b bl -> (forall s, t s = Cx) ->
  update_kinds Cx b (t, new_lambda kind Cx bl) = Err RuntimeError.
Proof.
  intros Hb Ht. destruct (ends_in b Hb) as (H1 & H2 & Hk).
  assert (W : forall s d, in_cell nx ny s -> d < 4 -> get_weight kind (new_lambda kind Cx bl) s d = Ok Cx).
  { intros s d Hs Hd. apply (weights_same Cx [] s d); auto. intros ? ? []. }
  unfold update_kinds, absorb_kind, strip_kind, strip_weight. rewrite !W by (auto; lia). cbn [bind].
  rewrite !Ht. cbn [join product bind].
  destruct (b_k b) as [|[|[|[|k]]]]; cbn; reflexivity.
Qed.

(** C94.  Real tensors with real gates stay real in any sequence of simple updates, and no
    update is refused for its types. *)
Theorem C94_real (bs : list bond) : (forall b, In b bs -> In b bl) ->
  exists t', for_each bs (update_kinds Re) (fun _ => Re, new_lambda kind Re bl) = Ok t' /\ forall s, fst t' s = Re.
Proof.
  enough (G : forall bs t h, (forall b, In b bs -> In b bl) -> (forall s, t s = Re) -> (forall b v, In (b, v) h -> v = Re) ->
    exists t', for_each bs (update_kinds Re) (t, run_sets kind h (new_lambda kind Re bl)) = Ok t' /\ forall s, fst t' s = Re).
  { intros Hb. apply (G bs (fun _ => Re) []); auto. intros ? ? []. }
  clear bs. induction bs as [|b bs IH]; intros t h Hb Ht Hh.
  - eexists. split; [reflexivity|]. exact Ht.
  - destruct (ends_in b (Hb b (or_introl eq_refl))) as (H1 & H2 & Hk).
    assert (U : update_kinds Re b (t, run_sets kind h (new_lambda kind Re bl)) =
      Ok (set_kind (set_kind t (b_s1 b) Re) (b_s2 b) Re, run_sets kind (h ++ [(b, Re)]) (new_lambda kind Re bl))).
    { unfold update_kinds, absorb_kind, strip_kind, strip_weight. rewrite !(weights_same Re h) by (auto; lia). cbn [bind].
      rewrite !Ht. cbn [join product bind clamp].
      assert (Q : forall x : bool, (if x then Ok Re else Ok Re) = Ok Re) by now intros [].
      rewrite !Q. cbn [bind join]. unfold run_sets at 2. now rewrite fold_left_app. }
    cbn [for_each]. rewrite U. cbn [bind]. apply IH.
    + intros b' Hb'. apply Hb. now right.
    + intros s. unfold set_kind. destruct (site_eq_dec s (b_s2 b)); auto. destruct (site_eq_dec s (b_s1 b)); auto.
    + intros b' v Hv. apply in_app_or in Hv as [Hv|[[= <- <-]|[]]]; eauto.
Qed.
End Kinds.

(** ---- refused calls ---- *)
Local Open Scope list_scope.
Section Calls.
Variables (V dtype cls state pval : Type)
  (cast : dtype -> V -> V) (fresh : dtype -> dims -> state -> nat -> V) (uniform : nat -> state)
  (is_model concrete : cls -> bool) (lower : string -> string).
Notation proc := (proc V dtype cls pval).
Notation network := (network dtype).
Notation model := (model cls).
Notation kernel := (kernel V dtype cls pval).
Variables (init_state : proc -> model -> site -> state).
Variable ask : nat -> call.
Variable update_type : network -> string.
Variable kind_of : dtype -> kind.
Variable build : proc -> network -> model -> option exn.
Variable sweep : nat -> kernel.
Variable upd : nat -> bond -> kernel.
Notation front := (front V dtype cls state pval fresh uniform ask update_type kind_of build sweep upd).
Notation stages := (stages V dtype cls pval ask update_type kind_of build sweep upd).
Notation evolve_stage := (evolve_stage V dtype cls pval ask update_type kind_of build upd).
Notation exec := (exec V dtype cls state pval cast fresh uniform is_model concrete lower init_state front sweep).
Notation initialise := (initialise V dtype cls state pval cast fresh).
Notation run_kernel := (run_kernel V dtype cls pval).
Notation the_model := (the_model V dtype cls pval concrete).
Notation getitem := (getitem V dtype cls pval).
Notation dims_of := (dims_of V dtype cls pval).
Notation write_back := (write_back V dtype).
Notation held := (held V dtype cls state pval fresh uniform).
Notation St := (St V dtype).
Notation p_tbl := (p_tbl V dtype cls pval).
Notation p_nets := (p_nets V dtype cls pval).
Notation p_dims := (p_dims V dtype cls pval).
Notation p_params := (p_params V dtype cls pval).
Notation p_files := (p_files V dtype cls pval).
Notation p_reg := (p_reg V dtype cls pval).
Notation n_sites := (n_sites dtype).
Notation n_bonds := (n_bonds dtype).
Notation n_dtype := (n_dtype dtype).
Notation n_init := (n_init dtype).
Notation n_ipeps := (n_ipeps dtype).
Notation n_nx := (n_nx dtype).
Notation n_ny := (n_ny dtype).
Notation Evolve := (@Process.Evolve dtype cls pval).
Notation Renormalize := (@Process.Renormalize dtype cls pval).
Notation wf := (wf V dtype cls pval).

(** renormalize leaves the list of bonds alone *)
Hypothesis sweep_bonds : forall k p n m, snd (fst (sweep k p n m)) = n_bonds n.

(** where the numerical work of a call starts: at the product state of its model if the
    network has not been initialised, at the current state otherwise *)
Definition started (p : proc) (i : nat) (n : network) (mdl : model) (k : nat) : proc :=
  if n_init n then p else initialise i n (init_state p mdl) k p.

Lemma started_init p i n mdl k : n_init n = true -> started p i n mdl k = p.
Proof. unfold started. now intros ->. Qed.
Lemma started_net p i n mdl k : nth_error (p_nets p) i = Some n -> exists n1, nth_error (p_nets (started p i n mdl k)) i = Some n1 /\
  n_init n1 = true /\ n_ipeps n1 = n_ipeps n /\ n_dtype n1 = n_dtype n /\ (n_init n = true -> n1 = n) /\
  (n_init n = false -> n_sites n1 = build_site_list (n_nx n) (n_ny n) /\ n_bonds n1 = build_bond_list (n_nx n) (n_ny n)).
Proof.
  intros E. unfold started. destruct (n_init n) eqn:I.
  - exists n. repeat split; auto; discriminate.
  - unfold Process.initialise. eexists. split.
    + rewrite set_net_nth, Nat.eqb_refl. cbn [Process.p_nets with_tbl]. rewrite (nth_ltb _ _ _ E). reflexivity.
    + cbn. repeat split; auto; discriminate.
Qed.

Lemma exec_evolve p i n m mdl k : nth_error (p_nets p) i = Some n -> n_ipeps n = true -> the_model p n m = Ok mdl ->
  exec p (Evolve i m k) = run_kernel (front k) i (Some mdl) (started p i n mdl k).
Proof. intros E Ip Hm. cbn [Process.exec]. rewrite E, Ip, Hm. reflexivity. Qed.

Lemma write_back_ext n f g t : (forall s, In s (n_sites n) -> dget t s <> None -> f s = g s) -> write_back n f t = write_back n g t.
Proof.
  unfold Process.write_back. generalize (n_sites n) as l. intros l. revert t. induction l as [|s l IH]; intros t H; cbn; auto.
  destruct (dget t s) as [x|] eqn:E.
  - rewrite (H s) by (cbn; auto; congruence). apply IH. intros s' Hs' N. apply H; [now right|].
    rewrite dget_set in N. destruct (site_eq_dec s' s) as [->|]; [congruence|exact N].
  - apply IH. intros s' Hs'. apply H. now right.
Qed.
Lemma write_back_held p n : write_back n (held p n) (p_tbl p) = p_tbl p.
Proof.
  unfold Process.write_back. generalize (n_sites n) as l. intros l. enough (G : forall t, t = p_tbl p -> fold_left
    (fun t s => match dget t s with Some x => dset t s (St (st_dtype V dtype x) (held p n s)) | None => t end) l t = t) by now apply G.
  induction l as [|s l IH]; intros t Et; cbn; auto.
  destruct (dget t s) as [x|] eqn:E; [|now apply IH].
  rewrite dset_same; [now apply IH|]. rewrite E. f_equal. unfold Front.held. rewrite <- Et, E. now destruct x.
Qed.
Lemma same_net p i n : nth_error (p_nets p) i = Some n -> set_net V dtype cls pval i (n_with_lists dtype n (n_sites n) (n_bonds n)) p = p.
Proof.
  intros E. unfold set_net, with_nets. replace (n_with_lists dtype n (n_sites n) (n_bonds n)) with n by now destruct n.
  rewrite list_set_same by exact E. now destruct p.
Qed.
Lemma with_same p : with_tbl V dtype cls pval (p_tbl p) p = p. Proof. now destruct p. Qed.

(** the steps that end before the loop *)
Lemma front_log p i n mdl k e : nth_error (p_nets p) i = Some n -> log_error cls (ask k) mdl = Some e ->
  run_kernel (front k) i (Some mdl) p = (p, Some e).
Proof.
  intros E L. unfold Process.run_kernel. rewrite E. cbn [Front.front]. unfold Front.stages. rewrite L.
  rewrite write_back_held, with_same, same_net by exact E. reflexivity.
Qed.

Lemma front_late p i n mdl k e : wf p -> nth_error (p_nets p) i = Some n -> n_ipeps n = true -> log_error cls (ask k) mdl = None ->
  let '(p1, e1) := exec p (Renormalize i k) in
  e1 = None -> evolve_stage k mdl p1 n = (p1, n, Some e) -> run_kernel (front k) i (Some mdl) p = (p1, Some e).
Proof.
  intros W E Ip L. cbn [Process.exec]. rewrite E, Ip. unfold Process.run_kernel. rewrite E.
  cbn [Front.front]. unfold Front.stages, Front.step. rewrite L.
  pose proof (sweep_bonds k p n None) as SB. destruct (sweep k p n None) as [[f bl] e1]. cbn in SB. subst bl.
  intros -> H. cbn [before].
  assert (E1 : nth_error (p_nets (with_tbl V dtype cls pval (write_back n f (p_tbl p)) p)) i = Some n) by exact E.
  rewrite same_net in H |- * by exact E1. rewrite H. cbn [before].
  destruct W as (_ & _ & C). destruct (C n (nth_error_In _ _ E)) as [Nd Ct].
  rewrite (write_back_ext n (held _ n) f (p_tbl p)).
  - rewrite same_net by exact E1. reflexivity.
  - intros s Hs _. unfold Front.held. cbn [Process.p_tbl with_tbl]. rewrite write_back_spec by exact Nd.
    destruct (in_dec site_eq_dec s (n_sites n)); [|contradiction]. specialize (Ct s Hs).
    destruct (dget (p_tbl p) s); [reflexivity|congruence].
Qed.

(** C94.  A call whose dtau is no real number, or whose model has no parameters, is refused
    before any numerical work; but if the network was not initialised, it has been given
    the product state of the refused model, which counts as its state from now on. *)
Theorem C94_refused (p : proc) (i : nat) (n : network) (m : option model) (mdl : model) (k : nat) (e : exn) :
  nth_error (p_nets p) i = Some n -> n_ipeps n = true -> the_model p n m = Ok mdl ->
  a_dtau (ask k) = Some e \/ (a_dtau (ask k) = None /\ m_params cls mdl = None /\ e = AttributeError) ->
  exists p', exec p (Evolve i m k) = (p', Some e) /\
    (n_init n = true -> p' = p) /\
    (n_init n = false ->
      p_dims p' = p_dims p /\ p_params p' = p_params p /\ p_files p' = p_files p /\ p_reg p' = p_reg p /\
      (forall j, j <> i -> nth_error (p_nets p') j = nth_error (p_nets p) j) /\
      (exists n', nth_error (p_nets p') i = Some n' /\ n_init n' = true) /\
      forall n' s, getitem p' n' s =
        if in_dec site_eq_dec s (build_site_list (n_nx n) (n_ny n))
        then Ok (St (n_dtype n) (cast (n_dtype n) (fresh (n_dtype n) (dims_of p n) (init_state p mdl s) k)))
        else getitem p n' s).
Proof.
  intros E Ip Hm L. exists (started p i n mdl k).
  assert (L' : log_error cls (ask k) mdl = Some e).
  { unfold log_error. destruct L as [-> |(-> & -> & ->)]; reflexivity. }
  destruct (started_net p i n mdl k E) as (n1 & E1 & I1 & _).
  split; [rewrite (exec_evolve p i n m mdl k E Ip Hm); now apply (front_log _ i n1)|].
  split; [unfold started; now intros ->|]. intros I. unfold started in *. rewrite I in *.
  repeat split; try reflexivity.
  - intros j Hj. unfold Process.initialise. rewrite set_net_nth. destruct (Nat.eqb_spec j i); [contradiction|reflexivity].
  - eauto.
  - intros n' s. unfold Process.getitem, Process.initialise. cbn [Process.p_tbl set_net with_nets with_tbl].
    rewrite init_sites_spec by apply NoDup_site_list. destruct (in_dec _ _ _); reflexivity.
Qed.

(** C94.  So a later call with whatever model starts at the state the refused call left:
    the product state of its own model does not matter; and if it is refused like the
    first one, it changes nothing more. *)
Theorem C94_after_refusal (p p' : proc) (i : nat) (n : network) (m m' : option model) (mdl mdl' : model) (k k' : nat) (e : exn) :
  nth_error (p_nets p) i = Some n -> n_ipeps n = true -> the_model p n m = Ok mdl ->
  a_dtau (ask k) = Some e \/ (a_dtau (ask k) = None /\ m_params cls mdl = None /\ e = AttributeError) ->
  exec p (Evolve i m k) = (p', Some e) ->
  (forall n', nth_error (p_nets p') i = Some n' -> the_model p' n' m' = Ok mdl') ->
  (forall other : proc -> model -> site -> state,
    Process.exec V dtype cls state pval cast fresh uniform is_model concrete lower other front sweep p' (Evolve i m' k') = exec p' (Evolve i m' k')) /\
  (a_dtau (ask k') <> None \/ m_params cls mdl' = None -> exists e', exec p' (Evolve i m' k') = (p', Some e')).
Proof.
  intros E Ip Hm L X Hm'. rewrite (exec_evolve p i n m mdl k E Ip Hm) in X.
  assert (L1 : log_error cls (ask k) mdl = Some e).
  { unfold log_error. destruct L as [-> |(-> & -> & ->)]; reflexivity. }
  destruct (started_net p i n mdl k E) as (n1 & E1 & I1 & Ip1 & _).
  rewrite (front_log _ i n1) with (e := e) in X by assumption. injection X as <-.
  assert (Y : exec (started p i n mdl k) (Evolve i m' k') = run_kernel (front k') i (Some mdl') (started p i n mdl k)).
  { rewrite (exec_evolve _ i n1 m' mdl' k' E1) by (try congruence; auto). now rewrite (started_init _ i n1). }
  split.
  - intros other. cbn [Process.exec]. rewrite E1, I1. reflexivity.
  - intros L'. assert (exists e', log_error cls (ask k') mdl' = Some e') as [e' Le].
    { unfold log_error. destruct (a_dtau (ask k')); [eauto|]. destruct L' as [L'|L']; [congruence|]. rewrite L'. eauto. }
    exists e'. rewrite Y. now apply (front_log _ i n1).
Qed.

(** C94.  A call whose gates cannot be built, whose update type is unknown or whose number
    of steps is no integer is refused after the first renormalisation: it leaves what
    initialising the network and a call of renormalize would leave. *)
Theorem C94_late (p : proc) (i : nat) (n : network) (m : option model) (mdl : model) (k : nat) :
  wf p -> nth_error (p_nets p) i = Some n -> n_ipeps n = true -> the_model p n m = Ok mdl ->
  a_dtau (ask k) = None -> m_params cls mdl <> None -> forall p1 n1, exec (started p i n mdl k) (Renormalize i k) = (p1, None) -> nth_error (p_nets p1) i = Some n1 ->
  (forall e, build p1 n1 mdl = Some e -> exec p (Evolve i m k) = (p1, Some e)) /\
  (build p1 n1 mdl = None -> update_type n1 <> "full" -> update_type n1 <> "simple" -> exec p (Evolve i m k) = (p1, Some ValueError)) /\
  (build p1 n1 mdl = None -> update_type n1 = "full" \/ update_type n1 = "simple" -> a_steps (ask k) = None -> exec p (Evolve i m k) = (p1, Some TypeError)).
Proof.
  intros W E Ip Hm Ld Lp p1 n1 X E1.
  assert (L : log_error cls (ask k) mdl = None) by (unfold log_error; rewrite Ld; now destruct (m_params cls mdl)).
  destruct (started_net p i n mdl k E) as (n0 & E0 & I0 & Ip0 & _).
  assert (W0 : wf (started p i n mdl k)).
  { unfold started. destruct (n_init n); auto. now apply initialise_wf. }
  assert (n1 = n0).
  { cbn [Process.exec] in X. rewrite E0, Ip0, Ip in X. unfold Process.run_kernel in X. rewrite E0 in X.
    pose proof (sweep_bonds k (started p i n mdl k) n0 None) as SB. destruct (sweep k (started p i n mdl k) n0 None) as [[f bl] e1]. cbn in SB. subst bl.
    injection X as <- _. rewrite same_net in E1 by exact E0. cbn in E1. congruence. }
  subst n1. rewrite (exec_evolve p i n m mdl k E Ip Hm).
  pose proof (fun e => front_late (started p i n mdl k) i n0 mdl k e W0 E0 (eq_trans Ip0 Ip) L) as F.
  rewrite X in F. unfold Front.evolve_stage, Front.updater_error in F.
  repeat split.
  - intros e B. apply F; auto. now rewrite B.
  - intros B N1 N2. apply F; auto. rewrite B. destruct (string_dec _ "full"); [contradiction|]. destruct (string_dec _ "simple"); [contradiction|]. reflexivity.
  - intros B T S. apply F; auto. rewrite B, S. destruct (string_dec _ "full"); [reflexivity|]. destruct (string_dec _ "simple"); [reflexivity|]. tauto.
Qed.

(** C94.  Simple updates of complex tensors are refused at the first bond, whatever the
    bond and the bond dimension: such an evolution leaves the state as it was renormalised. *)
Theorem C94_complex (p : proc) (i : nat) (n : network) (m : option model) (mdl : model) (k steps : nat) :
  wf p -> nth_error (p_nets p) i = Some n -> n_ipeps n = true -> the_model p n m = Ok mdl ->
  a_dtau (ask k) = None -> m_params cls mdl <> None -> forall p1 n1, exec (started p i n mdl k) (Renormalize i k) = (p1, None) -> nth_error (p_nets p1) i = Some n1 ->
  build p1 n1 mdl = None -> update_type n1 = "simple" -> kind_of (n_dtype n1) = Cx -> a_steps (ask k) = Some (S steps) ->
  (exists nx ny, 0 < nx /\ 0 < ny /\ Permutation (n_bonds n1) (build_bond_list nx ny)) ->
  exec p (Evolve i m k) = (p1, Some RuntimeError).
Proof.
  intros W E Ip Hm Ld Lp p1 n1 X E1 B T Kc S (nx & ny & x0 & y0 & HP).
  assert (L : log_error cls (ask k) mdl = None) by (unfold log_error; rewrite Ld; now destruct (m_params cls mdl)).
  destruct (started_net p i n mdl k E) as (n0 & E0 & I0 & Ip0 & _).
  assert (W0 : wf (started p i n mdl k)).
  { unfold started. destruct (n_init n); auto. now apply initialise_wf. }
  assert (n1 = n0).
  { cbn [Process.exec] in X. rewrite E0, Ip0, Ip in X. unfold Process.run_kernel in X. rewrite E0 in X.
    pose proof (sweep_bonds k (started p i n mdl k) n0 None) as SB. destruct (sweep k (started p i n mdl k) n0 None) as [[f bl] e1]. cbn in SB. subst bl.
    injection X as <- _. rewrite same_net in E1 by exact E0. cbn in E1. congruence. }
  subst n1. rewrite (exec_evolve p i n m mdl k E Ip Hm).
  pose proof (front_late (started p i n mdl k) i n0 mdl k RuntimeError W0 E0 (eq_trans Ip0 Ip) L) as F.
  rewrite X in F. apply F; auto. unfold Front.evolve_stage, Front.updater_error. rewrite B, T, S.
  cbn [string_dec]. destruct (string_dec "simple" "full"); [discriminate|]. destruct (string_dec "simple" "simple"); [|contradiction].
  cbn [loop]. destruct (n_bonds n0) as [|b bs] eqn:Eb.
  { apply Permutation_length in HP. rewrite length_bond_list in HP. cbn in HP. nia. }
  cbn [pass]. rewrite T. destruct (string_dec "simple" "simple"); [|contradiction].
  unfold start_kinds. rewrite Kc, Eb. rewrite (complex_first nx ny (b :: bs) HP) by (auto; now left). reflexivity.
Qed.
(** ---- calls that are not refused ---- *)
Hypothesis sweep_fine : forall k p n m, snd (sweep k p n m) = None.
Hypothesis upd_fine : forall k b p n m, snd (upd k b p n m) = None.
Notation step := (step V dtype cls pval).
Notation pass := (pass V dtype cls pval update_type kind_of upd).
Notation loop := (loop V dtype cls pval update_type kind_of upd).

Lemma step_fine kn m p n : snd (kn p n m) = None -> exists p', step kn m p n = (p', n, None).
Proof. intros H. unfold Front.step. destruct (kn p n m) as [[f bl] e]. cbn in H. subst e. eauto. Qed.

(** the types of the tensors let the pass through *)
Lemma pass_fine k mdl bs t t' p n : (update_type n = "simple" -> for_each bs (update_kinds (kind_of (n_dtype n))) t = Ok t') ->
  (update_type n <> "simple" -> t' = t) -> exists p', pass k mdl bs t p n = ((p', n, None), t').
Proof.
  revert t p. induction bs as [|b bs IH]; intros t p H1 H2; cbn [Front.pass].
  - destruct (string_dec (update_type n) "simple") as [T|T]; [specialize (H1 T); cbn in H1; injection H1 as ->|rewrite (H2 T)]; eauto.
  - destruct (string_dec (update_type n) "simple") as [T|T].
    + specialize (H1 T). cbn [for_each] in H1. destruct (update_kinds _ b t) as [t1|]; [|discriminate].
      destruct (step_fine (upd k b) (Some mdl) p n (upd_fine _ _ _ _ _)) as [p' ->]. apply IH; auto. contradiction.
    + destruct (step_fine (upd k b) (Some mdl) p n (upd_fine _ _ _ _ _)) as [p' ->]. apply IH; auto. contradiction.
Qed.

Lemma loop_fine k mdl steps bl t p n : (forall b, In b (n_bonds n) -> In b bl) ->
  (update_type n = "simple" -> forall bs, (forall b, In b bs -> In b bl) -> exists t', for_each bs (update_kinds (kind_of (n_dtype n))) t = Ok t') ->
  (forall s b, update_type (n_with_lists dtype n s b) = update_type n) ->
  exists p' n', loop k mdl steps t p n = (p', n', None).
Proof.
  revert t p n. induction steps as [|steps IH]; intros t p n Hb Ht Hu; cbn [Front.loop]; eauto.
  assert (exists t', (update_type n = "simple" -> for_each (n_bonds n) (update_kinds (kind_of (n_dtype n))) t = Ok t') /\
    (update_type n <> "simple" -> t' = t)) as (t' & H1 & H2).
  { destruct (string_dec (update_type n) "simple") as [T|T].
    - destruct (Ht T (n_bonds n) Hb) as [t' E]. exists t'. split; auto. contradiction.
    - exists t. split; auto. contradiction. }
  destruct (pass_fine k mdl (n_bonds n) t t' p n H1 H2) as [p' ->].
  apply IH.
  - cbn. intros b B. apply Hb. now apply in_rev in B.
  - rewrite Hu. cbn. intros T bs B. specialize (H1 T). destruct (Ht T (n_bonds n ++ bs)) as [t2 E2].
    { intros b I. apply in_app_or in I as [I|I]; auto. }
    rewrite for_each_app, H1 in E2. eauto.
  - intros s b. apply (eq_trans (Hu s b) (eq_sym (Hu _ _))).
Qed.

(** C94.  Every other call succeeds, if the numerical work does: a full update of any
    type, a simple update of real tensors, and zero steps of either. *)
Theorem C94_accepted (p : proc) (i : nat) (n : network) (m : option model) (mdl : model) (k steps : nat) :
  nth_error (p_nets p) i = Some n -> n_ipeps n = true -> the_model p n m = Ok mdl ->
  a_dtau (ask k) = None -> m_params cls mdl <> None -> a_steps (ask k) = Some steps ->
  (forall p' n', build p' n' mdl = None) -> (forall n' s b f, update_type (n_with_lists dtype n' s b) = update_type n' /\ update_type (n_with_init dtype n' f) = update_type n') ->
  (exists nx ny, Permutation (if n_init n then n_bonds n else build_bond_list (n_nx n) (n_ny n)) (build_bond_list nx ny)) ->
  update_type n = "full" \/ (update_type n = "simple" /\ (kind_of (n_dtype n) = Re \/ steps = 0)) ->
  snd (exec p (Evolve i m k)) = None.
Proof.
  intros E Ip Hm Ld Lp S B U (nx & ny & HP) T. rewrite (exec_evolve p i n m mdl k E Ip Hm).
  assert (exists n1, nth_error (p_nets (started p i n mdl k)) i = Some n1 /\ n_dtype n1 = n_dtype n /\ update_type n1 = update_type n /\
    Permutation (n_bonds n1) (build_bond_list nx ny)) as (n1 & E1 & D1 & U1 & P1).
  { destruct (n_init n) eqn:I.
    - exists n. rewrite started_init by exact I. auto.
    - unfold started. rewrite I. unfold Process.initialise. eexists. split.
      + rewrite set_net_nth, Nat.eqb_refl. cbn [Process.p_nets with_tbl]. rewrite (nth_ltb _ _ _ E). reflexivity.
      + split; [reflexivity|]. split; [|exact HP].
        rewrite (proj2 (U (n_with_lists dtype n (build_site_list (n_nx n) (n_ny n)) (build_bond_list (n_nx n) (n_ny n))) [] [] true)).
        apply (U n _ _ true). }
  unfold Process.run_kernel. rewrite E1. cbn [Front.front]. unfold Front.stages, log_error. rewrite Ld.
  destruct (m_params cls mdl) as [r|]; [|congruence].
  destruct (step_fine (sweep k) None (started p i n mdl k) n1 (sweep_fine _ _ _ _)) as [p1 ->]. cbn [before].
  unfold Front.evolve_stage at 1. rewrite B, S.
  assert (updater_error dtype update_type n1 = None) as ->.
  { unfold updater_error. rewrite U1. destruct T as [-> |[-> _]]; reflexivity. }
  assert (exists p2 n2, loop k mdl steps (start_kinds dtype kind_of n1) p1 n1 = (p2, n2, None)) as (p2 & n2 & ->).
  { destruct steps as [|steps']; [cbn; eauto|]. apply (loop_fine k mdl (Datatypes.S steps') (n_bonds n1)); auto.
    - rewrite U1. intros T'. destruct T as [T|[_ [T|T]]]; [rewrite T in T'; discriminate| |discriminate].
      intros bs Hb. unfold start_kinds. rewrite D1, T.
      destruct (C94_real nx ny (n_bonds n1) P1 bs Hb) as (t' & X & _). eauto.
    - intros s b. apply (U n1 s b true). }
  destruct (step_fine (sweep k) None p2 n2 (sweep_fine _ _ _ _)) as [p3 H3]. cbn [before]. rewrite H3. reflexivity.
Qed.
End Calls.

(** ---- a concrete process ---- *)
(** call 1 has a dtau that is no number, call 2 steps that are no number, the others one
    step; every update adds ten, every renormalisation one *)
Definition y_ask (k : nat) : call :=
  match k with 1 => Call (Some ValueError) (Some 1) | 2 => Call None None | 3 => Call None (Some 0) | _ => Call None (Some 1) end.
Definition y_kernel (d : nat) : kernel nat bool nat nat :=
  fun p n m => ((fun s => match dget (p_tbl _ _ _ _ p) s with Some x => st_val _ _ x + d | None => 0 end), n_bonds _ n, None).
(** dtype true is complex *)
Definition y_run (ut : string) := run nat bool nat nat nat (fun _ v => v) (fun _ _ s _ => 1000 * s) (fun d => d) Nat.odd (fun _ => true) (fun s => s)
  (fun _ m _ => m_cls _ m)
  (front nat bool nat nat nat (fun _ _ s _ => 1000 * s) (fun d => d) y_ask (fun _ => ut) (fun d => if d then Cx else Re)
     (fun _ _ _ => None) (fun _ => y_kernel 1) (fun _ _ => y_kernel 10))
  (fun _ => y_kernel 1).
Definition y_hist (d : bool) (os : list (op bool nat nat)) : list (op bool nat nat) :=
  [AllocParams bool nat nat []; New (x_cfg 1 1 d) None 0; SetModel 0 5 (Some 0) None] ++ os.
Definition y_end ut d os := let r := y_run ut x_init (y_hist d os) in (skipn 3 (map snd (snd r)), x_read r (0, 0)).

(** the refused call with the model of class 5 decides the state the call with the model
    of class 9 starts from *)
Example C94_example :
  y_end "simple" false [Evolve 0 None 0] = ([None], Some 5022) /\
  y_end "simple" false [Evolve 0 None 1] = ([Some ValueError], Some 5000) /\
  y_end "simple" false [Evolve 0 None 1; SetModel 0 9 (Some 0) None; Evolve 0 None 0] = ([Some ValueError; None; None], Some 5022) /\
  y_end "simple" false [SetModel 0 9 (Some 0) None; Evolve 0 None 0] = ([None; None], Some 9022) /\
  y_end "simple" false [SetModel 0 9 None None; Evolve 0 None 0] = ([None; Some AttributeError], Some 9000) /\
  y_end "full" false [Evolve 0 None 2] = ([Some TypeError], Some 5001) /\
  y_end "other" false [Evolve 0 None 0] = ([Some ValueError], Some 5001) /\
  y_end "simple" true [Evolve 0 None 0] = ([Some RuntimeError], Some 5001) /\
  y_end "simple" true [Evolve 0 None 3] = ([None], Some 5002) /\
  y_end "full" true [Evolve 0 None 0] = ([None], Some 5022).
Proof. vm_compute. repeat split. Qed.

(** a call that raises is not without effect *)
Theorem C94_no_effect_refuted : exists os o, let before := y_run "simple" x_init os in
  let after := y_run "simple" x_init (os ++ [o]) in
  snd (last (snd after) (o, None)) <> None /\ x_read before (0, 0) <> x_read after (0, 0) /\
  exists m, x_read (y_run "simple" x_init (os ++ m)) (0, 0) <> x_read (y_run "simple" x_init (os ++ [o] ++ m)) (0, 0) /\
    forall e, In e (map snd (skipn (Datatypes.length os) (snd (y_run "simple" x_init (os ++ m))))) -> e = None.
Proof.
  exists (y_hist false []), (Evolve 0 None 1). cbn zeta. split; [vm_compute; discriminate|]. split; [vm_compute; discriminate|].
  exists [SetModel 0 9 (Some 0) None; Evolve 0 None 0]. split; [vm_compute; discriminate|].
  vm_compute. intros e [<-|[<-|[]]]; reflexivity.
Qed.

Print Assumptions C94_real.
Print Assumptions C94_refused.
Print Assumptions C94_after_refusal.
Print Assumptions C94_late.
Print Assumptions C94_complex.
Print Assumptions C94_accepted.
Print Assumptions C94_no_effect_refuted.
