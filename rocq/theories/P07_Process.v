(** Properties C33-C38: the process state (shared site table, files, shared
    dictionaries, model registry). *)
From Coq Require Import String.
From Coq Require Import List Arith Lia Bool.
From Verif Require Import ListAux Lattice LatticeFacts Base Process.
Import ListNotations.

Lemma nth_snoc {A} (l : list A) a j x : nth_error (l ++ [a]) j = Some x ->
  nth_error l j = Some x \/ (j = length l /\ x = a).
Proof.
  revert j; induction l as [|b l IH]; intros [|j]; cbn; auto.
  - intros H; inversion H; auto.
  - destruct j; discriminate.
  - intros H. destruct (IH j H) as [|[-> ->]]; auto.
Qed.
Lemma nth_ltb {A} (l : list A) i a : nth_error l i = Some a -> (i <? length l) = true.
Proof. intros H. apply Nat.ltb_lt. apply nth_error_Some. congruence. Qed.

Section Props.
Variables (V dtype cls state pval : Type)
  (cast : dtype -> V -> V) (fresh : dtype -> dims -> state -> nat -> V) (uniform : nat -> state)
  (is_model concrete : cls -> bool) (lower : string -> string).
Notation proc := (proc V dtype cls pval).
Notation st := (st V dtype).
Notation network := (network dtype).
Notation model := (model cls).
Notation op := (op dtype cls pval).
Variables (init_state : proc -> model -> site -> state) (work sweep : nat -> kernel V dtype cls pval).

Notation exec := (exec V dtype cls state pval cast fresh uniform is_model concrete lower init_state work sweep).
Notation run := (run V dtype cls state pval cast fresh uniform is_model concrete lower init_state work sweep).
Notation initial := (initial V dtype cls pval).
Notation getitem := (getitem V dtype cls pval).
Notation the_model := (the_model V dtype cls pval concrete).
Notation create := (create V dtype cls pval concrete).
Notation st_to := (st_to V dtype cast).
Notation St := (St V dtype).
Notation p_tbl := (p_tbl V dtype cls pval).
Notation p_nets := (p_nets V dtype cls pval).
Notation p_dims := (p_dims V dtype cls pval).
Notation p_params := (p_params V dtype cls pval).
Notation p_files := (p_files V dtype cls pval).
Notation p_reg := (p_reg V dtype cls pval).
Notation n_sites := (n_sites dtype).
Notation n_dtype := (n_dtype dtype).
Notation n_dims := (n_dims dtype).
Notation n_params := (n_params dtype).
Notation n_init := (n_init dtype).
Notation n_ipeps := (n_ipeps dtype).
Notation n_name := (n_name dtype).
Notation n_nx := (n_nx dtype).
Notation n_ny := (n_ny dtype).
Notation dims_of := (dims_of V dtype cls pval).
Notation Save := (Save dtype cls pval).
Notation Load := (Load dtype cls pval).
Notation To := (To dtype cls pval).
Notation New := (New dtype cls pval).
Notation Evolve := (Evolve dtype cls pval).
Notation SetChi := (SetChi dtype cls pval).
Notation SetModel := (SetModel dtype cls pval).
Notation SetParam := (SetParam dtype cls pval).

(** States reachable from the start of a process. *)
Definition reachable (p : proc) : Prop :=
  exists reg os, p = fst (run (initial reg (fun _ => None)) os).
(** ... with files of earlier processes around (each a dict, so distinct keys) *)
Definition reachable_with_files (p : proc) : Prop :=
  exists reg files os, (forall f file, files f = Some file -> NoDup (map fst file)) /\
    p = fst (run (initial reg files) os).

Lemma reachable_files p : reachable p -> reachable_with_files p.
Proof. intros (reg & os & ->). exists reg, (fun _ => None), os. split; auto. discriminate. Qed.
Lemma reach_wf p : reachable_with_files p -> wf V dtype cls pval p.
Proof. intros (reg & files & os & H & ->). apply run_wf. now apply initial_wf. Qed.

(** C33.  In every reachable state a network can read all its sites, and every
    network of the process reads the same tensors for them. *)
Theorem C33_one_table (p : proc) (n : network) (s : site) :
  reachable_with_files p -> In n (p_nets p) -> In s (n_sites n) ->
  exists x, getitem p n s = Ok x /\ forall n', In n' (p_nets p) -> getitem p n' s = Ok x.
Proof.
  intros R Hn Hs. destruct (reach_wf p R) as (_ & _ & C). destruct (C n Hn) as [_ C2].
  unfold Process.getitem. destruct (dget (p_tbl p) s) as [x|] eqn:E; [|exfalso; now apply (C2 s Hs)].
  exists x. auto.
Qed.

(** Constructing a network resets the sites of its cell for all networks. *)
Theorem C33_construction_overwrites (p p' : proc) (c : cfg dtype) (seed : nat) (e : option exn) :
  exec p (New c None seed) = (p', e) -> e = None ->
  let dm := match c_dims _ c with Some r => nth r (p_dims p) (Dims 0 0 0) | None => Dims 2 2 20 end in
  length (p_nets p') = S (length (p_nets p)) /\
  forall n s, In n (p_nets p') ->
    getitem p' n s = if in_dec site_eq_dec s (build_site_list (c_nx _ c) (c_ny _ c))
      then Ok (St (c_dtype _ c) (cast (c_dtype _ c) (fresh (c_dtype _ c) dm (uniform (d_phys dm)) seed)))
      else getitem p n s.
Proof.
  intros H ->. cbn [Process.exec] in H. unfold construct in H.
  destruct (valid_ref _ _ _ _ p (c_dims _ c)); cbn [negb] in H; [|discriminate].
  destruct (c_dims _ c) as [r|]; injection H as <-; cbv zeta; (split; [cbn; rewrite app_length; cbn; lia|]);
    intros n s _; unfold Process.getitem; cbn [Process.p_tbl with_nets with_tbl with_dims];
    rewrite init_sites_spec by apply NoDup_site_list;
    cbn [Process.p_dims with_dims]; rewrite ?nth_middle; destruct (in_dec _ _ _); reflexivity.
Qed.

(** copy() and to(dtype) convert the tensors read through every network. *)
Theorem C33_to_converts (p : proc) (i : nat) (n : network) (d : option dtype) :
  reachable_with_files p -> nth_error (p_nets p) i = Some n ->
  let d' := match d with Some d => d | None => n_dtype n end in
  snd (exec p (To i d)) = None /\
  forall n' s x, getitem p n' s = Ok x ->
    getitem (fst (exec p (To i d))) n' s = Ok (if in_dec site_eq_dec s (n_sites n) then st_to d' x else x).
Proof.
  intros R E d'. pose proof (reach_wf p R) as W. cbn [Process.exec]. rewrite E.
  destruct (copy_wf V dtype cls pval cast p d' n W (nth_error_In _ _ E)) as (t & Et & _ & G).
  unfold d' in Et. rewrite Et. cbn [fst snd]. split; auto.
  intros n' s x. unfold Process.getitem. cbn [Process.p_tbl with_nets with_tbl]. rewrite G.
  destruct (dget (p_tbl p) s) as [y|]; [|discriminate]. intros X; inversion X; subst.
  destruct (in_dec _ _ _); reflexivity.
Qed.

(** What evolve writes through one network is what all others read. *)
Theorem C33_evolve_visible (p : proc) (i : nat) (n : network) (m : option model) (mdl : model) (seed : nat) :
  reachable_with_files p -> nth_error (p_nets p) i = Some n -> n_ipeps n = true -> n_init n = true ->
  the_model p n m = Ok mdl ->
  let new := fst (fst (work seed p n (Some mdl))) in
  forall n' s x, getitem p n' s = Ok x ->
    getitem (fst (exec p (Evolve i m seed))) n' s =
    Ok (if in_dec site_eq_dec s (n_sites n) then St (st_dtype _ _ x) (new s) else x).
Proof.
  intros R E Ip In Hm new n' s x Hx. destruct (reach_wf p R) as (_ & _ & C).
  destruct (C n (nth_error_In _ _ E)) as [C1 _].
  cbn [Process.exec]. rewrite E, Ip, Hm, In. unfold run_kernel. rewrite E. unfold new.
  destruct (work seed p n (Some mdl)) as [[f bl] e]. cbn [fst]. unfold Process.getitem in *.
  cbn [Process.p_tbl set_net with_nets with_tbl]. rewrite write_back_spec by exact C1.
  destruct (dget (p_tbl p) s) as [y|]; [|discriminate]. inversion Hx; subst.
  destruct (in_dec _ _ _); reflexivity.
Qed.

(** C34.  save always succeeds, and leaves every readable tensor the same up to
    conversion to the network's dtype, hence the same for tensors already of it. *)
Theorem C34_save_keeps_tensors (p : proc) (i : nat) (n : network) (f : string) :
  (forall d v, cast d (cast d v) = cast d v) ->
  reachable_with_files p -> nth_error (p_nets p) i = Some n ->
  snd (exec p (Save i f)) = None /\
  forall n' s x, getitem p n' s = Ok x ->
    getitem (fst (exec p (Save i f))) n' s = Ok (st_to (n_dtype n) x) /\
    (st_dtype _ _ x = n_dtype n -> cast (n_dtype n) (st_val _ _ x) = st_val _ _ x ->
     getitem (fst (exec p (Save i f))) n' s = Ok x).
Proof.
  intros Hc R E. destruct (save_spec _ _ _ state pval cast fresh uniform is_model concrete lower init_state work sweep
    p i n f (reach_wf p R) E) as (t & _ & _ & S & _ & _ & G).
  split; [exact S|]. intros n' s x Hx.
  assert (X : getitem (fst (exec p (Save i f))) n' s = Ok (st_to (n_dtype n) x)).
  { unfold Process.getitem in *. rewrite G. destruct (dget (p_tbl p) s) as [y|]; [|discriminate].
    inversion Hx; subst. destruct (in_dec _ _ _); cbn [option_map]; auto.
    unfold Process.st_to. cbn. now rewrite Hc. }
  split; auto. intros H1 H2. rewrite X. unfold Process.st_to. rewrite H2, <- H1. now destruct x.
Qed.

(** C34, restore: after save to f and anything but another save to f, loading f
    into any network makes every network read the saved tensors, converted. *)
Theorem C34_save_load (p : proc) (i j : nat) (n m : network) (f : string) (os : list op) :
  reachable_with_files p -> nth_error (p_nets p) i = Some n ->
  (forall k, ~ In (Save k f) os) ->
  let p2 := fst (run (fst (exec p (Save i f))) os) in
  nth_error (p_nets p2) j = Some m ->
  let p3 := fst (exec p2 (Load j f)) in
  snd (exec p2 (Load j f)) = None /\
  forall n' s, getitem p3 n' s =
    match getitem p n s with
    | Ok x => Ok (st_to (n_dtype m) (if in_dec site_eq_dec s (n_sites n) then st_to (n_dtype n) x else x))
    | Err _ => getitem p2 n' s
    end.
Proof.
  intros R E Hos p2 Em p3.
  destruct (save_spec _ _ _ state pval cast fresh uniform is_model concrete lower init_state work sweep
    p i n f (reach_wf p R) E) as (t & K & G & S & F & _ & _).
  assert (F2 : p_files p2 f = Some t).
  { unfold p2. rewrite run_files; auto. }
  unfold p3. cbn [Process.exec]. unfold load. rewrite Em, F2. cbn [fst snd]. split; auto.
  intros n' s. unfold Process.getitem. cbn [Process.p_tbl set_net with_nets with_tbl].
  rewrite load_sites_spec by exact K. rewrite G.
  destruct (in_dec _ _ _); destruct (dget (p_tbl p) s); reflexivity.
Qed.

(** C35.  The file written by any network holds exactly the sites of all
    networks of the process. *)
Theorem C35_file_holds_all_sites (p : proc) (i : nat) (n : network) (f : string) :
  reachable p -> nth_error (p_nets p) i = Some n ->
  exists file, p_files (fst (exec p (Save i f))) f = Some file /\ NoDup (map fst file) /\
    forall s, In s (map fst file) <-> exists n', In n' (p_nets p) /\ In s (n_sites n').
Proof.
  intros R E. pose proof (reach_wf p (reachable_files p R)) as W.
  destruct (save_spec _ _ _ state pval cast fresh uniform is_model concrete lower init_state work sweep
    p i n f W E) as (t & K & G & _ & F & _ & _).
  exists t. split; auto. split; auto. intros s. rewrite <- dget_in, G.
  assert (X : (if in_dec site_eq_dec s (n_sites n) then option_map (st_to (n_dtype n)) (dget (p_tbl p) s)
       else dget (p_tbl p) s) <> None <-> dget (p_tbl p) s <> None).
  { destruct (in_dec _ _ _); destruct (dget (p_tbl p) s); cbn; split; congruence. }
  rewrite X. split.
  - intros H. destruct R as (reg & os & ->).
    assert (D : dom_inv V dtype cls pval (fst (run (initial reg (fun _ => None)) os))).
    { apply run_dom; [apply initial_wf; discriminate|]. split; [|discriminate]. cbn. congruence. }
    destruct D as [D _]. destruct (D s H) as (n' & A & _ & B). eauto.
  - intros (n' & Hn' & Hs). destruct W as (_ & _ & C). destruct (C n' Hn') as [_ C2]. auto.
Qed.

(** C36.  The events that make network i count as initialised. *)
Definition initialising (p : proc) (i : nat) (o : op) : Prop :=
  (exists f, o = Save i f) \/
  (exists f, o = Load i f /\ p_files p f <> None) \/
  (exists m seed n mdl, o = Evolve i m seed /\ nth_error (p_nets p) i = Some n /\ n_ipeps n = true /\
     the_model p n m = Ok mdl).

Lemma touches_iff p i o : touches V dtype cls pval concrete p i o = true <-> initialising p i o.
Proof.
  unfold initialising. split.
  - destruct o; cbn; try discriminate.
    + intros H. apply Nat.eqb_eq in H. subst. left; eauto.
    + intros H. apply andb_prop in H as [H1 H2]. apply Nat.eqb_eq in H1. subst.
      right; left. exists f. split; auto. destruct (p_files p f); discriminate.
    + intros H. apply andb_prop in H as [H1 H2]. apply Nat.eqb_eq in H1. subst.
      destruct (nth_error (p_nets p) i) as [n|] eqn:E; [|discriminate].
      apply andb_prop in H2 as [H2 H3]. destruct (the_model p n m) as [mdl|] eqn:M; [|discriminate].
      right; right. eauto 8.
  - intros [[f ->]|[(f & -> & H)|(m & seed & n & mdl & -> & E & I & M)]]; cbn; rewrite Nat.eqb_refl; auto.
    + destruct (p_files p f) eqn:X; [reflexivity|contradiction].
    + rewrite E, I, M. reflexivity.
Qed.

Lemma run_snoc p os o : fst (run p (os ++ [o])) = fst (exec (fst (run p os)) o).
Proof. rewrite run_app. cbn [Process.run fst]. destruct (exec _ o); reflexivity. Qed.

(** the flag after any history: some earlier initialising event *)
Theorem C36_initialised_iff (reg : string -> option cls) (files : string -> option (sdict st)) (os : list op)
    (i : nat) (n : network) :
  (forall f file, files f = Some file -> NoDup (map fst file)) ->
  nth_error (p_nets (fst (run (initial reg files) os))) i = Some n ->
  (n_init n = true <->
   exists os1 o os2 n1, os = os1 ++ o :: os2 /\
     nth_error (p_nets (fst (run (initial reg files) os1))) i = Some n1 /\
     initialising (fst (run (initial reg files) os1)) i o).
Proof.
  intros Hf. set (p0 := initial reg files).
  assert (W0 : wf V dtype cls pval p0) by now apply initial_wf.
  revert n. induction os as [|o os IH] using rev_ind; intros n H.
  { cbn in H. destruct i; discriminate. }
  rewrite run_snoc in H. set (p := fst (run p0 os)) in *.
  assert (W : wf V dtype cls pval p) by (apply run_wf; exact W0).
  apply exec_nets in H; [|exact W].
  destruct H as [(n0 & E0 & _ & I & _)|(E0 & I & T & _)].
  - specialize (IH n0 E0). rewrite I. rewrite orb_true_iff, IH, touches_iff. split.
    + intros [(os1 & o1 & os2 & n1 & -> & X & Y)|T].
      * exists os1, o1, (os2 ++ [o]), n1. rewrite <- app_assoc. auto.
      * exists os, o, [], n0. auto.
    + intros (os1 & o1 & os2 & n1 & Eq & X & Y).
      destruct (rev_ind (fun l => l = [] \/ exists l' a, l = l' ++ [a]) (or_introl eq_refl)
        (fun a l _ => or_intror (ex_intro _ l (ex_intro _ a eq_refl))) os2) as [-> |(l' & a & ->)].
      * apply app_inj_tail in Eq as [-> ->]. right. exact Y.
      * rewrite app_comm_cons, app_assoc in Eq. apply app_inj_tail in Eq as [-> ->].
        left. exists os1, o1, l', n1. auto.
  - rewrite I. split; [discriminate|]. intros (os1 & o1 & os2 & n1 & Eq & X & Y). exfalso.
    destruct (rev_ind (fun l => l = [] \/ exists l' a, l = l' ++ [a]) (or_introl eq_refl)
        (fun a l _ => or_intror (ex_intro _ l (ex_intro _ a eq_refl))) os2) as [-> |(l' & a & ->)].
    + apply app_inj_tail in Eq as [-> ->]. apply touches_iff in Y. fold p in Y. congruence.
    + rewrite app_comm_cons, app_assoc in Eq. apply app_inj_tail in Eq as [Eq ->].
      (* the network existed before, so it exists now *)
      assert (G : forall l q n1, nth_error (p_nets q) i = Some n1 -> nth_error (p_nets (fst (run q l))) i <> None).
      { induction l as [|b l IHl]; intros q n2 H2; cbn [Process.run]; [cbn; congruence|].
        destruct (exec_keeps_nets V dtype cls state pval cast fresh uniform is_model concrete lower init_state work sweep
          q b i n2 H2) as [n3 H3]. destruct (exec q b) as [q1 e]. cbn in H3.
        specialize (IHl q1 n3 H3). destruct (run q1 l). exact IHl. }
      apply (G (o1 :: l') _ _ X). unfold p in E0. rewrite Eq in E0. rewrite run_app in E0. exact E0.
Qed.

(** what evolve starts from: the model's product state when the flag is off, the
    current tensors when it is on *)
Theorem C36_evolve_start (p : proc) (i : nat) (n : network) (m : option model) (mdl : model) (seed : nat) :
  reachable_with_files p -> nth_error (p_nets p) i = Some n -> n_ipeps n = true -> the_model p n m = Ok mdl ->
  exists p1 n1, nth_error (p_nets p1) i = Some n1 /\
  (* evolve then runs on p1 *)
  exec p (Evolve i m seed) = run_kernel V dtype cls pval (work seed) i (Some mdl) p1 /\
  (n_init n = true -> p1 = p) /\
  (n_init n = false ->
     n_sites n1 = build_site_list (n_nx n) (n_ny n) /\
     forall n' s, getitem p1 n' s =
       if in_dec site_eq_dec s (n_sites n1)
       then Ok (St (n_dtype n) (cast (n_dtype n) (fresh (n_dtype n) (dims_of p n) (init_state p mdl s) seed)))
       else getitem p n' s).
Proof.
  intros R E Ip Hm. cbn [Process.exec]. rewrite E, Ip, Hm. destruct (n_init n) eqn:In.
  - exists p, n. repeat split; auto; congruence.
  - set (p1 := initialise V dtype cls state pval cast fresh i n (init_state p mdl) seed p).
    assert (E1 : nth_error (p_nets p1) i =
      Some (n_with_init _ (n_with_lists _ n (build_site_list (n_nx n) (n_ny n)) (build_bond_list (n_nx n) (n_ny n))) true)).
    { unfold p1, initialise. rewrite set_net_nth. cbn [Process.p_nets with_tbl].
      rewrite (nth_ltb _ _ _ E), Nat.eqb_refl. reflexivity. }
    eexists p1, _. split; [exact E1|]. split; [reflexivity|]. split; [congruence|]. intros _. split; [reflexivity|].
    intros n' s. unfold Process.getitem. unfold p1, initialise. cbn [Process.p_tbl set_net with_nets with_tbl].
    rewrite init_sites_spec by apply NoDup_site_list. cbn [Process.n_sites n_with_init n_with_lists].
    destruct (in_dec _ _ _); reflexivity.
Qed.

(** C37.  set_chi changes chi for exactly the networks holding the same
    dictionary, and the dictionary itself. *)
Theorem C37_set_chi (p : proc) (i c : nat) (n : network) :
  nth_error (p_nets p) i = Some n -> n_ipeps n = true -> n_dims n < length (p_dims p) ->
  let p' := fst (exec p (SetChi i c)) in
  snd (exec p (SetChi i c)) = None /\ p_nets p' = p_nets p /\ p_tbl p' = p_tbl p /\
  (forall m, d_chi (dims_of p' m) = if n_dims m =? n_dims n then c else d_chi (dims_of p m)) /\
  (forall m, d_bond (dims_of p' m) = d_bond (dims_of p m) /\ d_phys (dims_of p' m) = d_phys (dims_of p m)) /\
  (forall r d, nth_error (p_dims p') r = Some d ->
     d_chi d = if r =? n_dims n then c else d_chi (nth r (p_dims p) (Dims 0 0 0))).
Proof.
  intros E Ip Hr. cbn [Process.exec]. rewrite E, Ip. cbn [fst snd]. cbv zeta.
  assert (G : forall r, nth_error (list_set (p_dims p) (n_dims n)
       (Dims (d_phys (dims_of p n)) (d_bond (dims_of p n)) c)) r =
     if r =? n_dims n then Some (Dims (d_phys (dims_of p n)) (d_bond (dims_of p n)) c) else nth_error (p_dims p) r).
  { intros r. rewrite list_set_nth. apply Nat.ltb_lt in Hr. rewrite Hr. reflexivity. }
  assert (N : forall A (l l' : list A) r d, nth_error l r = nth_error l' r -> nth r l d = nth r l' d).
  { intros A l l' r d H. rewrite <- (nth_default_eq r l d), <- (nth_default_eq r l' d). unfold nth_default. now rewrite H. }
  assert (D : forall m, dims_of (with_dims _ _ _ _ (list_set (p_dims p) (n_dims n)
       (Dims (d_phys (dims_of p n)) (d_bond (dims_of p n)) c)) p) m =
     if n_dims m =? n_dims n then Dims (d_phys (dims_of p n)) (d_bond (dims_of p n)) c else dims_of p m).
  { intros m. unfold Process.dims_of at 1. cbn [Process.p_dims with_dims].
    specialize (G (n_dims m)). destruct (Nat.eqb_spec (n_dims m) (n_dims n)).
    - apply nth_error_nth with (d := Dims 0 0 0) in G. exact G.
    - apply N. exact G. }
  split; [reflexivity|]. split; [reflexivity|]. split; [reflexivity|]. split; [|split].
  - intros m. rewrite D. destruct (_ =? _); reflexivity.
  - intros m. rewrite D. destruct (Nat.eqb_spec (n_dims m) (n_dims n)) as [X|]; auto.
    unfold Process.dims_of. rewrite X. auto.
  - intros r d. cbn [Process.p_dims with_dims]. rewrite G. destruct (r =? n_dims n).
    + intros X; inversion X; reflexivity.
    + intros X. now rewrite (nth_error_nth _ _ _ X).
Qed.

(** who shares: the caller's dictionary is used as it is, copy() and to() share
    the network's, an omitted dims gives a dictionary of its own, and a
    network's dictionary never changes. *)
Definition refs_ok (p : proc) : Prop := forall n, In n (p_nets p) -> n_dims n < length (p_dims p).

Theorem C37_who_shares (p : proc) (o : op) (j : nat) (n' : network) :
  reachable_with_files p -> refs_ok p ->
  nth_error (p_nets (fst (exec p o))) j = Some n' ->
  (exists n, nth_error (p_nets p) j = Some n /\ n_dims n' = n_dims n) \/
  (nth_error (p_nets p) j = None /\
   ((exists c src seed r, o = New c src seed /\ c_dims _ c = Some r /\ n_dims n' = r) \/
    (exists c src seed, o = New c src seed /\ c_dims _ c = None /\ forall m, In m (p_nets p) -> n_dims m <> n_dims n') \/
    (exists i d n, o = To i d /\ nth_error (p_nets p) i = Some n /\ n_dims n' = n_dims n))).
Proof.
  intros R Ok H. pose proof (reach_wf p R) as W.
  destruct (exec_nets _ _ _ _ _ _ _ _ _ _ _ _ _ _ p o j n' W H) as [(n & E & (_ & _ & _ & X & _) & _)|(E & _)].
  { left. eauto. }
  right. split; auto.
  destruct o as [d|q|r c|c src seed|i d|i g|i g|i c|i c q nm|i k v|i m seed|i seed|i m]; cbn [Process.exec] in H.
  - cbn in H. congruence.
  - cbn in H. congruence.
  - destruct (nth_error (p_dims p) r); cbn in H; congruence.
  - unfold construct in H. destruct (valid_ref _ _ _ _ p (c_dims _ c)) eqn:Hv; cbn [negb] in H; [|cbn in H; congruence].
    destruct (c_dims _ c) as [r|] eqn:Ec.
    + left. exists c, src, seed, r. split; auto. split; auto.
      destruct src as [k|].
      * destruct (nth_error (p_nets p) k) as [m|]; [|cbn in H; congruence].
        destruct (copy_sites _ _ _ _ _ _); cbn [fst with_nets Process.p_nets] in H; [|congruence].
        apply nth_snoc in H as [H|[_ ->]]; [congruence|reflexivity].
      * cbn [fst with_nets Process.p_nets] in H. apply nth_snoc in H as [H|[_ ->]]; [congruence|reflexivity].
    + right; left. exists c, src, seed. split; auto. split; auto.
      assert (X : n_dims n' = length (p_dims p)).
      { destruct src as [k|].
        - destruct (nth_error (p_nets p) k) as [m|]; [|cbn in H; congruence].
          destruct (copy_sites _ _ _ _ _ _); cbn [fst with_nets with_dims Process.p_nets] in H; [|congruence].
          apply nth_snoc in H as [H|[_ ->]]; [congruence|reflexivity].
        - cbn [fst with_nets Process.p_nets] in H. apply nth_snoc in H as [H|[_ ->]]; [cbn in H; congruence|reflexivity]. }
      intros m Hm. specialize (Ok m Hm). lia.
  - right; right. destruct (nth_error (p_nets p) i) as [n|] eqn:Ei; [|cbn in H; congruence].
    exists i, d, n. split; auto. split; auto.
    destruct (copy_sites _ _ _ _ _ _); cbn [fst with_nets Process.p_nets] in H; [|congruence].
    apply nth_snoc in H as [H|[_ ->]]; [congruence|reflexivity].
  - exfalso. destruct (nth_error (p_nets p) i) as [n|] eqn:Ei; [|cbn in H; congruence].
    destruct (copy_sites _ _ _ _ _ _); [|cbn in H; congruence].
    apply load_nets in H as (n0 & H0 & _). cbn in H0. congruence.
  - exfalso. apply load_nets in H as (n0 & H0 & _). congruence.
  - destruct (nth_error (p_nets p) i) as [n|]; [|cbn in H; congruence]. destruct (n_ipeps n); cbn in H; congruence.
  - exfalso. destruct (nth_error (p_nets p) i) as [n|] eqn:Ei; [|cbn in H; congruence]. destruct (n_ipeps n); [|cbn in H; congruence].
    unfold register in H. destruct (is_model c); [|cbn in H; congruence]. cbn [fst] in H. rewrite set_net_nth in H.
    destruct (Nat.eqb_spec j i) as [-> |]; [congruence|cbn in H; congruence].
  - destruct (nth_error (p_nets p) i) as [n|]; [|cbn in H; congruence]. destruct (n_ipeps n); [|cbn in H; congruence].
    destruct (n_params n); cbn in H; congruence.
  - exfalso. destruct (nth_error (p_nets p) i) as [n|] eqn:Ei; [|cbn in H; congruence]. destruct (n_ipeps n); [|cbn in H; congruence].
    destruct (the_model p n m) as [mdl|]; [|cbn in H; congruence].
    apply run_kernel_nets in H as (n1 & H0 & _).
    destruct (n_init n); [congruence|]. apply initialise_nets in H0 as (n0 & I0 & _); auto. congruence.
  - exfalso. destruct (nth_error (p_nets p) i) as [n|] eqn:Ei; [|cbn in H; congruence]. destruct (n_ipeps n); [|cbn in H; congruence].
    apply run_kernel_nets in H as (n1 & H0 & _). congruence.
  - destruct (nth_error (p_nets p) i) as [n|]; [|cbn in H; congruence]. destruct (n_ipeps n); [|cbn in H; congruence].
    destruct (the_model p n m); cbn in H; congruence.
Qed.

(** dictionaries stay valid, so the hypothesis above holds in every reachable state *)
Lemma exec_dims_grow p o : length (p_dims p) <= length (p_dims (fst (exec p o))).
Proof.
  assert (K : forall k i m (q : proc), p_dims (fst (run_kernel _ _ _ _ k i m q)) = p_dims q).
  { intros k i m q. unfold run_kernel. destruct (nth_error _ _); auto. destruct (k q n m) as [[? ?] ?]. reflexivity. }
  assert (L : forall i g (q : proc), p_dims (fst (load _ _ _ _ cast i g q)) = p_dims q).
  { intros i g q. unfold load. destruct (nth_error _ _); auto. destruct (p_files q g); reflexivity. }
  destruct o as [d|q|r c|c src seed|i d|i g|i g|i c|i c q nm|i k v|i m seed|i seed|i m]; cbn [Process.exec]; auto.
  - cbn. rewrite app_length. lia.
  - destruct (nth_error _ _); auto. cbn. rewrite list_set_length. auto.
  - unfold construct. destruct (valid_ref _ _ _ _ p (c_dims _ c)); cbn [negb]; auto.
    destruct (c_dims _ c); destruct src as [j|]; cbn; rewrite ?app_length; cbn; try lia;
      destruct (nth_error _ j); cbn; auto; destruct (copy_sites _ _ _ _ _ _); cbn; rewrite ?app_length; cbn; lia.
  - destruct (nth_error _ _); auto. destruct (copy_sites _ _ _ _ _ _); auto.
  - destruct (nth_error _ _); auto. destruct (copy_sites _ _ _ _ _ _); auto. rewrite L. auto.
  - rewrite L. auto.
  - destruct (nth_error _ _) as [n|]; auto. destruct (n_ipeps n); auto. cbn. rewrite list_set_length. auto.
  - destruct (nth_error _ _) as [n|]; auto. destruct (n_ipeps n); auto. unfold register. destruct (is_model c); auto.
  - destruct (nth_error _ _) as [n|]; auto. destruct (n_ipeps n); auto. destruct (n_params n); auto.
  - destruct (nth_error _ _) as [n|]; auto. destruct (n_ipeps n); auto. destruct (the_model p n m); auto.
    rewrite K. destruct (n_init n); auto.
  - destruct (nth_error _ _) as [n|]; auto. destruct (n_ipeps n); auto. rewrite K. auto.
  - destruct (nth_error _ _) as [n|]; auto. destruct (n_ipeps n); auto. destruct (the_model p n m); auto.
Qed.

Theorem C37_refs_valid (p : proc) : reachable_with_files p -> refs_ok p.
Proof.
  intros (reg & files & os & Hf & ->).
  induction os as [|o os IH] using rev_ind.
  { intros n []. }
  rewrite run_snoc. set (p := fst (run (initial reg files) os)) in *.
  intros n' Hn'. apply In_nth_error in Hn' as [j Hj].
  assert (R : reachable_with_files p) by (exists reg, files, os; auto).
  assert (G := exec_dims_grow p o).
  destruct (C37_who_shares p o j n' R IH Hj) as [(n & E & ->)|(E & [(c & src & seed & r & -> & Ec & ->)|
    [(c & src & seed & -> & Ec & _)|(i & d & n & -> & En & ->)]])].
  - specialize (IH n (nth_error_In _ _ E)). lia.
  - cbn [Process.exec] in Hj. unfold construct in Hj. rewrite Ec in Hj. cbn [valid_ref] in Hj.
    destruct (Nat.ltb_spec r (length (p_dims p))) as [L|L]; [lia|]. cbn in Hj. congruence.
  - cbn [Process.exec] in *. unfold construct in *. rewrite Ec in *. cbn [valid_ref negb] in *.
    destruct src as [k|].
    + destruct (nth_error (p_nets p) k) as [m|]; [|cbn in Hj; congruence].
      cbn [Process.p_tbl with_dims] in *.
      destruct (copy_sites _ _ _ _ _ _); cbn [fst with_nets with_dims Process.p_nets] in Hj; [|congruence].
      apply nth_snoc in Hj as [Hj|[_ ->]]; [congruence|]. cbn. rewrite app_length. cbn. lia.
    + cbn [fst with_nets with_dims Process.p_nets] in Hj.
      apply nth_snoc in Hj as [Hj|[_ ->]]; [cbn in Hj; congruence|]. cbn. rewrite app_length. cbn. lia.
  - specialize (IH n (nth_error_In _ _ En)). lia.
Qed.

(** the same for set_model_params and the params dictionary *)
Fixpoint plookup (q : params pval) (k : string) : option pval :=
  match q with [] => None | (k', v) :: q => if string_dec k k' then Some v else plookup q k end.

Theorem C37_set_model_params (p : proc) (i : nat) (n : network) (k : string) (v : pval) (r : nat) :
  nth_error (p_nets p) i = Some n -> n_ipeps n = true -> n_params n = Some r -> r < length (p_params p) ->
  let p' := fst (exec p (SetParam i k v)) in
  snd (exec p (SetParam i k v)) = None /\ p_nets p' = p_nets p /\
  forall r' k', plookup (nth r' (p_params p') []) k' =
    if (r' =? r) && (if string_dec k' k then true else false) then Some v
    else plookup (nth r' (p_params p) []) k'.
Proof.
  intros E Ip Ep Hr. cbn [Process.exec]. rewrite E, Ip, Ep. cbn [fst snd]. cbv zeta.
  split; [reflexivity|]. split; [reflexivity|]. intros r' k'. cbn [Process.p_params with_params].
  assert (N : forall A (l l' : list A) r d, nth_error l r = nth_error l' r -> nth r l d = nth r l' d).
  { intros A l l' q d H. rewrite <- (nth_default_eq q l d), <- (nth_default_eq q l' d). unfold nth_default. now rewrite H. }
  pose proof (list_set_nth (p_params p) r ((k, v) :: nth r (p_params p) []) r') as G.
  apply Nat.ltb_lt in Hr. rewrite Hr in G. destruct (Nat.eqb_spec r' r) as [-> |Nr].
  - apply nth_error_nth with (d := []) in G. rewrite G. cbn [plookup andb]. destruct (string_dec k' k); reflexivity.
  - cbn [andb]. f_equal. apply N. exact G.
Qed.

(** C38.  The class registered last under a name by any network, from the trace
    (newest event last). *)
Definition registers (nm : string) (ev : op * option exn) : option cls :=
  match ev with
  | (Process.SetModel _ _ _ _ c _ name, None) =>
      if string_dec (match name with None => "custom"%string | Some s => lower s end) nm then Some c else None
  | _ => None
  end.
Fixpoint last_registered (nm : string) (tr : list (op * option exn)) : option cls :=
  match tr with
  | [] => None
  | ev :: tr => match last_registered nm tr with Some c => Some c | None => registers nm ev end
  end.

Lemma exec_reg p o nm : p_reg (fst (exec p o)) nm =
  match registers nm (o, snd (exec p o)) with Some c => Some c | None => p_reg p nm end.
Proof.
  assert (K : forall k i m (q : proc), p_reg (fst (run_kernel _ _ _ _ k i m q)) = p_reg q).
  { intros k i m q. unfold run_kernel. destruct (nth_error _ _); auto. destruct (k q n m) as [[? ?] ?]. reflexivity. }
  assert (L : forall i g (q : proc), p_reg (fst (load _ _ _ _ cast i g q)) = p_reg q).
  { intros i g q. unfold load. destruct (nth_error _ _); auto. destruct (p_files q g); reflexivity. }
  destruct o as [d|q|r c|c src seed|i d|i g|i g|i c|i c q nm0|i k v|i m seed|i seed|i m]; cbn [Process.exec registers]; auto.
  - destruct (nth_error _ _); auto.
  - unfold construct. destruct (valid_ref _ _ _ _ p (c_dims _ c)); cbn [negb]; auto.
    destruct (c_dims _ c); destruct src as [j|]; cbn; auto;
      destruct (nth_error _ j); cbn; auto; destruct (copy_sites _ _ _ _ _ _); auto.
  - destruct (nth_error _ _); auto. destruct (copy_sites _ _ _ _ _ _); auto.
  - destruct (nth_error _ _); auto. destruct (copy_sites _ _ _ _ _ _); auto. rewrite L. auto.
  - rewrite L. auto.
  - destruct (nth_error _ _) as [n|]; auto. destruct (n_ipeps n); auto.
  - destruct (nth_error _ _) as [n|]; cbn [snd]; auto. destruct (n_ipeps n); cbn [snd]; auto.
    unfold register. destruct (is_model c); cbn [snd fst]; auto.
    cbn [Process.p_reg set_net with_nets with_reg].
    set (name := match nm0 with None => "custom"%string | Some s => lower s end).
    destruct (string_dec nm name) as [-> |]; destruct (string_dec name _); congruence.
  - destruct (nth_error _ _) as [n|]; auto. destruct (n_ipeps n); auto. destruct (n_params n); auto.
  - destruct (nth_error _ _) as [n|]; auto. destruct (n_ipeps n); auto. destruct (the_model p n m); auto.
    rewrite K. destruct (n_init n); auto.
  - destruct (nth_error _ _) as [n|]; auto. destruct (n_ipeps n); auto. rewrite K. auto.
  - destruct (nth_error _ _) as [n|]; auto. destruct (n_ipeps n); auto. destruct (the_model p n m); auto.
Qed.

Lemma run_reg p os nm : p_reg (fst (run p os)) nm =
  match last_registered nm (snd (run p os)) with Some c => Some c | None => p_reg p nm end.
Proof.
  revert p; induction os as [|o os IH]; intros p; cbn [Process.run]; auto.
  pose proof (exec_reg p o nm) as E. destruct (exec p o) as [p1 e]. cbn [fst snd] in E.
  specialize (IH p1). destruct (run p1 os) as [p2 tr]. cbn [fst snd last_registered] in *.
  rewrite IH, E. destruct (last_registered nm tr); auto.
Qed.

(** the model a network works with when none is given *)
Theorem C38_latest_registration (reg : string -> option cls) (files : string -> option (sdict st)) (os : list op)
    (n : network) (nm : string) :
  let p := fst (run (initial reg files) os) in
  let tr := snd (run (initial reg files) os) in
  In n (p_nets p) -> n_name n = Some nm ->
  the_model p n None =
  match (match last_registered nm tr with Some c => Some c | None => reg nm end) with
  | Some c => if concrete c then Ok (Mdl _ c (Some nm) (n_params n) (n_dim _ n)) else Err TypeError
  | None => Err KeyError
  end.
Proof.
  intros p tr _ Hn. cbn [Process.the_model]. unfold Process.create. rewrite Hn. unfold p, tr. rewrite run_reg.
  cbn [Process.p_reg Process.initial]. reflexivity.
Qed.

(** so another network's later set_model under the same name wins *)
Theorem C38_overridden (p : proc) (i j : nat) (ni nj : network) (ci cj : cls) (qi qj : option nat) (nm : option string) :
  i <> j -> nth_error (p_nets p) i = Some ni -> nth_error (p_nets p) j = Some nj ->
  n_ipeps ni = true -> n_ipeps nj = true -> is_model ci = true -> is_model cj = true -> concrete cj = true ->
  let p' := fst (run p [SetModel i ci qi nm; SetModel j cj qj nm]) in
  exists ni', nth_error (p_nets p') i = Some ni' /\
    exists mdl, the_model p' ni' None = Ok mdl /\ m_cls _ mdl = cj /\ m_params _ mdl = qi.
Proof.
  intros Nij Ei Ej Ii Ij Mi Mj Cj p'. unfold p'. cbn [Process.run Process.exec].
  rewrite Ei, Ii. unfold register. rewrite Mi. cbn [fst].
  rewrite set_net_nth. cbn [Process.p_nets with_reg].
  destruct (Nat.eqb_spec j i); [congruence|]. rewrite Ej, Ij, Mj. cbn [fst].
  eexists. rewrite set_net_nth. destruct (Nat.eqb_spec i j); [congruence|].
  cbn [Process.p_nets with_reg]. rewrite set_net_nth, Nat.eqb_refl. cbn [Process.p_nets with_reg].
  rewrite (nth_ltb _ _ _ Ei). split; [reflexivity|].
  cbn [Process.the_model]. unfold Process.create. cbn [Process.n_name n_with_model Process.p_reg set_net with_nets with_reg].
  destruct (string_dec _ _) as [_|]; [|congruence]. rewrite Cj. eexists. split; [reflexivity|]. split; reflexivity.
Qed.

(** a class that is not a Model is rejected without any effect *)
Theorem C38_rejects (p : proc) (i : nat) (n : network) (c : cls) (q : option nat) (nm : option string) :
  nth_error (p_nets p) i = Some n -> n_ipeps n = true -> is_model c = false ->
  exec p (SetModel i c q nm) = (p, Some TypeError).
Proof. intros E Ip Hc. cbn [Process.exec]. rewrite E, Ip. unfold register. now rewrite Hc. Qed.

End Props.

(** ---- a concrete process ---- *)
(** values are numbers, dtype false drops the last digit; classes are numbers,
    odd ones are models *)
Definition x_cast (d : bool) (v : nat) : nat := if d then v else v - v mod 10.
Definition x_fresh (d : bool) (dm : dims) (s : nat) (seed : nat) : nat := 1000 * s + 10 * d_bond dm + seed.
Definition x_work (seed : nat) : kernel nat bool nat nat :=
  fun p n m => ((fun s => match dget (p_tbl _ _ _ _ p) s with Some x => st_val _ _ x + 100 | None => 0 end), rev (n_bonds _ n), None).
Definition x_sweep (seed : nat) : kernel nat bool nat nat :=
  fun p n m => ((fun s => match dget (p_tbl _ _ _ _ p) s with Some x => st_val _ _ x + 1 | None => 0 end), n_bonds _ n, None).
Definition x_run := run nat bool nat nat nat x_cast x_fresh (fun d => d) Nat.odd (fun _ => true) (fun s => s)
  (fun _ m _ => m_cls _ m) x_work x_sweep.
Definition x_init := initial nat bool nat nat (fun _ => None) (fun _ => None).
Definition x_cfg nx ny d := Cfg bool nx ny None d None None.
Arguments New {dtype cls pval}. Arguments SetModel {dtype cls pval}. Arguments Evolve {dtype cls pval}.
Arguments To {dtype cls pval}. Arguments Save {dtype cls pval}. Arguments Load {dtype cls pval}.
Arguments SetChi {dtype cls pval}. Arguments Renormalize {dtype cls pval}.
Definition x_read (m : proc nat bool nat nat * list (op bool nat nat * option exn)) (s : site) : option nat :=
  option_map (st_val _ _) (dget (p_tbl _ _ _ _ (fst m)) s).

(** two networks; the second one's construction and set_model take effect on the
    first one's evolve *)
Definition x_hist : list (op bool nat nat) := [New (x_cfg 2 1 true) None 3; SetModel 0 5 None None; Evolve 0 None 7;
                      New (x_cfg 1 1 false) None 4; SetModel 1 9 None None].
Example C33_example :
  x_read (x_run x_init (firstn 3 x_hist)) (0, 0) = Some 5127 /\   (* product state of class 5, evolved *)
  x_read (x_run x_init x_hist) (0, 0) = Some 2020 /\               (* overwritten by network 1 *)
  x_read (x_run x_init x_hist) (1, 0) = Some 5127 /\
  x_read (x_run x_init (x_hist ++ [To 0 (Some false)])) (1, 0) = Some 5120.
Proof. vm_compute. auto. Qed.

Example C34_example :
  x_read (x_run x_init (x_hist ++ [Save 0 "f"%string; Renormalize 0 1; Renormalize 0 1; Load 0 "f"%string])) (1, 0) = Some 5127 /\
  x_read (x_run x_init (x_hist ++ [Save 0 "f"%string; Renormalize 0 1; Renormalize 0 1; Load 1 "f"%string])) (1, 0) = Some 5120.
Proof. vm_compute. auto. Qed.

Example C35_example :
  match p_files _ _ _ _ (fst (x_run x_init (x_hist ++ [Save 1 "f"%string]))) "f"%string with
  | Some file => map fst file | None => [] end = [(0, 0); (1, 0)].
Proof. vm_compute. auto. Qed.

(** a network built from an evolved one discards that state in its first evolve *)
Example C36_example :
  x_read (x_run x_init (firstn 3 x_hist ++ [New (x_cfg 2 1 true) (Some 0) 0; SetModel 1 9 None None])) (0, 0) = Some 5127 /\
  x_read (x_run x_init (firstn 3 x_hist ++ [New (x_cfg 2 1 true) (Some 0) 0; SetModel 1 9 None None; Evolve 1 None 8])) (0, 0)
    = Some 9128 /\
  x_read (x_run x_init (firstn 3 x_hist ++ [New (x_cfg 2 1 true) (Some 0) 0; SetModel 1 9 None None; Save 1 "f"%string; Evolve 1 None 8])) (0, 0)
    = Some 5227.
Proof. vm_compute. auto. Qed.

Example C37_example :
  map d_chi (p_dims _ _ _ _ (fst (x_run x_init
    [AllocDims _ _ _ (Dims 2 3 10); New (Cfg bool 1 1 (Some 0) true None None) None 1;
     New (Cfg bool 2 2 (Some 0) true None None) None 1; New (x_cfg 1 1 true) None 1; SetChi 1 44]))) = [44; 20].
Proof. vm_compute. auto. Qed.

Example C38_example :
  let m := x_run x_init (x_hist ++ [SetModel 1 4 None None; Evolve 0 None 1]) in
  map snd (snd m) = [None; None; None; None; None; Some TypeError; None] /\
  match nth_error (p_nets _ _ _ _ (fst m)) 0 with
  | Some n => match create nat bool nat nat (fun _ => true) (fst m) n with Ok mdl => m_cls _ mdl | Err _ => 0 end
  | None => 0 end = 9.
Proof. vm_compute. auto. Qed.

Print Assumptions C33_one_table.
Print Assumptions C33_construction_overwrites.
Print Assumptions C33_to_converts.
Print Assumptions C33_evolve_visible.
Print Assumptions C34_save_keeps_tensors.
Print Assumptions C34_save_load.
Print Assumptions C35_file_holds_all_sites.
Print Assumptions C36_initialised_iff.
Print Assumptions C36_evolve_start.
Print Assumptions C37_set_chi.
Print Assumptions C37_who_shares.
Print Assumptions C37_refs_valid.
Print Assumptions C37_set_model_params.
Print Assumptions C38_latest_registration.
Print Assumptions C38_overridden.
Print Assumptions C38_rejects.
