(** The state of one Python process using ace-tn: the table of site tensors
    (tensor_network.py 12), the networks, configuration dictionaries, the model
    registry (model_factory.py 83) and saved files.

    Simplifications: devices are not modelled (moving a tensor to another device
    keeps its value); a dims dictionary has exactly the keys phys, bond and chi;
    the numerical work of evolve and renormalize is an arbitrary function of
    everything the network can read, and writes only sites of the network's
    site_list (exact when site_list is the nx times ny cell); site tensors are
    only reached through networks (the user keeps no SiteTensor object). *)
From Coq Require Import String.
From Coq Require Import List Arith Lia Bool.
From Verif Require Import ListAux Lattice LatticeFacts Base.
Import ListNotations.

(** Python dict with sites as keys: insertion order, set replaces in place *)
Section Dict.
Context {V : Type}.
Definition sdict := list (site * V).
Fixpoint dget (d : sdict) (s : site) : option V :=
  match d with [] => None | (s', v) :: d => if site_eq_dec s s' then Some v else dget d s end.
Fixpoint dset (d : sdict) (s : site) (v : V) : sdict :=
  match d with
  | [] => [(s, v)]
  | (s', v') :: d => if site_eq_dec s s' then (s', v) :: d else (s', v') :: dset d s v
  end.

Lemma dget_set d s v s' : dget (dset d s v) s' = if site_eq_dec s' s then Some v else dget d s'.
Proof.
  induction d as [|[t w] d IH]; cbn.
  - reflexivity.
  - destruct (site_eq_dec s t) as [-> |N]; cbn.
    + destruct (site_eq_dec s' t); auto.
    + rewrite IH. destruct (site_eq_dec s' t) as [-> |]; auto.
      destruct (site_eq_dec t s); congruence.
Qed.
Lemma dget_in d s : dget d s <> None <-> In s (map fst d).
Proof.
  induction d as [|[t w] d IH]; cbn; [split; [congruence|tauto]|].
  destruct (site_eq_dec s t) as [-> |N].
  - split; auto. discriminate.
  - rewrite IH. split; [auto|intros [E|E]; congruence].
Qed.
Lemma dset_keys d s v : NoDup (map fst d) -> NoDup (map fst (dset d s v)).
Proof.
  induction d as [|[t w] d IH]; cbn; intros H.
  - constructor; auto.
  - inversion H; subst. destruct (site_eq_dec s t); cbn; auto.
    constructor; auto. intros X. apply dget_in in X. rewrite dget_set in X.
    destruct (site_eq_dec t s); [congruence|]. apply dget_in in X. auto.
Qed.
Lemma dget_nodup d s v : NoDup (map fst d) -> In (s, v) d -> dget d s = Some v.
Proof.
  induction d as [|[t w] d IH]; cbn; [tauto|]. intros H [E|E]; inversion H; subst.
  - inversion E; subst. destruct (site_eq_dec s s); congruence.
  - destruct (site_eq_dec s t) as [-> |]; auto. exfalso. apply H2. now apply in_map with (f := fst) in E.
Qed.
Lemma dget_In d s v : dget d s = Some v -> In (s, v) d.
Proof.
  induction d as [|[t w] d IH]; cbn; [discriminate|].
  destruct (site_eq_dec s t) as [-> |]; intros E; [inversion E; auto|auto].
Qed.
End Dict.
Arguments sdict V : clear implicits.

(** setting a list of distinct keys *)
Lemma fold_set {A V} (key : A -> site) (f : A -> V) (l : list A) : NoDup (map key l) ->
  forall (d : sdict V) s,
  dget (fold_left (fun d a => dset d (key a) (f a)) l d) s =
  match find (fun a => if site_eq_dec s (key a) then true else false) l with
  | Some a => Some (f a) | None => dget d s end.
Proof.
  induction l as [|a l IH]; intros H d s; cbn [fold_left find]; auto.
  inversion H; subst. rewrite IH by assumption. rewrite dget_set.
  destruct (site_eq_dec s (key a)) as [-> |]; auto.
  destruct (find _ l) as [b|] eqn:E; auto.
  apply find_some in E as [E1 E2]. destruct (site_eq_dec (key a) (key b)) as [E3|]; [|discriminate].
  exfalso. apply H2. rewrite E3. now apply in_map.
Qed.

Fixpoint list_set {A} (l : list A) (i : nat) (a : A) : list A :=
  match l, i with
  | [], _ => [] | _ :: l, 0 => a :: l | b :: l, S i => b :: list_set l i a
  end.
Lemma list_set_length {A} (l : list A) i a : length (list_set l i a) = length l.
Proof. revert i; induction l as [|b l IH]; intros [|i]; cbn; auto. Qed.
Lemma list_set_nth {A} (l : list A) i a j :
  nth_error (list_set l i a) j =
  if j =? i then (if i <? length l then Some a else None) else nth_error l j.
Proof.
  revert i j; induction l as [|b l IH]; intros [|i] [|j]; cbn; auto.
  - destruct (j =? i); reflexivity.
  - rewrite IH. destruct (j =? i); auto.
Qed.

(** ipeps_config.py 13-14, 20: what is stored under config.TN.dims *)
Record dims := Dims { d_phys : nat; d_bond : nat; d_chi : nat }.

Section Process.
(** V: the tensors A, C, E of one site *)
Variables (V dtype cls state pval : Type).
(** .to(dtype) *)
Variable cast : dtype -> V -> V.
(** site_tensor.py 120-136, 152-202: random noise, given by a seed *)
Variable fresh : dtype -> dims -> state -> nat -> V.
(** tensor_network.py 135 *)
Variable uniform : nat -> state.
(** issubclass(cls, Model); has no abstract method left *)
Variables (is_model concrete : cls -> bool).
(** str.lower *)
Variable lower : string -> string.

(** site_tensor.py 14-39 *)
Record st := St { st_dtype : dtype; st_val : V }.
Definition params := list (string * pval).

(** a TensorNetwork; ipeps.py 27-41 adds the configuration *)
Record network := Net {
  n_ipeps : bool;               (* an Ipeps, not a plain TensorNetwork *)
  n_nx : nat; n_ny : nat;
  n_dims : nat;                 (* reference to a dims dictionary *)
  n_dtype : dtype;
  n_sites : list site;
  n_bonds : list bond;
  n_init : bool;                (* site_states_initialized *)
  n_name : option string;       (* config.model.name *)
  n_params : option nat;        (* reference to a params dictionary *)
  n_dim : nat                   (* config.model.dim *)
}.

(** a model object: model.py 58-63 *)
Record model := Mdl { m_cls : cls; m_name : option string; m_params : option nat; m_dim : nat }.

Record proc := P {
  p_tbl : sdict st;                       (* TensorNetwork._tensor_network *)
  p_nets : list network;
  p_dims : list dims;
  p_params : list params;
  p_reg : string -> option cls;           (* model_factory._models *)
  p_files : string -> option (sdict st)
}.

(** model.initial_site_state(site), may look at the model's parameters *)
Variable init_state : proc -> model -> site -> state.
(** the numerical part of Ipeps.evolve (113-115) and renormalize (97): new
    tensors of the sites, the bond order left behind, and whether it raised *)
Definition kernel := proc -> network -> option model -> (site -> V) * list bond * option exn.
Variables (work sweep : nat -> kernel).

(** the dictionary of the constructor: given by the caller, or the default *)
Record cfg := Cfg {
  c_nx : nat; c_ny : nat; c_dims : option nat; c_dtype : dtype;
  c_name : option string; c_params : option nat
}.

Inductive op :=
| AllocDims (d : dims) | AllocParams (p : params)        (* the caller makes a dict *)
| CallerChi (ref chi : nat)                               (* the caller writes its dict *)
| New (c : cfg) (src : option nat) (seed : nat)           (* Ipeps(config, ipeps=src) *)
| To (i : nat) (d : option dtype)                         (* copy() / to(dtype) *)
| Save (i : nat) (f : string) | Load (i : nat) (f : string)
| SetChi (i chi : nat)
| SetModel (i : nat) (c : cls) (p : option nat) (name : option string)
| SetParam (i : nat) (k : string) (v : pval)
| Evolve (i : nat) (m : option model) (seed : nat)
| Renormalize (i seed : nat)
| Measure (i : nat) (m : option model).

(* ---- field updates ---- *)
Definition with_tbl t (p : proc) := P t (p_nets p) (p_dims p) (p_params p) (p_reg p) (p_files p).
Definition with_nets n (p : proc) := P (p_tbl p) n (p_dims p) (p_params p) (p_reg p) (p_files p).
Definition with_dims d (p : proc) := P (p_tbl p) (p_nets p) d (p_params p) (p_reg p) (p_files p).
Definition with_params q (p : proc) := P (p_tbl p) (p_nets p) (p_dims p) q (p_reg p) (p_files p).
Definition with_reg r (p : proc) := P (p_tbl p) (p_nets p) (p_dims p) (p_params p) r (p_files p).
Definition with_files f (p : proc) := P (p_tbl p) (p_nets p) (p_dims p) (p_params p) (p_reg p) f.
Definition set_net i n (p : proc) := with_nets (list_set (p_nets p) i n) p.
Definition n_with_init (n : network) (b : bool) :=
  Net (n_ipeps n) (n_nx n) (n_ny n) (n_dims n) (n_dtype n) (n_sites n) (n_bonds n) b (n_name n) (n_params n) (n_dim n).
Definition n_with_lists (n : network) s b :=
  Net (n_ipeps n) (n_nx n) (n_ny n) (n_dims n) (n_dtype n) s b (n_init n) (n_name n) (n_params n) (n_dim n).
Definition n_with_model (n : network) nm q :=
  Net (n_ipeps n) (n_nx n) (n_ny n) (n_dims n) (n_dtype n) (n_sites n) (n_bonds n) (n_init n) nm q (n_dim n).

(** tensor_network.py 43-46 *)
Definition getitem (p : proc) (n : network) (s : site) : res st :=
  match dget (p_tbl p) s with Some v => Ok v | None => Err ValueError end.

(** site_tensor.py 118 with 85-94, 76-81 *)
Definition st_to (d : dtype) (x : st) : st := St d (cast d (st_val x)).

(** tensor_network.py 67-68: the loop of copy_from, reading and writing the table *)
Fixpoint copy_sites (d : dtype) (l : list site) (t : sdict st) : res (sdict st) :=
  match l with
  | [] => Ok t
  | s :: l => match dget t s with
              | Some x => copy_sites d l (dset t s (st_to d x))
              | None => Err ValueError
              end
  end.

(** tensor_network.py 146-150 *)
Definition init_sites (d : dtype) (dm : dims) (f : site -> state) (seed : nat) (l : list site) (t : sdict st) : sdict st :=
  fold_left (fun t s => dset t s (St d (cast d (fresh d dm (f s) seed)))) l t.

(** tensor_network.py 120-121 *)
Definition load_sites (d : dtype) (file : sdict st) (t : sdict st) : sdict st :=
  fold_left (fun t sx => dset t (fst sx) (st_to d (snd sx))) file t.

Definition dims_of (p : proc) (n : network) : dims := nth (n_dims n) (p_dims p) (Dims 0 0 0).

(** model_factory.py 44-46 *)
Definition register (nm : string) (c : cls) (p : proc) : res proc :=
  if is_model c then Ok (with_reg (fun k => if string_dec k nm then Some c else p_reg p k) p)
  else Err TypeError.
(** model_factory.py 65-70; instantiating an abstract class raises TypeError *)
Definition create (p : proc) (n : network) : res model :=
  match n_name n with
  | None => Err ValueError
  | Some nm => match p_reg p nm with
               | None => Err KeyError
               | Some c => if concrete c then Ok (Mdl c (Some nm) (n_params n) (n_dim n)) else Err TypeError
               end
  end.
(** ipeps.py 109, 127 *)
Definition the_model (p : proc) (n : network) (m : option model) : res model :=
  match m with Some m => Ok m | None => create p n end.

(** tensor_network.py 13-31 and ipeps.py 27-41 *)
Definition valid_ref (p : proc) (r : option nat) : bool :=
  match r with Some r => r <? length (p_dims p) | None => true end.
Definition construct (p : proc) (c : cfg) (src : option nat) (seed : nat) : proc * option exn :=
  if negb (valid_ref p (c_dims c)) then (p, Some KeyError) else   (* no such dictionary *)
  let '(p1, dref) := match c_dims c with
    | Some r => (p, r)
    | None => (with_dims (p_dims p ++ [Dims 2 2 20]) p, length (p_dims p))
    end in
  let dm := nth dref (p_dims p1) (Dims 0 0 0) in
  let mk s b := Net true (c_nx c) (c_ny c) dref (c_dtype c) s b false (c_name c) (c_params c) (d_phys dm) in
  match src with
  | None =>
      let sl := build_site_list (c_nx c) (c_ny c) in
      (with_nets (p_nets p1 ++ [mk sl (build_bond_list (c_nx c) (c_ny c))])
        (with_tbl (init_sites (c_dtype c) dm (fun _ => uniform (d_phys dm)) seed sl (p_tbl p1)) p1), None)
  | Some j =>
      match nth_error (p_nets p) j with
      | None => (p, Some AttributeError)
      | Some m =>
          match copy_sites (c_dtype c) (n_sites m) (p_tbl p1) with
          | Ok t => (with_nets (p_nets p1 ++ [mk (n_sites m) (n_bonds m)]) (with_tbl t p1), None)
          | Err e => (p1, Some e)
          end
      end
  end.

(** the sites of the network get their new tensors *)
Definition write_back (n : network) (f : site -> V) (t : sdict st) : sdict st :=
  fold_left (fun t s => match dget t s with Some x => dset t s (St (st_dtype x) (f s)) | None => t end) (n_sites n) t.

Definition run_kernel (k : kernel) (i : nat) (m : option model) (p : proc) : proc * option exn :=
  match nth_error (p_nets p) i with
  | None => (p, Some AttributeError)
  | Some n =>
      let '(f, bl, e) := k p n m in
      (set_net i (n_with_lists n (n_sites n) bl) (with_tbl (write_back n f (p_tbl p)) p), e)
  end.

(** tensor_network.py 146-151 called from ipeps.py 111 *)
Definition initialise (i : nat) (n : network) (f : site -> state) (seed : nat) (p : proc) : proc :=
  let sl := build_site_list (n_nx n) (n_ny n) in
  set_net i (n_with_init (n_with_lists n sl (build_bond_list (n_nx n) (n_ny n))) true)
    (with_tbl (init_sites (n_dtype n) (dims_of p n) f seed sl (p_tbl p)) p).

(** tensor_network.py 118-122 *)
Definition load (i : nat) (f : string) (p : proc) : proc * option exn :=
  match nth_error (p_nets p) i with
  | None => (p, Some AttributeError)
  | Some n => match p_files p f with
              | None => (p, Some FileNotFoundError)
              | Some file => (set_net i (n_with_init n true) (with_tbl (load_sites (n_dtype n) file (p_tbl p)) p), None)
              end
  end.

Definition exec (p : proc) (o : op) : proc * option exn :=
  match o with
  | AllocDims d => (with_dims (p_dims p ++ [d]) p, None)
  | AllocParams q => (with_params (p_params p ++ [q]) p, None)
  | CallerChi r c =>
      match nth_error (p_dims p) r with
      | Some d => (with_dims (list_set (p_dims p) r (Dims (d_phys d) (d_bond d) c)) p, None)
      | None => (p, Some KeyError)
      end
  | New c src seed => construct p c src seed
  | To i d =>                                            (* tensor_network.py 77, 90-92 *)
      match nth_error (p_nets p) i with
      | None => (p, Some AttributeError)
      | Some n =>
          let d := match d with Some d => d | None => n_dtype n end in
          match copy_sites d (n_sites n) (p_tbl p) with
          | Ok t => (with_nets (p_nets p ++ [Net false (n_nx n) (n_ny n) (n_dims n) d (n_sites n) (n_bonds n) false
                       None None 0]) (with_tbl t p), None)
          | Err e => (p, Some e)
          end
      end
  | Save i f =>                                          (* tensor_network.py 103-109 *)
      match nth_error (p_nets p) i with
      | None => (p, Some AttributeError)
      | Some n =>
          match copy_sites (n_dtype n) (n_sites n) (p_tbl p) with
          | Ok t => load i f (with_files (fun g => if string_dec g f then Some t else p_files p g) (with_tbl t p))
          | Err e => (p, Some e)
          end
      end
  | Load i f => load i f p
  | SetChi i c =>                                        (* ipeps.py 65 *)
      match nth_error (p_nets p) i with
      | Some n => if n_ipeps n then
          let d := dims_of p n in
          (with_dims (list_set (p_dims p) (n_dims n) (Dims (d_phys d) (d_bond d) c)) p, None)
          else (p, Some AttributeError)
      | None => (p, Some AttributeError)
      end
  | SetModel i c q nm =>                                 (* ipeps.py 77-80 *)
      match nth_error (p_nets p) i with
      | Some n => if n_ipeps n then
          let name := match nm with None => "custom"%string | Some s => lower s end in
          match register name c p with
          | Ok p' => (set_net i (n_with_model n (Some name) q) p', None)
          | Err e => (p, Some e)
          end
          else (p, Some AttributeError)
      | None => (p, Some AttributeError)
      end
  | SetParam i k v =>                                    (* ipeps.py 89-91 *)
      match nth_error (p_nets p) i with
      | Some n => if n_ipeps n then
          match n_params n with
          | Some r => (with_params (list_set (p_params p) r ((k, v) :: nth r (p_params p) [])) p, None)
          | None => (p, Some TypeError)
          end
          else (p, Some AttributeError)
      | None => (p, Some AttributeError)
      end
  | Evolve i m seed =>                                   (* ipeps.py 109-115 *)
      match nth_error (p_nets p) i with
      | Some n => if n_ipeps n then
          match the_model p n m with
          | Ok mdl =>
              let p1 := if n_init n then p else initialise i n (init_state p mdl) seed p in
              run_kernel (work seed) i (Some mdl) p1
          | Err e => (p, Some e)
          end
          else (p, Some AttributeError)
      | None => (p, Some AttributeError)
      end
  | Renormalize i seed =>
      match nth_error (p_nets p) i with
      | Some n => if n_ipeps n then run_kernel (sweep seed) i None p else (p, Some AttributeError)
      | None => (p, Some AttributeError)
      end
  | Measure i m =>                                       (* ipeps.py 127-128: reads only *)
      match nth_error (p_nets p) i with
      | Some n => if n_ipeps n then
          match the_model p n m with Ok _ => (p, None) | Err e => (p, Some e) end
          else (p, Some AttributeError)
      | None => (p, Some AttributeError)
      end
  end.

(** a history: the operations with their outcomes, oldest first *)
Fixpoint run (p : proc) (os : list op) : proc * list (op * option exn) :=
  match os with
  | [] => (p, [])
  | o :: os => let '(p1, e) := exec p o in let '(p2, tr) := run p1 os in (p2, (o, e) :: tr)
  end.

(** a process after start: no networks, no tensors; files and registry arbitrary *)
Definition initial (reg : string -> option cls) (files : string -> option (sdict st)) : proc :=
  P [] [] [] [] reg files.

(** ---- lemmas ---- *)

Lemma copy_sites_spec d l : NoDup l -> forall t,
  (forall s, In s l -> dget t s <> None) ->
  exists t', copy_sites d l t = Ok t' /\
   (NoDup (map fst t) -> NoDup (map fst t')) /\
   forall s, dget t' s = if in_dec site_eq_dec s l then option_map (st_to d) (dget t s) else dget t s.
Proof.
  induction l as [|a l IH]; intros Hnd t Ht.
  - exists t. split; [reflexivity|]. split; auto.
  - inversion Hnd; subst. cbn [copy_sites].
    destruct (dget t a) as [x|] eqn:E; [|exfalso; apply (Ht a); [now left|exact E]].
    destruct (IH H2 (dset t a (st_to d x))) as (t' & E' & K & G).
    { intros s Hs. rewrite dget_set. destruct (site_eq_dec s a); [discriminate|]. apply Ht. now right. }
    exists t'. split; auto. split; [intros; apply K; now apply dset_keys|].
    intros s. rewrite G, dget_set.
    destruct (in_dec site_eq_dec s l) as [I|I]; destruct (in_dec site_eq_dec s (a :: l)) as [J|J].
    + destruct (site_eq_dec s a) as [-> |]; [contradiction|auto].
    + exfalso. apply J. now right.
    + destruct J as [-> |J]; [|contradiction]. destruct (site_eq_dec s s); [|congruence]. now rewrite E.
    + destruct (site_eq_dec s a) as [-> |]; auto. exfalso. apply J. now left.
Qed.

Lemma init_sites_spec d dm f seed l t s : NoDup l ->
  dget (init_sites d dm f seed l t) s =
  if in_dec site_eq_dec s l then Some (St d (cast d (fresh d dm (f s) seed))) else dget t s.
Proof.
  intros H. unfold init_sites.
  rewrite (fold_set (fun s => s) (fun s => St d (cast d (fresh d dm (f s) seed)))) by (rewrite map_id; exact H).
  destruct (find _ l) as [a|] eqn:E.
  - apply find_some in E as [E1 E2]. destruct (site_eq_dec s a) as [-> |]; [|discriminate].
    destruct (in_dec site_eq_dec a l); [auto|contradiction].
  - destruct (in_dec site_eq_dec s l) as [I|]; auto.
    pose proof (find_none _ _ E s I) as X. cbn in X. destruct (site_eq_dec s s); congruence.
Qed.

Lemma fold_keys {A W} (g : sdict W -> A -> sdict W) l :
  (forall t a, NoDup (map fst t) -> NoDup (map fst (g t a))) ->
  forall t, NoDup (map fst t) -> NoDup (map fst (fold_left g l t)).
Proof. intros H; induction l as [|a l IH]; intros t Ht; cbn; auto. Qed.

Lemma load_sites_spec d file t s : NoDup (map fst file) ->
  dget (load_sites d file t) s =
  match dget file s with Some x => Some (st_to d x) | None => dget t s end.
Proof.
  intros H. unfold load_sites. rewrite (fold_set fst (fun sx => st_to d (snd sx))) by exact H.
  destruct (find _ file) as [[a x]|] eqn:E.
  - apply find_some in E as [E1 E2]. cbn in E2. destruct (site_eq_dec s a) as [-> |]; [|discriminate].
    rewrite (dget_nodup _ _ _ H E1). reflexivity.
  - destruct (dget file s) as [x|] eqn:G; auto. apply dget_In in G.
    pose proof (find_none _ _ E _ G) as X. cbn in X. destruct (site_eq_dec s s); congruence.
Qed.

Lemma write_back_spec n f t s : NoDup (n_sites n) ->
  dget (write_back n f t) s =
  if in_dec site_eq_dec s (n_sites n) then option_map (fun x => St (st_dtype x) (f s)) (dget t s) else dget t s.
Proof.
  unfold write_back. generalize (n_sites n) as l. intros l. revert t.
  induction l as [|a l IH]; intros t Hnd; cbn [fold_left].
  - reflexivity.
  - inversion Hnd; subst. rewrite IH by assumption.
    set (t1 := match dget t a with Some x => _ | None => t end).
    assert (G : forall s', dget t1 s' = if site_eq_dec s' a then option_map (fun x => St (st_dtype x) (f a)) (dget t a) else dget t s').
    { intros s'. unfold t1. destruct (dget t a) eqn:E; cbn [option_map].
      - apply dget_set.
      - destruct (site_eq_dec s' a) as [-> |]; auto. }
    rewrite G. destruct (in_dec site_eq_dec s l) as [I|I]; destruct (in_dec site_eq_dec s (a :: l)) as [J|J].
    + destruct (site_eq_dec s a) as [-> |]; [contradiction|auto].
    + exfalso. apply J. now right.
    + destruct J as [-> |J]; [|contradiction]. destruct (site_eq_dec s s); congruence.
    + destruct (site_eq_dec s a) as [-> |]; auto. exfalso. apply J. now left.
Qed.

(** Well-formed process: keys of dicts are distinct, every network's sites are
    distinct and present in the table; references are valid. *)
Definition wf (p : proc) : Prop :=
  NoDup (map fst (p_tbl p)) /\
  (forall f file, p_files p f = Some file -> NoDup (map fst file)) /\
  (forall n, In n (p_nets p) -> NoDup (n_sites n) /\ forall s, In s (n_sites n) -> dget (p_tbl p) s <> None).

Lemma list_set_In {A} (l : list A) i a b : In b (list_set l i a) -> b = a \/ In b l.
Proof.
  revert i; induction l as [|c l IH]; intros [|i]; cbn; auto.
  - intros [E|E]; auto.
  - intros [E|E]; auto. destruct (IH _ E); auto.
Qed.

Lemma wf_tbl p t : wf p -> NoDup (map fst t) ->
  (forall s, dget (p_tbl p) s <> None -> dget t s <> None) -> wf (with_tbl t p).
Proof.
  intros (A & B & C) H K. split; [exact H|]. split; [exact B|].
  intros n Hn. destruct (C n Hn) as [C1 C2]. split; auto.
Qed.
Lemma wf_set_net p i n : wf p -> NoDup (n_sites n) -> (forall s, In s (n_sites n) -> dget (p_tbl p) s <> None) ->
  wf (set_net i n p).
Proof.
  intros (A & B & C) H K. split; [exact A|]. split; [exact B|].
  intros m Hm. apply list_set_In in Hm as [-> |Hm]; auto.
Qed.
Lemma wf_add_net p n : wf p -> NoDup (n_sites n) -> (forall s, In s (n_sites n) -> dget (p_tbl p) s <> None) ->
  wf (with_nets (p_nets p ++ [n]) p).
Proof.
  intros (A & B & C) H K. split; [exact A|]. split; [exact B|].
  intros m Hm. apply in_app_iff in Hm as [Hm|[<- |[]]]; auto.
Qed.

Lemma init_sites_keys d dm f seed l t : NoDup (map fst t) -> NoDup (map fst (init_sites d dm f seed l t)).
Proof. apply fold_keys. intros; now apply dset_keys. Qed.
Lemma load_sites_keys d file t : NoDup (map fst t) -> NoDup (map fst (load_sites d file t)).
Proof. apply fold_keys. intros; now apply dset_keys. Qed.
Lemma write_back_keys n f t : NoDup (map fst t) -> NoDup (map fst (write_back n f t)).
Proof. apply fold_keys. intros u a H. destruct (dget u a); auto. now apply dset_keys. Qed.

Lemma run_kernel_wf k i m p : wf p -> wf (fst (run_kernel k i m p)).
Proof.
  intros W. unfold run_kernel. destruct (nth_error (p_nets p) i) as [n|] eqn:E; [|exact W].
  destruct (k p n m) as [[f bl] e]. cbn [fst].
  assert (Hn := nth_error_In _ _ E). destruct W as (A & B & C). destruct (C n Hn) as [C1 C2].
  assert (G : forall s, dget (p_tbl p) s <> None -> dget (write_back n f (p_tbl p)) s <> None).
  { intros s Hs. rewrite write_back_spec by exact C1. destruct (in_dec _ _ _); auto.
    destruct (dget (p_tbl p) s); cbn; congruence. }
  apply wf_set_net.
  - apply wf_tbl; [exact (conj A (conj B C))|now apply write_back_keys|exact G].
  - exact C1.
  - intros s Hs. apply G. now apply C2.
Qed.

Lemma initialise_wf i n f seed p : wf p -> wf (initialise i n f seed p).
Proof.
  intros W. unfold initialise.
  assert (G : forall s, dget (p_tbl p) s <> None ->
     dget (init_sites (n_dtype n) (dims_of p n) f seed (build_site_list (n_nx n) (n_ny n)) (p_tbl p)) s <> None).
  { intros s Hs. rewrite init_sites_spec by apply NoDup_site_list. destruct (in_dec _ _ _); auto. discriminate. }
  apply wf_set_net.
  - apply wf_tbl; auto. apply init_sites_keys. apply W.
  - apply NoDup_site_list.
  - intros s Hs. cbn [n_sites n_with_init n_with_lists] in Hs. cbn [p_tbl with_tbl].
    rewrite init_sites_spec by apply NoDup_site_list. destruct (in_dec _ _ _); [discriminate|contradiction].
Qed.

Lemma load_wf i f p : wf p -> wf (fst (load i f p)).
Proof.
  intros W. unfold load. destruct (nth_error (p_nets p) i) as [n|] eqn:E; [|exact W].
  destruct (p_files p f) as [file|] eqn:F; [|exact W]. cbn [fst].
  assert (Hn := nth_error_In _ _ E). destruct W as (A & B & C). destruct (C n Hn) as [C1 C2].
  assert (G : forall s, dget (p_tbl p) s <> None -> dget (load_sites (n_dtype n) file (p_tbl p)) s <> None).
  { intros s Hs. rewrite load_sites_spec by eauto. destruct (dget file s); auto. discriminate. }
  apply wf_set_net.
  - apply wf_tbl; [exact (conj A (conj B C))|now apply load_sites_keys|exact G].
  - exact C1.
  - intros s Hs. apply G. now apply C2.
Qed.

Lemma copy_wf p d n : wf p -> In n (p_nets p) ->
  exists t, copy_sites d (n_sites n) (p_tbl p) = Ok t /\ NoDup (map fst t) /\
   forall s, dget t s = if in_dec site_eq_dec s (n_sites n) then option_map (st_to d) (dget (p_tbl p) s) else dget (p_tbl p) s.
Proof.
  intros (A & B & C) Hn. destruct (C n Hn) as [C1 C2].
  destruct (copy_sites_spec d (n_sites n) C1 (p_tbl p) C2) as (t & E & K & G). eauto.
Qed.

Lemma copy_dom p d n t : (forall s, dget t s = if in_dec site_eq_dec s (n_sites n) then option_map (st_to d) (dget (p_tbl p) s) else dget (p_tbl p) s) ->
  forall s, dget t s = None <-> dget (p_tbl p) s = None.
Proof.
  intros G s. rewrite G. destruct (in_dec _ _ _); [|tauto].
  destruct (dget (p_tbl p) s); cbn; split; congruence.
Qed.

Lemma exec_wf p o : wf p -> wf (fst (exec p o)).
Proof.
  intros W. destruct o as [d|q|r c|c src seed|i d|i f|i f|i c|i c q nm|i k v|i m seed|i seed|i m]; cbn [exec].
  - exact W.
  - exact W.
  - destruct (nth_error _ _); exact W.
  - unfold construct. destruct (valid_ref p (c_dims c)); cbn [negb]; [|exact W].
    assert (E : exists p1 dref, (match c_dims c with
      | Some r => (p, r)
      | None => (with_dims (p_dims p ++ [Dims 2 2 20]) p, length (p_dims p)) end) = (p1, dref) /\
      wf p1 /\ p_tbl p1 = p_tbl p /\ p_nets p1 = p_nets p).
    { destruct (c_dims c); eauto 6. }
    destruct E as (p1 & dref & -> & W1 & T1 & N1).
    destruct src as [j|].
    + destruct (nth_error (p_nets p) j) as [m|] eqn:Ej; [|exact W].
      assert (Hm : In m (p_nets p1)) by (rewrite N1; eapply nth_error_In; eauto).
      destruct (copy_wf p1 (c_dtype c) m W1 Hm) as (t & -> & K & G). cbn [fst].
      pose proof (copy_dom _ _ _ _ G) as D. destruct W1 as (A & B & C). destruct (C m Hm) as [C1 C2].
      change (p_nets p1) with (p_nets (with_tbl t p1)). apply wf_add_net.
      * apply wf_tbl; [exact (conj A (conj B C))|auto|]. intros s Hs X. apply Hs. now apply D.
      * exact C1.
      * intros s Hs X. apply D in X. now apply (C2 s Hs).
    + cbn [fst].
      assert (G : forall d dm f sd s, dget (p_tbl p1) s <> None \/ In s (build_site_list (c_nx c) (c_ny c)) ->
        dget (init_sites d dm f sd (build_site_list (c_nx c) (c_ny c)) (p_tbl p1)) s <> None).
      { intros d dm f sd s Hs. rewrite init_sites_spec by apply NoDup_site_list.
        destruct (in_dec _ _ _); [discriminate|]. destruct Hs; [auto|contradiction]. }
      match goal with |- wf (with_nets (_ ++ [?n]) (with_tbl ?t _)) =>
        change (p_nets p1) with (p_nets (with_tbl t p1)) end.
      apply wf_add_net.
      * apply wf_tbl; auto. apply init_sites_keys. apply W1.
      * apply NoDup_site_list.
      * intros s Hs. cbn [n_sites] in Hs. cbn [p_tbl with_tbl]. apply G. auto.
  - destruct (nth_error (p_nets p) i) as [n|] eqn:E; [|exact W].
    assert (Hn := nth_error_In _ _ E).
    destruct (copy_wf p (match d with Some d => d | None => n_dtype n end) n W Hn) as (t & -> & K & G). cbn [fst].
    pose proof (copy_dom _ _ _ _ G) as D. destruct W as (A & B & C). destruct (C n Hn) as [C1 C2].
    change (p_nets p) with (p_nets (with_tbl t p)) at 1. apply wf_add_net.
    + apply wf_tbl; [exact (conj A (conj B C))|auto|]. intros s Hs X. apply Hs. now apply D.
    + exact C1.
    + intros s Hs X. apply D in X. now apply (C2 s Hs).
  - destruct (nth_error (p_nets p) i) as [n|] eqn:E; [|exact W].
    assert (Hn := nth_error_In _ _ E).
    destruct (copy_wf p (n_dtype n) n W Hn) as (t & -> & K & G).
    pose proof (copy_dom _ _ _ _ G) as D. apply load_wf.
    assert (W1 : wf (with_tbl t p)).
    { apply wf_tbl; auto. intros s Hs X. apply Hs. now apply D. }
    destruct W1 as (A & B & C). split; [exact A|]. split; [|exact C].
    intros g file. cbn [p_files with_files]. destruct (string_dec g f); [|now apply B].
    intros X; inversion X; subst; exact K.
  - now apply load_wf.
  - destruct (nth_error (p_nets p) i) as [n|]; [|exact W]. destruct (n_ipeps n); exact W.
  - destruct (nth_error (p_nets p) i) as [n|] eqn:E; [|exact W]. destruct (n_ipeps n); [|exact W].
    unfold register. destruct (is_model c); [|exact W]. cbn [fst].
    destruct W as (A & B & C). destruct (C n (nth_error_In _ _ E)) as [C1 C2].
    apply wf_set_net; [exact (conj A (conj B C))|exact C1|exact C2].
  - destruct (nth_error (p_nets p) i) as [n|]; [|exact W]. destruct (n_ipeps n); [|exact W].
    destruct (n_params n); exact W.
  - destruct (nth_error (p_nets p) i) as [n|]; [|exact W]. destruct (n_ipeps n); [|exact W].
    destruct (the_model p n m); [|exact W]. apply run_kernel_wf.
    destruct (n_init n); [exact W|now apply initialise_wf].
  - destruct (nth_error (p_nets p) i) as [n|]; [|exact W]. destruct (n_ipeps n); [|exact W]. now apply run_kernel_wf.
  - destruct (nth_error (p_nets p) i) as [n|]; [|exact W]. destruct (n_ipeps n); [|exact W].
    destruct (the_model p n m); exact W.
Qed.

Lemma run_app p os1 os2 :
  run p (os1 ++ os2) = (fst (run (fst (run p os1)) os2), snd (run p os1) ++ snd (run (fst (run p os1)) os2)).
Proof.
  revert p; induction os1 as [|o os IH]; intros p; cbn [run app fst snd].
  - destruct (run p os2); reflexivity.
  - destruct (exec p o) as [p1 e]. rewrite IH. destruct (run p1 os) as [p2 tr]. reflexivity.
Qed.

Lemma run_wf p os : wf p -> wf (fst (run p os)).
Proof.
  revert p; induction os as [|o os IH]; intros p W; cbn [run]; auto.
  pose proof (exec_wf p o W) as W1. destruct (exec p o) as [p1 e]. cbn in W1.
  specialize (IH p1 W1). destruct (run p1 os) as [p2 tr]. exact IH.
Qed.

Lemma initial_wf reg files : (forall f file, files f = Some file -> NoDup (map fst file)) -> wf (initial reg files).
Proof. intros H. split; [constructor|]. split; [exact H|]. intros n []. Qed.

(** files other than the one saved are untouched *)
Lemma exec_files p o f : (forall i, o <> Save i f) -> p_files (fst (exec p o)) f = p_files p f.
Proof.
  intros H.
  assert (K : forall k i m p, p_files (fst (run_kernel k i m p)) = p_files p).
  { intros k i m q. unfold run_kernel. destruct (nth_error _ _); auto. destruct (k q n m) as [[? ?] ?]. reflexivity. }
  assert (L : forall i g p, p_files (fst (load i g p)) = p_files p).
  { intros i g q. unfold load. destruct (nth_error _ _); auto. destruct (p_files q g); reflexivity. }
  destruct o as [d|q|r c|c src seed|i d|i g|i g|i c|i c q nm|i k v|i m seed|i seed|i m]; cbn [exec]; auto.
  - destruct (nth_error _ _); auto.
  - unfold construct. destruct (valid_ref _ _); cbn [negb]; auto.
    destruct (c_dims c); destruct src as [j|]; auto; destruct (nth_error _ j); auto; destruct (copy_sites _ _ _); auto.
  - destruct (nth_error _ _); auto. destruct (copy_sites _ _ _); auto.
  - destruct (nth_error _ _); auto. destruct (copy_sites _ _ _); auto. rewrite L. cbn.
    destruct (string_dec f g) as [-> |]; auto. exfalso. now apply (H i).
  - now rewrite L.
  - destruct (nth_error _ _) as [n|]; auto. destruct (n_ipeps n); auto.
  - destruct (nth_error _ _) as [n|]; auto. destruct (n_ipeps n); auto. unfold register. destruct (is_model c); auto.
  - destruct (nth_error _ _) as [n|]; auto. destruct (n_ipeps n); auto. destruct (n_params n); auto.
  - destruct (nth_error _ _) as [n|]; auto. destruct (n_ipeps n); auto. destruct (the_model p n m); auto.
    rewrite K. destruct (n_init n); auto.
  - destruct (nth_error _ _) as [n|]; auto. destruct (n_ipeps n); auto. now rewrite K.
  - destruct (nth_error _ _) as [n|]; auto. destruct (n_ipeps n); auto. destruct (the_model p n m); auto.
Qed.

Lemma run_files os f : (forall i, ~ In (Save i f) os) -> forall p, p_files (fst (run p os)) f = p_files p f.
Proof.
  induction os as [|o os IH]; intros H p; cbn [run]; auto.
  pose proof (exec_files p o f) as E. destruct (exec p o) as [p1 e]. cbn in E.
  specialize (IH (fun i Hi => H i (or_intror Hi)) p1). destruct (run p1 os) as [p2 tr]. cbn in *.
  rewrite IH. apply E. intros i ->. apply (H i). now left.
Qed.

(** ---- how one operation changes the networks ---- *)

(** operations after which network i counts as initialised *)
Definition touches (p : proc) (i : nat) (o : op) : bool :=
  match o with
  | Load j f => (j =? i) && match p_files p f with Some _ => true | None => false end
  | Save j _ => j =? i
  | Evolve j m _ => (j =? i) && match nth_error (p_nets p) i with
      | Some n => n_ipeps n && match the_model p n m with Ok _ => true | Err _ => false end
      | None => false end
  | _ => false
  end.

(** what never changes about an existing network *)
Definition same_id (n n' : network) : Prop :=
  n_ipeps n' = n_ipeps n /\ n_nx n' = n_nx n /\ n_ny n' = n_ny n /\ n_dims n' = n_dims n /\
  n_dtype n' = n_dtype n /\ n_dim n' = n_dim n.

Lemma same_id_refl n : same_id n n. Proof. repeat split. Qed.

Lemma set_net_nth p i n j : nth_error (p_nets (set_net i n p)) j =
  if j =? i then (if i <? length (p_nets p) then Some n else None) else nth_error (p_nets p) j.
Proof. apply list_set_nth. Qed.

Lemma nth_lt {A} (l : list A) i a : nth_error l i = Some a -> (i <? length l) = true.
Proof. intros H. apply Nat.ltb_lt. apply nth_error_Some. congruence. Qed.

Lemma nth_app_new {A} (l : list A) a j x : nth_error (l ++ [a]) j = Some x ->
  nth_error l j = Some x \/ (j = length l /\ x = a).
Proof.
  intros H. destruct (Nat.lt_ge_cases j (length l)) as [L|L].
  - rewrite nth_error_app1 in H by exact L. auto.
  - rewrite nth_error_app2 in H by exact L. right.
    destruct (j - length l) as [|k] eqn:E; cbn in H; [|destruct k; discriminate].
    inversion H; split; [lia|auto].
Qed.

(** a network after one operation: either it was there, or it is new *)
Definition step_net (p : proc) (o : op) (j : nat) (n' : network) : Prop :=
  (exists n, nth_error (p_nets p) j = Some n /\ same_id n n' /\
     n_init n' = (n_init n || touches p j o)%bool /\
     (n_sites n' = n_sites n \/ n_sites n' = build_site_list (n_nx n) (n_ny n)) /\
     ((n_name n' = n_name n /\ n_params n' = n_params n) \/
      exists c q nm, o = SetModel j c q nm /\ is_model c = true)) \/
  (nth_error (p_nets p) j = None /\ n_init n' = false /\ touches p j o = false /\
   (n_sites n' = build_site_list (n_nx n') (n_ny n') \/
    exists m, In m (p_nets p) /\ n_sites n' = n_sites m)).

Lemma step_same p o j n' : nth_error (p_nets p) j = Some n' -> touches p j o = false ->
  step_net p o j n'.
Proof.
  intros H T. left. exists n'. rewrite T, orb_false_r. auto 7 using same_id_refl.
Qed.

Lemma load_nets i f p j n' : nth_error (p_nets (fst (load i f p))) j = Some n' ->
  (exists n, nth_error (p_nets p) j = Some n /\ same_id n n' /\ n_sites n' = n_sites n /\
     n_name n' = n_name n /\ n_params n' = n_params n /\
     n_init n' = (n_init n || ((i =? j) && match p_files p f with Some _ => true | None => false end)))%bool.
Proof.
  unfold load. destruct (nth_error (p_nets p) i) as [n|] eqn:E.
  - destruct (p_files p f) as [file|]; cbn [fst].
    + rewrite set_net_nth. cbn [p_nets with_tbl]. rewrite (nth_lt _ _ _ E), Nat.eqb_sym.
      destruct (Nat.eqb_spec i j) as [-> |]; cbn [andb].
      * intros H; inversion H; subst. exists n. rewrite orb_true_r. repeat split; auto.
      * intros H. exists n'. rewrite orb_false_r. repeat split; auto.
    + intros H. exists n'. rewrite andb_false_r, orb_false_r. repeat split; auto.
  - intros H. exists n'. destruct (Nat.eqb_spec i j) as [-> |]; [cbn in H; congruence|].
    rewrite orb_false_r. repeat split; auto.
Qed.

Lemma run_kernel_nets k i m p j n' : nth_error (p_nets (fst (run_kernel k i m p))) j = Some n' ->
  exists n, nth_error (p_nets p) j = Some n /\ same_id n n' /\ n_sites n' = n_sites n /\
     n_name n' = n_name n /\ n_params n' = n_params n /\ n_init n' = n_init n.
Proof.
  unfold run_kernel. destruct (nth_error (p_nets p) i) as [n|] eqn:E.
  - destruct (k p n m) as [[f bl] e]. cbn [fst]. rewrite set_net_nth. cbn [p_nets with_tbl].
    rewrite (nth_lt _ _ _ E). destruct (Nat.eqb_spec j i) as [-> |].
    + intros H; inversion H; subst. exists n. repeat split; auto.
    + intros H. exists n'. repeat split; auto.
  - intros H. exists n'. repeat split; auto.
Qed.

Lemma initialise_nets i n f seed p j n' : nth_error (p_nets p) i = Some n ->
  nth_error (p_nets (initialise i n f seed p)) j = Some n' ->
  exists n0, nth_error (p_nets p) j = Some n0 /\ same_id n0 n' /\
     n_name n' = n_name n0 /\ n_params n' = n_params n0 /\
     (if j =? i then n_init n' = true /\ n_sites n' = build_site_list (n_nx n0) (n_ny n0)
      else n' = n0).
Proof.
  intros E. unfold initialise. rewrite set_net_nth. cbn [p_nets with_tbl]. rewrite (nth_lt _ _ _ E).
  destruct (Nat.eqb_spec j i) as [-> |].
  - intros H; inversion H; subst. exists n. repeat split; auto.
  - intros H. exists n'. repeat split; auto.
Qed.

Lemma exec_nets p o j n' : wf p -> nth_error (p_nets (fst (exec p o))) j = Some n' -> step_net p o j n'.
Proof.
  intros W.
  destruct o as [d|q|r c|c src seed|i d|i g|i g|i c|i c q nm|i k v|i m seed|i seed|i m]; cbn [exec].
  - intros H; now apply step_same.
  - intros H; now apply step_same.
  - destruct (nth_error (p_dims p) r); intros H; now apply step_same.
  - unfold construct. destruct (valid_ref _ _); cbn [negb]; [|intros H; now apply step_same].
    destruct (match c_dims c with Some r => (p, r) | None => _ end) as [p1 dref] eqn:E0.
    assert (N1 : p_nets p1 = p_nets p) by (destruct (c_dims c); inversion E0; reflexivity).
    assert (G : forall n1, (n_init n1 = false) -> (n_sites n1 = build_site_list (n_nx n1) (n_ny n1) \/
       exists m, In m (p_nets p) /\ n_sites n1 = n_sites m) ->
       nth_error (p_nets p1 ++ [n1]) j = Some n' -> step_net p (New c src seed) j n').
    { intros n1 I1 S1 H. apply nth_app_new in H as [H|[-> ->]]; rewrite N1 in *; [now apply step_same|].
      right. split; [apply nth_error_None; lia|auto]. }
    destruct src as [j'|].
    + destruct (nth_error (p_nets p) j') as [m|] eqn:Ej; [|intros H; now apply step_same].
      destruct (copy_sites _ _ _); cbn [fst with_nets p_nets]; [|rewrite N1; intros H; now apply step_same].
      apply G; auto. right. exists m. split; auto. eapply nth_error_In; eauto.
    + cbn [fst with_nets p_nets]. apply G; auto.
  - destruct (nth_error (p_nets p) i) as [n|] eqn:E; [|intros H; now apply step_same].
    destruct (copy_sites _ _ _); cbn [fst with_nets p_nets]; [|intros H; now apply step_same].
    intros H. apply nth_app_new in H as [H|[-> ->]]; [now apply step_same|].
    right. split; [apply nth_error_None; lia|]. repeat split; auto. right. exists n. split; auto.
    eapply nth_error_In; eauto.
  - destruct (nth_error (p_nets p) i) as [n|] eqn:E.
    + destruct (copy_wf p (n_dtype n) n W (nth_error_In _ _ E)) as (t & -> & _ & _).
      intros H. apply load_nets in H as (n0 & H0 & H1 & H2 & H3 & H4 & H5). cbn [p_nets p_files with_files with_tbl] in *.
      left. exists n0. split; auto. split; auto. split; [|auto].
      rewrite H5. cbn [touches]. destruct (string_dec g g); [|congruence]. now rewrite andb_true_r.
    + intros H. apply step_same; auto. cbn [touches]. destruct (Nat.eqb_spec i j) as [-> |]; auto.
      cbn [fst] in H. congruence.
  - intros H. apply load_nets in H as (n0 & H0 & H1 & H2 & H3 & H4 & H5).
    left. exists n0. auto 7.
  - destruct (nth_error (p_nets p) i) as [n|]; [|intros H; now apply step_same].
    destruct (n_ipeps n); intros H; now apply step_same.
  - destruct (nth_error (p_nets p) i) as [n|] eqn:E; [|intros H; now apply step_same].
    destruct (n_ipeps n); [|intros H; now apply step_same].
    unfold register. destruct (is_model c) eqn:Em; [|intros H; now apply step_same]. cbn [fst].
    rewrite set_net_nth. cbn [p_nets with_reg]. rewrite (nth_lt _ _ _ E).
    destruct (Nat.eqb_spec j i) as [-> |]; [|intros H; now apply step_same].
    intros H; inversion H; subst. left. exists n. cbn. rewrite orb_false_r. repeat split; auto.
    right. eauto 6.
  - destruct (nth_error (p_nets p) i) as [n|]; [|intros H; now apply step_same].
    destruct (n_ipeps n); [|intros H; now apply step_same]. destruct (n_params n); intros H; now apply step_same.
  - assert (T : forall n, nth_error (p_nets p) i = Some n ->
        touches p j (Evolve i m seed) = ((i =? j) && (n_ipeps n && match the_model p n m with Ok _ => true | Err _ => false end))%bool).
    { intros n E. cbn [touches]. destruct (Nat.eqb_spec i j) as [-> |]; auto. now rewrite E. }
    destruct (nth_error (p_nets p) i) as [n|] eqn:E.
    2:{ intros H; apply step_same; auto. cbn [touches]. destruct (Nat.eqb_spec i j) as [-> |]; auto. now rewrite E. }
    specialize (T n eq_refl).
    destruct (n_ipeps n) eqn:Ei; [|intros H; apply step_same; auto; rewrite T; cbn; apply andb_false_r].
    destruct (the_model p n m) as [mdl|e] eqn:Em; [|intros H; apply step_same; auto; rewrite T; cbn; apply andb_false_r].
    cbn [andb] in T. rewrite andb_true_r in T.
    intros H. apply run_kernel_nets in H as (n1 & H0 & H1 & H2 & H3 & H4 & H5).
    destruct (n_init n) eqn:En.
    + left. exists n1. split; auto. split; auto. split; [|auto 6].
      rewrite H5, T. destruct (Nat.eqb_spec i j) as [-> |]; [|now rewrite orb_false_r].
      assert (n1 = n) by congruence. subst. now rewrite En.
    + apply initialise_nets in H0 as (n0 & I0 & I1 & I2 & I3 & I4); auto.
      left. exists n0. split; auto.
      split. { destruct H1 as (?&?&?&?&?&?), I1 as (?&?&?&?&?&?). repeat split; congruence. }
      rewrite T, Nat.eqb_sym. destruct (j =? i).
      * destruct I4 as [I4 I5]. rewrite H5, I4, orb_true_r. split; auto. split; [right; congruence|left; split; congruence].
      * subst n1. rewrite orb_false_r. auto 6.
  - destruct (nth_error (p_nets p) i) as [n|] eqn:E; [|intros H; now apply step_same].
    destruct (n_ipeps n); [|intros H; now apply step_same].
    intros H. apply run_kernel_nets in H as (n1 & H0 & H1 & H2 & H3 & H4 & H5).
    left. exists n1. cbn [touches]. rewrite orb_false_r. auto 7.
  - destruct (nth_error (p_nets p) i) as [n|] eqn:E; [|intros H; now apply step_same].
    destruct (n_ipeps n); [|intros H; now apply step_same]. destruct (the_model p n m); intros H; now apply step_same.
Qed.

Lemma exec_keeps_nets p o j n : nth_error (p_nets p) j = Some n ->
  exists n', nth_error (p_nets (fst (exec p o))) j = Some n'.
Proof.
  intros H.
  assert (X : forall l : list network, length (p_nets p) <= length l -> exists n', nth_error l j = Some n').
  { intros l Hl. destruct (nth_error l j) eqn:E; eauto. apply nth_error_None in E.
    assert (j < length (p_nets p)) by (apply nth_error_Some; congruence). lia. }
  apply X. clear X H n.
  assert (K : forall k i m p, length (p_nets (fst (run_kernel k i m p))) = length (p_nets p)).
  { intros k i m q. unfold run_kernel. destruct (nth_error _ _); auto. destruct (k q n m) as [[? ?] ?]. apply list_set_length. }
  assert (L : forall i g p, length (p_nets (fst (load i g p))) = length (p_nets p)).
  { intros i g q. unfold load. destruct (nth_error _ _); auto. destruct (p_files q g); auto. apply list_set_length. }
  destruct o as [d|q|r c|c src seed|i d|i g|i g|i c|i c q nm|i k v|i m seed|i seed|i m]; cbn [exec]; auto.
  - destruct (nth_error _ _); auto.
  - unfold construct. destruct (valid_ref _ _); cbn [negb]; auto.
    destruct (c_dims c); destruct src as [j'|]; cbn; rewrite ?app_length; cbn; try lia;
      destruct (nth_error _ j'); auto; destruct (copy_sites _ _ _); cbn; rewrite ?app_length; cbn; lia.
  - destruct (nth_error _ _); auto. destruct (copy_sites _ _ _); cbn; rewrite ?app_length; cbn; lia.
  - destruct (nth_error _ _); auto. destruct (copy_sites _ _ _); auto. rewrite L. auto.
  - rewrite L. auto.
  - destruct (nth_error _ _) as [m|]; auto. destruct (n_ipeps m); auto.
  - destruct (nth_error _ _) as [m|]; auto. destruct (n_ipeps m); auto. unfold register. destruct (is_model c); auto.
    cbn. rewrite list_set_length. auto.
  - destruct (nth_error _ _) as [m|]; auto. destruct (n_ipeps m); auto. destruct (n_params m); auto.
  - destruct (nth_error _ _) as [n0|]; auto. destruct (n_ipeps n0); auto. destruct (the_model p n0 m); auto.
    rewrite K. destruct (n_init n0); auto. cbn. rewrite list_set_length. auto.
  - destruct (nth_error _ _) as [m|]; auto. destruct (n_ipeps m); auto. rewrite K. auto.
  - destruct (nth_error _ _) as [n0|]; auto. destruct (n_ipeps n0); auto. destruct (the_model p n0 m); auto.
Qed.

(** ---- which sites are in the table ---- *)
Definition dom_inv (p : proc) : Prop :=
  (forall s, dget (p_tbl p) s <> None ->
     exists n, In n (p_nets p) /\ n_sites n = build_site_list (n_nx n) (n_ny n) /\ In s (n_sites n)) /\
  (forall f file s, p_files p f = Some file -> dget file s <> None -> dget (p_tbl p) s <> None).

Definition owner (p : proc) (s : site) : Prop :=
  exists n, In n (p_nets p) /\ n_sites n = build_site_list (n_nx n) (n_ny n) /\ In s (n_sites n).

Lemma owner_step p o s : wf p -> owner p s -> owner (fst (exec p o)) s.
Proof.
  intros W (n & Hn & Hs & Hi). apply In_nth_error in Hn as [j Hj].
  destruct (exec_keeps_nets p o j n Hj) as [n' H'].
  destruct (exec_nets p o j n' W H') as [(n0 & E0 & (I1 & I2 & I3 & I4 & I5 & I6) & _ & Hs' & _)|(E & _)]; [|congruence].
  assert (n0 = n) by congruence. subst n0.
  exists n'. split; [eapply nth_error_In; eauto|].
  assert (Es : n_sites n' = n_sites n) by (destruct Hs'; congruence).
  split; [congruence|rewrite Es; auto].
Qed.

(** an operation adds to the table only sites of some owner *)
Lemma exec_dom p o s : wf p -> dom_inv p -> dget (p_tbl (fst (exec p o))) s <> None ->
  dget (p_tbl p) s <> None \/ owner (fst (exec p o)) s.
Proof.
  intros W D.
  assert (K : forall k i m p, wf p -> dget (p_tbl (fst (run_kernel k i m p))) s <> None -> dget (p_tbl p) s <> None).
  { intros k i m q Wq. unfold run_kernel. destruct (nth_error (p_nets q) i) as [n|] eqn:E; auto.
    destruct (k q n m) as [[f bl] e]. cbn [fst set_net with_nets with_tbl p_tbl].
    destruct Wq as (_ & _ & C). destruct (C n (nth_error_In _ _ E)) as [C1 _].
    rewrite write_back_spec by exact C1. destruct (in_dec _ _ _); auto. destruct (dget (p_tbl q) s); cbn; congruence. }
  assert (L : forall i g q, wf q -> (forall f file s, p_files q f = Some file -> dget file s <> None -> dget (p_tbl q) s <> None) ->
     dget (p_tbl (fst (load i g q))) s <> None -> dget (p_tbl q) s <> None).
  { intros i g q Wq Dq. unfold load. destruct (nth_error _ _); auto. destruct (p_files q g) as [file|] eqn:F; auto.
    cbn [fst set_net with_nets with_tbl p_tbl]. destruct Wq as (_ & B & _). rewrite load_sites_spec by eauto.
    destruct (dget file s) eqn:G; auto. intros _. eapply Dq; eauto. congruence. }
  destruct o as [d|q|r c|c src seed|i d|i g|i g|i c|i c q nm|i k v|i m seed|i seed|i m]; cbn [exec]; auto.
  - destruct (nth_error _ _); auto.
  - unfold construct. destruct (valid_ref _ _); cbn [negb]; auto.
    destruct (match c_dims c with Some r => (p, r) | None => _ end) as [p1 dref] eqn:E0.
    assert (N1 : p_nets p1 = p_nets p) by (destruct (c_dims c); inversion E0; reflexivity).
    assert (T1 : p_tbl p1 = p_tbl p) by (destruct (c_dims c); inversion E0; reflexivity).
    destruct src as [j|].
    + destruct (nth_error (p_nets p) j) as [m|] eqn:Ej; auto.
      destruct (copy_wf p (c_dtype c) m W (nth_error_In _ _ Ej)) as (t & Et & _ & G).
      rewrite T1, Et. cbn [fst with_nets with_tbl p_tbl]. intros H. left. intros X. apply H.
      now apply (copy_dom _ _ _ _ G).
    + cbn [fst with_nets with_tbl p_tbl]. rewrite init_sites_spec by apply NoDup_site_list. rewrite T1.
      destruct (in_dec _ _ _) as [I|I]; auto. intros _. right.
      eexists. split; [apply in_app_iff; right; left; reflexivity|]. split; [reflexivity|exact I].
  - destruct (nth_error (p_nets p) i) as [n|] eqn:E; auto.
    destruct (copy_wf p (match d with Some d => d | None => n_dtype n end) n W (nth_error_In _ _ E)) as (t & -> & _ & G).
    cbn [fst with_nets with_tbl p_tbl]. intros H. left. intros X. apply H. now apply (copy_dom _ _ _ _ G).
  - destruct (nth_error (p_nets p) i) as [n|] eqn:E; auto.
    destruct (copy_wf p (n_dtype n) n W (nth_error_In _ _ E)) as (t & Et & Kt & G). rewrite Et.
    pose proof (copy_dom _ _ _ _ G) as Dt. intros H. left. intros X.
    assert (Wq : wf (with_files (fun g0 => if string_dec g0 g then Some t else p_files p g0) (with_tbl t p))).
    { assert (W1 : wf (with_tbl t p)).
      { apply wf_tbl; auto. intros s0 Hs0 Y. apply Hs0. now apply Dt. }
      destruct W1 as (A & B & C). split; [exact A|]. split; [|exact C].
      intros g0 file. cbn. destruct (string_dec g0 g); [|now apply B]. intros Y; inversion Y; subst; exact Kt. }
    apply L in H; [apply H; cbn; now apply Dt|exact Wq|].
    intros f file s0. cbn [p_files with_files p_tbl with_tbl]. destruct (string_dec f g).
    + intros Y; inversion Y; subst; auto.
    + intros F Hs Y. apply Dt in Y. destruct D as [_ D]. now apply (D f file s0 F Hs).
  - intros H. left. eapply L; eauto. apply D.
  - destruct (nth_error _ _) as [m|]; auto. destruct (n_ipeps m); auto.
  - destruct (nth_error _ _) as [m|]; auto. destruct (n_ipeps m); auto. unfold register. destruct (is_model c); auto.
  - destruct (nth_error _ _) as [m|]; auto. destruct (n_ipeps m); auto. destruct (n_params m); auto.
  - destruct (nth_error (p_nets p) i) as [n|] eqn:E; auto. destruct (n_ipeps n); auto.
    destruct (the_model p n m) as [mdl|]; auto.
    destruct (n_init n) eqn:En; [intros H; left; eapply K; eauto|].
    intros H. assert (H' := H). apply K in H'; [|now apply initialise_wf].
    unfold initialise in H'. cbn [p_tbl set_net with_nets with_tbl] in H'.
    rewrite init_sites_spec in H' by apply NoDup_site_list.
    destruct (in_dec _ _ _) as [I|I]; auto. right.
    assert (Ho : owner (initialise i n (init_state p mdl) seed p) s).
    { eexists. split.
      - apply (nth_error_In _ i). unfold initialise. rewrite set_net_nth. cbn [p_nets with_tbl].
        rewrite (nth_lt _ _ _ E), Nat.eqb_refl. reflexivity.
      - split; [reflexivity|exact I]. }
    destruct Ho as (n1 & Hn1 & Hs1 & Hi1). apply In_nth_error in Hn1 as [j Hj].
    unfold run_kernel. destruct (nth_error (p_nets (initialise i n (init_state p mdl) seed p)) i) as [n2|] eqn:E2;
      [|exists n1; split; auto; eapply nth_error_In; eauto].
    destruct (work seed _ n2 (Some mdl)) as [[f bl] e]. cbn [fst].
    destruct (Nat.eq_dec j i) as [-> |Nj].
    + assert (n2 = n1) by congruence. subst n2.
      exists (n_with_lists n1 (n_sites n1) bl). split; [|auto].
      apply (nth_error_In _ i). rewrite set_net_nth, Nat.eqb_refl. cbn [p_nets with_tbl].
      now rewrite (nth_lt _ _ _ E2).
    + exists n1. split; auto. apply (nth_error_In _ j). rewrite set_net_nth.
      destruct (Nat.eqb_spec j i); [contradiction|exact Hj].
  - destruct (nth_error _ _) as [m|]; auto. destruct (n_ipeps m); auto. intros H; left; eapply K; eauto.
  - destruct (nth_error _ _) as [n0|]; auto. destruct (n_ipeps n0); auto. destruct (the_model p n0 m); auto.
Qed.

(** sites are never removed *)
Lemma exec_grows p o s : wf p -> dget (p_tbl p) s <> None -> dget (p_tbl (fst (exec p o))) s <> None.
Proof.
  intros W H.
  assert (K : forall k i m p, wf p -> dget (p_tbl p) s <> None -> dget (p_tbl (fst (run_kernel k i m p))) s <> None).
  { intros k i m q Wq Hq. unfold run_kernel. destruct (nth_error (p_nets q) i) as [n|] eqn:E; auto.
    destruct (k q n m) as [[f bl] e]. cbn [fst set_net with_nets with_tbl p_tbl].
    destruct Wq as (_ & _ & C). destruct (C n (nth_error_In _ _ E)) as [C1 _].
    rewrite write_back_spec by exact C1. destruct (in_dec _ _ _); auto. destruct (dget (p_tbl q) s); cbn; congruence. }
  assert (L : forall i g q, wf q -> dget (p_tbl q) s <> None -> dget (p_tbl (fst (load i g q))) s <> None).
  { intros i g q Wq Dq. unfold load. destruct (nth_error _ _); auto. destruct (p_files q g) as [file|] eqn:F; auto.
    cbn [fst set_net with_nets with_tbl p_tbl]. destruct Wq as (_ & B & _). rewrite load_sites_spec by eauto.
    destruct (dget file s) eqn:G; auto. discriminate. }
  destruct o as [d|q|r c|c src seed|i d|i g|i g|i c|i c q nm|i k v|i m seed|i seed|i m]; cbn [exec]; auto.
  - destruct (nth_error _ _); auto.
  - unfold construct. destruct (valid_ref _ _); cbn [negb]; auto.
    destruct (match c_dims c with Some r => (p, r) | None => _ end) as [p1 dref] eqn:E0.
    assert (T1 : p_tbl p1 = p_tbl p) by (destruct (c_dims c); inversion E0; reflexivity).
    destruct src as [j|].
    + destruct (nth_error (p_nets p) j) as [m|] eqn:Ej; auto.
      destruct (copy_wf p (c_dtype c) m W (nth_error_In _ _ Ej)) as (t & Et & _ & G).
      rewrite T1, Et. cbn [fst with_nets with_tbl p_tbl]. intros X. apply H. now apply (copy_dom _ _ _ _ G).
    + cbn [fst with_nets with_tbl p_tbl]. rewrite init_sites_spec by apply NoDup_site_list. rewrite T1.
      destruct (in_dec _ _ _); auto. discriminate.
  - destruct (nth_error (p_nets p) i) as [n|] eqn:E; auto.
    destruct (copy_wf p (match d with Some d => d | None => n_dtype n end) n W (nth_error_In _ _ E)) as (t & -> & _ & G).
    cbn [fst with_nets with_tbl p_tbl]. intros X. apply H. now apply (copy_dom _ _ _ _ G).
  - destruct (nth_error (p_nets p) i) as [n|] eqn:E; auto.
    destruct (copy_wf p (n_dtype n) n W (nth_error_In _ _ E)) as (t & Et & Kt & G). rewrite Et.
    pose proof (copy_dom _ _ _ _ G) as Dt. apply L.
    + assert (W1 : wf (with_tbl t p)).
      { apply wf_tbl; auto. intros s0 Hs0 Y. apply Hs0. now apply Dt. }
      destruct W1 as (A & B & C). split; [exact A|]. split; [|exact C].
      intros g0 file. cbn. destruct (string_dec g0 g); [|now apply B]. intros Y; inversion Y; subst; exact Kt.
    + cbn. intros X. apply H. now apply Dt.
  - destruct (nth_error _ _) as [m|]; auto. destruct (n_ipeps m); auto.
  - destruct (nth_error _ _) as [m|]; auto. destruct (n_ipeps m); auto. unfold register. destruct (is_model c); auto.
  - destruct (nth_error _ _) as [m|]; auto. destruct (n_ipeps m); auto. destruct (n_params m); auto.
  - destruct (nth_error (p_nets p) i) as [n|] eqn:E; auto. destruct (n_ipeps n); auto.
    destruct (the_model p n m) as [mdl|]; auto.
    destruct (n_init n) eqn:En; [apply K; auto|]. apply K; [now apply initialise_wf|].
    unfold initialise. cbn [p_tbl set_net with_nets with_tbl].
    rewrite init_sites_spec by apply NoDup_site_list. destruct (in_dec _ _ _); auto. discriminate.
  - destruct (nth_error _ _) as [m|]; auto. destruct (n_ipeps m); auto.
  - destruct (nth_error _ _) as [n0|]; auto. destruct (n_ipeps n0); auto. destruct (the_model p n0 m); auto.
Qed.

(** the file written by save *)
Lemma save_spec p i n f : wf p -> nth_error (p_nets p) i = Some n ->
  exists t, let saved s := if in_dec site_eq_dec s (n_sites n) then option_map (st_to (n_dtype n)) (dget (p_tbl p) s)
                           else dget (p_tbl p) s in
  NoDup (map fst t) /\ (forall s, dget t s = saved s) /\
  snd (exec p (Save i f)) = None /\
  p_files (fst (exec p (Save i f))) f = Some t /\
  (forall g, g <> f -> p_files (fst (exec p (Save i f))) g = p_files p g) /\
  (forall s, dget (p_tbl (fst (exec p (Save i f)))) s = option_map (st_to (n_dtype n)) (saved s)).
Proof.
  intros W E. destruct (copy_wf p (n_dtype n) n W (nth_error_In _ _ E)) as (t & Et & K & G).
  exists t. intros saved. split; [exact K|]. split; [exact G|].
  cbn [exec]. rewrite E, Et. unfold load. cbn [p_nets with_files with_tbl]. rewrite E.
  assert (Ff : p_files (with_files (fun g => if string_dec g f then Some t else p_files p g) (with_tbl t p)) f = Some t)
    by (cbn; destruct (string_dec f f); congruence).
  rewrite Ff. cbn [fst snd set_net with_nets with_tbl p_files p_tbl].
  split; [reflexivity|]. split; [exact Ff|].
  split. { intros g Hg. cbn. destruct (string_dec g f); congruence. }
  intros s. rewrite load_sites_spec by exact K. cbn [p_tbl with_files with_tbl]. rewrite !G. fold (saved s). destruct (saved s); reflexivity.
Qed.

Lemma save_dec (o : op) f : (exists i, o = Save i f) \/ (forall i, o <> Save i f).
Proof.
  destruct o; try (right; congruence).
  destruct (string_dec f0 f) as [-> |]; [left; eauto|right; congruence].
Qed.

Lemma dom_step p o : wf p -> dom_inv p -> dom_inv (fst (exec p o)).
Proof.
  intros W D. assert (D' := D). destruct D' as [D1 D2]. split.
  - intros s Hs. destruct (exec_dom p o s W D Hs) as [H|H]; [|exact H].
    apply owner_step; auto. exact (D1 s H).
  - intros f file s F Hs. destruct (save_dec o f) as [[i ->]|Hn].
    + destruct (nth_error (p_nets p) i) as [n|] eqn:E.
      * destruct (save_spec p i n f W E) as (t & K & G & _ & Ff & _ & T). rewrite Ff in F. inversion F; subst.
        rewrite T, <- G. destruct (dget file s); cbn; congruence.
      * cbn [exec] in *. rewrite E in *. cbn in *. eauto.
    + rewrite exec_files in F by exact Hn. apply exec_grows; auto. eauto.
Qed.

Lemma run_dom os p : wf p -> dom_inv p -> dom_inv (fst (run p os)).
Proof.
  revert p; induction os as [|o os IH]; intros p W D; cbn [run]; auto.
  pose proof (exec_wf p o W) as W1. pose proof (dom_step p o W D) as D1.
  destruct (exec p o) as [p1 e]. cbn [fst] in *.
  specialize (IH p1 W1 D1). destruct (run p1 os) as [p2 tr]. exact IH.
Qed.

End Process.
