(** A whole session with one network in a process that is not distributed: the
    calls of acetn/ipeps/ipeps.py (27-41, 58-68, 92-129) on the tensors of the
    network, with the concrete numerical kernels of the other files.

    Simplifications: the session ends at the first exception; a division by a
    zero norm (inf or NaN in the source) counts as one.  The gates of an evolve
    call and the model of a measure call are given with the call (how Gate builds
    and looks them up is Gate.v).  Timers, progress bars and log text are left
    out. *)
From Coq Require Import String Ascii.
From mathcomp Require Import all_ssreflect all_algebra.
From Verif Require Import Base Lattice Mover Tensor TN Rdm Measure Linalg Rsvd Renorm FullUpdate Als Dist Lambda Evolve.
Set Implicit Arguments.
Unset Strict Implicit.
Unset Printing Implicit Defensive.
Import GRing.Theory Num.Theory.
Local Open Scope ring_scope.

Section Session.
Variable C : numClosedFieldType.
Notation tensor := (tensor C).
Notation net := (Mover.net tensor).
(** torch's random state, torch.randn and torch.rand(bD,bD,bD,bD,pD) *)
Variable R : Type.
Variable randn : R -> forall n q : nat, 'M[C]_(n, q) * R.
Variable trand : R -> nat -> nat -> tensor * R.
Variable lqr : qr_fun C.
Variable lsvd : thin_svd_fun C.
Variable fsvd : full_svd_fun C.
Variable leigh : eigh_fun C.
Variable lchol : chol_fun C.
Variable rtol : nat -> nat -> C.
(** LambdaTensors.CUTOFF; the noise of site_tensor.py 35 *)
Variables (lcut noise : C).
(** bound on the shifts positive_approx may make (its loop is unbounded) *)
Variable fuel : nat.
(** the buffer build_bond_rdm allocates *)
Variable empty : nat -> tensor.

(** what IpepsConfig holds *)
Record setup := Setup {
  u_nx : nat; u_ny : nat; u_bond : nat; u_phys : nat;
  u_ptype : ptype; u_steps : nat; u_ctm : pconfig C;
  u_type : string; u_evo : econfig C }.
Variable u : setup.

(** the network: its tensors, the random state, bond_list, dims['chi'] and
    site_states_initialized *)
Record state := State { s_net : net; s_rng : R; s_bonds : seq bond; s_chi : nat; s_init : bool }.

(** the projector configuration with the present boundary dimension *)
Definition ctm_config (chi : nat) : pconfig C :=
  PConfig (svd_type (u_ctm u)) (svd_cutoff (u_ctm u)) (rsvd_niter (u_ctm u)) (rsvd_oversampling (u_ctm u)) chi.

(** tensor_network.py 140-151 *)
Definition initialize_site_tensors (st : site -> seq C) (s : state) : res state :=
  let! (n, r) := for_each (build_site_list (u_nx u) (u_ny u)) (fun x nr =>
    let '(t, r) := trand nr.2 (u_bond u) (u_phys u) in
    let! t := init_site (u_bond u) (u_phys u) (st x) noise t in
    Ok ((fun y sl => if site_eq_dec y x then site_slots t sl else nr.1 y sl) : net, r)) (s_net s, s_rng s) in
  Ok (State n r (build_bond_list (u_nx u) (u_ny u)) (s_chi s) true).

(** ipeps.py 27-41 with tensor_network.py 135-136 (no network to copy from): the
    tensors found in the shared table are [n] *)
Definition construct (n : net) (r : R) (chi : nat) : res state :=
  let! s := initialize_site_tensors (fun _ => 1 :: nseq (u_phys u).-1 0) (State n r [::] chi false) in
  Ok (State (s_net s) (s_rng s) (s_bonds s) (s_chi s) false).

(** ipeps.py 92-96, ctmrg.py 4-34 *)
Definition renormalize (s : state) : res state :=
  let! (n, r) := run_ctmrg randn lqr lsvd fsvd (ctm_config (s_chi s)) (u_ptype u) (u_nx u) (u_ny u) (u_steps u) (s_net s, s_rng s) in
  Ok (State n r (s_bonds s) (s_chi s) (s_init s)).

(** what a Gate object gives for bonds, and for sites if they are separate *)
Record gates := Gates { g_two : bond -> tensor; g_one : option (site -> tensor) }.
Definition one_of (g : gates) (b : bond) : option (tensor * tensor) :=
  if g_one g is Some f then Some (f (b_s1 b), f (b_s2 b)) else None.

(** self.ipeps[s1]['A'] = a1; self.ipeps[s2]['A'] = a2 *)
Definition write_pair (b : bond) (a1 a2 : tensor) (n : net) : net :=
  upd tensor (upd tensor n (b_s1 b) SA a1) (b_s2 b) SA a2.

Definition absorb_pair (chi : nat) : bond -> net * R -> res (net * R) :=
  absorb_bond tensor R (@bond_permute C) (@renormalize_cj1 C) (@renormalize_cj2 C) (@renormalize_ej C)
    (calculate_half_system randn lqr lsvd fsvd (ctm_config chi))
    (calculate_full_system randn lqr lsvd fsvd (ctm_config chi)) (u_ptype u) (u_nx u) (u_ny u).

(** fast_full_update.py 29-69 *)
Definition full_step (chi : nat) (g : gates) (b : bond) (nr : net * R) : option (res (net * R)) :=
  match full_bond_update lqr lsvd fsvd leigh lchol rtol (u_evo u) fuel nr.1 b (g_two g b) (one_of g b) with
  | None => None
  | Some x => Some (let! (a1, a2) := x in absorb_pair chi b (write_pair b a1 a2 nr.1, nr.2))
  end.

(** simple_update.py 28-76, lambda_tensors.py 29-49: the weights of all four
    directions are read at both sites *)
Definition all_weights (w : lam tensor) (x : site) : res (nat -> tensor) :=
  let! w0 := get_weight _ w x 0 in
  let! w1 := get_weight _ w x 1 in
  let! w2 := get_weight _ w x 2 in
  let! w3 := get_weight _ w x 3 in
  Ok (fun d => nth w0 [:: w0; w1; w2; w3] d).
Definition simple_step (g : gates) (b : bond) (nw : net * lam tensor) : res (net * lam tensor) :=
  let! w1 := all_weights nw.2 (b_s1 b) in
  let! w2 := all_weights nw.2 (b_s2 b) in
  let! (a1, a2, lambda) := simple_bond_update lqr fsvd lcut w1 w2 (b_k b) (nw.1 (b_s1 b) SA) (nw.1 (b_s2 b) SA) (g_two g b) (one_of g b) in
  Ok (write_pair b a1 a2 nw.1, set_weight _ b lambda nw.2).

(** evolve.py 31-55: the loop of Evolve.v; an exception, or a bond update that
    does not end, stops it *)
Definition guard {S} (f : bond -> S -> option (res S)) (b : bond) (s : option (res S)) : option (res S) * (unit * unit) :=
  (match s with Some (Ok x) => f b x | _ => s end, (tt, tt)).
Definition evolve_run {S} (f : bond -> S -> option (res S)) (steps : nat) (s : S) (bonds : seq bond) : option (res (S * seq bond)) :=
  let l := evolve_loop bond (option (res S)) unit (guard f) tt (fun _ _ => tt) (fun _ _ => tt) false steps (Some (Ok s)) bonds in
  match l_state _ _ _ l with
  | None => None
  | Some (Err e) => Some (Err e)
  | Some (Ok x) => Some (Ok (x, l_bonds _ _ _ l))
  end.

(** torch.ones(bD) *)
Definition ones_vec : tensor := Tensor [:: u_bond u] (fun _ => 1).

(** evolve.py 11-19, 31-56 *)
Definition evolve_tensors (g : gates) (steps : nat) (s : state) : option (res state) :=
  let back := fun n r bonds => State n r bonds (s_chi s) (s_init s) in
  if String.eqb (u_type u) "full" then
    match evolve_run (full_step (s_chi s) g) steps (s_net s, s_rng s) (s_bonds s) with
    | None => None
    | Some x => Some (let! ((n, r), bonds) := x in Ok (back n r bonds))
    end
  else if String.eqb (u_type u) "simple" then
    match evolve_run (fun b x => Some (simple_step g b x)) steps (s_net s, new_lambda _ ones_vec (s_bonds s)) (s_bonds s) with
    | None => None
    | Some x => Some (let! ((n, _), bonds) := x in Ok (back n (s_rng s) bonds))
    end
  else Some (Err ValueError).

(** ipeps.py 98-115 *)
Definition evolve (st : site -> seq C) (g : gates) (steps : nat) (s : state) : option (res state) :=
  match (let! s := if s_init s then Ok s else initialize_site_tensors st s in renormalize s) with
  | Err e => Some (Err e)
  | Ok s =>
      match evolve_tensors g steps s with
      | None => None
      | Some x => Some (let! s := x in renormalize s)
      end
  end.

(** ipeps.py 117-129 *)
Definition measured (m : model C) (s : state) : res (dict C) :=
  measure m (build_site_rdm (s_net s)) (build_bond_rdm empty (s_net s)) (build_site_list (u_nx u) (u_ny u)) (s_bonds s).

(** the calls of a session *)
Inductive call :=
  | SetChi (chi : nat)
  | Renormalize
  | Evolve (st : site -> seq C) (g : gates) (steps : nat)
  | Measure (m : model C).

(** one call: the new state and what measure returned *)
Definition perform (c : call) (s : state) : option (res (state * seq (dict C))) :=
  match c with
  | SetChi chi => Some (Ok (State (s_net s) (s_rng s) (s_bonds s) chi (s_init s), [::]))
  | Renormalize => Some (let! s := renormalize s in Ok (s, [::]))
  | Evolve st g steps =>
      match evolve st g steps s with
      | None => None
      | Some x => Some (let! s := x in Ok (s, [::]))
      end
  | Measure m => Some (let! d := measured m s in Ok (s, [:: d]))
  end.

(** a session: the calls one after the other *)
Fixpoint session (cs : seq call) (s : state) : option (res (state * seq (dict C))) :=
  match cs with
  | [::] => Some (Ok (s, [::]))
  | c :: cs =>
      match perform c s with
      | None => None
      | Some (Err e) => Some (Err e)
      | Some (Ok (s, out)) =>
          match session cs s with
          | Some (Ok (s, out')) => Some (Ok (s, cat out out'))
          | x => x
          end
      end
  end.
End Session.
