(** acetn/utils/distributed.py and the parts of acetn/ipeps/ipeps.py (27-56) that
    use it: how a process joins the process group when a network is constructed,
    leaves it when one is deleted, where the network's tensors live, and which
    collective calls can run. *)
From Coq Require Import String ZArith.
From Coq Require Import List Arith Lia Bool.
From Verif Require Import Base Config.
Import ListNotations.

(** What a process sees of its surroundings.  os.environ["RANK"] and
    ["WORLD_SIZE"]: absent, or what int(...) makes of them; torch.cuda.device_count();
    os.cpu_count(). *)
Record env := Env { e_rank : option (res Z); e_ws : option (res Z); e_gpus : nat; e_cpus : nat }.

(** torch.cuda.is_available() *)
Definition e_cuda (e : env) : bool := 0 <? e_gpus e.

Inductive backend := Nccl | Gloo.

(** ipeps.device: a torch.device, or (distributed.py 62) the bare rank *)
Inductive place := PDev (d : device) | PRank (r : nat).

(** State of torch and of the interpreter that distributed.py changes: the
    process group, the current CUDA device, whether print and tqdm.write are
    replaced by functions that do nothing. *)
Record pstate := PState { g_group : option backend; g_current : nat; g_muted : bool }.
Definition fresh := PState None 0 false.

(** distributed.py 37-48 *)
Definition get_device_count (e : env) (d : device) : res nat :=
  if device_eq_dec d cpu then Ok (e_cpus e)
  else if device_eq_dec d cuda then Ok (e_gpus e)
  else Err NotImplementedError.

(** distributed.py 68-74 *)
Definition setup_distributed_print (rank : Z) (s : pstate) : pstate :=
  if (rank =? 0)%Z then s else PState (g_group s) (g_current s) true.

(** torch.distributed.init_process_group refuses a rank outside 0..ws-1; the
    rendezvous of the ranks is assumed to succeed.  torch.cuda.set_device
    refuses an index that does not exist. *)
(** distributed.py 51-65 (world_size > 1 holds at the only call) *)
Definition setup_process_group (e : env) (rank ws : Z) (d : device) (s : pstate) : pstate * res place :=
  match g_group s with
  | Some _ => (s, Ok (PDev d))
  | None =>
    if ((0 <=? rank) && (rank <? ws))%Z then
      let s := PState (Some (if e_cuda e then Nccl else Gloo)) (g_current s) (g_muted s) in
      if device_eq_dec d cpu then (s, Ok (PDev d))
      else if Z.to_nat rank <? e_gpus e
           then (PState (g_group s) (Z.to_nat rank) (g_muted s), Ok (PRank (Z.to_nat rank)))
           else (s, Err RuntimeError)
    else (s, Err ValueError)
  end.

(** what setup_distributed returns: rank, world_size, device, is_distributed *)
Record netw := Netw { n_rank : Z; n_ws : Z; n_place : place; n_dist : bool }.

(** lines 20-22: "RANK" in os.environ and "WORLD_SIZE" in os.environ and
    int(os.environ["WORLD_SIZE"]) > 1 *)
Definition wants_distributed (e : env) : res bool :=
  match e_rank e, e_ws e with
  | Some _, Some w => let! w := w in Ok (1 <? w)%Z
  | _, _ => Ok false
  end.

(** distributed.py 9-33 *)
Definition setup_distributed (e : env) (d : device) (s : pstate) : pstate * res netw :=
  match wants_distributed e, e_rank e, e_ws e with
  | Err x, _, _ => (s, Err x)
  | Ok true, Some r, Some w =>
      match r, w with
      | Ok rank, Ok ws =>
          let s := setup_distributed_print rank s in
          match get_device_count e d with
          | Err x => (s, Err x)
          | Ok n =>
              if (Z.of_nat n <? ws)%Z then (s, Err RuntimeError)
              else match setup_process_group e rank ws d s with
                   | (s, Ok p) => (s, Ok (Netw rank ws p true))
                   | (s, Err x) => (s, Err x)
                   end
          end
      | Err x, _ => (s, Err x)
      | _, Err x => (s, Err x)
      end
  | Ok _, _, _ => (s, Ok (Netw 0 1 (PDev d) false))
  end.

(** distributed.py 77-82 *)
Definition finalize_distributed (s : pstate) : pstate := PState None (g_current s) (g_muted s).

(** ipeps.py 43-48: what runs when the last reference to a network goes away *)
Definition del (n : netw) (s : pstate) : pstate := if n_dist n then finalize_distributed s else s.

(** A program constructs networks and drops them.  [New d late]: construct one
    whose configured device is d; [late] tells whether lines 39-41 (printing the
    configuration, building the tensors) raise, after which the half-built object
    is collected and __del__ runs.  If set-up itself raises, is_distributed is
    still the False of line 54 and __del__ does nothing.  [Drop i]: the i-th
    network that was constructed is deleted, if it is still there. *)
Inductive op := New (d : device) (late : bool) | Drop (i : nat).

(** the process and the networks constructed so far (None: deleted) *)
Definition prog := (pstate * list (option netw))%type.

Fixpoint kill (l : list (option netw)) (i : nat) : list (option netw) :=
  match l, i with
  | [], _ => []
  | _ :: l, 0 => None :: l
  | x :: l, S i => x :: kill l i
  end.

Definition step (e : env) (o : op) (p : prog) : prog :=
  let '(s, nets) := p in
  match o with
  | New d late =>
      match setup_distributed e d s with
      | (s, Err _) => (s, nets)
      | (s, Ok n) => if late then (del n s, nets) else (s, (nets ++ [Some n])%list)
      end
  | Drop i =>
      match nth_error nets i with
      | Some (Some n) => (del n s, kill nets i)
      | _ => (s, nets)
      end
  end.

Definition run (e : env) (ops : list op) : prog := fold_left (fun p o => step e o p) ops (fresh, []).

(** Where torch puts the network's tensors: an unindexed "cuda" is the current
    CUDA device, an indexed one is that device; None is the host. *)
Definition placement (s : pstate) (n : netw) : option nat :=
  match n_place n with
  | PRank r => Some r
  | PDev d => if string_dec (dev_type d) "cpu"%string then None
              else match dev_index d with Some i => Some i | None => Some (g_current s) end
  end.

Fixpoint nodupb (l : list nat) : bool :=
  match l with [] => true | a :: l => negb (existsb (Nat.eqb a) l) && nodupb l end.

(** A collective over all ranks: every rank has the process group, all with the
    same backend.  NCCL takes tensors on pairwise different CUDA devices only,
    gloo (all_gather) tensors on the host. *)
Fixpoint places (l : list (option nat)) : option (list nat) :=
  match l with
  | [] => Some []
  | Some a :: l => match places l with Some l => Some (a :: l) | None => None end
  | None :: _ => None
  end.
Definition collective (l : list (pstate * netw)) : res unit :=
  let ps := map (fun sn => placement (fst sn) (snd sn)) l in
  if forallb (fun sn => match g_group (fst sn) with Some Nccl => true | _ => false end) l then
    match places ps with
    | Some ds => if nodupb ds then Ok tt else Err RuntimeError
    | None => Err RuntimeError
    end
  else if forallb (fun sn => match g_group (fst sn) with Some Gloo => true | _ => false end) l then
    if forallb (fun p => match p with None => true | _ => false end) ps then Ok tt else Err RuntimeError
  else Err RuntimeError.

(** tensor.to(rank) with an int: the CUDA device of that index, which must exist *)
Definition to_rank (e : env) (rank : Z) : res unit :=
  if ((0 <=? rank) && (rank <? Z.of_nat (e_gpus e)))%Z then Ok tt else Err RuntimeError.

(** distributed.py 85-108 on all ranks: gather the shapes, copy every received
    shape to the device of index rank (line 104), gather the tensors *)
Definition all_gather_tensor (envs : list env) (l : list (pstate * netw)) : res unit :=
  let! _ := collective l in
  let! _ := for_each (combine envs l) (fun en _ => to_rank (fst en) (n_rank (snd (snd en)))) tt in
  collective l.

(** the processes of a run: rank r sees the same machine, RANK = r *)
Definition rank_env (e : env) (r : nat) : env := Env (Some (Ok (Z.of_nat r))) (e_ws e) (e_gpus e) (e_cpus e).
Definition ranks (e : env) (ws : nat) : list env := map (rank_env e) (seq 0 ws).

(** network i on every rank, after all of them ran ops *)
Fixpoint on_all (envs : list env) (ops : list op) (i : nat) : option (list (pstate * netw)) :=
  match envs with
  | [] => Some []
  | e :: envs =>
      match nth_error (snd (run e ops)) i, on_all envs ops i with
      | Some (Some n), Some l => Some ((fst (run e ops), n) :: l)
      | _, _ => None
      end
  end.
