(** acetn/ipeps/ipeps_config.py: from the user's dictionary and the environment
    to the configuration object. *)
From Coq Require Import String ZArith.
From Coq Require Import List Arith Lia Bool.
From Verif Require Import Base.
Import ListNotations.
Local Open Scope string_scope.

(** torch.device: type and optional index ("cuda" and "cuda:0" are unequal) *)
Record device := Dev { dev_type : string; dev_index : option nat }.
Definition device_eq_dec (a b : device) : {a = b} + {a <> b}.
Proof. decide equality; [decide equality; apply Nat.eq_dec|apply string_dec]. Defined.

(** Python values occurring in configurations; floats as mantissa * 10^exponent;
    [VDtype n] is the attribute torch.n *)
Inductive val :=
| VNone | VBool (b : bool) | VInt (z : Z) | VFloat (m e : Z) | VStr (s : string)
| VDict (d : list (string * val)) | VDtype (s : string) | VDevice (d : device) | VObj (n : nat).
Notation dict := (list (string * val)).

Fixpoint dlookup (d : dict) (k : string) : option val :=
  match d with [] => None | (k', v) :: d => if string_dec k' k then Some v else dlookup d k end.
Fixpoint dreplace (d : dict) (k : string) (v : val) : dict :=
  match d with
  | [] => []
  | (k', v') :: d => if string_dec k' k then (k', v) :: dreplace d k v else (k', v') :: dreplace d k v
  end.

(** A dataclass: names of the required fields, then fields with defaults.
    Calling it with keyword arguments: unknown and missing ones are TypeErrors. *)
Record dataclass := DC { dc_req : list string; dc_opt : dict }.
Definition dc_fields (c : dataclass) : list string := (dc_req c ++ map fst (dc_opt c))%list.
Definition mem_str (k : string) (l : list string) : bool := if in_dec string_dec k l then true else false.
Definition construct_dc (c : dataclass) (kwargs : dict) : res dict :=
  if forallb (fun p => mem_str (fst p) (dc_fields c)) kwargs &&
     forallb (fun k => mem_str k (map fst kwargs)) (dc_req c)
  then Ok (map (fun k => (k, match dlookup kwargs k with
                             | Some v => v
                             | None => match dlookup (dc_opt c) k with Some v => v | None => VNone end
                             end)) (dc_fields c))
  else Err TypeError.
(** C with two stars on a non-dictionary raises TypeError *)
Definition call_dc (c : dataclass) (v : val) : res dict :=
  match v with VDict d => construct_dc c d | _ => Err TypeError end.

(** ipeps_config.py 9-14 *)
Definition TNConfig := DC [] [("nx", VInt 2); ("ny", VInt 2);
  ("dims", VDict [("phys", VInt 2); ("bond", VInt 2); ("chi", VInt 20)])].
(** ipeps_config.py 16-24 *)
Definition CTMRGConfig := DC [] [("steps", VInt 40); ("projectors", VStr "half-system"); ("svd_type", VStr "rsvd");
  ("svd_cutoff", VFloat 1 (-12)); ("rsvd_niter", VInt 2); ("rsvd_oversampling", VInt 2);
  ("disable_progressbar", VBool false)].
(** ipeps_config.py 26-37 *)
Definition EvolutionConfig := DC [] [("backend", VStr "torch"); ("update_type", VStr "full");
  ("use_gauge_fix", VBool true); ("gauge_fix_atol", VFloat 1 (-12)); ("positive_approx_cutoff", VFloat 1 (-12));
  ("als_niter", VInt 100); ("als_tol", VFloat 1 (-15)); ("als_method", VStr "cholesky");
  ("als_epsilon", VFloat 1 (-12)); ("disable_progressbar", VBool false)].
(** ipeps_config.py 39-45 *)
Definition ModelConfig := DC ["dtype"; "device"; "dim"] [("name", VNone); ("params", VNone)].
(** ipeps_config.py 47-55 *)
Definition IpepsFields := DC ["TN"] [("dtype", VStr "float64"); ("device", VStr "cpu");
  ("ctmrg", VDict []); ("evolution", VDict []); ("model", VDict [])].

(** the surroundings: os.environ, torch.cuda.is_available(), CUTENSOR_AVAILABLE,
    the torch module's attributes and the parser of device strings *)
Record world := World {
  w_env : string -> option string; w_cuda : bool; w_cutensor : bool;
  w_attr : string -> res val; w_device : string -> res device }.

Record config := Config {
  g_dtype : val; g_device : val; g_TN : dict; g_ctmrg : dict; g_evolution : dict; g_model : dict }.

(** substring test  'x' in s *)
Fixpoint is_prefix (p s : string) : bool :=
  match p, s with
  | EmptyString, _ => true
  | String a p, String b s => Ascii.eqb a b && is_prefix p s
  | _, _ => false
  end.
Fixpoint contains (p s : string) : bool :=
  is_prefix p s || match s with EmptyString => false | String _ s => contains p s end.

(** ipeps_config.py 83-87 *)
Definition set_dtype (w : world) (dtype : val) : res val :=
  match dtype with
  | VNone => Ok (VDtype "float64")
  | VStr s => w_attr w s
  | v => Ok v
  end.

(** ipeps_config.py 89-101 *)
Definition cuda := Dev "cuda" None.
Definition cpu := Dev "cpu" None.
Definition set_device (w : world) (dev : val) : res val :=
  let! d := match dev with
            | VNone => Ok (VDevice (if w_cuda w then cuda else cpu))
            | VStr s => let! d := w_device w s in Ok (VDevice d)
            | v => Ok v
            end in
  match d with
  | VDevice x => Ok (VDevice (if device_eq_dec x cuda then if w_cuda w then x else cpu else x))
  | v => Ok v
  end.

(** ipeps_config.py 103-109 *)
Definition validate_backend (w : world) (ev : dict) : dict :=
  match dlookup ev "backend" with
  | Some (VStr s) => if string_dec s "cutensor" then
                       if w_cutensor w then ev else dreplace ev "backend" (VStr "torch")
                     else ev
  | _ => ev
  end.

(** ipeps_config.py 71-81 *)
Definition getenv (w : world) (k : string) : string := match w_env w k with Some s => s | None => "" end.
Definition disable_pbar_if_slurm (w : world) (d : dict) : dict :=
  match w_env w "SLURM_JOB_ID" with
  | None => d
  | Some _ =>
      let disable := if contains "interactive" (getenv w "SLURM_JOB_NAME") ||
                        (if string_dec (getenv w "SLURM_JOB_PARTITION") "interactive" then true else false)
                     then false else true in
      dreplace d "disable_progressbar" (VBool disable)
  end.

Definition fget (d : dict) (k : string) : val := match dlookup d k with Some v => v | None => VNone end.

(** self.TN.dims['phys'] *)
Definition phys_of (tn : dict) : res val :=
  match fget tn "dims" with
  | VDict d => match dlookup d "phys" with Some v => Ok v | None => Err KeyError end
  | _ => Err TypeError
  end.

(** ipeps_config.py 64-67: a key of the model dictionary that repeats dtype,
    device or dim is a TypeError *)
Definition call_model (dtype dev dim : val) (m : val) : res dict :=
  match m with
  | VDict d => if existsb (fun p => mem_str (fst p) ["dtype"; "device"; "dim"]) d then Err TypeError
               else construct_dc ModelConfig ([("dtype", dtype); ("device", dev); ("dim", dim)] ++ d)%list
  | _ => Err TypeError
  end.

(** ipeps_config.py 57-69, called as IpepsConfig with the user's dictionary as
    keyword arguments (ipeps.py 35) *)
Definition ipeps_config (w : world) (user : dict) : res config :=
  let! f := construct_dc IpepsFields user in
  let! dtype := set_dtype w (fget f "dtype") in
  let! dev := set_device w (fget f "device") in
  let! tn := call_dc TNConfig (fget f "TN") in
  let! ct := call_dc CTMRGConfig (fget f "ctmrg") in
  let! ev := call_dc EvolutionConfig (fget f "evolution") in
  let ev := validate_backend w ev in
  let! phys := phys_of tn in
  let! md := call_model dtype dev phys (fget f "model") in
  Ok (Config dtype dev tn (disable_pbar_if_slurm w ct) (disable_pbar_if_slurm w ev) md).

(** ---- lemmas ---- *)
Lemma dlookup_map f l k : dlookup (map (fun k => (k, f k)) l) k = if in_dec string_dec k l then Some (f k) else None.
Proof.
  induction l as [|a l IH]; cbn [map dlookup]; auto. rewrite IH.
  destruct (string_dec a k) as [-> |N].
  - destruct (in_dec string_dec k (k :: l)) as [|X]; auto. exfalso. apply X. now left.
  - destruct (in_dec string_dec k l); destruct (in_dec string_dec k (a :: l)) as [X|X]; auto; exfalso; cbn in X; intuition.
Qed.
Lemma dlookup_replace d k v k' : dlookup (dreplace d k v) k' =
  match dlookup d k' with None => None | Some v' => Some (if string_dec k k' then v else v') end.
Proof.
  induction d as [|[a x] d IH]; cbn; auto. destruct (string_dec a k) as [-> |]; cbn.
  - destruct (string_dec k k'); auto.
  - destruct (string_dec a k') as [-> |]; auto. destruct (string_dec k k'); congruence.
Qed.
Lemma dlookup_in d k v : dlookup d k = Some v -> In (k, v) d.
Proof. induction d as [|[a x] d IH]; cbn; [discriminate|]. destruct (string_dec a k) as [-> |]; [intros H; inversion H; auto|auto]. Qed.
Lemma dlookup_none d k : dlookup d k = None <-> ~ In k (map fst d).
Proof.
  induction d as [|[a x] d IH]; cbn; [tauto|]. destruct (string_dec a k) as [-> |N].
  - split; [discriminate|intuition].
  - rewrite IH. intuition.
Qed.
Lemma construct_dc_ok c kw d : construct_dc c kw = Ok d ->
  (forall k, In k (map fst kw) -> In k (dc_fields c)) /\ (forall k, In k (dc_req c) -> In k (map fst kw)) /\
  forall k, dlookup d k = if in_dec string_dec k (dc_fields c)
    then Some (match dlookup kw k with Some v => v | None =>
                 match dlookup (dc_opt c) k with Some v => v | None => VNone end end) else None.
Proof.
  unfold construct_dc. destruct (forallb _ _ && _) eqn:E; [|discriminate]. intros H; injection H as <-.
  apply andb_prop in E as [E1 E2]. rewrite forallb_forall in E1, E2. split; [|split].
  - intros k Hk. apply in_map_iff in Hk as (p & <- & Hp). specialize (E1 p Hp). unfold mem_str in E1.
    destruct (in_dec _ _ _); [auto|discriminate].
  - intros k Hk. specialize (E2 k Hk). unfold mem_str in E2. destruct (in_dec _ _ _); [auto|discriminate].
  - intros k. apply (dlookup_map (fun k => match dlookup kw k with Some v => v | None =>
                 match dlookup (dc_opt c) k with Some v => v | None => VNone end end)).
Qed.
Lemma construct_dc_err c kw e : construct_dc c kw = Err e -> e = TypeError.
Proof. unfold construct_dc. destruct (_ && _); congruence. Qed.
