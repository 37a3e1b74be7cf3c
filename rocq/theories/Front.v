(** The order of the steps of Ipeps.evolve (ipeps.py 99-115, evolve.py 9-56,
    logger.py 65-80) and what they leave behind when one of them raises; which
    tensors of the simple update are real and which complex (simple_update.py,
    lambda_tensors.py).

    Simplifications: dtau is a number or something float() rejects (not a text that
    spells a number); a negative number of steps counts as zero; building the gates
    may raise and has no effect but on the gate table (Gate.v); the precision of
    the numbers is left out; gates have the type of the network (gate.py 125); the
    progress bar, the debug output and finalize (tensor_update.py, which does nothing)
    are left out. *)
From Coq Require Import String.
From Coq Require Import List Arith Lia Bool Permutation.
From Verif Require Import ListAux Lattice LatticeFacts Base Evolve Lambda Process.
Import ListNotations.
Local Open Scope string_scope.

(** ---- real and complex tensors ---- *)
Inductive kind := Re | Cx.
(** type promotion in an element-wise product *)
Definition join (a b : kind) : kind := match a with Re => b | Cx => Cx end.
(** an einsum with summed labels is a matrix product: both factors have the same type *)
Definition product (a b : kind) : res kind :=
  match a, b with Re, Re => Ok Re | Cx, Cx => Ok Cx | _, _ => Err RuntimeError end.
(** Tensor.clamp: not for complex tensors *)
Definition clamp (a : kind) : res kind := match a with Re => Ok Re | Cx => Err RuntimeError end.

(** lambda_tensors.py 33-40; ones_like keeps the type *)
Definition absorb_kind (x : lam kind) (s : site) (a : kind) : res kind :=
  let! l := get_weight kind x s 0 in
  let! u := get_weight kind x s 1 in
  let! r := get_weight kind x s 2 in
  let! d := get_weight kind x s 3 in
  Ok (join l (join u (join r (join d a)))).
(** lambda_tensors.py 42-49, one weight *)
Definition strip_weight (x : lam kind) (s : site) (out d : nat) : res kind :=
  let! w := get_weight kind x s d in
  if Nat.eqb d out then Ok w else clamp w.
Definition strip_kind (x : lam kind) (s : site) (out : nat) (a : kind) : res kind :=
  let! l := strip_weight x s out 0 in
  let! u := strip_weight x s out 1 in
  let! r := strip_weight x s out 2 in
  let! d := strip_weight x s out 3 in
  Ok (join l (join u (join r (join d a)))).

(** the types of the site tensors and of the weights *)
Definition kinds : Type := (site -> kind) * lam kind.
Definition set_kind (t : site -> kind) (s : site) (a : kind) : site -> kind :=
  fun s' => if site_eq_dec s' s then a else t s'.

(** simple_update.py 28-76 with gates of type g (wrap_one_site is True, gate.py 27):
    QR keeps the type, the singular values are real *)
Definition update_kinds (g : kind) (b : bond) (st : kinds) : res kinds :=
  let '(t, x) := st in
  let! a1 := absorb_kind x (b_s1 b) (t (b_s1 b)) in
  let! a2 := absorb_kind x (b_s2 b) (t (b_s2 b)) in
  let! a12 := product a1 a2 in
  let! a12g := product a12 g in
  let! r1 := product a1 (join a12g Re) in
  let! r2 := product a2 (join a12g Re) in
  let! n1 := strip_kind x (b_s1 b) (b_k b) r1 in
  let! n2 := strip_kind x (b_s2 b) (Nat.modulo (b_k b + 2) 4) r2 in
  Ok (set_kind (set_kind t (b_s1 b) n1) (b_s2 b) n2, set_weight kind b Re x).

(** ---- the steps of a call ---- *)
(** the arguments of evolve: float(dtau) raises an exception or not, range rejects steps
    or it is a number *)
Record call := Call { a_dtau : option exn; a_steps : option nat }.

Section Front.
Variables (V dtype cls state pval : Type).
Variable fresh : dtype -> dims -> state -> nat -> V.
Variable uniform : nat -> state.
Notation proc := (proc V dtype cls pval).
Notation network := (network dtype).
Notation model := (model cls).
Notation kernel := (kernel V dtype cls pval).
(** the arguments of call number k *)
Variable ask : nat -> call.
(** config.evolution.update_type *)
Variable update_type : network -> string.
Variable kind_of : dtype -> kind.
(** evolve.py 31: Gate(...) *)
Variable build : proc -> network -> model -> option exn.
(** the numerical part of renormalize and of the update of one bond; neither touches the
    bond list *)
Variable sweep : nat -> kernel.
Variable upd : nat -> bond -> kernel.

(** a step works on the table and on the network *)
Definition outcome : Type := proc * network * option exn.
Definition before (r : outcome) (f : proc -> network -> outcome) : outcome :=
  match r with (p, n, None) => f p n | (p, n, Some e) => (p, n, Some e) end.
(** a kernel as a step *)
Definition step (k : kernel) (m : option model) (p : proc) (n : network) : outcome :=
  let '(f, _, e) := k p n m in
  (with_tbl V dtype cls pval (write_back V dtype n f (p_tbl _ _ _ _ p)) p, n, e).

(** logger.py 65-80: float(dtau), then model.params.items() *)
Definition log_error (c : call) (m : model) : option exn :=
  match a_dtau c with
  | Some e => Some e
  | None => match m_params _ m with None => Some AttributeError | Some _ => None end
  end.

(** evolve.py 10-18 *)
Definition updater_error (n : network) : option exn :=
  if string_dec (update_type n) "full" then None
  else if string_dec (update_type n) "simple" then None
  else Some ValueError.

(** evolve.py 40-43: one pass over bonds; a simple update first meets the types *)
Fixpoint pass (k : nat) (m : model) (bs : list bond) (t : kinds) (p : proc) (n : network) : outcome * kinds :=
  match bs with
  | [] => ((p, n, None), t)
  | b :: bs =>
      match (if string_dec (update_type n) "simple" then update_kinds (kind_of (n_dtype _ n)) b t else Ok t) with
      | Err e => ((p, n, Some e), t)
      | Ok t' => match step (upd k b) (Some m) p n with
                 | (p', n', None) => pass k m bs t' p' n'
                 | r => (r, t')
                 end
      end
  end.
(** evolve.py 39-44 *)
Fixpoint loop (k : nat) (m : model) (steps : nat) (t : kinds) (p : proc) (n : network) : outcome :=
  match steps with
  | 0 => (p, n, None)
  | S steps =>
      match pass k m (n_bonds _ n) t p n with
      | ((p', n', None), t') => loop k m steps t' p' (n_with_lists dtype n' (n_sites _ n') (rev (n_bonds _ n')))
      | (r, _) => r
      end
  end.

(** the types at the start: all tensors of the network have its type, and so have the
    weights, lambda_tensors.py 18-19 *)
Definition start_kinds (n : network) : kinds :=
  (fun _ => kind_of (n_dtype _ n), new_lambda kind (kind_of (n_dtype _ n)) (n_bonds _ n)).

(** evolve.py 31-56 *)
Definition evolve_stage (k : nat) (m : model) (p : proc) (n : network) : outcome :=
  match build p n m with
  | Some e => (p, n, Some e)
  | None => match updater_error n with
            | Some e => (p, n, Some e)
            | None => match a_steps (ask k) with
                      | None => (p, n, Some TypeError)
                      | Some steps => loop k m steps (start_kinds n) p n
                      end
            end
  end.

(** ipeps.py 112-115 *)
Definition stages (k : nat) (m : model) (p : proc) (n : network) : outcome :=
  match log_error (ask k) m with
  | Some e => (p, n, Some e)
  | None => before (before (step (sweep k) None p n) (evolve_stage k m)) (step (sweep k) None)
  end.

(** the values of the tensors of the table *)
Definition held (p : proc) (n : network) (s : site) : V :=
  match dget (p_tbl _ _ _ _ p) s with
  | Some x => st_val _ _ x
  | None => fresh (n_dtype _ n) (dims_of V dtype cls pval p n) (uniform 0) 0
  end.

(** the part of ipeps.py 99-115 that Process.v leaves open *)
Definition front (k : nat) : kernel := fun p n m =>
  match m with
  | None => (held p n, n_bonds _ n, Some AttributeError)
  | Some m => let '(p', n', e) := stages k m p n in (held p' n, n_bonds _ n', e)
  end.
End Front.
