(** Exceptions as values. *)
From Coq Require Import String.

(** The exceptions the modelled code can raise.  [ShapeError] stands for every
    RuntimeError torch raises on mismatching dimensions, [ZeroNorm] for a
    division by a zero norm or maximum (the program would produce NaN). *)
Inductive exn :=
| ShapeError | ZeroNorm | KeyError | ValueError | TypeError | AttributeError
| UnboundLocalError | NotImplementedError | IndexError | RuntimeError
| FileNotFoundError | ZeroDivision.

Inductive res (A : Type) := Ok (a : A) | Err (e : exn).
Arguments Ok {A} a.
Arguments Err {A} e.

Definition bind {A B} (m : res A) (f : A -> res B) : res B :=
  match m with Ok a => f a | Err e => Err e end.

Declare Scope res_scope.
Delimit Scope res_scope with res.
Notation "'let!' x ':=' m 'in' f" := (bind m (fun x => f))
  (at level 200, x pattern, m at level 100, f at level 200,
   format "'[v' 'let!'  x  ':='  m  'in'  '/' f ']'") : res_scope.
Open Scope res_scope.

(** Sequencing a list of computations that thread a state (a [for] loop whose
    body may raise). *)
Fixpoint for_each {A S} (l : list A) (body : A -> S -> res S) (s : S) : res S :=
  match l with
  | nil => Ok s
  | cons a l => let! s' := body a s in for_each l body s'
  end.

Lemma for_each_app {A S} (l1 l2 : list A) (body : A -> S -> res S) s :
  for_each (l1 ++ l2) body s = let! s' := for_each l1 body s in for_each l2 body s'.
Proof.
  revert s; induction l1; simpl; intros s; auto.
  destruct (body a s); simpl; auto.
Qed.
