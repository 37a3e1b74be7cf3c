(** Tensors over a numerically closed field and the torch operations used by
    the source: einsum, reshape, permute, conj, norm, abs().max(), scalar
    multiplication, slicing, matmul, kron.  A tensor is a shape and a function
    on index lists; entries outside the shape are irrelevant. *)
From Coq Require Import String Ascii.
From mathcomp Require Import all_ssreflect all_algebra.
From Verif Require Import Base.
Set Implicit Arguments.
Unset Strict Implicit.
Unset Printing Implicit Defensive.
Import GRing.Theory Num.Theory.
Local Open Scope ring_scope.

(** ---- index lists ---- *)

(** [in_range sh i]: i is a valid multi-index for shape sh. *)
Fixpoint in_range (sh i : seq nat) : bool :=
  match sh, i with
  | [::], [::] => true
  | d :: sh', x :: i' => (x < d)%N && in_range sh' i'
  | _, _ => false
  end.

(** number of elements *)
Definition numel (sh : seq nat) : nat := foldr muln 1%N sh.

(** row-major position of a multi-index and its inverse *)
Fixpoint ravel (sh i : seq nat) : nat :=
  match sh, i with
  | d :: sh', x :: i' => (x * numel sh' + ravel sh' i')%N
  | _, _ => 0%N
  end.
Fixpoint unravel (sh : seq nat) (n : nat) : seq nat :=
  match sh with
  | [::] => [::]
  | d :: sh' => (n %/ numel sh')%N :: unravel sh' (n %% numel sh')%N
  end.

(** all valid multi-indices of a shape, in row-major order *)
Fixpoint indices (sh : seq nat) : seq (seq nat) :=
  match sh with
  | [::] => [:: [::]]
  | d :: sh' => flatten [seq [seq x :: i | i <- indices sh'] | x <- iota 0 d]
  end.

(** ---- parsing of einsum specifications ---- *)

Definition label := ascii.

Fixpoint split_at (c : ascii) (s acc : seq ascii) : seq (seq ascii) :=
  match s with
  | [::] => [:: rev acc]
  | x :: s' => if Ascii.eqb x c then rev acc :: split_at c s' [::]
               else split_at c s' (x :: acc)
  end.

(** "ab,bc->ac" is parsed to ([["ab"],["bc"]], "ac"). *)
Definition parse (spec : string) : option (seq (seq label) * seq label) :=
  match split_at "-" (list_ascii_of_string spec) [::] with
  | [:: lhs; rhs] =>
      match rhs with
      | gt :: out => if Ascii.eqb gt ">" then Some (split_at "," lhs [::], out) else None
      | [::] => None
      end
  | _ => None
  end.

Fixpoint lookup {B} (dflt : B) (l : label) (env : seq (label * B)) : B :=
  match env with
  | [::] => dflt
  | (l', v) :: env' => if Ascii.eqb l l' then v else lookup dflt l env'
  end.

Fixpoint mem_label (l : label) (s : seq label) : bool :=
  match s with [::] => false | x :: s' => Ascii.eqb l x || mem_label l s' end.

(** labels of [s] that are not in [out], without repetition, in order of first
    occurrence *)
Fixpoint new_labels (s out : seq label) : seq label :=
  match s with
  | [::] => [::]
  | x :: s' => if mem_label x out then new_labels s' out else x :: new_labels s' (x :: out)
  end.

Section Ops.
Variable C : numClosedFieldType.

Record tensor := Tensor { shape : seq nat; at_ : seq nat -> C }.

(** sum over 0 <= i < n *)
Definition sumn (n : nat) (F : nat -> C) : C := \sum_(i < n) F i.

(** Sum over all values of the listed labels, extending the environment. *)
Fixpoint sum_labels (ls : seq (label * nat)) (env : seq (label * nat))
    (f : seq (label * nat) -> C) : C :=
  match ls with
  | [::] => f env
  | (l, d) :: ls' => sumn d (fun i => sum_labels ls' ((l, i) :: env) f)
  end.

Fixpoint prod_list (l : seq C) : C :=
  match l with
  | [::] => 1
  | [:: x] => x
  | x :: l' => x * prod_list l'
  end.

(** label/dimension pairs of the operands *)
Fixpoint dim_env (ins : seq (seq label)) (ts : seq tensor) : seq (label * nat) :=
  match ins, ts with
  | ls :: ins', t :: ts' => zip ls (shape t) ++ dim_env ins' ts'
  | _, _ => [::]
  end.

Fixpoint ranks_ok (ins : seq (seq label)) (ts : seq tensor) : bool :=
  match ins, ts with
  | [::], [::] => true
  | ls :: ins', t :: ts' => (size ls == size (shape t)) && ranks_ok ins' ts'
  | _, _ => false
  end.

Definition dims_ok (dm : seq (label * nat)) : bool :=
  all (fun p => lookup 0%N p.1 dm == p.2) dm.

Definition factor (env : seq (label * nat)) (ls : seq label) (t : tensor) : C :=
  at_ t [seq lookup 0%N l env | l <- ls].

Fixpoint factors (env : seq (label * nat)) (ins : seq (seq label)) (ts : seq tensor) : seq C :=
  match ins, ts with
  | ls :: ins', t :: ts' => factor env ls t :: factors env ins' ts'
  | _, _ => [::]
  end.

(** torch.einsum, with strict equality of dimensions. *)
Definition einsum (spec : string) (ts : seq tensor) : res tensor :=
  match parse spec with
  | None => Err ValueError
  | Some (ins, out) =>
      if ranks_ok ins ts then
        let dm := dim_env ins ts in
        if dims_ok dm && all (fun l => mem_label l (map fst dm)) out then
          let summed := [seq (l, lookup 0%N l dm) | l <- new_labels (flatten ins) out] in
          Ok (Tensor [seq lookup 0%N l dm | l <- out]
                (fun idx => sum_labels summed (zip out idx)
                              (fun env => prod_list (factors env ins ts))))
        else Err ShapeError
      else Err ShapeError
  end.

(** Tensor.reshape / Tensor.view (row-major element order is kept). *)
Definition reshape (t : tensor) (sh : seq nat) : res tensor :=
  if numel sh == numel (shape t) then
    Ok (Tensor sh (fun idx => at_ t (unravel (shape t) (ravel sh idx))))
  else Err ShapeError.

(** Tensor.permute: result dimension j is source dimension (nth j p). *)
Definition permute (t : tensor) (p : seq nat) : tensor :=
  Tensor [seq nth 0%N (shape t) j | j <- p]
         (fun idx => at_ t [seq nth 0%N idx (index j p) | j <- iota 0 (size p)]).

Definition tmap (f : C -> C) (t : tensor) : tensor :=
  Tensor (shape t) (fun idx => f (at_ t idx)).

(** torch.conj *)
Definition conj (t : tensor) : tensor := tmap (fun x => x^*) t.
(** scalar * tensor *)
Definition tscale (c : C) (t : tensor) : tensor := tmap (fun x => c * x) t.

(** elementwise sum of two tensors of equal shape *)
Definition tadd (a b : tensor) : res tensor :=
  if shape a == shape b then Ok (Tensor (shape a) (fun idx => at_ a idx + at_ b idx))
  else Err ShapeError.

(** Tensor.norm(): Frobenius norm *)
Definition sqnorm (t : tensor) : C := \sum_(i <- indices (shape t)) `|at_ t i| ^+ 2.
Definition norm (t : tensor) : C := sqrtC (sqnorm t).

(** Tensor.abs().max() *)
Definition maxC (x y : C) : C := if x <= y then y else x.
Definition absmax (t : tensor) : C :=
  foldr (fun i m => maxC `|at_ t i| m) 0 (indices (shape t)).

(** t / scalar, an error for a zero scalar *)
Definition tdiv (t : tensor) (c : C) : res tensor :=
  if c == 0 then Err ZeroNorm else Ok (tscale c^-1 t).

(** matrix product *)
Definition matmul (a b : tensor) : res tensor :=
  match shape a, shape b with
  | [:: m; k], [:: k'; n] =>
      if k == k' then
        Ok (Tensor [:: m; n] (fun idx => match idx with
              | [:: i; j] => sumn k (fun x => at_ a [:: i; x] * at_ b [:: x; j])
              | _ => 0 end))
      else Err ShapeError
  | _, _ => Err ShapeError
  end.

(** matrix adjoint (.mH) *)
Definition adjoint (a : tensor) : tensor :=
  Tensor (rev (shape a)) (fun idx => (at_ a (rev idx))^*).

(** identity matrix torch.eye *)
Definition eye (n : nat) : tensor :=
  Tensor [:: n; n] (fun idx => match idx with [:: i; j] => (i == j)%:R | _ => 0 end).

(** torch.kron for matrices *)
Definition kron (a b : tensor) : res tensor :=
  match shape a, shape b with
  | [:: m; n], [:: p; q] =>
      Ok (Tensor [:: (m * p)%N; (n * q)%N] (fun idx => match idx with
            | [:: i; j] => at_ a [:: (i %/ p)%N; (j %/ q)%N] * at_ b [:: (i %% p)%N; (j %% q)%N]
            | _ => 0 end))
  | _, _ => Err ShapeError
  end.

(** t[..., b0:b1]: slice of the last dimension *)
Definition slice_last (t : tensor) (b0 b1 : nat) : tensor :=
  Tensor (rcons (take (size (shape t)).-1 (shape t)) (b1 - b0)%N)
         (fun idx => at_ t (rcons (take (size idx).-1 idx) (nth 0%N idx (size idx).-1 + b0)%N)).

(** t[region] = v: assignment to a block of a tensor.  [inb] tells which indices
    lie in the block, [sub] maps them to indices of v, [vs] is the block's shape. *)
Definition set_region (t : tensor) (vs : seq nat) (inb : seq nat -> bool)
    (sub : seq nat -> seq nat) (v : tensor) : res tensor :=
  if shape v == vs then
    Ok (Tensor (shape t) (fun idx => if inb idx then at_ v (sub idx) else at_ t idx))
  else Err ShapeError.

(** equality of tensors: same shape and same in-range entries *)
Definition teq (a b : tensor) : Prop :=
  shape a = shape b /\ forall i, in_range (shape a) i -> at_ a i = at_ b i.

End Ops.
Arguments sumn {C} n F.
Arguments Tensor {C} shape at_.
