(** Model of the Hamiltonians of samples/03_custom_model.py, 04_compass_model.py,
    05_honeycomb_ising.py and 06_kagome_ising.py, as expressions of Pauli operators (Pauli.v).

    Python evaluates a*b*c from the left and unary minus before the product, so -jz*Z*Z
    is ((-jz)*Z)*Z. *)
From Coq Require Import String.
From mathcomp Require Import all_ssreflect all_algebra.
From Verif Require Import Base Lattice Neel Tensor Pauli.
Set Implicit Arguments.
Unset Strict Implicit.
Unset Printing Implicit Defensive.
Import GRing.Theory Num.Theory.
Local Open Scope ring_scope.
Local Open Scope string_scope.

Section Samples.
Variable C : numClosedFieldType.
Notation X := (PL C LX).
Notation Z := (PL C LZ).
Notation I := (PL C LI).

(** ising.py 14-16, 19-21 and 03_custom_model.py 25-28, 19-22 *)
Definition square_one (hx : C) (s : site) : pexpr C := PScale false (- hx) X.
Definition square_two (jz : C) (b : bond) : pexpr C := PMul (PScale false (- jz) Z) Z.

(** 04_compass_model.py 25-29 *)
Definition compass_one (hx hz : C) (s : site) : pexpr C := PSub (PScale false (- hx) X) (PScale false hz Z).
(** 31-38; the method returns None if there is no direction *)
Definition compass_two (jx jz : C) (b : bond) : option (pexpr C) :=
  match bond_direction b with
  | Some d =>
      if String.eqb d "+x" || String.eqb d "-x" then Some (PMul (PScale false (- jx) X) X)
      else if String.eqb d "+y" || String.eqb d "-y" then Some (PMul (PScale false (- jz) Z) Z)
      else None
  | None => None
  end.

(** 05_honeycomb_ising.py 27-31 *)
Definition honeycomb_one (jz hx : C) (s : site) : pexpr C :=
  PSub (PMul (PScale false (- jz) Z) Z) (PScale false hx (PAdd (PMul X I) (PMul I X))).
(** 33-44; no case matches if there is no direction, and the method returns None *)
Definition honeycomb_two (jz : C) (b : bond) : option (pexpr C) :=
  match bond_direction b with
  | Some d =>
      if String.eqb d "+x" then Some (PMul (PScale false (- jz) (PMul I Z)) (PMul Z I))
      else if String.eqb d "-x" then Some (PMul (PScale false (- jz) (PMul Z I)) (PMul I Z))
      else if String.eqb d "+y" then Some (PMul (PScale false (- jz) (PMul Z I)) (PMul I Z))
      else if String.eqb d "-y" then Some (PMul (PScale false (- jz) (PMul I Z)) (PMul Z I))
      else None
  | None => None
  end.

Notation three a b c := (PMul (PMul a b) c).
(** 06_kagome_ising.py 30-35 *)
Definition kagome_one (jz hx : C) (s : site) : pexpr C :=
  PSub (PScale false (- jz) (PAdd (three I Z Z) (three Z Z I)))
       (PScale false hx (PAdd (PAdd (three X I I) (three I X I)) (three I I X))).
(** 37-48 *)
Definition kagome_two (jz : C) (b : bond) : option (pexpr C) :=
  let term a a' c := PSub (PMul (PScale false (- jz) a) c) (PMul (PScale false jz a') c) in
  let term' a c c' := PSub (PMul (PScale false (- jz) a) c) (PMul (PScale false jz a) c') in
  match bond_direction b with
  | Some d =>
      if String.eqb d "-x" then Some (term (three Z I I) (three I Z I) (three I I Z))
      else if String.eqb d "+x" then Some (term' (three I I Z) (three Z I I) (three I Z I))
      else if String.eqb d "-y" then Some (term (three I Z I) (three I I Z) (three Z I I))
      else if String.eqb d "+y" then Some (term' (three Z I I) (three I Z I) (three I I Z))
      else None
  | None => None
  end.

(** gate.py 73, 97: the matrix of an operator a model returned.  An operator that cannot
    be built would have raised; the theorems exclude it. *)
Definition matrix (complex : bool) (e : pexpr C) : tensor C :=
  if peval complex e is Ok q then mat q else Tensor [::] (fun _ => 0).
Definition matrix_opt (complex : bool) (e : option (pexpr C)) : tensor C :=
  if e is Some e then matrix complex e else Tensor [::] (fun _ => 0).
End Samples.
