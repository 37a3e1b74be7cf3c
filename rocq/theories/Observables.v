(** Model of the observables of the models shipped with the library (models/ising.py,
    heisenberg.py) and of the samples 03-06, and of the models they are part of, as
    measure.py sees them.  Operators are expressions of Pauli operators (Pauli.v). *)
From Coq Require Import String.
From mathcomp Require Import all_ssreflect all_algebra.
From Verif Require Import Base Lattice Neel Tensor Pauli Samples Measure.
Set Implicit Arguments.
Unset Strict Implicit.
Unset Printing Implicit Defensive.
Import GRing.Theory Num.Theory.
Local Open Scope ring_scope.
Local Open Scope string_scope.

Section Observables.
Variable C : numClosedFieldType.
Notation X := (PL C LX).
Notation Y := (PL C LY).
Notation Z := (PL C LZ).
Notation I := (PL C LI).
Notation three a b c := (PMul (PMul a b) c).

(** the operators a Model returns, before .mat is taken *)
Record recipe := Recipe {
  r_dim : nat;
  r_one : site -> dict (pexpr C);
  r_two : bond -> dict (pexpr C);
  r_site : site -> option (pexpr C);
  r_bond : bond -> option (pexpr C) }.

(** model/model.py 100-126: no observables by default *)
Definition none {A} : A -> dict (pexpr C) := fun _ => [::].

(** ising.py 8-11 and 03_custom_model.py 13-16 *)
Definition spin_observables (s : site) : dict (pexpr C) := [:: ("sx", X); ("sz", Z)].
Definition ising_recipe (jz hx : C) : recipe :=
  Recipe 2 spin_observables none (fun s => Some (square_one hx s)) (fun b => Some (square_two jz b)).

(** heisenberg.py 13-20, 22-26 *)
Definition staggered_observables (s : site) : dict (pexpr C) :=
  if observables_negated s then [:: ("sx", PNeg X); ("sz", PNeg Z)] else [:: ("sx", X); ("sz", Z)].
Definition heisenberg_recipe (J : C) : recipe :=
  Recipe 2 staggered_observables none (fun _ => None)
    (fun _ => Some (PScale false (4%:R^-1 * J) (PAdd (PAdd (PMul X X) (PMul Y Y)) (PMul Z Z)))).

(** 04_compass_model.py 14-23; without a direction phi is unbound and the method raises,
    here the dictionary lacks phi.  -Z*Z is (-Z)*Z. *)
Definition compass_observables (b : bond) : dict (pexpr C) :=
  let chi := ("chi", PSub (PMul X Z) (PMul Z X)) in
  match bond_direction b with
  | Some d =>
      if String.eqb d "+x" || String.eqb d "-x" then [:: ("phi", PMul X X); chi]
      else if String.eqb d "+y" || String.eqb d "-y" then [:: ("phi", PMul (PNeg Z) Z); chi]
      else [:: chi]
  | None => [:: chi]
  end.
Definition compass_recipe (jx jz hx hz : C) : recipe :=
  Recipe 2 spin_observables compass_observables (fun s => Some (compass_one hx hz s)) (compass_two jx jz).

(** 05_honeycomb_ising.py 10-25 *)
Definition honeycomb_observables (s : site) : dict (pexpr C) :=
  let mx_A := PMul X I in
  let mx_B := PMul I X in
  let mz_A := PMul Z I in
  let mz_B := PMul I Z in
  [:: ("mag_x(A)", mx_A); ("mag_x(B)", mx_B); ("mag_z(A)", mz_A); ("mag_z(B)", mz_B);
      ("mag_x", PAdd mx_A mx_B); ("mag_z", PAdd mz_A mz_B)].
Definition honeycomb_recipe (jz hx : C) : recipe :=
  Recipe 4 honeycomb_observables none (fun s => Some (honeycomb_one jz hx s)) (honeycomb_two jz).

(** 06_kagome_ising.py 10-28 *)
Definition kagome_observables (s : site) : dict (pexpr C) :=
  let mx_A := three X I I in
  let mx_B := three I X I in
  let mx_C := three I I X in
  let mz_A := three Z I I in
  let mz_B := three I Z I in
  let mz_C := three I I Z in
  [:: ("mag_x(A)", mx_A); ("mag_x(B)", mx_B); ("mag_x(C)", mx_C); ("mag_z(A)", mz_A); ("mag_z(B)", mz_B); ("mag_z(C)", mz_C);
      ("mx", PDiv false (PAdd (PAdd mx_A mx_B) mx_C) 3%:R); ("mz", PDiv false (PAdd (PAdd mz_A mz_B) mz_C) 3%:R)].
Definition kagome_recipe (jz hx : C) : recipe :=
  Recipe 8 kagome_observables none (fun s => Some (kagome_one jz hx s)) (kagome_two jz).

(** what measure.py works with (measure.py 45, 65, 84, 105: .mat) *)
Definition taken (cx : bool) (d : dict (pexpr C)) : dict (tensor C) := [seq (kv.1, matrix cx kv.2) | kv <- d].
Definition as_model (cx : bool) (r : recipe) : model C :=
  Model (r_dim r) (fun s => taken cx (r_one r s)) (fun b => taken cx (r_two r b))
    (fun s => omap (matrix cx) (r_site r s)) (fun b => matrix_opt cx (r_bond r b)).
End Observables.
