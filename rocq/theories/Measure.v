(** Model of acetn/measurement/measure.py.  The printed text is not modelled; the
    dictionary [measurements] is only written and immediately read back, so only
    [measurements_ave] is kept. *)
From Coq Require Import String Ascii.
From mathcomp Require Import all_ssreflect all_algebra.
From Verif Require Import Base Lattice Mover Tensor Rdm.
Set Implicit Arguments.
Unset Strict Implicit.
Unset Printing Implicit Defensive.
Import GRing.Theory Num.Theory.
Local Open Scope ring_scope.
Local Open Scope string_scope.

(** a Python dictionary with string keys, in insertion order *)
Section Dict.
Variable V : Type.
Definition dict := seq (string * V).
Fixpoint dget (k : string) (d : dict) : option V :=
  match d with [::] => None | (k', v) :: d' => if String.eqb k k' then Some v else dget k d' end.
Fixpoint dset (k : string) (v : V) (d : dict) : dict :=
  match d with
  | [::] => [:: (k, v)]
  | (k', v') :: d' => if String.eqb k k' then (k, v) :: d' else (k', v') :: dset k v d'
  end.
Definition keys (d : dict) : seq string := map fst d.
End Dict.
Arguments dget {V}. Arguments dset {V}. Arguments keys {V}.

Section Measure.
Variable C : numClosedFieldType.
Notation tensor := (tensor C).

(** what measure() uses of a Model (model/model.py 100-171): the returned
    operators, with .mat already taken when present *)
Record model := Model {
  m_dim : nat;
  one_site_observables : site -> dict tensor;
  two_site_observables : bond -> dict tensor;
  one_site_hamiltonian : site -> option tensor;
  two_site_hamiltonian : bond -> tensor }.

(** x / y for scalars; a zero norm would give inf or NaN in the source *)
Definition rdiv (x y : C) : res C := if y == 0 then Err ZeroNorm else Ok (x / y).

(** measurements_ave[k] op= ... *)
Definition dict_add (k : string) (v : C) (d : dict C) : res (dict C) :=
  match dget k d with None => Err KeyError | Some x => Ok (dset k (x + v) d) end.
Definition dict_div (k : string) (v : nat) (d : dict C) : res (dict C) :=
  match dget k d with
  | None => Err KeyError
  | Some x => if v == 0%N then Err ZeroDivision else Ok (dset k (x / v%:R) d)
  end.

(** measure.py 184, 198, 134, 163 *)
Definition measure_one_site (rdm operator : tensor) : res C :=
  let! t := einsum "Pp,pP->" [:: rdm; operator] in Ok ('Re (at_ t [::])).
Definition measure_two_site (rdm operator : tensor) : res C :=
  let! t := einsum "PQpq,pqPQ->" [:: rdm; operator] in Ok ('Re (at_ t [::])).
Definition site_norm (rdm : tensor) : res C := let! t := einsum "pp->" [:: rdm] in Ok ('Re (at_ t [::])).
Definition bond_norm (rdm : tensor) : res C := let! t := einsum "pqpq->" [:: rdm] in Ok ('Re (at_ t [::])).

Variable m : model.
Variable rdm1 : site -> res tensor.   (* rdm[site] *)
Variable rdm2 : bond -> res tensor.   (* rdm[bond] *)

(** measure.py 31-49 *)
Definition measure_site_energy (s : site) (rdm : tensor) (nrm : C) : res C :=
  match one_site_hamiltonian m s with
  | Some h => let! x := measure_one_site rdm h in rdiv x nrm
  | None => Ok 0
  end.
(** 52-68 *)
Definition measure_bond_energy (b : bond) (rdm : tensor) (nrm : C) : res C :=
  let! h := reshape (two_site_hamiltonian m b) (nseq 4 (m_dim m)) in
  let! x := measure_two_site rdm h in rdiv x nrm.
(** 71-89 *)
Definition measure_site_observables (s : site) (rdm : tensor) (nrm : C) (ave : dict C) : res (dict C) :=
  for_each (one_site_observables m s) (fun '(op_name, site_op) ave =>
    let! x := measure_one_site rdm site_op in
    let! v := rdiv x nrm in dict_add op_name v ave) ave.
(** 92-111 *)
Definition measure_bond_observables (b : bond) (rdm : tensor) (nrm : C) (ave : dict C) : res (dict C) :=
  for_each (two_site_observables m b) (fun '(op_name, bond_op) ave =>
    let! op := reshape bond_op (nseq 4 (m_dim m)) in
    let! x := measure_two_site rdm op in
    let! v := rdiv x nrm in dict_add op_name v ave) ave.

Definition nonempty {A} (l : seq A) : bool := if l is [::] then false else true.

(** 114-141 *)
Definition calculate_one_site_measurements (site_list : seq site) (ave : dict C) : res (dict C) :=
  let ks := keys (one_site_observables m (0, 0)%N) in
  let ave := foldl (fun d k => dset k 0 d) ave ks in
  let! ave := for_each site_list (fun s ave =>
    let! rho := rdm1 s in
    let! nrm := site_norm rho in
    let! e := measure_site_energy s rho nrm in
    let! ave := dict_add "Energy" e ave in
    if nonempty ks then measure_site_observables s rho nrm ave else Ok ave) ave in
  for_each ks (fun k ave => dict_div k (size site_list) ave) ave.

(** 144-170 *)
Definition calculate_two_site_measurements (bond_list : seq bond) (ave : dict C) : res (dict C) :=
  match bond_list with
  | [::] => Err IndexError
  | b0 :: _ =>
    let ks := keys (two_site_observables m b0) in
    let ave := foldl (fun d k => dset k 0 d) ave ks in
    let! ave := for_each bond_list (fun b ave =>
      let! rho := rdm2 b in
      let! nrm := bond_norm rho in
      let! e := measure_bond_energy b rho nrm in
      let! ave := dict_add "Energy" e ave in
      if nonempty ks then measure_bond_observables b rho nrm ave else Ok ave) ave in
    for_each ks (fun k ave => dict_div k (size bond_list) ave) ave
  end.

(** 5-28 *)
Definition measure (site_list : seq site) (bond_list : seq bond) : res (dict C) :=
  let! ave := calculate_one_site_measurements site_list [:: ("Energy", 0)] in
  let! ave := calculate_two_site_measurements bond_list ave in
  dict_div "Energy" (size site_list) ave.

End Measure.
