(** Model of acetn/model/pauli_matrix.py and of the Hamiltonians in
    acetn/model/models/{heisenberg,ising}.py.

    An operator is its key, the matrix and whether the matrix has a complex dtype
    (torch.is_complex(self.mat)).  dtype and device attributes are only passed on
    and are left out.  Numbers carry a flag telling whether Python would make a
    real matrix complex when multiplying by them. *)
From Coq Require Import String Ascii.
From mathcomp Require Import all_ssreflect all_algebra.
From Verif Require Import Base Tensor.
Set Implicit Arguments.
Unset Strict Implicit.
Unset Printing Implicit Defensive.
Import GRing.Theory Num.Theory.
Local Open Scope ring_scope.
Local Open Scope string_scope.

Inductive letter := LX | LY | LZ | LI.

Section Pauli.
Variable C : numClosedFieldType.
Notation tensor := (tensor C).

(** torch.tensor of nested lists *)
Definition of_rows (r : nat) (c : nat) (rows : seq (seq C)) : tensor :=
  Tensor [:: r; c] (fun idx => match idx with [:: i; j] => nth 0 (nth [::] rows i) j | _ => 0 end).

Record pauli := Pauli { key : string; cplx : bool; mat : tensor }.

(** pauli_matrix.py 33-49 *)
Definition letter_key (l : letter) : string :=
  match l with LX => "X" | LY => "Y" | LZ => "Z" | LI => "I" end.
Definition make_letter (complex : bool) (l : letter) : pauli :=
  Pauli (letter_key l) complex
    (match l with
     | LX => of_rows 2 2 [:: [:: 0; 1]; [:: 1; 0]]
     | LY => let m := of_rows 2 2 [:: [:: 0; -1]; [:: 1; 0]] in if complex then tscale 'i m else m
     | LZ => of_rows 2 2 [:: [:: 1; 0]; [:: 0; -1]]
     | LI => of_rows 2 2 [:: [:: 1; 0]; [:: 0; 1]]
     end).

(** str.count('Y') *)
Fixpoint count_y (s : string) : nat :=
  match s with EmptyString => 0 | String c s' => ((if Ascii.eqb c "Y" then 1 else 0) + count_y s')%N end.

(** 65-70 *)
Definition pmul (a b : pauli) : res pauli :=
  let new_key := key a ++ key b in
  let phase : C :=
    if ~~ cplx a then (if (count_y new_key %% 2 == 0)%N && (count_y (key a) %% 2 != 0)%N then -1 else 1) else 1 in
  let! m := kron (mat a) (mat b) in
  Ok (Pauli new_key (cplx a || cplx b) (tscale phase m)).
(** 72, 90, 104: a number times an operator *)
Definition pscale (cc : bool) (c : C) (a : pauli) : pauli := Pauli (key a) (cc || cplx a) (tscale c (mat a)).
(** 88: a *= b returns a matrix, not an operator *)
Definition pimul (a b : pauli) : res tensor := kron (mat a) (mat b).
(** 119, 134 *)
Definition padd (a b : pauli) : res pauli :=
  let! m := tadd (mat a) (mat b) in Ok (Pauli (key a ++ key b) (cplx a || cplx b) m).
Definition psub (a b : pauli) : res pauli :=
  let! m := tadd (mat a) (tscale (-1) (mat b)) in Ok (Pauli (key a ++ key b) (cplx a || cplx b) m).
(** 145 *)
Definition pneg (a : pauli) : pauli := Pauli (key a) (cplx a) (tscale (-1) (mat a)).
(** 159 *)
Definition pdiv (cc : bool) (a : pauli) (c : C) : res pauli :=
  let! m := tdiv (mat a) c in Ok (Pauli (key a) (cc || cplx a) m).

(** expressions a user can write with them *)
Inductive pexpr :=
| PL (l : letter)
| PMul (a b : pexpr)
| PAdd (a b : pexpr)
| PSub (a b : pexpr)
| PNeg (a : pexpr)
| PScale (cc : bool) (c : C) (a : pexpr)
| PDiv (cc : bool) (a : pexpr) (c : C).

Fixpoint peval (complex : bool) (e : pexpr) : res pauli :=
  match e with
  | PL l => Ok (make_letter complex l)
  | PMul a b => let! x := peval complex a in let! y := peval complex b in pmul x y
  | PAdd a b => let! x := peval complex a in let! y := peval complex b in padd x y
  | PSub a b => let! x := peval complex a in let! y := peval complex b in psub x y
  | PNeg a => let! x := peval complex a in Ok (pneg x)
  | PScale cc c a => let! x := peval complex a in Ok (pscale cc c x)
  | PDiv cc a c => let! x := peval complex a in pdiv cc x c
  end.

(** ---- models ---- *)
Notation X := (PL LX).
Notation Y := (PL LY).
Notation Z := (PL LZ).
(** heisenberg.py 24-26; params.get('J') is None when absent *)
Definition heisenberg_two_site (complex : bool) (J : option C) : res pauli :=
  match J with
  | None => Err TypeError
  | Some J => peval complex (PScale false (4%:R^-1 * J) (PAdd (PAdd (PMul X X) (PMul Y Y)) (PMul Z Z)))
  end.
(** ising.py 14-16, 19-21 *)
Definition ising_one_site (complex : bool) (hx : option C) : res pauli :=
  match hx with None => Err TypeError | Some hx => peval complex (PScale false (- hx) X) end.
Definition ising_two_site (complex : bool) (jz : option C) : res pauli :=
  match jz with None => Err TypeError | Some jz => peval complex (PMul (PScale false (- jz) Z) Z) end.
End Pauli.
