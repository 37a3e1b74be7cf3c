(** Model of the unit cell: sites, bonds, and the two list builders of
    [acetn/ipeps/tensor_network.py], plus an independent description of the
    periodic lattice. *)
From Coq Require Import List Arith Lia Permutation.
From Verif Require Import ListAux.
Import ListNotations.

(** ipeps/bond.py 4-22: a site is a coordinate pair, a bond carries the two
    sites and the direction k (0=left, 1=up, 2=right, 3=down). *)
Notation site := (nat * nat)%type.
Record bond := Bond { b_s1 : site; b_s2 : site; b_k : nat }.

Definition site_eq_dec (a b : site) : {a = b} + {a <> b}.
Proof. decide equality; apply Nat.eq_dec. Defined.
Definition bond_eq_dec (a b : bond) : {a = b} + {a <> b}.
Proof. decide equality; try apply Nat.eq_dec; apply site_eq_dec. Defined.

(** tensor_network.py 164-169, the horizontal loop (xi outer, yi inner). *)
Definition horizontal_bonds (nx ny : nat) : list bond :=
  flat_map (fun xi => map (fun yi =>
    let xj := (xi + 1) mod nx in Bond (xi, yi) (xj, yi) 2) (seq 0 ny)) (seq 0 nx).

(** tensor_network.py 171-176, the vertical loop (yi outer, xi inner). *)
Definition vertical_bonds (nx ny : nat) : list bond :=
  flat_map (fun yi => map (fun xi =>
    let yj := (yi + 1) mod ny in Bond (xi, yi) (xi, yj) 1) (seq 0 nx)) (seq 0 ny).

(** tensor_network.py 153-177 *)
Definition build_bond_list (nx ny : nat) : list bond :=
  horizontal_bonds nx ny ++ vertical_bonds nx ny.

(** tensor_network.py 179-193 *)
Definition build_site_list (nx ny : nat) : list site :=
  flat_map (fun xi => map (fun yi => (xi, yi)) (seq 0 ny)) (seq 0 nx).

(** ---- specification side: the torus, independent of the builders ---- *)

(** Sites of the cell. *)
Definition in_cell (nx ny : nat) (s : site) : Prop := fst s < nx /\ snd s < ny.

(** [adjacent nx ny k s t]: going one step in direction k from s on the
    periodic lattice gives t.  Stated as a relation without [mod]. *)
Definition succ_mod (n a b : nat) : Prop :=
  (a + 1 < n /\ b = a + 1) \/ (a + 1 = n /\ b = 0).
Definition adjacent (nx ny k : nat) (s t : site) : Prop :=
  match k with
  | 0 => succ_mod nx (fst t) (fst s) /\ snd t = snd s
  | 1 => fst t = fst s /\ succ_mod ny (snd s) (snd t)
  | 2 => succ_mod nx (fst s) (fst t) /\ snd t = snd s
  | 3 => fst t = fst s /\ succ_mod ny (snd t) (snd s)
  | _ => False
  end.

(** The two ends of a bond, each with the direction in which the bond leaves. *)
Definition bond_ends (b : bond) : list (site * nat) :=
  [(b_s1 b, b_k b); (b_s2 b, (b_k b + 2) mod 4)].

(** All (site, direction) pairs of the cell. *)
Definition cell_sides (nx ny : nat) : list (site * nat) :=
  list_prod (list_prod (seq 0 nx) (seq 0 ny)) [0; 1; 2; 3].

(** Torus neighbour as a function (dir 0 left, 1 up, 2 right, 3 down). *)
Definition nbr (nx ny k : nat) (s : site) : site :=
  match k with
  | 0 => ((fst s + nx - 1) mod nx, snd s)
  | 1 => (fst s, (snd s + 1) mod ny)
  | 2 => ((fst s + 1) mod nx, snd s)
  | _ => (fst s, (snd s + ny - 1) mod ny)
  end.
