(** Property C01: every lattice link is a bond exactly once. *)
From Coq Require Import List Arith Lia Permutation.
From Verif Require Import Lattice LatticeFacts.
Import ListNotations.

Theorem C01_every_link_exactly_once (nx ny : nat) :
  Permutation (flat_map bond_ends (build_bond_list nx ny)) (cell_sides nx ny).
Proof. exact (bond_ends_perm nx ny). Qed.

Theorem C01_bonds_join_neighbours (nx ny : nat) (b : bond) :
  In b (build_bond_list nx ny) ->
  in_cell nx ny (b_s1 b) /\ in_cell nx ny (b_s2 b) /\
  adjacent nx ny (b_k b) (b_s1 b) (b_s2 b) /\
  adjacent nx ny ((b_k b + 2) mod 4) (b_s2 b) (b_s1 b).
Proof. exact (bond_list_adjacent nx ny b). Qed.

Theorem C01_no_duplicates_and_counts (nx ny : nat) :
  NoDup (build_bond_list nx ny) /\ length (build_bond_list nx ny) = 2 * (nx * ny) /\
  NoDup (build_site_list nx ny) /\ length (build_site_list nx ny) = nx * ny /\
  (forall s, In s (build_site_list nx ny) <-> in_cell nx ny s).
Proof.
  exact (conj (NoDup_bond_list nx ny) (conj (length_bond_list nx ny)
    (conj (NoDup_site_list nx ny) (conj (length_site_list nx ny) (in_site_list nx ny))))).
Qed.

(** Non-vacuity: a 2x3 cell has 12 bonds; one of them wraps around. *)
Example C01_example : In (Bond (1, 2) (0, 2) 2) (build_bond_list 2 3) /\
  length (build_bond_list 2 3) = 12.
Proof. vm_compute. intuition. Qed.

Print Assumptions C01_every_link_exactly_once.
Print Assumptions C01_bonds_join_neighbours.
Print Assumptions C01_no_duplicates_and_counts.
