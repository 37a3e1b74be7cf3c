(** Properties C07 (evolution schedule), C08 (splitting an evolution),
    C09 (timing labels). *)
From Coq Require Import List Arith Lia Bool.
From Verif Require Import Evolve Lattice.
Import ListNotations.

Section Statements.
Variables (B S T : Type).
Variable bond_update : B -> S -> S * (T * T).
Variables (tzero : T) (tadd : T -> T -> T) (tdiv : T -> nat -> T).
Notation evolve := (evolve_loop B S T bond_update tzero tadd tdiv).

(** C07: the state after [steps] steps is that of performing the updates of
    the alternating schedule, and the schedule contains every bond exactly
    once per step. *)
Theorem C07_schedule debug steps s bonds :
  l_state _ _ _ (evolve debug steps s bonds) =
  run_updates B S T bond_update s (schedule B bonds steps).
Proof. exact (evolve_state B S T bond_update tzero tadd tdiv debug steps s bonds). Qed.

Theorem C07_once_per_step dec bonds steps b :
  count_occ dec (schedule B bonds steps) b = steps * count_occ dec bonds b.
Proof. exact (count_schedule B dec bonds steps b). Qed.

Theorem C07_palindrome bonds steps :
  Nat.even steps = true -> rev (schedule B bonds steps) = schedule B bonds steps.
Proof. exact (schedule_rev_even B bonds steps). Qed.

(** C08: two calls in a row are one call with the sum of the steps. *)
Theorem C08_split debug debug' n m s bonds :
  let first := evolve debug n s bonds in
  let second := evolve debug' m (l_state _ _ _ first) (l_bonds _ _ _ first) in
  let whole := evolve debug (n + m) s bonds in
  l_state _ _ _ second = l_state _ _ _ whole /\ l_bonds _ _ _ second = l_bonds _ _ _ whole.
Proof.
  cbv zeta. rewrite !evolve_state, !evolve_bonds, schedule_app, run_updates_app.
  split; [reflexivity|]. unfold step_bonds. rewrite Nat.even_add.
  destruct (Nat.even n), (Nat.even m); simpl; auto. apply rev_involutive.
Qed.

Theorem C08_bond_order_after debug n s bonds :
  l_bonds _ _ _ (evolve debug n s bonds) = if Nat.even n then bonds else rev bonds.
Proof. exact (evolve_bonds B S T bond_update tzero tadd tdiv debug n s bonds). Qed.

(** C09: the figure printed as "full update" (first component) is the average
    over the window of the first runtime returned by bond_update, which is the
    ctm time; the figure printed as "ctm update" is the average of the second
    one, the update time. *)
Theorem C09_labels_exchanged steps s bonds :
  l_log _ _ _ (evolve true steps s bonds) =
  map (fun w =>
     let ctm_times := map fst (window_runtimes B S T bond_update s bonds w) in
     let upd_times := map snd (window_runtimes B S T bond_update s bonds w) in
     (average B T tzero tadd tdiv bonds ctm_times, average B T tzero tadd tdiv bonds upd_times))
    (seq 0 (steps / 10)).
Proof. exact (proj2 (proj2 (evolve_timers B S T bond_update tzero tadd tdiv steps s bonds))). Qed.
End Statements.

(** The expected labelling (full update = average of the update times) is false. *)
Theorem C09_expected_labels_refuted :
  exists (bond_update : nat -> unit -> unit * (nat * nat)) bonds,
  map fst (l_log _ _ _ (evolve_loop nat unit nat bond_update 0 Nat.add Nat.div true 10 tt bonds)) <>
  map (fun w => average nat nat 0 Nat.add Nat.div bonds
                  (map snd (window_runtimes nat unit nat bond_update tt bonds w))) (seq 0 1).
Proof. exists (fun _ _ => (tt, (3, 5))), [7]. vm_compute. discriminate. Qed.

Example C07_example : schedule nat [0;1;2] 3 = [0;1;2;2;1;0;0;1;2] /\
  l_state _ _ _ (evolve_loop nat (list nat) nat (fun b s => (b :: s, (1, 1))) 0 Nat.add Nat.div
                   false 2 [] [0;1;2]) = [0;1;2;2;1;0].
Proof. vm_compute. auto. Qed.
Example C08_example :
  l_bonds _ _ _ (evolve_loop nat (list nat) nat (fun b s => (b :: s, (1, 1))) 0 Nat.add Nat.div
                   false 3 [] [0;1;2]) = [2;1;0].
Proof. vm_compute. auto. Qed.
Example C09_example :
  l_log _ _ _ (evolve_loop nat unit nat (fun _ _ => (tt, (3, 5))) 0 Nat.add Nat.div true 20 tt [1;2])
  = [(3, 5); (3, 5)].
Proof. vm_compute. auto. Qed.

Print Assumptions C07_schedule.
Print Assumptions C07_once_per_step.
Print Assumptions C07_palindrome.
Print Assumptions C08_split.
Print Assumptions C08_bond_order_after.
Print Assumptions C09_labels_exchanged.
Print Assumptions C09_expected_labels_refuted.
