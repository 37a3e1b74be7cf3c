(** Model of the imaginary-time evolution loop, acetn/evolution/evolve.py.

    The numerical bond update is an arbitrary function
    [bond_update : B -> S -> S * (T * T)] on an arbitrary state [S]; it returns
    the new state and the pair (ctm_time, upd_time) in the order of
    fast_full_update.py:69 (and simple_update.py:76).  [B] is the type of bonds.
    Timers are elements of a type [T] with addition and division by a positive
    integer; progress bar, log text and the total wall-clock time are omitted. *)
From Coq Require Import List Arith Lia Bool.
Import ListNotations.

Section Evolve.
Variables (B S T : Type).
Variable bond_update : B -> S -> S * (T * T).
Variables (tzero : T) (tadd : T -> T -> T) (tdiv : T -> nat -> T).

(** State of the loop: network state, ipeps.bond_list (which is reversed in
    place), the two timers and the figures logged so far, each as the pair
    (value printed after "full update:", value printed after "ctm update:"). *)
Record loop := Loop {
  l_state : S; l_bonds : list B; l_upd : T; l_ctm : T; l_log : list (T * T) }.

(** evolve.py 40-43: one pass over the bond list.
    runtimes[0] is added to upd_time and runtimes[1] to ctm_time. *)
Definition one_bond (b : B) (st : S * (T * T)) : S * (T * T) :=
  let '(s, (upd, ctm)) := st in
  let '(s', runtimes) := bond_update b s in
  (s', (tadd upd (fst runtimes), tadd ctm (snd runtimes))).

(** evolve.py 39-55: iteration [i] (1-based); [debug] is is_debug_mode. *)
Definition iteration (debug : bool) (i : nat) (l : loop) : loop :=
  let '(s, (upd, ctm)) :=
    fold_left (fun st b => one_bond b st) (l_bonds l) (l_state l, (l_upd l, l_ctm l)) in
  let bonds := rev (l_bonds l) in
  if debug && (i mod 10 =? 0) then
    let ctm' := tdiv ctm (length bonds) in
    let upd' := tdiv upd (length bonds) in
    Loop s bonds tzero tzero (l_log l ++ [(tdiv upd' 10, tdiv ctm' 10)])
  else Loop s bonds upd ctm (l_log l).

(** evolve.py 34-55 *)
Definition evolve_loop (debug : bool) (steps : nat) (s : S) (bonds : list B) : loop :=
  fold_left (fun l i => iteration debug i l) (seq 1 steps)
    (Loop s bonds tzero tzero []).

(** ---- specification side ---- *)

(** Bonds updated in step i (0-based): forward order in even steps, backward
    order in odd ones. *)
Definition step_bonds (bonds : list B) (i : nat) : list B :=
  if Nat.even i then bonds else rev bonds.
Definition schedule (bonds : list B) (steps : nat) : list B :=
  flat_map (step_bonds bonds) (seq 0 steps).

(** Effect on the state of a sequence of bond updates. *)
Definition run_updates (s : S) (bs : list B) : S :=
  fold_left (fun s b => fst (bond_update b s)) bs s.

(** Runtimes (ctm, upd) measured while performing a sequence of updates. *)
Fixpoint runtimes_of (s : S) (bs : list B) : list (T * T) :=
  match bs with
  | [] => []
  | b :: bs' => snd (bond_update b s) :: runtimes_of (fst (bond_update b s)) bs'
  end.

(** Runtimes measured during steps 10*w+1 .. 10*w+10 of the run. *)
Definition window_runtimes (s : S) (bonds : list B) (w : nat) : list (T * T) :=
  runtimes_of (run_updates s (schedule bonds (10 * w)))
              (flat_map (step_bonds bonds) (seq (10 * w) 10)).

(** Average time per step and bond over the 10 steps of window w. *)
Definition average (bonds : list B) (ts : list T) : T :=
  tdiv (tdiv (fold_left tadd ts tzero) (length bonds)) 10.

End Evolve.

(** ---- lemmas ---- *)
Section EvolveFacts.
Variables (B S T : Type).
Variable bond_update : B -> S -> S * (T * T).
Variables (tzero : T) (tadd : T -> T -> T) (tdiv : T -> nat -> T).
Notation iteration := (iteration B S T bond_update tzero tadd tdiv).
Notation evolve_loop := (evolve_loop B S T bond_update tzero tadd tdiv).
Notation schedule := (schedule B).
Notation step_bonds := (step_bonds B).
Notation run_updates := (run_updates B S T bond_update).
Notation runtimes_of := (runtimes_of B S T bond_update).

Lemma pass_spec bs : forall s upd ctm,
  fold_left (fun st b => one_bond B S T bond_update tadd b st) bs (s, (upd, ctm)) =
  (run_updates s bs,
   (fold_left tadd (map fst (runtimes_of s bs)) upd,
    fold_left tadd (map snd (runtimes_of s bs)) ctm)).
Proof.
  induction bs as [|b bs IH]; intros; [reflexivity|]. cbn [fold_left].
  assert (E : one_bond B S T bond_update tadd b (s, (upd, ctm)) =
    (fst (bond_update b s), (tadd upd (fst (snd (bond_update b s))),
                             tadd ctm (snd (snd (bond_update b s)))))).
  { unfold one_bond. destruct (bond_update b s); reflexivity. }
  rewrite E, IH. reflexivity.
Qed.

Lemma step_bonds_S bonds i : rev (step_bonds bonds i) = step_bonds bonds (Datatypes.S i).
Proof.
  unfold step_bonds. rewrite Nat.even_succ, <- Nat.negb_even.
  destruct (Nat.even i); simpl; auto. apply rev_involutive.
Qed.

Lemma schedule_S bonds n : schedule bonds (Datatypes.S n) = schedule bonds n ++ step_bonds bonds n.
Proof.
  unfold schedule. rewrite seq_S, flat_map_app. simpl. now rewrite app_nil_r.
Qed.

Lemma run_updates_app s a b : run_updates s (a ++ b) = run_updates (run_updates s a) b.
Proof. apply fold_left_app. Qed.

Lemma evolve_loop_S debug n s bonds :
  evolve_loop debug (Datatypes.S n) s bonds = iteration debug (Datatypes.S n) (evolve_loop debug n s bonds).
Proof.
  unfold evolve_loop. rewrite seq_S, fold_left_app. reflexivity.
Qed.

Lemma evolve_bonds debug n s bonds :
  l_bonds _ _ _ (evolve_loop debug n s bonds) = step_bonds bonds n.
Proof.
  induction n; [reflexivity|]. rewrite evolve_loop_S, <- step_bonds_S, <- IHn.
  unfold iteration. rewrite pass_spec.
  destruct (debug && _); reflexivity.
Qed.

Lemma evolve_state debug n s bonds :
  l_state _ _ _ (evolve_loop debug n s bonds) = run_updates s (schedule bonds n).
Proof.
  induction n; [reflexivity|].
  rewrite evolve_loop_S, schedule_S, run_updates_app, <- IHn, <- (evolve_bonds debug n s).
  unfold iteration. rewrite pass_spec. destruct (debug && _); reflexivity.
Qed.

Lemma schedule_app bonds n m :
  schedule bonds (n + m) = schedule bonds n ++ schedule (step_bonds bonds n) m.
Proof.
  induction m.
  - rewrite Nat.add_0_r. unfold schedule; simpl. now rewrite app_nil_r.
  - rewrite Nat.add_succ_r, !schedule_S, IHm, <- app_assoc. do 2 f_equal.
    unfold step_bonds. rewrite Nat.even_add.
    destruct (Nat.even n), (Nat.even m); simpl; auto. now rewrite rev_involutive.
Qed.

Lemma schedule_rev_even bonds n : Nat.even n = true -> rev (schedule bonds n) = schedule bonds n.
Proof.
  intros H. apply Nat.even_spec in H as [k ->]. 
  induction k; [reflexivity|].
  replace (2 * Datatypes.S k) with (2 + 2 * k) by lia.
  rewrite schedule_app at 1. replace (2 + 2 * k) with (2 * k + 2) by lia.
  rewrite rev_app_distr. rewrite schedule_app.
  assert (E0: step_bonds bonds 2 = bonds) by reflexivity.
  assert (E1: step_bonds bonds (2 * k) = bonds).
  { unfold step_bonds. rewrite Nat.even_mul. reflexivity. }
  rewrite E0, E1, IHk. f_equal. unfold schedule; simpl.
  unfold step_bonds; simpl. rewrite app_nil_r, rev_app_distr, rev_involutive. reflexivity.
Qed.

Lemma count_schedule (dec : forall x y : B, {x = y} + {x <> y}) bonds n b :
  count_occ dec (schedule bonds n) b = n * count_occ dec bonds b.
Proof.
  induction n; [reflexivity|].
  rewrite schedule_S, count_occ_app, IHn. unfold step_bonds.
  destruct (Nat.even n); [lia|]. rewrite count_occ_rev. lia.
Qed.

(** timers *)
Lemma runtimes_app s a b : runtimes_of s (a ++ b) = runtimes_of s a ++ runtimes_of (run_updates s a) b.
Proof.
  revert s; induction a; intros; simpl; auto. f_equal. apply IHa.
Qed.

Definition window_upto s bonds n : list (T * T) :=
  runtimes_of (run_updates s (schedule bonds (10 * (n / 10))))
    (flat_map (step_bonds bonds) (seq (10 * (n / 10)) (n mod 10))).

Lemma window_upto_S_in s bonds n : (Datatypes.S n) mod 10 <> 0 ->
  window_upto s bonds (Datatypes.S n) =
  window_upto s bonds n ++ runtimes_of (run_updates s (schedule bonds n)) (step_bonds bonds n).
Proof.
  intros H. unfold window_upto.
  assert (E1 : Datatypes.S n / 10 = n / 10).
  { pose proof (Nat.div_mod n 10 ltac:(lia)). pose proof (Nat.mod_upper_bound n 10 ltac:(lia)).
    pose proof (Nat.div_mod (Datatypes.S n) 10 ltac:(lia)). pose proof (Nat.mod_upper_bound (Datatypes.S n) 10 ltac:(lia)). lia. }
  assert (E2 : Datatypes.S n mod 10 = Datatypes.S (n mod 10)).
  { pose proof (Nat.div_mod n 10 ltac:(lia)). 
    pose proof (Nat.div_mod (Datatypes.S n) 10 ltac:(lia)). lia. }
  assert (E3: 10 * (n / 10) + n mod 10 = n) by (rewrite <- Nat.div_mod; lia).
  rewrite E1, E2, seq_S, flat_map_app, runtimes_app. f_equal.
  rewrite <- run_updates_app. unfold schedule at 1.
  rewrite <- flat_map_app, <- seq_app, E3.
  cbn [flat_map]. now rewrite app_nil_r.
Qed.

Lemma div_mod_S_wrap n : (Datatypes.S n) mod 10 = 0 ->
  n mod 10 = 9 /\ Datatypes.S n / 10 = Datatypes.S (n / 10).
Proof.
  intros H. pose proof (Nat.div_mod n 10 ltac:(lia)). pose proof (Nat.mod_upper_bound n 10 ltac:(lia)).
  pose proof (Nat.div_mod (Datatypes.S n) 10 ltac:(lia)). lia.
Qed.

Lemma window_upto_wrap s bonds n : (Datatypes.S n) mod 10 = 0 ->
  window_runtimes B S T bond_update s bonds (n / 10) =
  window_upto s bonds n ++ runtimes_of (run_updates s (schedule bonds n)) (step_bonds bonds n).
Proof.
  intros H. destruct (div_mod_S_wrap n H) as [E1 E2].
  unfold window_runtimes, window_upto. rewrite E1.
  assert (E3: 10 * (n / 10) + 9 = n).
  { pose proof (Nat.div_mod n 10 ltac:(lia)). lia. }
  change 10 with (Datatypes.S 9) at 3. rewrite seq_S, flat_map_app, runtimes_app. f_equal.
  rewrite <- run_updates_app. unfold schedule at 1.
  rewrite <- flat_map_app, <- seq_app, E3. cbn [flat_map]. now rewrite app_nil_r.
Qed.

Lemma evolve_timers n s bonds :
  let l := evolve_loop true n s bonds in
  l_upd _ _ _ l = fold_left tadd (map fst (window_upto s bonds n)) tzero /\
  l_ctm _ _ _ l = fold_left tadd (map snd (window_upto s bonds n)) tzero /\
  l_log _ _ _ l = map (fun w =>
     (average B T tzero tadd tdiv bonds (map fst (window_runtimes B S T bond_update s bonds w)),
      average B T tzero tadd tdiv bonds (map snd (window_runtimes B S T bond_update s bonds w))))
     (seq 0 (n / 10)).
Proof.
  induction n as [|n IH]; [repeat split; reflexivity|].
  rewrite evolve_loop_S. cbv zeta in *. destruct IH as (Hu & Hc & Hl).
  unfold iteration. rewrite pass_spec, Hu, Hc, evolve_bonds, evolve_state, <- !fold_left_app, <- !map_app.
  destruct (Nat.eqb_spec ((Datatypes.S n) mod 10) 0) as [E|E].
  - rewrite <- window_upto_wrap by assumption. destruct (div_mod_S_wrap n E) as [E1 E2].
    cbn [andb l_upd l_ctm l_log].
    assert (EW: window_upto s bonds (Datatypes.S n) = []).
    { unfold window_upto. rewrite E. reflexivity. }
    rewrite EW. repeat split.
    rewrite E2, seq_S, map_app, Hl. simpl map at 4. f_equal.
    assert (EL: length (rev (step_bonds bonds n)) = length bonds).
    { rewrite rev_length. unfold step_bonds. destruct (Nat.even n); auto. apply rev_length. }
    rewrite EL. reflexivity.
  - rewrite <- window_upto_S_in by assumption. cbn [andb l_upd l_ctm l_log].
    repeat split; auto. rewrite Hl.
    enough (X : Datatypes.S n / 10 = n / 10) by now rewrite X.
    pose proof (Nat.div_mod n 10 ltac:(lia)). pose proof (Nat.mod_upper_bound n 10 ltac:(lia)).
    pose proof (Nat.div_mod (Datatypes.S n) 10 ltac:(lia)). pose proof (Nat.mod_upper_bound (Datatypes.S n) 10 ltac:(lia)). lia.
Qed.
End EvolveFacts.
