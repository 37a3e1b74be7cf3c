(** The timing decorators of acetn/utils/benchmarking.py.  Functions act on an
    arbitrary state and may raise; clock readings are arbitrary. *)
From Coq Require Import List Arith Lia Bool.
From Verif Require Import Base.
Import ListNotations.

Section Runtime.
Variables (W A T : Type).
(** Python results as far as they matter: None, tuples, a float, anything else *)
Inductive pyval := PNone | PTuple (l : list pyval) | PTime (t : T) | POther (a : A).

Definition action := W -> res (pyval * W).

(** benchmarking.py 36-41 (and 98-103) *)
Definition attach (result : pyval) (runtime : T) : pyval :=
  match result with
  | PNone => PTime runtime
  | PTuple l => PTuple (l ++ [PTime runtime])
  | _ => PTuple [result; PTime runtime]
  end.

(** benchmarking.py 22-42; [elapsed w w'] is the measured time of a call that
    changed w into w' (both timers) *)
Variable elapsed : W -> W -> T.
Definition record_runtime (func : action) : action := fun w =>
  let! (result, w') := func w in
  Ok (attach result (elapsed w w'), w').

(** benchmarking.py 63-104 *)
Variables (tzero : T) (tadd : T -> T -> T) (tdiv : T -> nat -> T).
Fixpoint warmup (func : action) (n : nat) (w : W) : res (option pyval * W) :=
  match n with
  | 0 => Ok (None, w)
  | S n => let! (r, w) := func w in
           let! (r', w) := warmup func n w in
           Ok (match r' with Some r' => Some r' | None => Some r end, w)
  end.
Fixpoint timed (func : action) (n : nat) (ave : T) (result : option pyval) (w : W) : res (option pyval * T * W) :=
  match n with
  | 0 => Ok (result, ave, w)
  | S n => let! (r, w') := func w in
           timed func n (tadd ave (elapsed w w')) (Some r) w'
  end.
Definition record_runtime_ave (func : action) (num_record num_warmup : nat) : action := fun w =>
  let! (r, w) := warmup func num_warmup w in
  let! (r, ave, w) := timed func num_record tzero r w in
  if num_record =? 0 then Err ZeroDivision
  else match r with
       | None => Err UnboundLocalError
       | Some r => Ok (attach r (tdiv ave num_record), w)
       end.

(** Python sequence unpacking  x1, ..., xn = v  *)
Definition unpack (n : nat) (v : pyval) : res (list pyval) :=
  match v with
  | PTuple l => if length l =? n then Ok l else Err ValueError
  | _ => Err TypeError
  end.

(** fast_full_update.py 29-69 on rank 0 without torch.distributed, as far as the
    passing of results is concerned: [update] is the undecorated
    TensorUpdater.update (a tuple a1,a2), [absorb] the undecorated absorb_bond
    (falls off the end: None), [store] the assignments 61-62. *)
Variables (update absorb : action) (store : pyval -> pyval -> W -> W).
Definition bond_update : action := fun w =>
  let! (r, w) := record_runtime update w in
  let! l := unpack 3 r in
  match l with
  | [a1; a2; upd_time] =>
      let! (ctm_time, w) := record_runtime absorb (store a1 a2 w) in
      Ok (PTuple [ctm_time; upd_time], w)
  | _ => Err ValueError
  end.

(** ---- specification side: run func n times in a row ---- *)
Fixpoint repeat_calls (func : action) (n : nat) (w : W) : res W :=
  match n with
  | 0 => Ok w
  | S n => let! (_, w) := func w in repeat_calls func n w
  end.
(** the i-th result and its time *)
Fixpoint calls (func : action) (n : nat) (w : W) : res (list (pyval * T)) :=
  match n with
  | 0 => Ok []
  | S n => let! (r, w') := func w in
           let! l := calls func n w' in Ok ((r, elapsed w w') :: l)
  end.

Lemma warmup_spec func n w : warmup func n w =
  let! l := calls func n w in
  let! w' := repeat_calls func n w in
  Ok (match rev l with [] => None | p :: _ => Some (fst p) end, w').
Proof.
  revert w; induction n as [|n IH]; intros w; cbn; auto.
  destruct (func w) as [[r w1]|]; cbn; auto. rewrite IH.
  destruct (calls func n w1) as [l|]; cbn; auto. destruct (repeat_calls func n w1); cbn; auto.
  destruct (rev l); reflexivity.
Qed.
Lemma timed_spec func n : forall ave r0 w, timed func n ave r0 w =
  let! l := calls func n w in
  let! w' := repeat_calls func n w in
  Ok (match rev l with [] => r0 | p :: _ => Some (fst p) end, fold_left tadd (map snd l) ave, w').
Proof.
  induction n as [|n IH]; intros ave r0 w; cbn; auto.
  destruct (func w) as [[r w1]|]; cbn; auto. rewrite IH.
  destruct (calls func n w1) as [l|]; cbn; auto. destruct (repeat_calls func n w1); cbn; auto.
  destruct (rev l); reflexivity.
Qed.
Lemma calls_repeat func n w l : calls func n w = Ok l -> exists w', repeat_calls func n w = Ok w'.
Proof.
  revert w l; induction n as [|n IH]; intros w l H; cbn in *; eauto.
  destruct (func w) as [[r w1]|]; cbn in *; [|discriminate].
  destruct (calls func n w1) eqn:E; cbn in H; [|discriminate]. eauto.
Qed.
Lemma calls_length func n w l : calls func n w = Ok l -> length l = n.
Proof.
  revert w l; induction n as [|n IH]; intros w l H; cbn in *; [injection H as <-; auto|].
  destruct (func w) as [[r w1]|]; cbn in *; [|discriminate].
  destruct (calls func n w1) eqn:E; cbn in H; [|discriminate]. injection H as <-. cbn. eauto.
Qed.
End Runtime.
