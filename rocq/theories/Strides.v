(** csrc/linalg/contraction.h: strides of the buffers handed to cuTENSOR. *)
From Coq Require Import List Arith Lia Bool Permutation.
Import ListNotations.

Fixpoint upd (l : list nat) (i v : nat) : list nat :=
  match l, i with
  | [], _ => []
  | _ :: l, 0 => v :: l
  | x :: l, S i => x :: upd l i v
  end.

(** contraction.h 69-72: the loop for (i = i0; i >= 0; --i), where [n] = i0+1.
    64-bit overflow is not modelled; see [C54_strides_bounded]. *)
Fixpoint stride_loop (shape : list nat) (n : nat) (strides : list nat) (stride : nat) : list nat :=
  match n with
  | 0 => strides
  | S i => stride_loop shape i (upd strides i stride) (stride * nth i shape 0)
  end.

(** contraction.h 66-74 *)
Definition compute_row_major_strides (shape : list nat) : list nat :=
  stride_loop shape (length shape) (repeat 0 (length shape)) 1.

(** ---- specification side ---- *)
Definition volume (shape : list nat) : nat := fold_right Nat.mul 1 shape.
(** buffer position addressed by a multi-index *)
Definition address (strides idx : list nat) : nat :=
  fold_right Nat.add 0 (map (fun p => fst p * snd p) (combine idx strides)).
Definition valid_index (shape idx : list nat) : Prop := Forall2 (fun x d => x < d) idx shape.
(** lexicographic order of multi-indices *)
Inductive lex : list nat -> list nat -> Prop :=
| lex_lt x y l m : x < y -> length l = length m -> lex (x :: l) (y :: m)
| lex_eq x l m : lex l m -> lex (x :: l) (x :: m).

(** ---- lemmas ---- *)
Fixpoint strides_rec (shape : list nat) : list nat :=
  match shape with [] => [] | _ :: s => volume s :: strides_rec s end.

Lemma upd_app l i v m : i < length l -> upd (l ++ m) i v = upd l i v ++ m.
Proof. revert i; induction l; intros i H; cbn in *; [lia|]. destruct i; auto. cbn. rewrite IHl by lia. auto. Qed.
Lemma upd_length l i v : length (upd l i v) = length l.
Proof. revert i; induction l; intros [|i]; cbn; auto. Qed.
Lemma stride_loop_inv shape : forall n strides, n <= length shape -> length strides = length shape ->
  skipn n strides = strides_rec (skipn n shape) ->
  stride_loop shape n strides (volume (skipn n shape)) = strides_rec shape.
Proof.
  induction n as [|n IH]; intros strides Hn Hl H.
  - exact H.
  - cbn [stride_loop].
    assert (E : skipn n shape = nth n shape 0 :: skipn (S n) shape).
    { clear - Hn. revert n Hn; induction shape; intros n Hn; cbn in Hn; [lia|].
      destruct n; [reflexivity|]. cbn [skipn nth]. apply IHshape. lia. }
    replace (volume (skipn (S n) shape) * nth n shape 0) with (volume (skipn n shape)).
    2:{ rewrite E. cbn [volume fold_right]. fold (volume (skipn (S n) shape)). lia. }
    apply IH; [lia|now rewrite upd_length|]. rewrite E. cbn [strides_rec].
    rewrite <- H. clear - Hn Hl. rewrite <- Hl in Hn. clear Hl.
    generalize (volume (skipn (S n) shape)); intros v. clear shape.
    revert strides Hn; induction n; intros [|a s] Hn; cbn in Hn; try lia; [reflexivity|].
    cbn [upd]. rewrite !skipn_cons. apply IHn. lia.
Qed.
Lemma strides_eq shape : compute_row_major_strides shape = strides_rec shape.
Proof.
  unfold compute_row_major_strides. change 1 with (volume []).
  rewrite <- (skipn_all shape). apply stride_loop_inv; auto.
  - now rewrite repeat_length.
  - rewrite skipn_all. cbn. apply skipn_all2. rewrite repeat_length. auto.
Qed.

Lemma address_lt shape idx : valid_index shape idx -> address (strides_rec shape) idx < volume shape.
Proof.
  intros H; induction H as [|x d idx shape Hx _ IH]; cbn; [lia|].
  fold (volume shape). fold (address (strides_rec shape) idx). nia.
Qed.
Lemma address_lex shape i j : valid_index shape i -> valid_index shape j -> lex i j ->
  address (strides_rec shape) i < address (strides_rec shape) j.
Proof.
  intros Hi Hj Hl. revert shape Hi Hj. induction Hl as [x y l m Hxy Hlen|x l m Hl IH]; intros shape Hi Hj.
  - inversion Hi; subst. inversion Hj; subst. cbn.
    match goal with H : Forall2 _ l ?s |- _ => pose proof (address_lt _ _ H) as A; fold (volume s);
      fold (address (strides_rec s) l) in *; fold (address (strides_rec s) m) in * end.
    nia.
  - inversion Hi; subst. inversion Hj; subst. cbn.
    match goal with H : Forall2 _ l ?s |- _ => specialize (IH s H ltac:(assumption)) end.
    unfold address in IH. lia.
Qed.
Lemma lex_total i j : length i = length j -> i = j \/ lex i j \/ lex j i.
Proof.
  revert j; induction i as [|x i IH]; intros [|y j] H; try discriminate; auto.
  injection H as H. destruct (lt_eq_lt_dec x y) as [[L|E]|L].
  - right; left. now constructor.
  - subst. destruct (IH j H) as [-> |[|]]; auto; right; [left|right]; now constructor.
  - right; right. now constructor.
Qed.
Lemma valid_len shape i : valid_index shape i -> length i = length shape.
Proof. intros H; induction H; cbn; auto. Qed.
Lemma address_inj shape i j : valid_index shape i -> valid_index shape j ->
  address (strides_rec shape) i = address (strides_rec shape) j -> i = j.
Proof.
  intros Hi Hj E. destruct (lex_total i j) as [|[L|L]]; auto.
  - now rewrite (valid_len _ _ Hi), (valid_len _ _ Hj).
  - apply (address_lex shape) in L; auto. lia.
  - apply (address_lex shape) in L; auto. lia.
Qed.
Lemma address_surj shape a : a < volume shape ->
  exists idx, valid_index shape idx /\ address (strides_rec shape) idx = a.
Proof.
  revert a; induction shape as [|d s IH]; intros a Ha; cbn in Ha.
  - exists []. split; [constructor|cbn; lia].
  - fold (volume s) in Ha. assert (V : volume s <> 0) by nia.
    destruct (IH (a mod volume s)) as (idx & Hi & E). { apply Nat.mod_upper_bound; auto. }
    exists (a / volume s :: idx). split.
    + constructor; auto. apply Nat.div_lt_upper_bound; auto. lia.
    + unfold address in *. cbn [strides_rec combine map fold_right fst snd]. rewrite E.
      rewrite (Nat.div_mod a (volume s)) at 3; auto. lia.
Qed.
Lemma strides_rec_bound shape s : Forall (fun d => 0 < d) shape -> In s (strides_rec shape) -> 0 < s <= volume shape.
Proof.
  intros H; induction H as [|d sh Hd H IH]; cbn; [tauto|]. fold (volume sh).
  assert (0 < volume sh). { clear IH. induction H; cbn; [lia|]. fold (volume l). nia. }
  intros [<- |Hs]; [nia|]. apply IH in Hs. nia.
Qed.
