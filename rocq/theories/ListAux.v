(** Small facts on lists used by the models of layer A.  Nothing here models
    the program. *)
From Coq Require Import List Arith Lia Permutation.
Import ListNotations.

Lemma NoDup_map_in {A B} (f : A -> B) l :
  (forall x y, In x l -> In y l -> f x = f y -> x = y) -> NoDup l -> NoDup (map f l).
Proof.
  intros Hinj Hnd; induction Hnd as [|a l Ha Hnd IH]; simpl; constructor.
  - rewrite in_map_iff; intros [x [Hx Hin]].
    apply Ha. rewrite <- (Hinj x a); auto; [now right|now left].
  - apply IH; intros; apply Hinj; simpl; auto.
Qed.

Lemma NoDup_app_intro {A} (l1 l2 : list A) :
  NoDup l1 -> NoDup l2 -> (forall x, In x l1 -> In x l2 -> False) -> NoDup (l1 ++ l2).
Proof.
  intros H1 H2 Hd; induction H1 as [|a l Ha Hnd IH]; simpl; auto.
  constructor.
  - rewrite in_app_iff; intros [H|H]; [now apply Ha|]. apply (Hd a); simpl; auto.
  - apply IH; intros; apply (Hd x); simpl; auto.
Qed.

Lemma flat_map_pair_perm {A B} (f g : A -> B) l :
  Permutation (flat_map (fun x => [f x; g x]) l) (map f l ++ map g l).
Proof.
  induction l as [|a l IH]; simpl; [constructor|].
  apply perm_skip. rewrite <- Permutation_middle. now apply perm_skip.
Qed.

Lemma flat_map_map {A B C} (f : A -> B) (g : B -> list C) l :
  flat_map g (map f l) = flat_map (fun x => g (f x)) l.
Proof. induction l; simpl; congruence. Qed.

Lemma map_flat_map {A B C} (f : B -> C) (g : A -> list B) l :
  map f (flat_map g l) = flat_map (fun x => map f (g x)) l.
Proof. induction l; simpl; auto. rewrite map_app; congruence. Qed.

Lemma flat_map_length_const {A B} (f : A -> list B) l n :
  (forall x, In x l -> length (f x) = n) -> length (flat_map f l) = length l * n.
Proof.
  induction l; simpl; intros H; auto. rewrite app_length, H, IHl; auto.
Qed.

Lemma nth_error_seq n i s : i < n -> nth_error (seq s n) i = Some (s + i).
Proof.
  revert s i; induction n; intros s i H; [lia|].
  destruct i; simpl; [f_equal; lia|]. rewrite IHn by lia. f_equal; lia.
Qed.

Lemma fold_left_flat_map {A B S} (f : S -> B -> S) (g : A -> list B) l s :
  fold_left f (flat_map g l) s = fold_left (fun s a => fold_left f (g a) s) l s.
Proof.
  revert s; induction l; simpl; intros; auto. rewrite fold_left_app; auto.
Qed.

Lemma fold_left_map {A B S} (f : S -> B -> S) (g : A -> B) l s :
  fold_left f (map g l) s = fold_left (fun s a => f s (g a)) l s.
Proof. revert s; induction l; simpl; auto. Qed.
