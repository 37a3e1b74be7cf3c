(** Site-dependent parts of the models: acetn/model/models/heisenberg.py 8-20,
    acetn/model/model.py 65-98; and the write-back of a bond update. *)
From Coq Require Import String.
From Coq Require Import List Arith Lia Bool.
From Verif Require Import ListAux Lattice LatticeFacts.
Import ListNotations.

(** heisenberg.py 8-11 (components of the state vector) *)
Definition initial_site_state (s : site) : list nat :=
  if (fst s + snd s) mod 2 =? 0 then [1; 0] else [0; 1].
(** heisenberg.py 13-20: whether the observables sx, sz carry a minus sign *)
Definition observables_negated (s : site) : bool := negb ((fst s + snd s) mod 2 =? 0).
(** model.py 84-98 *)
Definition default_site_state (dim : nat) : list nat := 1 :: repeat 0 (dim - 1).
(** model.py 80-82 *)
Definition bond_direction (b : bond) : option string :=
  match b_k b with
  | 0 => Some "-x"%string | 1 => Some "+y"%string | 2 => Some "+x"%string | 3 => Some "-y"%string
  | _ => None
  end.

Lemma mod2 n : n mod 2 = 0 \/ n mod 2 = 1.
Proof. pose proof (Nat.mod_upper_bound n 2). lia. Qed.
Lemma mod2_add a b : (a + b) mod 2 = (a mod 2 + b mod 2) mod 2.
Proof. apply Nat.add_mod. lia. Qed.
Lemma mod2_div n : n = 2 * (n / 2) + n mod 2.
Proof. apply Nat.div_mod. lia. Qed.

(** one step around a ring of length n changes the parity of every position iff
    n is even *)
Lemma succ_parity n a b : succ_mod n a b -> (n mod 2 = 0 -> a mod 2 <> b mod 2).
Proof.
  intros [[H ->]|[H ->]] Hn E.
  - rewrite mod2_add in E. destruct (mod2 a) as [X|X]; rewrite X in E; discriminate.
  - subst n. rewrite mod2_add in Hn. destruct (mod2 a) as [X|X]; rewrite X in Hn, E; discriminate.
Qed.

Section BondUpdate.
Variable A : Type.
(** what a bond update computes from the tensors of the two sites
    (TensorUpdater.update, SimpleUpdater lines 36-69) *)
Variable new : bond -> A -> A -> A * A.
Definition put (t : site -> A) (s : site) (a : A) : site -> A := fun s' => if site_eq_dec s' s then a else t s'.
(** fast_full_update.py 47-62, simple_update.py 36-37 and 72-73: read both, write
    the first site, then the second *)
Definition update_sites (t : site -> A) (b : bond) : site -> A :=
  let '(a1, a2) := new b (t (b_s1 b)) (t (b_s2 b)) in
  put (put t (b_s1 b) a1) (b_s2 b) a2.
End BondUpdate.
