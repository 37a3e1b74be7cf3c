(** Arithmetic of a large torus over the torus of the unit cell. *)
From Coq Require Import List Arith Lia.
From Verif Require Import ListAux Lattice LatticeFacts.

(** with at least two sites in each direction a neighbour is another site *)
Lemma nbr_other nx ny k s : 1 < nx -> 1 < ny -> in_cell nx ny s -> nbr nx ny k s <> s.
Proof.
  intros Hx Hy [H1 H2]. destruct s as [x y]. cbn [fst snd] in *.
  assert (A : forall n a, 1 < n -> a < n -> (a + 1) mod n <> a).
  { intros n a Hn Ha E. destruct (Nat.eq_dec (a + 1) n) as [F|F].
    - rewrite F, Nat.mod_same in E by lia. lia.
    - rewrite Nat.mod_small in E by lia. lia. }
  assert (B : forall n a, 1 < n -> a < n -> (a + n - 1) mod n <> a).
  { intros n a Hn Ha E. destruct (Nat.eq_dec a 0) as [F|F].
    - subst a. rewrite Nat.mod_small in E by lia. lia.
    - replace (a + n - 1) with (a - 1 + 1 * n) in E by lia. rewrite Nat.mod_add, Nat.mod_small in E by lia. lia. }
  destruct k as [|[|[|k]]]; cbn [nbr fst snd]; intros E; injection E as E.
  - exact (B nx x Hx H1 E).
  - exact (A ny y Hy H2 E).
  - exact (A nx x Hx H1 E).
  - exact (B ny y Hy H2 E).
Qed.

(** the site of the unit cell under a site of a lattice made of a * c cells *)
Definition under (nx ny : nat) (s : site) : site := (fst s mod nx, snd s mod ny).

Lemma under_in nx ny s : 0 < nx -> 0 < ny -> in_cell nx ny (under nx ny s).
Proof. intros. split; apply Nat.mod_upper_bound; lia. Qed.

Lemma mod_mul_mod x a n : 0 < n -> 0 < a -> (x mod (a * n)) mod n = x mod n.
Proof.
  intros Hn Ha. rewrite (Nat.mul_comm a n), Nat.mod_mul_r by lia.
  rewrite (Nat.mul_comm n), Nat.mod_add by lia. apply Nat.mod_mod. lia.
Qed.

Lemma under_nbr nx ny a c k s : 0 < nx -> 0 < ny -> 0 < a -> 0 < c ->
  under nx ny (nbr (a * nx) (c * ny) k s) = nbr nx ny k (under nx ny s).
Proof.
  intros Hx Hy Ha Hc. destruct s as [x y].
  assert (R : forall n q z, 0 < n -> 0 < q -> ((z + 1) mod (q * n)) mod n = (z mod n + 1) mod n).
  { intros n q z Hn Hq. rewrite mod_mul_mod by lia. now rewrite Nat.add_mod_idemp_l by lia. }
  assert (L : forall n q z, 0 < n -> 0 < q -> ((z + q * n - 1) mod (q * n)) mod n = (z mod n + n - 1) mod n).
  { intros n q z Hn Hq. rewrite mod_mul_mod by lia.
    replace (z + q * n - 1) with (z + (n - 1) + (q - 1) * n) by nia.
    rewrite Nat.mod_add by lia. rewrite <- (Nat.add_mod_idemp_l z) by lia. f_equal. lia. }
  destruct k as [|[|[|k]]]; cbn [nbr under fst snd]; unfold under; cbn [fst snd]; f_equal; auto.
Qed.
