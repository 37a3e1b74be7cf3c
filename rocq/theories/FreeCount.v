(** How many bonds act on a site of a model with one-site terms only
    (property C85). *)
From Coq Require Import List Arith Lia Bool Permutation.
From Coq Require Import ZifyBool ZifyNat.
From Verif Require Import ListAux Lattice LatticeFacts Evolve.
Import ListNotations.

Definition site_eqb (a b : site) : bool := if site_eq_dec a b then true else false.
Lemma site_eqb_iff a b : site_eqb a b = true <-> a = b.
Proof. unfold site_eqb; destruct (site_eq_dec a b); split; congruence. Qed.
Lemma site_eqb_refl a : site_eqb a a = true.
Proof. now apply site_eqb_iff. Qed.

Section Count.
(** which sites have a term *)
Variable has : site -> bool.
(** the bond has terms at both ends and the site is one of them *)
Definition touches (x : site) (b : bond) : bool :=
  (site_eqb (b_s1 b) x || site_eqb (b_s2 b) x) && (has (b_s1 b) && has (b_s2 b)).

Lemma filter_perm {A} (f : A -> bool) l l' : Permutation l l' -> length (filter f l) = length (filter f l').
Proof.
  induction 1; simpl; auto; try congruence.
  - destruct (f x); simpl; congruence.
  - destruct (f x), (f y); reflexivity.
Qed.

Lemma filter_map_len {A B} (g : A -> B) (f : B -> bool) l : length (filter f (map g l)) = length (filter (fun a => f (g a)) l).
Proof. induction l as [|a l IH]; simpl; auto. destruct (f (g a)); simpl; congruence. Qed.

Lemma filter_ext_len {A} (f g : A -> bool) l : (forall a, In a l -> f a = g a) -> length (filter f l) = length (filter g l).
Proof. intros H; f_equal; now apply filter_ext_in. Qed.

Lemma filter_none {A} (f : A -> bool) l : (forall a, In a l -> f a = false) -> length (filter f l) = 0.
Proof. induction l as [|a l IH]; intros H; simpl; auto. rewrite (H a) by (now left). apply IH; intros; apply H; now right. Qed.

Lemma one_pick (g : site -> bool) a l : NoDup l -> In a l ->
  length (filter (fun s => site_eqb s a && g s) l) = if g a then 1 else 0.
Proof.
  induction l as [|x l IH]; simpl; intros N I; [easy|]. inversion N; subst.
  destruct I as [<-|I].
  - rewrite site_eqb_refl; simpl.
    assert (E : length (filter (fun s => site_eqb s x && g s) l) = 0).
    { apply filter_none; intros y Hy. unfold site_eqb; destruct (site_eq_dec y x); subst; easy. }
    destruct (g x); simpl; rewrite E; reflexivity.
  - destruct (site_eqb x a) eqn:E; [apply site_eqb_iff in E; subst; easy|]. simpl. now apply IH.
Qed.

Lemma two_pick (g : site -> bool) a b l : NoDup l -> In a l -> In b l ->
  length (filter (fun s => (site_eqb s a || site_eqb s b) && g s) l) + (if site_eqb a b && g a then 1 else 0) =
  (if g a then 1 else 0) + (if g b then 1 else 0).
Proof.
  intros N Ia Ib. rewrite <- (one_pick g a l N Ia), <- (one_pick g b l N Ib) at 1.
  assert (Q : (if site_eqb a b && g a then 1 else 0) = length (filter (fun s => (site_eqb s a && site_eqb s b) && g s) l)).
  { destruct (site_eqb a b) eqn:E; simpl.
    - apply site_eqb_iff in E; subst. rewrite <- (one_pick g b l N Ib). apply filter_ext_len; intros s _.
      destruct (site_eqb s b); reflexivity.
    - symmetry; apply filter_none; intros s _.
      destruct (site_eqb s a) eqn:E1, (site_eqb s b) eqn:E2; try reflexivity.
      apply site_eqb_iff in E1, E2; subst. rewrite site_eqb_refl in E; discriminate. }
  rewrite Q. clear. induction l as [|x l IH]; simpl; auto.
  destruct (site_eqb x a), (site_eqb x b), (g x); simpl; lia.
Qed.

Lemma nbr_self nx ny x : in_cell nx ny x -> site_eqb x (nbr nx ny 0 x) = (nx =? 1) /\ site_eqb x (nbr nx ny 3 x) = (ny =? 1).
Proof.
  destruct x as [a b]; intros [Ha Hb]; simpl in *. unfold site_eqb.
  rewrite (mod_pred_eq nx a Ha), (mod_pred_eq ny b Hb). split.
  - destruct (site_eq_dec _ _) as [E|E]; symmetry.
    + apply Nat.eqb_eq. injection E as E. destruct (a =? 0) eqn:Z; lia.
    + apply Nat.eqb_neq. intros ->. apply E. f_equal. destruct (a =? 0) eqn:Z; lia.
  - destruct (site_eq_dec _ _) as [E|E]; symmetry.
    + apply Nat.eqb_eq. injection E as E. destruct (b =? 0) eqn:Z; lia.
    + apply Nat.eqb_neq. intros ->. apply E. f_equal. destruct (b =? 0) eqn:Z; lia.
Qed.

Definition one_if (b : bool) : nat := if b then 1 else 0.

(** the bonds that act on a site with a term: one for every neighbour with a term,
    a bond from the site to itself counted once *)
Lemma touches_count nx ny x : in_cell nx ny x -> has x = true ->
  length (filter (touches x) (build_bond_list nx ny)) + one_if (nx =? 1) + one_if (ny =? 1) =
  length (filter (fun d => has (nbr nx ny d x)) [0;1;2;3]).
Proof.
  intros Hx Hh. unfold build_bond_list. rewrite filter_app, app_length, horizontal_map, vertical_map, !filter_map_len.
  rewrite (filter_perm _ _ _ (site_list_yx_perm nx ny)).
  assert (I : forall d, In (nbr nx ny d x) (build_site_list nx ny)) by (intros; apply in_site_list, nbr_cell; auto).
  assert (Ix : In x (build_site_list nx ny)) by (now apply in_site_list).
  pose proof (two_pick (fun s => has s && has (nbr nx ny 2 s)) x (nbr nx ny 0 x) _ (NoDup_site_list nx ny) Ix (I 0)) as E1.
  pose proof (two_pick (fun s => has s && has (nbr nx ny 1 s)) x (nbr nx ny 3 x) _ (NoDup_site_list nx ny) Ix (I 3)) as E2.
  destruct (nbr_self nx ny x Hx) as [S1 S2].
  pose proof (nbr_there_back nx ny 0 x ltac:(lia) Hx) as B0. change ((0 + 2) mod 4) with 2 in B0.
  pose proof (nbr_there_back nx ny 3 x ltac:(lia) Hx) as B3. change ((3 + 2) mod 4) with 1 in B3.
  pose proof (nbr_there_back nx ny 2 x ltac:(lia) Hx) as B2. change ((2 + 2) mod 4) with 0 in B2.
  pose proof (nbr_there_back nx ny 1 x ltac:(lia) Hx) as B1. change ((1 + 2) mod 4) with 3 in B1.
  cbn beta in E1, E2. rewrite B0 in E1. rewrite B3 in E2. rewrite S1, Hh in E1. rewrite S2, Hh in E2. cbn beta in E1, E2.
  rewrite !andb_true_r in *. cbn [andb] in E1, E2.
  assert (F1 : length (filter (fun a => touches x (hbond nx a)) (build_site_list nx ny)) =
               length (filter (fun s => (site_eqb s x || site_eqb s (nbr nx ny 0 x)) && (has s && has (nbr nx ny 2 s))) (build_site_list nx ny))).
  { apply filter_ext_len; intros s Is. apply in_site_list in Is. unfold touches, hbond; cbn [b_s1 b_s2].
    change ((fst s + 1) mod nx, snd s) with (nbr nx ny 2 s). f_equal. f_equal.
    apply eq_true_iff_eq. rewrite !site_eqb_iff. split; [intros <-|intros ->].
    - symmetry; apply (nbr_there_back nx ny 2 s); auto; lia.
    - exact B0. }
  assert (F2 : length (filter (fun a => touches x (vbond ny a)) (build_site_list nx ny)) =
               length (filter (fun s => (site_eqb s x || site_eqb s (nbr nx ny 3 x)) && (has s && has (nbr nx ny 1 s))) (build_site_list nx ny))).
  { apply filter_ext_len; intros s Is. apply in_site_list in Is. unfold touches, vbond; cbn [b_s1 b_s2].
    change (fst s, (snd s + 1) mod ny) with (nbr nx ny 1 s). f_equal. f_equal.
    apply eq_true_iff_eq. rewrite !site_eqb_iff. split; [intros <-|intros ->].
    - symmetry; apply (nbr_there_back nx ny 1 s); auto; lia.
    - exact B3. }
  rewrite F1, F2. unfold one_if.
  assert (G1 : (if (nx =? 1) && has (nbr nx ny 2 x) then 1 else 0) = if nx =? 1 then 1 else 0).
  { destruct (nx =? 1) eqn:Z; auto. apply site_eqb_iff in S1. rewrite S1 at 1. now rewrite B0, Hh. }
  assert (G2 : (if (ny =? 1) && has (nbr nx ny 1 x) then 1 else 0) = if ny =? 1 then 1 else 0).
  { destruct (ny =? 1) eqn:Z; auto. apply site_eqb_iff in S2. rewrite S2 at 1. now rewrite B3, Hh. }
  rewrite G1 in E1. rewrite G2 in E2.
  cbn [filter]. destruct (has (nbr nx ny 0 x)), (has (nbr nx ny 1 x)), (has (nbr nx ny 2 x)), (has (nbr nx ny 3 x)); cbn [length] in *; lia.
Qed.

Lemma filter_rev_len {A} (f : A -> bool) l : length (filter f (rev l)) = length (filter f l).
Proof. apply filter_perm, Permutation_sym, Permutation_rev. Qed.

Lemma schedule_count x bl steps : length (filter (touches x) (schedule bond bl steps)) = steps * length (filter (touches x) bl).
Proof.
  induction steps as [|n IH]; [reflexivity|].
  rewrite schedule_S, filter_app, app_length, IH. unfold step_bonds. destruct (Nat.even n); rewrite ?filter_rev_len; lia.
Qed.
End Count.
