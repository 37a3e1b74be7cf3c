(** Lemmas on the lattice model. *)
From Coq Require Import List Arith Lia Permutation.
From Coq Require Import ZifyBool ZifyNat.
From Verif Require Import ListAux Lattice.
Import ListNotations.

Lemma succ_mod_iff n a b : a < n -> (succ_mod n a b <-> b = (a + 1) mod n).
Proof.
  intros Ha. unfold succ_mod.
  destruct (Nat.eq_dec (a + 1) n) as [E|E].
  - rewrite E, Nat.mod_same by lia. lia.
  - rewrite Nat.mod_small by lia. lia.
Qed.

Lemma mod_succ_inj n a b : a < n -> b < n -> (a + 1) mod n = (b + 1) mod n -> a = b.
Proof.
  intros Ha Hb.
  destruct (Nat.eq_dec (a + 1) n) as [E|E]; destruct (Nat.eq_dec (b + 1) n) as [F|F];
  try (rewrite E, Nat.mod_same by lia); try (rewrite F, Nat.mod_same by lia);
  try (rewrite (Nat.mod_small (a+1)) by lia); try (rewrite (Nat.mod_small (b+1)) by lia); lia.
Qed.

Lemma mod_pred_eq n a : a < n -> (a + n - 1) mod n = if a =? 0 then n - 1 else a - 1.
Proof.
  intros Ha. destruct (Nat.eqb_spec a 0).
  - subst. rewrite Nat.mod_small; lia.
  - replace (a + n - 1) with (a - 1 + 1 * n) by lia.
    rewrite Nat.mod_add by lia. apply Nat.mod_small; lia.
Qed.

Lemma mod_succ_eq n a : a < n -> (a + 1) mod n = if a + 1 =? n then 0 else a + 1.
Proof.
  intros Ha. destruct (Nat.eqb_spec (a + 1) n).
  - rewrite e, Nat.mod_same; lia.
  - rewrite Nat.mod_small; lia.
Qed.

Lemma in_site_list nx ny s : In s (build_site_list nx ny) <-> in_cell nx ny s.
Proof.
  unfold build_site_list, in_cell. rewrite in_flat_map. split.
  - intros (x & Hx & Hs). apply in_map_iff in Hs as (y & <- & Hy).
    apply in_seq in Hx, Hy. simpl; lia.
  - destruct s as [x y]; simpl; intros [Hx Hy]. exists x. rewrite in_seq. split; [lia|].
    apply in_map_iff. exists y. rewrite in_seq. split; [reflexivity|lia].
Qed.

Lemma site_list_eq nx ny : build_site_list nx ny = list_prod (seq 0 nx) (seq 0 ny).
Proof.
  unfold build_site_list. induction (seq 0 nx); simpl; auto. now rewrite IHl.
Qed.

Lemma NoDup_list_prod {A B} (l : list A) (m : list B) :
  NoDup l -> NoDup m -> NoDup (list_prod l m).
Proof.
  intros Hl Hm; induction Hl; simpl; [constructor|].
  apply NoDup_app_intro; auto.
  - apply NoDup_map_in; auto. intros; congruence.
  - intros [a b] H1 H2. apply in_map_iff in H1 as (y & E & _). inversion E; subst.
    apply in_prod_iff in H2. tauto.
Qed.

Lemma NoDup_site_list nx ny : NoDup (build_site_list nx ny).
Proof. rewrite site_list_eq. apply NoDup_list_prod; apply seq_NoDup. Qed.

Lemma length_site_list nx ny : length (build_site_list nx ny) = nx * ny.
Proof. rewrite site_list_eq, prod_length, !seq_length; auto. Qed.

Definition hbond nx (s : site) := Bond s ((fst s + 1) mod nx, snd s) 2.
Definition vbond ny (s : site) := Bond s (fst s, (snd s + 1) mod ny) 1.

Lemma horizontal_map nx ny : horizontal_bonds nx ny = map (hbond nx) (build_site_list nx ny).
Proof.
  unfold horizontal_bonds, build_site_list. rewrite map_flat_map.
  apply flat_map_ext; intros x. rewrite map_map. reflexivity.
Qed.

Definition site_list_yx (nx ny : nat) : list site :=
  flat_map (fun yi => map (fun xi => (xi, yi)) (seq 0 nx)) (seq 0 ny).

Lemma vertical_map nx ny : vertical_bonds nx ny = map (vbond ny) (site_list_yx nx ny).
Proof.
  unfold vertical_bonds, site_list_yx. rewrite map_flat_map.
  apply flat_map_ext; intros y. rewrite map_map. reflexivity.
Qed.

Lemma site_list_yx_swap nx ny :
  site_list_yx nx ny = map (fun p => (snd p, fst p)) (build_site_list ny nx).
Proof.
  unfold site_list_yx, build_site_list. rewrite map_flat_map.
  apply flat_map_ext; intros. rewrite map_map. reflexivity.
Qed.

Lemma in_site_list_yx nx ny s : In s (site_list_yx nx ny) <-> in_cell nx ny s.
Proof.
  rewrite site_list_yx_swap, in_map_iff. split.
  - intros (p & <- & Hp). apply in_site_list in Hp. destruct Hp; split; simpl; auto.
  - intros [H1 H2]. exists (snd s, fst s). split; [now destruct s|].
    apply in_site_list; split; auto.
Qed.

Lemma site_list_yx_perm nx ny : Permutation (site_list_yx nx ny) (build_site_list nx ny).
Proof.
  apply NoDup_Permutation.
  - rewrite site_list_yx_swap. apply NoDup_map_in; [|apply NoDup_site_list].
    intros [] [] _ _ E; simpl in *; congruence.
  - apply NoDup_site_list.
  - intros; now rewrite in_site_list_yx, in_site_list.
Qed.

Lemma length_bond_list nx ny : length (build_bond_list nx ny) = 2 * (nx * ny).
Proof.
  unfold build_bond_list. rewrite app_length, horizontal_map, vertical_map, !map_length.
  rewrite (Permutation_length (site_list_yx_perm nx ny)), length_site_list. lia.
Qed.

Lemma in_bond_list nx ny b :
  In b (build_bond_list nx ny) <->
  exists s, in_cell nx ny s /\ (b = hbond nx s \/ b = vbond ny s).
Proof.
  unfold build_bond_list. rewrite in_app_iff, horizontal_map, vertical_map, !in_map_iff.
  split.
  - intros [(s & <- & H)|(s & <- & H)]; exists s.
    + apply in_site_list in H; auto.
    + apply in_site_list_yx in H; auto.
  - intros (s & H & [-> | ->]); [left|right]; exists s; split; auto.
    + now apply in_site_list. + now apply in_site_list_yx.
Qed.

Lemma NoDup_bond_list nx ny : NoDup (build_bond_list nx ny).
Proof.
  unfold build_bond_list. rewrite horizontal_map, vertical_map.
  apply NoDup_app_intro.
  - apply NoDup_map_in; [|apply NoDup_site_list]. intros x y _ _ E; now inversion E.
  - apply NoDup_map_in.
    + intros x y _ _ E; now inversion E.
    + apply (Permutation_NoDup (Permutation_sym (site_list_yx_perm nx ny))), NoDup_site_list.
  - intros b H1 H2. apply in_map_iff in H1 as (? & <- & _), H2 as (? & E & _). discriminate.
Qed.

(** Shifting the cell by one column (row) permutes its sites. *)
Lemma shift_x_perm nx ny :
  Permutation (map (fun s : site => ((fst s + 1) mod nx, snd s)) (build_site_list nx ny))
              (build_site_list nx ny).
Proof.
  apply NoDup_Permutation_bis.
  - apply NoDup_map_in; [|apply NoDup_site_list].
    intros [x y] [x' y'] H1 H2 E; apply in_site_list in H1 as [A B], H2 as [A' B'].
    simpl in *. injection E as E1 E2. f_equal; eauto using mod_succ_inj.
  - rewrite map_length; auto.
  - intros s Hs. apply in_map_iff in Hs as ([x y] & <- & H). apply in_site_list in H as [A B].
    apply in_site_list; split; simpl in *; auto. apply Nat.mod_upper_bound; lia.
Qed.

Lemma shift_y_perm nx ny :
  Permutation (map (fun s : site => (fst s, (snd s + 1) mod ny)) (build_site_list nx ny))
              (build_site_list nx ny).
Proof.
  apply NoDup_Permutation_bis.
  - apply NoDup_map_in; [|apply NoDup_site_list].
    intros [x y] [x' y'] H1 H2 E; apply in_site_list in H1 as [A B], H2 as [A' B'].
    simpl in *. injection E as E1 E2. f_equal; eauto using mod_succ_inj.
  - rewrite map_length; auto.
  - intros s Hs. apply in_map_iff in Hs as ([x y] & <- & H). apply in_site_list in H as [A B].
    apply in_site_list; split; simpl in *; auto. apply Nat.mod_upper_bound; lia.
Qed.

Lemma cell_sides_perm nx ny :
  Permutation (cell_sides nx ny)
    (flat_map (fun d => map (fun s => (s, d)) (build_site_list nx ny)) [0;1;2;3]).
Proof.
  unfold cell_sides. rewrite <- site_list_eq. generalize (build_site_list nx ny) as l.
  induction l as [|s l IH]; simpl; [constructor|].
  rewrite IH; simpl. rewrite !app_nil_r.
  apply perm_skip. rewrite <- Permutation_middle. 
  transitivity ((s,1) :: map (fun s0 => (s0, 0)) l ++ (s,2) :: (s,3) ::
     (map (fun s0 => (s0,1)) l ++ map (fun s0 => (s0,2)) l ++ map (fun s0 => (s0,3)) l)).
  { apply perm_skip. rewrite <- !Permutation_middle. reflexivity. }
  apply perm_skip. apply Permutation_app_head.
  rewrite <- Permutation_middle. apply perm_skip.
  rewrite app_assoc, (app_assoc _ (map (fun s0 => (s0,2)) l) ((s,3) :: _)).
  apply Permutation_middle.
Qed.

Lemma bond_ends_perm nx ny :
  Permutation (flat_map bond_ends (build_bond_list nx ny)) (cell_sides nx ny).
Proof.
  rewrite cell_sides_perm. unfold build_bond_list.
  rewrite flat_map_app, horizontal_map, vertical_map, !flat_map_map.
  unfold bond_ends.
  rewrite !flat_map_pair_perm; simpl. rewrite app_nil_r.
  assert (H2: Permutation (map (fun x : site => ((((fst x + 1) mod nx, snd x) : site), 0)) (build_site_list nx ny))
              (map (fun s => (s,0)) (build_site_list nx ny))).
  { etransitivity; [|exact (Permutation_map (fun s : site => (s,0)) (shift_x_perm nx ny))].
    rewrite map_map; reflexivity. }
  assert (H3: Permutation (map (fun x : site => ((fst x, (snd x + 1) mod ny) : site, 3)) (site_list_yx nx ny))
              (map (fun s => (s,3)) (build_site_list nx ny))).
  { rewrite (Permutation_map _ (site_list_yx_perm nx ny)).
    etransitivity; [|exact (Permutation_map (fun s : site => (s,3)) (shift_y_perm nx ny))].
    rewrite map_map; reflexivity. }
  assert (H1: Permutation (map (fun x : site => (x, 1)) (site_list_yx nx ny))
              (map (fun s => (s,1)) (build_site_list nx ny))).
  { apply Permutation_map, site_list_yx_perm. }
  change (0 : nat) with 0 in *.
  rewrite H1. etransitivity.
  { apply Permutation_app; [apply Permutation_app; [reflexivity|exact H2]|apply Permutation_app; [reflexivity|exact H3]]. }
  set (L := build_site_list nx ny).
  rewrite (Permutation_app_comm (map (fun s => (s,2)) L) (map (fun s => (s,0)) L)).
  rewrite <- app_assoc. apply Permutation_app_head.
  rewrite !app_assoc. apply Permutation_app_tail. apply Permutation_app_comm.
Qed.

Lemma bond_list_adjacent nx ny b :
  In b (build_bond_list nx ny) ->
  in_cell nx ny (b_s1 b) /\ in_cell nx ny (b_s2 b) /\
  adjacent nx ny (b_k b) (b_s1 b) (b_s2 b) /\
  adjacent nx ny ((b_k b + 2) mod 4) (b_s2 b) (b_s1 b).
Proof.
  intros H; apply in_bond_list in H as ([x y] & [Hx Hy] & [-> | ->]); simpl in *;
  unfold in_cell; simpl; repeat split; auto; try (apply Nat.mod_upper_bound; lia);
  apply succ_mod_iff; auto.
Qed.

Lemma adjacent_nbr nx ny k s t : k < 4 -> in_cell nx ny s -> in_cell nx ny t ->
  (adjacent nx ny k s t <-> t = nbr nx ny k s).
Proof.
  intros Hk [Hx Hy] [Hx' Hy']. destruct s as [x y], t as [x' y']; simpl in *.
  assert (E: forall a b c d : nat, (a,b) = (c,d) <-> a = c /\ b = d)
    by (intros; split; [intros H; inversion H; auto|intros []; congruence]).
  destruct k as [|[|[|[|]]]]; [| | | |lia]; simpl; rewrite E.
  - rewrite mod_pred_eq by auto. unfold succ_mod. destruct (Nat.eqb_spec x 0); lia.
  - rewrite succ_mod_iff by auto. tauto.
  - rewrite succ_mod_iff by auto. tauto.
  - rewrite mod_pred_eq by auto. unfold succ_mod. destruct (Nat.eqb_spec y 0); lia.
Qed.

Lemma pred_succ_n n x : x < n -> ((x + 1) mod n + n - 1) mod n = x.
Proof.
  intros H. assert (B : (x + 1) mod n < n) by (apply Nat.mod_upper_bound; lia).
  rewrite mod_pred_eq by exact B. rewrite mod_succ_eq by exact H.
  destruct (Nat.eqb_spec (x + 1) n); [cbn; lia|].
  destruct (Nat.eqb_spec (x + 1) 0); lia.
Qed.
Lemma succ_pred_n n x : x < n -> ((x + n - 1) mod n + 1) mod n = x.
Proof.
  intros H. assert (B : (x + n - 1) mod n < n) by (apply Nat.mod_upper_bound; lia).
  rewrite mod_succ_eq by exact B. rewrite mod_pred_eq by exact H.
  destruct (Nat.eqb_spec x 0).
  - destruct (Nat.eqb_spec (n - 1 + 1) n); lia.
  - destruct (Nat.eqb_spec (x - 1 + 1) n); lia.
Qed.
(** one step and back *)
Lemma nbr_there_back nx ny k s : k < 4 -> in_cell nx ny s -> nbr nx ny ((k + 2) mod 4) (nbr nx ny k s) = s.
Proof.
  intros Hk [A B]. destruct s as [x y]; cbn in A, B.
  destruct k as [|[|[|[|k]]]]; try lia;
    [change ((0 + 2) mod 4) with 2|change ((1 + 2) mod 4) with 3|change ((2 + 2) mod 4) with 0|change ((3 + 2) mod 4) with 1];
    unfold nbr; cbn [fst snd]; f_equal; auto using pred_succ_n, succ_pred_n.
Qed.
Lemma nbr_cell nx ny k s : in_cell nx ny s -> in_cell nx ny (nbr nx ny k s).
Proof.
  destruct s as [x y]. intros [Hx Hy]. destruct k as [|[|[|k]]]; split; cbn in *; auto; apply Nat.mod_upper_bound; lia.
Qed.
