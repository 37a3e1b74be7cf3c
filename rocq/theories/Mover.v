(** Model of acetn/renormalization/directional_mover.py (sequential part) and
    ctmrg.py.

    [T] is the type of tensors.  The numerical kernels are parameters: the
    contractions cj1, cj2, ej of renormalize_boundary, the permutation of the
    site tensor legs, and the two projector calculations.  The kernels may fail
    (res) and the projector calculations thread a random-generator state [R]
    (used by the randomised SVD). *)
From Coq Require Import List Arith Lia Bool Permutation.
From Verif Require Import ListAux Lattice LatticeFacts Base.
Import ListNotations.

(** The entries of one site's tensor dictionary: 'A', 'C'[d], 'E'[d]
    (site_tensor.py 29-43; the index d is 0..3). *)
Inductive slot := SA | SC (d : nat) | SE (d : nat).
Definition slot_eq_dec (a b : slot) : {a = b} + {a <> b}.
Proof. decide equality; apply Nat.eq_dec. Defined.

(** projectors.py 28-33: the two projector calculations *)
Inductive ptype := Full | Half.

(** the line indices visited by the right and up moves *)
Lemma sweep_perm n : Permutation (map (fun i => (n - i + 1) mod n) (seq 0 n)) (seq 0 n).
Proof.
  apply NoDup_Permutation_bis.
  - apply NoDup_map_in; [|apply seq_NoDup]. intros x y Hx Hy E.
    apply in_seq in Hx, Hy.
    assert (H : forall z, z < n -> (n - z + 1) mod n =
       if z =? 0 then (if n =? 1 then 0 else 1) else if z =? 1 then 0 else n - z + 1).
    { intros z Hz. destruct (Nat.eqb_spec z 0).
      - subst. destruct (Nat.eqb_spec n 1); [subst; reflexivity|].
        replace (n - 0 + 1) with (1 + 1 * n) by lia. rewrite Nat.mod_add by lia. apply Nat.mod_small; lia.
      - destruct (Nat.eqb_spec z 1).
        + subst. replace (n - 1 + 1) with n by lia. apply Nat.mod_same; lia.
        + apply Nat.mod_small; lia. }
    rewrite !H in E by lia.
    destruct (Nat.eqb_spec x 0), (Nat.eqb_spec y 0), (Nat.eqb_spec n 1), (Nat.eqb_spec x 1), (Nat.eqb_spec y 1); lia.
  - now rewrite map_length.
  - intros x Hx. apply in_map_iff in Hx as (y & <- & Hy). apply in_seq in Hy. apply in_seq.
    split; [lia|]. apply Nat.mod_upper_bound; lia.
Qed.

Lemma in_rev_sweep n x : x < n -> exists i, i < n /\ (n - i + 1) mod n = x.
Proof.
  intros H. assert (I : In x (map (fun i => (n - i + 1) mod n) (seq 0 n))).
  { eapply Permutation_in; [apply Permutation_sym, sweep_perm|]. apply in_seq; lia. }
  apply in_map_iff in I as (i & E & Hi). apply in_seq in Hi. exists i; split; auto; lia.
Qed.

Section Mover.
Variables (T R : Type).

(** The network: every site of the process-wide table, as a function. *)
Definition net := site -> slot -> T.
Definition upd (n : net) (s : site) (sl : slot) (v : T) : net :=
  fun s' sl' => if site_eq_dec s' s then if slot_eq_dec sl' sl then v else n s' sl' else n s' sl'.

(** What make_quarter_tensor (projectors.py 47-50) reads of a site. *)
Record quarter := Quarter { q_a : T; q_c : T; q_e1 : T; q_e2 : T }.

Variable bperm : nat -> T -> T.            (* SiteTensor.bond_permute(k) of A *)
Variable cj1 : T -> T -> T -> res T.        (* renormalize_cj1(ci, ei, proj) *)
Variable cj2 : T -> T -> T -> res T.        (* renormalize_cj2(ci, ei, proj) *)
Variable ej : T -> T -> T -> T -> res T.    (* renormalize_ej(ei, ai, proj2, proj1) *)
Variable calcH : R -> quarter -> quarter -> res (T * T * R).
Variable calcF : R -> quarter -> quarter -> quarter -> quarter -> res (T * T * R).
Variable pt : ptype.
Variables nx ny : nat.

Definition quarter_of (n : net) (s : site) (k : nat) : quarter :=
  Quarter (bperm k (n s SA)) (n s (SC (k mod 4))) (n s (SE ((3 + k) mod 4))) (n s (SE (k mod 4))).

(** projectors.py 138-217: which quarters enter; sites = [s1; s2; s3; s4] *)
Definition calculate (n : net) (r : R) (s1 s2 s3 s4 : site) (k : nat) : res (T * T * R) :=
  match pt with
  | Half => calcH r (quarter_of n s1 k) (quarter_of n s4 (k + 3))
  | Full => calcF r (quarter_of n s1 k) (quarter_of n s2 (k + 1))
                    (quarter_of n s3 (k + 2)) (quarter_of n s4 (k + 3))
  end.

(** dictionaries proj1, proj2: row -> projector *)
Definition dict := nat -> option T.
Definition dempty : dict := fun _ => None.
Definition dset (d : dict) (i : nat) (v : T) : dict := fun j => if j =? i then Some v else d j.
Definition dget (d : dict) (i : nat) : res T :=
  match d i with Some v => Ok v | None => Err KeyError end.

(** directional_mover.py 99-118 *)
Definition calculate_left_projectors (n : net) (xi yi : nat) (r : R) :=
  let xj := (xi + 1) mod nx in let yj := (yi + ny - 1) mod ny in
  calculate n r (xi, yi) (xj, yi) (xj, yj) (xi, yj) 0.
(** 120-139 *)
Definition calculate_right_projectors (n : net) (xi yi : nat) (r : R) :=
  let xj := (xi + nx - 1) mod nx in let yj := (yi + 1) mod ny in
  calculate n r (xi, yi) (xj, yi) (xj, yj) (xi, yj) 2.
(** 141-160 *)
Definition calculate_up_projectors (n : net) (xi yi : nat) (r : R) :=
  let xj := (xi + nx - 1) mod nx in let yj := (yi + ny - 1) mod ny in
  calculate n r (xi, yi) (xi, yj) (xj, yj) (xj, yi) 1.
(** 162-181 *)
Definition calculate_down_projectors (n : net) (xi yi : nat) (r : R) :=
  let xj := (xi + 1) mod nx in let yj := (yi + 1) mod ny in
  calculate n r (xi, yi) (xi, yj) (xj, yj) (xj, yi) 3.

(** 273-303 *)
Definition renormalize_boundary (n : net) (proj1 proj2 : dict) (s1 s2 : site) (i j k : nat) : res net :=
  let! p1i := dget proj1 i in
  let! c1 := cj1 (n s1 (SC ((3 + k) mod 4))) (n s1 (SE ((2 + k) mod 4))) p1i in
  let n1 := upd n s2 (SC ((3 + k) mod 4)) c1 in
  let! p2j := dget proj2 j in
  let! c2 := cj2 (n1 s1 (SC k)) (n1 s1 (SE k)) p2j in
  let n2 := upd n1 s2 (SC k) c2 in
  let! p2i := dget proj2 i in
  let! p1j := dget proj1 j in
  let! e := ej (n2 s1 (SE ((3 + k) mod 4))) (bperm k (n2 s1 SA)) p2i p1j in
  Ok (upd n2 s2 (SE ((3 + k) mod 4)) e).

(** the first loop of each move: proj1[i], proj2[i] = ... *)
Fixpoint proj_loop (rows : list nat) (f : nat -> R -> res (T * T * R)) (d1 d2 : dict) (r : R)
  : res (dict * dict * R) :=
  match rows with
  | [] => Ok (d1, d2, r)
  | i :: rows => let! (a, b, r') := f i r in proj_loop rows f (dset d1 i a) (dset d2 i b) r'
  end.

(** 23-40 *)
Definition left_move (n : net) (r : R) (xi : nat) : res (net * R) :=
  let! (p1, p2, r') := proj_loop (seq 0 ny) (fun yi => calculate_left_projectors n xi yi) dempty dempty r in
  let! n' := for_each (seq 0 ny) (fun yi m =>
    let xj := (xi + 1) mod nx in let yj := (yi + 1) mod ny in
    renormalize_boundary m p1 p2 (xi, yi) (xj, yi) yi yj 0) n in
  Ok (n', r').
(** 42-59 *)
Definition up_move (n : net) (r : R) (yi : nat) : res (net * R) :=
  let! (p1, p2, r') := proj_loop (seq 0 nx) (fun xi => calculate_up_projectors n xi yi) dempty dempty r in
  let! n' := for_each (seq 0 nx) (fun xi m =>
    let xj := (xi + 1) mod nx in let yj := (yi + ny - 1) mod ny in
    renormalize_boundary m p1 p2 (xi, yi) (xi, yj) xi xj 1) n in
  Ok (n', r').
(** 61-78 *)
Definition right_move (n : net) (r : R) (xi : nat) : res (net * R) :=
  let! (p1, p2, r') := proj_loop (seq 0 ny) (fun yi => calculate_right_projectors n xi yi) dempty dempty r in
  let! n' := for_each (seq 0 ny) (fun yi m =>
    let xj := (xi + nx - 1) mod nx in let yj := (yi + ny - 1) mod ny in
    renormalize_boundary m p1 p2 (xi, yi) (xj, yi) yi yj 2) n in
  Ok (n', r').
(** 80-97 *)
Definition down_move (n : net) (r : R) (yi : nat) : res (net * R) :=
  let! (p1, p2, r') := proj_loop (seq 0 nx) (fun xi => calculate_down_projectors n xi yi) dempty dempty r in
  let! n' := for_each (seq 0 nx) (fun xi m =>
    let xj := (xi + nx - 1) mod nx in let yj := (yi + 1) mod ny in
    renormalize_boundary m p1 p2 (xi, yi) (xi, yj) xi xj 3) n in
  Ok (n', r').

(** ctmrg.py 25-31: one step of the sequential branch *)
Definition ctmrg_step (nr : net * R) : res (net * R) :=
  let! nr := for_each (seq 0 nx) (fun xi nr =>
    let! nr := left_move (fst nr) (snd nr) xi in
    right_move (fst nr) (snd nr) ((nx - xi + 1) mod nx)) nr in
  for_each (seq 0 ny) (fun yi nr =>
    let! nr := up_move (fst nr) (snd nr) ((ny - yi + 1) mod ny) in
    down_move (fst nr) (snd nr) yi) nr.

(** ctmrg.py 18-31 *)
Definition ctmrg (steps : nat) (nr : net * R) : res (net * R) :=
  for_each (seq 0 steps) (fun _ nr => ctmrg_step nr) nr.

(** ---- uniform description of the four moves ---- *)

(** move in direction k on the column/row with coordinate c *)
Definition move_dir (k : nat) (n : net) (r : R) (c : nat) : res (net * R) :=
  match k with
  | 0 => left_move n r c | 1 => up_move n r c | 2 => right_move n r c | _ => down_move n r c
  end.

Definition rows_of (k : nat) : nat := match k with 0 | 2 => ny | _ => nx end.
Definition lines_of (k : nat) : nat := match k with 0 | 2 => nx | _ => ny end.
(** site of row i on line c, and the row of a site *)
Definition on_line (k c i : nat) : site := match k with 0 | 2 => (c, i) | _ => (i, c) end.
Definition row_of (k : nat) (s : site) : nat := match k with 0 | 2 => snd s | _ => fst s end.
Definition line_of (k : nat) (s : site) : nat := match k with 0 | 2 => fst s | _ => snd s end.

Definition calc_at (n : net) (k : nat) (s : site) (r : R) : res (T * T * R) :=
  calculate n r s (nbr nx ny ((k + 2) mod 4) s)
     (match k with 0 | 2 => (fst (nbr nx ny ((k + 2) mod 4) s), snd (nbr nx ny ((k + 3) mod 4) s))
      | _ => (fst (nbr nx ny ((k + 3) mod 4) s), snd (nbr nx ny ((k + 2) mod 4) s)) end)
     (nbr nx ny ((k + 3) mod 4) s) k.

Definition renorm_at (p1 p2 : dict) (k : nat) (s : site) (m : net) : res net :=
  renormalize_boundary m p1 p2 s (nbr nx ny ((k + 2) mod 4) s)
    (row_of k s) (row_of k (nbr nx ny ((k + 1) mod 4) s)) k.

Lemma for_each_ext {A S} (l : list A) (f g : A -> S -> res S) s :
  (forall a s, In a l -> f a s = g a s) -> for_each l f s = for_each l g s.
Proof.
  revert s; induction l as [|a l IH]; intros s H; auto. cbn [for_each].
  rewrite (H a s) by now left. destruct (g a s); cbn; auto. apply IH. intros; apply H; now right.
Qed.

Lemma for_each_map {A B S} (h : A -> B) (l : list A) (f : B -> S -> res S) s :
  for_each (map h l) f s = for_each l (fun a => f (h a)) s.
Proof.
  revert s; induction l as [|a l IH]; intros s; auto. cbn [for_each map].
  destruct (f (h a) s); cbn; auto.
Qed.

Lemma proj_loop_ext rows f g d1 d2 r :
  (forall i r, In i rows -> f i r = g i r) -> proj_loop rows f d1 d2 r = proj_loop rows g d1 d2 r.
Proof.
  revert d1 d2 r; induction rows as [|i rows IH]; intros d1 d2 r H; auto.
  cbn [proj_loop]. rewrite (H i r) by now left.
  destruct (g i r) as [[[a b] r']|]; cbn; auto. apply IH. intros; apply H; now right.
Qed.

Lemma move_dir_eq k n r c : k < 4 ->
  move_dir k n r c =
  let! (p1, p2, r') := proj_loop (seq 0 (rows_of k)) (fun i => calc_at n k (on_line k c i)) dempty dempty r in
  let! n' := for_each (map (on_line k c) (seq 0 (rows_of k))) (renorm_at p1 p2 k) n in
  Ok (n', r').
Proof.
  intros Hk.
  transitivity (let! (p1, p2, r') := proj_loop (seq 0 (rows_of k)) (fun i => calc_at n k (on_line k c i)) dempty dempty r in
    let! n' := for_each (seq 0 (rows_of k)) (fun i => renorm_at p1 p2 k (on_line k c i)) n in
    Ok (n', r')).
  - destruct k as [|[|[|[|k]]]]; try lia; reflexivity.
  - destruct (proj_loop _ _ _ _ _) as [[[p1 p2] r']|e]; cbn [bind]; auto.
    now rewrite for_each_map.
Qed.

Lemma upd_same n s sl v : upd n s sl v s sl = v.
Proof. unfold upd. destruct (site_eq_dec s s), (slot_eq_dec sl sl); congruence. Qed.
Lemma upd_other_slot n s s' sl sl' v : sl' <> sl -> upd n s sl v s' sl' = n s' sl'.
Proof. intros. unfold upd. destruct (site_eq_dec s' s), (slot_eq_dec sl' sl); congruence. Qed.
Lemma upd_other_site n s s' sl sl' v : s' <> s -> upd n s sl v s' sl' = n s' sl'.
Proof. intros. unfold upd. destruct (site_eq_dec s' s), (slot_eq_dec sl' sl); congruence. Qed.

(** The new tensors of site nbr (k+2) s, computed from a network m. *)
Definition row_result (p1 p2 : dict) (k : nat) (s : site) (m : net) : res (T * T * T) :=
  let i := row_of k s in let j := row_of k (nbr nx ny ((k + 1) mod 4) s) in
  let! p1i := dget p1 i in
  let! c1 := cj1 (m s (SC ((3 + k) mod 4))) (m s (SE ((2 + k) mod 4))) p1i in
  let! p2j := dget p2 j in
  let! c2 := cj2 (m s (SC k)) (m s (SE k)) p2j in
  let! p2i := dget p2 i in
  let! p1j := dget p1 j in
  let! e := ej (m s (SE ((3 + k) mod 4))) (bperm k (m s SA)) p2i p1j in
  Ok (c1, c2, e).

Definition row_write (k : nat) (s : site) (w : T * T * T) (m : net) : net :=
  let s2 := nbr nx ny ((k + 2) mod 4) s in
  upd (upd (upd m s2 (SC ((3 + k) mod 4)) (fst (fst w))) s2 (SC k) (snd (fst w)))
      s2 (SE ((3 + k) mod 4)) (snd w).

Lemma renorm_at_eq p1 p2 k s m : k < 4 ->
  renorm_at p1 p2 k s m = let! w := row_result p1 p2 k s m in Ok (row_write k s w m).
Proof.
  intros Hk. unfold renorm_at, renormalize_boundary, row_result.
  destruct (dget p1 (row_of k s)); cbn [bind]; auto.
  destruct (cj1 _ _ a); cbn [bind]; auto.
  destruct (dget p2 (row_of k (nbr nx ny ((k + 1) mod 4) s))); cbn [bind]; auto.
  rewrite !(upd_other_slot m _ s (SC ((3 + k) mod 4)) (SE k)) by discriminate.
  rewrite !(upd_other_slot m _ s (SC ((3 + k) mod 4)) (SC k))
    by (destruct k as [|[|[|[|k]]]]; try lia; cbn; congruence).
  destruct (cj2 _ _ a1); cbn [bind]; auto.
  destruct (dget p2 (row_of k s)); cbn [bind]; auto.
  destruct (dget p1 _); cbn [bind]; auto.
  rewrite !upd_other_slot by discriminate.
  destruct (ej _ _ _ _); cbn [bind]; auto.
Qed.

(** Entries of the sites of a list of rows. *)
Lemma row_result_ext p1 p2 k s m m' :
  (forall sl, m s sl = m' s sl) -> row_result p1 p2 k s m = row_result p1 p2 k s m'.
Proof. intros H. unfold row_result. now rewrite !H. Qed.

Lemma row_write_other k s w m s' sl :
  s' <> nbr nx ny ((k + 2) mod 4) s -> row_write k s w m s' sl = m s' sl.
Proof. intros H. unfold row_write. now rewrite !upd_other_site. Qed.

Lemma row_write_slot k s w m s' sl :
  sl <> SC ((3 + k) mod 4) -> sl <> SC k -> sl <> SE ((3 + k) mod 4) ->
  row_write k s w m s' sl = m s' sl.
Proof. intros. unfold row_write. now rewrite !upd_other_slot. Qed.

Lemma row_write_at k s w m : k < 4 ->
  let s2 := nbr nx ny ((k + 2) mod 4) s in
  row_write k s w m s2 (SC ((3 + k) mod 4)) = fst (fst w) /\
  row_write k s w m s2 (SC k) = snd (fst w) /\
  row_write k s w m s2 (SE ((3 + k) mod 4)) = snd w.
Proof.
  intros Hk s2. unfold row_write; fold s2.
  assert (N : SC ((3 + k) mod 4) <> SC k)
    by (destruct k as [|[|[|[|k]]]]; try lia; cbn; congruence).
  repeat split.
  - rewrite (upd_other_slot _ s2 s2 _ (SC ((3 + k) mod 4))) by discriminate.
    rewrite upd_other_slot by exact N. apply upd_same.
  - rewrite (upd_other_slot _ s2 s2 _ (SC k)) by discriminate. apply upd_same.
  - apply upd_same.
Qed.

(** A list of rows that do not disturb each other. *)
Definition independent_rows (k : nat) (ss : list site) : Prop :=
  NoDup ss /\
  (forall s s', In s ss -> In s' ss -> s <> s' ->
     nbr nx ny ((k + 2) mod 4) s <> s' /\
     nbr nx ny ((k + 2) mod 4) s <> nbr nx ny ((k + 2) mod 4) s').

Lemma rows_spec p1 p2 k : k < 4 -> forall ss m m',
  independent_rows k ss ->
  for_each ss (renorm_at p1 p2 k) m = Ok m' ->
  (forall s, In s ss -> exists c1 c2 e, row_result p1 p2 k s m = Ok (c1, c2, e) /\
     m' (nbr nx ny ((k + 2) mod 4) s) (SC ((3 + k) mod 4)) = c1 /\
     m' (nbr nx ny ((k + 2) mod 4) s) (SC k) = c2 /\
     m' (nbr nx ny ((k + 2) mod 4) s) (SE ((3 + k) mod 4)) = e) /\
  (forall s' sl, (forall s, In s ss -> nbr nx ny ((k + 2) mod 4) s <> s') -> m' s' sl = m s' sl) /\
  (forall s' sl, sl <> SC ((3 + k) mod 4) -> sl <> SC k -> sl <> SE ((3 + k) mod 4) ->
     m' s' sl = m s' sl).
Proof.
  intros Hk. induction ss as [|s ss IH]; intros m m' [Hnd Hi] H.
  - cbn in H. inversion H; subst. repeat split; auto. intros s [].
  - cbn [for_each] in H. rewrite renorm_at_eq in H by exact Hk.
    destruct (row_result p1 p2 k s m) as [[[c1 c2] e]|] eqn:E; cbn [bind] in H; [|discriminate].
    inversion Hnd as [|? ? Hn Hnd']; subst.
    assert (Hi' : independent_rows k ss).
    { split; auto. intros; apply Hi; auto; now right. }
    destruct (IH _ _ Hi' H) as (A & B & Cc).
    assert (Hsep : forall s', In s' ss -> nbr nx ny ((k+2) mod 4) s <> s' /\
       nbr nx ny ((k+2) mod 4) s' <> nbr nx ny ((k+2) mod 4) s).
    { intros s' Hs'. assert (s <> s') by (intros ->; contradiction).
      split; [apply (Hi s s'); auto; [now left|now right]|].
      apply (Hi s' s); auto; [now right|now left]. }
    split; [|split].
    + intros s' [<- | Hs'].
      * exists c1, c2, e. split; auto.
        rewrite !B by (intros s0 Hs0; apply (Hsep s0 Hs0)).
        destruct (row_write_at k s (c1, c2, e) m Hk) as (W1 & W2 & W3). cbn [fst snd] in *. auto.
      * destruct (A s' Hs') as (d1 & d2 & f & E' & R1 & R2 & R3).
        exists d1, d2, f. split; [|auto].
        rewrite <- E'. apply row_result_ext. intros sl. symmetry. apply row_write_other.
        intros X. apply (proj1 (Hsep s' Hs')). congruence.
    + intros s' sl Hs'. rewrite B by (intros; apply Hs'; now right).
      apply row_write_other. intros X. apply (Hs' s); [now left|congruence].
    + intros s' sl N1 N2 N3. rewrite Cc by auto. now apply row_write_slot.
Qed.

(** Success does not depend on the order of independent rows. *)
Lemma rows_ok p1 p2 k : k < 4 -> forall ss m,
  independent_rows k ss ->
  (forall s, In s ss -> exists w, row_result p1 p2 k s m = Ok w) ->
  exists m', for_each ss (renorm_at p1 p2 k) m = Ok m'.
Proof.
  intros Hk. induction ss as [|s ss IH]; intros m [Hnd Hi] H.
  - eexists; reflexivity.
  - cbn [for_each]. rewrite renorm_at_eq by exact Hk.
    destruct (H s (or_introl eq_refl)) as [w ->]. cbn [bind].
    inversion Hnd as [|? ? Hn Hnd']; subst.
    apply IH.
    + split; auto. intros; apply Hi; auto; now right.
    + intros s' Hs'. destruct (H s' (or_intror Hs')) as [w' E]. exists w'. rewrite <- E.
      apply row_result_ext. intros sl. apply row_write_other.
      intros X. assert (N : s <> s') by (intros ->; contradiction).
      destruct (Hi s s' (or_introl eq_refl) (or_intror Hs') N) as [K _]. congruence.
Qed.

Lemma independent_perm k ss ss' : Permutation ss ss' -> independent_rows k ss -> independent_rows k ss'.
Proof. clear - nx ny.
  intros P [H1 H2]. split; [eapply Permutation_NoDup; eauto|].
  intros s s' Hs Hs'. apply H2; (eapply Permutation_in; [apply Permutation_sym; exact P|assumption]).
Qed.

Lemma row_result_dec (p1 p2 : dict) k s m : (exists w, row_result p1 p2 k s m = Ok w) \/ (exists e, row_result p1 p2 k s m = Err e).
Proof. destruct (row_result p1 p2 k s m); eauto. Qed.

Lemma rows_perm p1 p2 k ss ss' m m' : k < 4 -> independent_rows k ss -> Permutation ss ss' ->
  for_each ss (renorm_at p1 p2 k) m = Ok m' ->
  exists m'', for_each ss' (renorm_at p1 p2 k) m = Ok m'' /\ forall s sl, m'' s sl = m' s sl.
Proof.
  intros Hk Hi P H. pose proof (independent_perm k ss ss' P Hi) as Hi'.
  destruct (rows_spec p1 p2 k Hk ss m m' Hi H) as (A & B & Cc).
  destruct (rows_ok p1 p2 k Hk ss' m Hi') as [m'' H'].
  { intros s Hs. destruct (A s) as (c1 & c2 & e & E & _).
    - eapply Permutation_in; [apply Permutation_sym|]; eauto.
    - eauto. }
  exists m''; split; auto.
  destruct (rows_spec p1 p2 k Hk ss' m m'' Hi' H') as (A' & B' & C').
  intros s sl.
  destruct (in_dec site_eq_dec s (map (nbr nx ny ((k+2) mod 4)) ss)) as [I|I].
  - apply in_map_iff in I as (s0 & <- & Hs0).
    destruct (A s0 Hs0) as (c1 & c2 & e & E & R1 & R2 & R3).
    destruct (A' s0 (Permutation_in _ P Hs0)) as (d1 & d2 & f & E' & S1 & S2 & S3).
    rewrite E in E'; inversion E'; subst.
    destruct (slot_eq_dec sl (SC ((3 + k) mod 4))) as [-> |]; [congruence|].
    destruct (slot_eq_dec sl (SC k)) as [-> |]; [congruence|].
    destruct (slot_eq_dec sl (SE ((3 + k) mod 4))) as [-> |]; [congruence|].
    rewrite Cc, C' by auto. auto.
  - assert (N : forall s0, In s0 ss -> nbr nx ny ((k+2) mod 4) s0 <> s).
    { intros s0 Hs0 X. apply I. apply in_map_iff. eauto. }
    rewrite B, B'; auto. intros s0 Hs0. apply N. eapply Permutation_in; [apply Permutation_sym|]; eauto.
Qed.

(** The rows of a line of the cell are independent. *)
Lemma on_line_in_cell k c i : k < 4 -> c < lines_of k -> i < rows_of k -> in_cell nx ny (on_line k c i).
Proof. clear - nx ny. destruct k as [|[|[|[|k]]]]; intros; try lia; split; cbn in *; lia. Qed.

Lemma nbr_line k c i : k < 4 -> c < lines_of k -> i < rows_of k ->
  exists c', c' < lines_of k /\ nbr nx ny ((k + 2) mod 4) (on_line k c i) = on_line k c' i /\
   (c' = c \/ c' <> c) /\
   (forall i', i' < rows_of k -> nbr nx ny ((k + 2) mod 4) (on_line k c i') = on_line k c' i').
Proof. clear - nx ny.
  intros Hk Hc Hi.
  destruct k as [|[|[|[|k]]]]; try lia; cbn in *;
   eexists; (split; [|split; [reflexivity|split; [|intros; reflexivity]]]);
   try (apply Nat.mod_upper_bound; lia);
   match goal with |- ?a = ?b \/ _ => destruct (Nat.eq_dec a b); auto end.
Qed.

Lemma on_line_inj k c c' i i' : on_line k c i = on_line k c' i' -> c = c' /\ i = i'.
Proof. unfold on_line. destruct k as [|[|[|k]]]; intros E; inversion E; auto. Qed.

Lemma line_independent k c : k < 4 -> c < lines_of k ->
  independent_rows k (map (on_line k c) (seq 0 (rows_of k))).
Proof. clear - nx ny.
  intros Hk Hc. split.
  - apply NoDup_map_in; [|apply seq_NoDup]. intros x y _ _ E. now apply on_line_inj in E.
  - intros s s' Hs Hs' N. apply in_map_iff in Hs as (i & <- & Hi), Hs' as (i' & <- & Hi').
    apply in_seq in Hi, Hi'.
    destruct (nbr_line k c i Hk Hc ltac:(lia)) as (c' & Hc' & E1 & _ & E2).
    rewrite E2, E2 by lia. split; intros X; apply on_line_inj in X as [_ ->]; now apply N.
Qed.

(** the projector dictionaries after the first loop *)
Lemma proj_loop_spec f : forall rows d1 d2 r p1 p2 r',
  NoDup rows -> proj_loop rows f d1 d2 r = Ok (p1, p2, r') ->
  (forall i, In i rows -> exists a b ri rj, f i ri = Ok (a, b, rj) /\ p1 i = Some a /\ p2 i = Some b) /\
  (forall i, ~ In i rows -> p1 i = d1 i /\ p2 i = d2 i).
Proof.
  induction rows as [|i rows IH]; intros d1 d2 r p1 p2 r' Hnd H.
  - cbn in H; inversion H; subst. split; [intros i []|auto].
  - cbn [proj_loop] in H. destruct (f i r) as [[[a b] r1]|] eqn:E; cbn [bind] in H; [|discriminate].
    inversion Hnd as [|? ? Hn Hnd']; subst.
    destruct (IH _ _ _ _ _ _ Hnd' H) as [A B]. split.
    + intros i' [<- | Hi']; [|now apply A].
      destruct (B i Hn) as [B1 B2]. exists a, b, r, r1. split; auto.
      rewrite B1, B2. unfold dset. rewrite Nat.eqb_refl. auto.
    + intros i' Hi'. destruct (B i') as [B1 B2]; [intros X; apply Hi'; now right|].
      rewrite B1, B2. unfold dset. destruct (Nat.eqb_spec i' i) as [-> |]; auto.
      exfalso; apply Hi'; now left.
Qed.

(** Everything a move does, in terms of the network before it. *)
Lemma move_spec k n r c n' r' : k < 4 -> c < lines_of k ->
  move_dir k n r c = Ok (n', r') ->
  exists p1 p2 : site -> T,
  (forall i, i < rows_of k -> let s := on_line k c i in exists ri rj,
     calc_at n k s ri = Ok (p1 s, p2 s, rj)) /\
  (forall i, i < rows_of k -> let s := on_line k c i in
     let s2 := nbr nx ny ((k + 2) mod 4) s in let u := nbr nx ny ((k + 1) mod 4) s in
     cj1 (n s (SC ((3 + k) mod 4))) (n s (SE ((2 + k) mod 4))) (p1 s) = Ok (n' s2 (SC ((3 + k) mod 4))) /\
     cj2 (n s (SC k)) (n s (SE k)) (p2 u) = Ok (n' s2 (SC k)) /\
     ej (n s (SE ((3 + k) mod 4))) (bperm k (n s SA)) (p2 s) (p1 u) = Ok (n' s2 (SE ((3 + k) mod 4)))) /\
  (forall s' sl, (forall i, i < rows_of k -> nbr nx ny ((k + 2) mod 4) (on_line k c i) <> s') ->
     n' s' sl = n s' sl) /\
  (forall s' sl, sl <> SC ((3 + k) mod 4) -> sl <> SC k -> sl <> SE ((3 + k) mod 4) ->
     n' s' sl = n s' sl).
Proof.
  intros Hk Hc. rewrite move_dir_eq by exact Hk.
  destruct (proj_loop _ _ _ _ _) as [[[p1 p2] r1]|] eqn:E; cbn [bind]; [|discriminate].
  destruct (for_each _ _ _) as [m'|] eqn:F; cbn [bind]; [|discriminate].
  intros X; inversion X; subst; clear X.
  destruct (proj_loop_spec _ _ _ _ _ _ _ _ (seq_NoDup _ _) E) as [A _].
  destruct (rows_spec p1 p2 k Hk _ _ _ (line_independent k c Hk Hc) F) as (B & Cc & D).
  assert (A' : forall i, i < rows_of k -> exists a b ri rj,
    calc_at n k (on_line k c i) ri = Ok (a, b, rj) /\ p1 i = Some a /\ p2 i = Some b)
    by (intros; apply A, in_seq; lia).
  set (q (p : dict) (s : site) := match p (row_of k s) with Some v => v | None => n s SA end).
  assert (Rw : forall i, row_of k (on_line k c i) = i)
    by (intros; unfold row_of, on_line; destruct k as [|[|[|k']]]; reflexivity).
  exists (q p1), (q p2). split; [|split; [|split]].
  - intros i Hi. cbv zeta. destruct (A' i Hi) as (a & b & ri & rj & E1 & E2 & E3).
    exists ri, rj. unfold q. rewrite Rw, E2, E3. exact E1.
  - intros i Hi. cbv zeta. set (s := on_line k c i). set (s2 := nbr nx ny ((k + 2) mod 4) s).
    set (u := nbr nx ny ((k + 1) mod 4) s). destruct (B s) as (c1 & c2 & e & E1 & E2 & E3 & E4).
    { apply in_map, in_seq; lia. }
    assert (Hj : row_of k u < rows_of k).
    { unfold u, s. destruct k as [|[|[|[|k']]]]; try lia; cbn in *; apply Nat.mod_upper_bound; lia. }
    destruct (A' i Hi) as (a & b & _ & _ & _ & P1 & P2).
    destruct (A' _ Hj) as (a' & b' & _ & _ & _ & Q1 & Q2).
    assert (Rs : row_of k s = i) by apply Rw.
    unfold row_result, dget in E1. fold u in E1. unfold q.
    rewrite Rs in *. rewrite P1, P2, Q1, Q2 in *. cbn [bind] in E1.
    destruct (cj1 _ _ a) eqn:X1; cbn [bind] in E1; [|discriminate].
    destruct (cj2 _ _ b') eqn:X2; cbn [bind] in E1; [|discriminate].
    destruct (ej _ _ b a') eqn:X3; cbn [bind] in E1; [|discriminate].
    injection E1 as I1 I2 I3. unfold s2. rewrite E2, E3, E4, <- I1, <- I2, <- I3. auto.
  - intros s' sl Hs. apply Cc. intros s0 Hs0. apply in_map_iff in Hs0 as (i & <- & Hi).
    apply in_seq in Hi. apply Hs; lia.
  - exact D.
Qed.

(** ---- errors ---- *)

Lemma rows_err p1 p2 k : k < 4 -> forall ss m e,
  independent_rows k ss -> for_each ss (renorm_at p1 p2 k) m = Err e ->
  exists s, In s ss /\ row_result p1 p2 k s m = Err e.
Proof.
  intros Hk. induction ss as [|s ss IH]; intros m e [Hnd Hi] H; [discriminate|].
  cbn [for_each] in H. rewrite renorm_at_eq in H by exact Hk.
  destruct (row_result p1 p2 k s m) as [w|e'] eqn:E; cbn [bind] in H.
  - inversion Hnd as [|? ? Hn Hnd']; subst.
    assert (Hi' : independent_rows k ss) by (split; auto; intros; apply Hi; auto; now right).
    destruct (IH _ _ Hi' H) as (s' & Hs' & E'). exists s'; split; [now right|].
    rewrite <- E'. apply row_result_ext. intros sl. symmetry. apply row_write_other.
    assert (N : s <> s') by (intros ->; contradiction).
    destruct (Hi s s' (or_introl eq_refl) (or_intror Hs') N) as [K _]. congruence.
  - injection H as <-. exists s; split; [now left|exact E].
Qed.

Lemma proj_loop_err f : forall rows d1 d2 r e,
  proj_loop rows f d1 d2 r = Err e -> exists i ri, In i rows /\ f i ri = Err e.
Proof.
  induction rows as [|i rows IH]; intros d1 d2 r e H; [discriminate|].
  cbn [proj_loop] in H. destruct (f i r) as [[[a b] r']|e'] eqn:E; cbn [bind] in H.
  - destruct (IH _ _ _ _ H) as (i' & ri & Hi & E'). exists i', ri; split; [now right|auto].
  - injection H as <-. exists i, r; split; [now left|exact E].
Qed.

(** A failing move: a projector calculation or a kernel failed. *)
Lemma move_err k n r c e : k < 4 -> c < lines_of k ->
  move_dir k n r c = Err e ->
  (exists i ri, i < rows_of k /\ calc_at n k (on_line k c i) ri = Err e) \/
  (exists p1 p2 : site -> T,
    (forall i, i < rows_of k -> let s := on_line k c i in exists ri rj,
       calc_at n k s ri = Ok (p1 s, p2 s, rj)) /\
    exists i, i < rows_of k /\ let s := on_line k c i in
     let u := nbr nx ny ((k + 1) mod 4) s in
     (cj1 (n s (SC ((3 + k) mod 4))) (n s (SE ((2 + k) mod 4))) (p1 s) = Err e \/
      cj2 (n s (SC k)) (n s (SE k)) (p2 u) = Err e \/
      ej (n s (SE ((3 + k) mod 4))) (bperm k (n s SA)) (p2 s) (p1 u) = Err e)).
Proof.
  intros Hk Hc. rewrite move_dir_eq by exact Hk.
  destruct (proj_loop _ _ _ _ _) as [[[p1 p2] r1]|e'] eqn:E; cbn [bind].
  2:{ intros X; injection X as <-. left. apply proj_loop_err in E as (i & ri & Hi & E).
      apply in_seq in Hi. exists i, ri; split; [lia|exact E]. }
  destruct (for_each _ _ _) as [m'|e'] eqn:F; cbn [bind]; [discriminate|].
  intros X; injection X as <-. right.
  destruct (proj_loop_spec _ _ _ _ _ _ _ _ (seq_NoDup _ _) E) as [A _].
  destruct (rows_err p1 p2 k Hk _ _ _ (line_independent k c Hk Hc) F) as (s & Hs & B).
  assert (A' : forall i, i < rows_of k -> exists a b ri rj,
    calc_at n k (on_line k c i) ri = Ok (a, b, rj) /\ p1 i = Some a /\ p2 i = Some b)
    by (intros; apply A, in_seq; lia).
  set (q (p : dict) (s : site) := match p (row_of k s) with Some v => v | None => n s SA end).
  assert (Rw : forall i, row_of k (on_line k c i) = i)
    by (intros; unfold row_of, on_line; destruct k as [|[|[|k']]]; reflexivity).
  exists (q p1), (q p2). split.
  - intros i Hi. cbv zeta. destruct (A' i Hi) as (a & b & ri & rj & E1 & E2 & E3).
    exists ri, rj. unfold q. rewrite Rw, E2, E3. exact E1.
  - apply in_map_iff in Hs as (i & <- & Hi). apply in_seq in Hi.
    exists i; split; [lia|]. cbv zeta. set (s := on_line k c i) in *.
    set (u := nbr nx ny ((k + 1) mod 4) s).
    assert (Hj : row_of k u < rows_of k).
    { unfold u, s. destruct k as [|[|[|[|k']]]]; try lia; cbn in *; apply Nat.mod_upper_bound; lia. }
    destruct (A' i ltac:(lia)) as (a & b & _ & _ & _ & P1 & P2).
    destruct (A' _ Hj) as (a' & b' & _ & _ & _ & Q1 & Q2).
    assert (Rs : row_of k s = i) by apply Rw.
    unfold row_result, dget in B. fold u in B. unfold q.
    rewrite Rs in *. rewrite P1, P2, Q1, Q2 in *. cbn [bind] in B.
    destruct (cj1 _ _ a) eqn:X1; cbn [bind] in B; [|left; congruence].
    destruct (cj2 _ _ b') eqn:X2; cbn [bind] in B; [|right; left; congruence].
    destruct (ej _ _ b a') eqn:X3; cbn [bind] in B; [discriminate|right; right; congruence].
Qed.

(** ---- the sweep (C11) ---- *)

(** Every site is the target of exactly the line before it. *)
Lemma nbr_surj k s : k < 4 -> in_cell nx ny s ->
  exists c i, c < lines_of k /\ i < rows_of k /\ nbr nx ny ((k + 2) mod 4) (on_line k c i) = s.
Proof. clear - nx ny.
  intros Hk Hs. destruct s as [x y], Hs as [Hx Hy]; cbn in *.
  destruct k as [|[|[|[|k]]]]; try lia; cbn.
  - exists ((x + nx - 1) mod nx), y. rewrite mod_pred_eq by lia.
    destruct (Nat.eqb_spec x 0); rewrite mod_succ_eq by lia;
      match goal with |- context [?a =? ?b] => destruct (Nat.eqb_spec a b) end;
      repeat split; try lia; f_equal; lia.
  - exists ((y + 1) mod ny), x. rewrite mod_succ_eq by lia.
    destruct (Nat.eqb_spec (y + 1) ny); rewrite mod_pred_eq by lia;
      match goal with |- context [?a =? ?b] => destruct (Nat.eqb_spec a b) end;
      repeat split; try lia; f_equal; lia.
  - exists ((x + 1) mod nx), y. rewrite mod_succ_eq by lia.
    destruct (Nat.eqb_spec (x + 1) nx); rewrite mod_pred_eq by lia;
      match goal with |- context [?a =? ?b] => destruct (Nat.eqb_spec a b) end;
      repeat split; try lia; f_equal; lia.
  - exists ((y + ny - 1) mod ny), x. rewrite mod_pred_eq by lia.
    destruct (Nat.eqb_spec y 0); rewrite mod_succ_eq by lia;
      match goal with |- context [?a =? ?b] => destruct (Nat.eqb_spec a b) end;
      repeat split; try lia; f_equal; lia.
Qed.

(** A history of moves: direction and line. *)
Definition run_moves (ms : list (nat * nat)) (nr : net * R) : res (net * R) :=
  for_each ms (fun m nr => move_dir (fst m) (fst nr) (snd nr) (snd m)) nr.

Lemma run_moves_app a b nr : run_moves (a ++ b) nr = let! nr := run_moves a nr in run_moves b nr.
Proof. apply for_each_app. Qed.

(** The moves of one sweep, in order. *)
Definition sweep : list (nat * nat) :=
  flat_map (fun xi => [(0, xi); (2, (nx - xi + 1) mod nx)]) (seq 0 nx) ++
  flat_map (fun yi => [(1, (ny - yi + 1) mod ny); (3, yi)]) (seq 0 ny).

Lemma for_each_pairs {A B S} (l : list A) (f g : A -> B) (body : B -> S -> res S) : forall s,
  for_each (flat_map (fun a => [f a; g a]) l) body s =
  for_each l (fun a s => let! s := body (f a) s in body (g a) s) s.
Proof.
  induction l as [|a l IH]; intros s; auto. cbn [flat_map for_each app].
  destruct (body (f a) s) as [s1|]; cbn [bind]; auto.
  destruct (body (g a) s1) as [s2|]; cbn [bind]; auto.
Qed.

Lemma ctmrg_step_eq nr : ctmrg_step nr = run_moves sweep nr.
Proof.
  unfold ctmrg_step, sweep. rewrite run_moves_app. unfold run_moves.
  rewrite !for_each_pairs.
  match goal with |- bind ?a _ = bind ?b _ => change b with a; destruct a as [x|]; cbn [bind]; auto end.
  now rewrite for_each_pairs.
Qed.

Definition valid_move (m : nat * nat) : Prop := fst m < 4 /\ snd m < lines_of (fst m).

Lemma sweep_valid : forall m, In m sweep -> valid_move m.
Proof. clear - nx ny.
  intros m H. unfold sweep in H. apply in_app_iff in H as [H|H]; apply in_flat_map in H as (x & Hx & Hm);
    apply in_seq in Hx; destruct Hm as [<- |[<- |[]]]; split; cbn; try lia; apply Nat.mod_upper_bound; lia.
Qed.

Lemma sweep_complete k c : k < 4 -> c < lines_of k -> In (k, c) sweep.
Proof. clear - nx ny.
  intros Hk Hc. unfold sweep. apply in_app_iff.
  destruct k as [|[|[|[|k]]]]; try lia; cbn in Hc.
  - left. apply in_flat_map. exists c. split; [apply in_seq; lia|now left].
  - right. destruct (in_rev_sweep ny c Hc) as (i & Hi & <-).
    apply in_flat_map. exists i. split; [apply in_seq; lia|now left].
  - left. destruct (in_rev_sweep nx c Hc) as (i & Hi & <-).
    apply in_flat_map. exists i. split; [apply in_seq; lia|right; now left].
  - right. apply in_flat_map. exists c. split; [apply in_seq; lia|right; now left].
Qed.

Section Coverage.
(** A property of tensors that all kernel outputs have. *)
Variable GC GE : T -> Prop.
Hypothesis cj1_good : forall c e p x, cj1 c e p = Ok x -> GC x.
Hypothesis cj2_good : forall c e p x, cj2 c e p = Ok x -> GC x.
Hypothesis ej_good : forall e a p q x, ej e a p q = Ok x -> GE x.

Definition good_at (n : net) (s : site) (sl : slot) : Prop :=
  match sl with SA => True | SC _ => GC (n s sl) | SE _ => GE (n s sl) end.

Lemma move_good k n r c n' r' : k < 4 -> c < lines_of k ->
  move_dir k n r c = Ok (n', r') ->
  (forall s, n' s SA = n s SA) /\
  (forall s sl, good_at n s sl -> good_at n' s sl) /\
  (forall i sl, i < rows_of k -> sl = SC ((3 + k) mod 4) \/ sl = SC k \/ sl = SE ((3 + k) mod 4) ->
     good_at n' (nbr nx ny ((k + 2) mod 4) (on_line k c i)) sl).
Proof.
  intros Hk Hc H. destruct (move_spec k n r c n' r' Hk Hc H) as (p1 & p2 & _ & W & O1 & O2).
  split; [|split].
  - intros s. apply O2; discriminate.
  - intros s sl G.
    destruct (in_dec site_eq_dec s (map (fun i => nbr nx ny ((k + 2) mod 4) (on_line k c i)) (seq 0 (rows_of k)))) as [I|I].
    + apply in_map_iff in I as (i & <- & Hi). apply in_seq in Hi.
      destruct (W i ltac:(lia)) as (W1 & W2 & W3). cbn zeta in *.
      destruct (slot_eq_dec sl (SC ((3 + k) mod 4))) as [-> |]; [cbn; eauto|].
      destruct (slot_eq_dec sl (SC k)) as [-> |]; [cbn; eauto|].
      destruct (slot_eq_dec sl (SE ((3 + k) mod 4))) as [-> |]; [cbn; eauto|].
      unfold good_at in *. rewrite O2; auto.
    + assert (E : n' s sl = n s sl).
      { apply O1. intros i Hi X. apply I. apply in_map_iff. exists i. split; auto. apply in_seq; lia. }
      unfold good_at in *. rewrite E. auto.
  - intros i sl Hi Hsl. destruct (W i Hi) as (W1 & W2 & W3). cbn zeta in *.
    destruct Hsl as [-> |[-> | ->]]; cbn; eauto.
Qed.

Lemma run_moves_good ms : (forall m, In m ms -> valid_move m) -> forall n r n' r',
  run_moves ms (n, r) = Ok (n', r') ->
  (forall s, n' s SA = n s SA) /\
  (forall s sl, good_at n s sl -> good_at n' s sl) /\
  (forall k c i sl, In (k, c) ms -> i < rows_of k ->
     sl = SC ((3 + k) mod 4) \/ sl = SC k \/ sl = SE ((3 + k) mod 4) ->
     good_at n' (nbr nx ny ((k + 2) mod 4) (on_line k c i)) sl).
Proof.
  induction ms as [|[k c] ms IH]; intros V n r n' r' H.
  - cbn in H; inversion H; subst. repeat split; auto. intros ? ? ? ? [].
  - cbn [run_moves for_each fst snd] in H.
    destruct (move_dir k n r c) as [[n1 r1]|] eqn:E; cbn [bind] in H; [|discriminate].
    destruct (V (k, c) (or_introl eq_refl)) as [Vk Vc]; cbn in Vk, Vc.
    destruct (move_good k n r c n1 r1 Vk Vc E) as (A1 & A2 & A3).
    destruct (IH (fun m Hm => V m (or_intror Hm)) n1 r1 n' r' H) as (B1 & B2 & B3).
    split; [intros; rewrite B1; auto|]. split; [auto|].
    intros k' c' i sl [X|X] Hi Hsl; [|eauto]. inversion X; subst. auto.
Qed.

Lemma sweep_good n r n' r' : ctmrg_step (n, r) = Ok (n', r') ->
  (forall s, n' s SA = n s SA) /\
  (forall s d, in_cell nx ny s -> d < 4 -> GC (n' s (SC d)) /\ GE (n' s (SE d))).
Proof.
  rewrite ctmrg_step_eq. intros H.
  destruct (run_moves_good sweep sweep_valid n r n' r' H) as (A & _ & B).
  split; auto. intros s d Hs Hd.
  assert (K : forall k sl, k < 4 -> sl = SC ((3 + k) mod 4) \/ sl = SC k \/ sl = SE ((3 + k) mod 4) -> good_at n' s sl).
  { intros k sl Hk Hsl. destruct (nbr_surj k s Hk Hs) as (c & i & Hc & Hi & <-).
    eapply B; eauto using sweep_complete. }
  split.
  - apply (K d (SC d)); auto.
  - apply (K ((d + 1) mod 4) (SE d)); [apply Nat.mod_upper_bound; lia|].
    right; right. destruct d as [|[|[|[|d]]]]; try lia; reflexivity.
Qed.

End Coverage.

End Mover.
