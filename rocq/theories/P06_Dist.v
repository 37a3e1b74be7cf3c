(** Properties C16-C19, C55: distributed moves and absorbing a bond. *)
From Coq Require Import List Arith Lia Bool.
From Verif Require Import ListAux Lattice LatticeFacts Base Mover Dist P05_Mover.
Import ListNotations.

Section Props.
Variables (T R : Type) (bperm : nat -> T -> T)
    (cj1 cj2 : T -> T -> T -> res T) (ej : T -> T -> T -> T -> res T)
    (calcH : R -> quarter T -> quarter T -> res (T * T * R))
    (calcF : R -> quarter T -> quarter T -> quarter T -> quarter T -> res (T * T * R))
    (pt : ptype) (nx ny : nat)
    (update : net T -> R -> bond -> res (T * T * R)).

Notation left_right_move_dist := (left_right_move_dist T R bperm cj1 cj2 ej calcH calcF pt nx ny).
Notation up_down_move_dist := (up_down_move_dist T R bperm cj1 cj2 ej calcH calcF pt nx ny).
Notation left_move := (left_move T R bperm cj1 cj2 ej calcH calcF pt nx ny).
Notation right_move := (right_move T R bperm cj1 cj2 ej calcH calcF pt nx ny).
Notation up_move := (up_move T R bperm cj1 cj2 ej calcH calcF pt nx ny).
Notation down_move := (down_move T R bperm cj1 cj2 ej calcH calcF pt nx ny).
Notation run_dop := (run_dop T R bperm cj1 cj2 ej calcH calcF pt nx ny update).
Notation absorb_bond := (absorb_bond T R bperm cj1 cj2 ej calcH calcF pt nx ny).
Notation absorb_bond_dist := (absorb_bond_dist T R bperm cj1 cj2 ej calcH calcF pt nx ny).
Notation world := (list (net T * R)).

(** Spec of C16: the world sizes that work on a cell with [rows] rows. *)
Definition good_world (ws rows : nat) : Prop :=
  (Nat.Even ws /\ (ws = 2 \/ ws = 2 * rows - 2 \/ ws = 2 * rows)) \/
  (Nat.Odd ws /\ ws = 2 * rows - 1).

Lemma good_world_iff ws rows : 2 <= ws -> 1 <= rows ->
  (good_world ws rows <-> completes ws rows).
Proof.
  clear. intros Hw Hr. unfold good_world, completes.
  pose proof (Nat.div_mod ws 2 ltac:(lia)) as E. pose proof (Nat.mod_upper_bound ws 2 ltac:(lia)) as M.
  set (h := ws / 2) in *. set (m := ws mod 2) in *. clearbody h m. split.
  - intros [[[j Hj] H]|[[j Hj] H]]; lia.
  - intros [[Hm H]|[Hm H]]; [left|right].
    + split; [exists h; lia|lia].
    + split; [exists h; lia|lia].
Qed.

Lemma good_enough ws rows : 2 <= ws -> 1 <= rows -> good_world ws rows -> ws - ws / 2 <= rows.
Proof.
  clear. intros Hw Hr. unfold good_world.
  pose proof (Nat.div_mod ws 2 ltac:(lia)) as E. pose proof (Nat.mod_upper_bound ws 2 ltac:(lia)) as M.
  set (h := ws / 2) in *. set (m := ws mod 2) in *. clearbody h m.
  intros [[[j Hj] H]|[[j Hj] H]]; lia.
Qed.

(** C16, necessity: whatever the kernels compute, a move that completes ran on a
    suitable world size. *)
Theorem C16_needs_good_world (w w' : world) (c1 c2 : nat) : 2 <= length w -> 1 <= nx -> 1 <= ny ->
  (left_right_move_dist w c1 c2 = Ok w' -> good_world (length w) ny) /\
  (up_down_move_dist w c1 c2 = Ok w' -> good_world (length w) nx).
Proof.
  intros Hw Hx Hy. split; intros H; apply good_world_iff; auto.
  - eapply (dist_move_ok_completes T R bperm cj1 cj2 ej calcH calcF pt nx ny 0); eauto.
  - eapply (dist_move_ok_completes T R bperm cj1 cj2 ej calcH calcF pt nx ny 1); eauto.
Qed.

(** C16: when no kernel raises, the move completes exactly on the suitable world
    sizes; otherwise it raises KeyError, or UnboundLocalError when the upper half
    of the ranks outnumbers the rows. *)
Theorem C16_completion :
  (forall a b c, exists x, cj1 a b c = Ok x) ->
  (forall a b c, exists x, cj2 a b c = Ok x) ->
  (forall a b c d, exists x, ej a b c d = Ok x) ->
  (forall r a b, exists x, calcH r a b = Ok x) ->
  (forall r a b c d, exists x, calcF r a b c d = Ok x) ->
  1 <= nx -> 1 <= ny ->
  let outcome (move : world -> nat -> nat -> res world) (rows : nat) :=
    forall w c1 c2, 2 <= length w ->
    let ws := length w in
    (good_world ws rows <-> exists w', move w c1 c2 = Ok w') /\
    (~ good_world ws rows -> ws - ws / 2 <= rows -> move w c1 c2 = Err KeyError) /\
    (rows < ws - ws / 2 -> move w c1 c2 = Err UnboundLocalError) in
  outcome left_right_move_dist ny /\ outcome up_down_move_dist nx.
Proof.
  intros T1 T2 T3 T4 T5 Hx Hy outcome.
  assert (G : forall ka, ka < 2 -> 1 <= rows_of nx ny ka ->
    outcome (dist_move T R bperm cj1 cj2 ej calcH calcF pt nx ny ka) (rows_of nx ny ka)).
  { intros ka Hk Hr w c1 c2 Hw ws.
    destruct (dist_move_total T R bperm cj1 cj2 ej calcH calcF pt nx ny T1 T2 T3 T4 T5 ka w c1 c2 Hk Hw Hr)
      as (A & B & C). fold ws in A, B, C.
    pose proof (good_world_iff ws _ Hw Hr) as I. pose proof (good_enough ws _ Hw Hr) as E.
    split; [split|split].
    - intros H. apply A; [now apply E|now apply I].
    - intros [w' H]. apply I. eapply dist_move_ok_completes; eauto.
    - intros H L. apply B; auto. intros X. apply H. now apply I.
    - auto. }
  split; [exact (G 0 ltac:(lia) Hy) | exact (G 1 ltac:(lia) Hx)].
Qed.

(** C17.  Half-system projectors that do not depend on the generator state
    (full-rank SVD): a completed distributed move leaves on every rank the network
    of the two sequential moves. *)
Theorem C17_half_system_equals_sequential (w w' : world) (n : net T) (c1 c2 : nat) :
  pt = Half ->
  (forall r r' a b, drop T R (calcH r a b) = drop T R (calcH r' a b)) ->
  2 <= length w -> 1 <= nx -> 1 <= ny -> (forall x, In x w -> fst x = n) ->
  (left_right_move_dist w c1 c2 = Ok w' -> c1 < nx -> c2 < nx -> forall r,
     exists n1 r1 n2 r2, left_move n r c1 = Ok (n1, r1) /\ right_move n1 r1 c2 = Ok (n2, r2) /\
       length w' = length w /\ (forall x, In x w' -> fst x = n2)) /\
  (up_down_move_dist w c1 c2 = Ok w' -> c1 < ny -> c2 < ny -> forall r,
     exists n1 r1 n2 r2, up_move n r c1 = Ok (n1, r1) /\ down_move n1 r1 c2 = Ok (n2, r2) /\
       length w' = length w /\ (forall x, In x w' -> fst x = n2)).
Proof.
  intros Hp Hd Hw Hx Hy Hn.
  assert (G : forall ka, ka < 2 -> 1 <= rows_of nx ny ka -> c1 < lines_of nx ny ka -> c2 < lines_of nx ny ka ->
    dist_move T R bperm cj1 cj2 ej calcH calcF pt nx ny ka w c1 c2 = Ok w' -> forall r,
    exists n' r', seq_pair T R bperm cj1 cj2 ej calcH calcF pt nx ny ka c1 c2 n r = Ok (n', r') /\
      length w' = length w /\ forall x, In x w' -> fst x = n').
  { intros ka Hk Hr H1 H2 H r. rewrite Hp in *.
    assert (S : forall cF, 
      dist_move T R bperm cj1 cj2 ej calcH cF Half nx ny ka w c1 c2 =
      dist_move T R bperm cj1 cj2 ej calcH calcF Half nx ny ka w c1 c2) by reflexivity.
    assert (S' : forall cF, 
      seq_pair T R bperm cj1 cj2 ej calcH cF Half nx ny ka c1 c2 n r =
      seq_pair T R bperm cj1 cj2 ej calcH calcF Half nx ny ka c1 c2 n r) by reflexivity.
    rewrite <- (S' (fun _ _ _ _ _ => Err KeyError)).
    rewrite <- (S (fun _ _ _ _ _ => Err KeyError)) in H.
    eapply dist_is_seq_half; eauto. }
  assert (U : forall (f g : net T -> R -> nat -> res (net T * R)) r (P : net T -> Prop),
    (exists n' r', (let! nr := f n r c1 in g (fst nr) (snd nr) c2) = Ok (n', r') /\ P n') ->
    exists n1 r1 n2 r2, f n r c1 = Ok (n1, r1) /\ g n1 r1 c2 = Ok (n2, r2) /\ P n2).
  { intros f g r P (n' & r' & H & HP). destruct (f n r c1) as [[n1 r1]|] eqn:E; cbn [bind fst snd] in H; [|discriminate].
    exists n1, r1, n', r'. auto. }
  split; intros H H1 H2 r.
  - apply (U _ _ r (fun n2 => length w' = length w /\ forall x, In x w' -> fst x = n2)).
    exact (G 0 ltac:(lia) Hy H1 H2 H r).
  - apply (U _ _ r (fun n2 => length w' = length w /\ forall x, In x w' -> fst x = n2)).
    exact (G 1 ltac:(lia) Hx H1 H2 H r).
Qed.

(** C18.  Any sequence of distributed moves, bond updates and sweeps keeps the
    networks of all ranks equal; the ranks' generator states are arbitrary. *)
Theorem C18_replicas (ops : list dop) (w w' : world) :
  1 <= nx -> 1 <= ny -> 2 <= length w ->
  (forall x y, In x w -> In y w -> fst x = fst y) ->
  for_each ops run_dop w = Ok w' ->
  length w' = length w /\ forall x y, In x w' -> In y w' -> fst x = fst y.
Proof.
  intros Hx Hy Hw Hs H.
  assert (S : same_nets T R w).
  { destruct w as [|x w]; [cbn in Hw; lia|]. exists (fst x). intros y Hin. apply Hs; auto. now left. }
  assert (G : same_nets T R w' /\ length w' = length w).
  { refine (for_each_same T R bperm ny ops _ _ w w' Hw S H).
    intros a v v' Hv Sv Ev. exact (run_dop_same _ _ _ _ _ _ _ _ _ _ _ _ a v v' Hx Hy Hv Sv Ev). }
  destruct G as [[n Hn] L]. split; auto. intros x y X Y. now rewrite (Hn x X), (Hn y Y).
Qed.

(** C19.  Any projector type.  The second direction of a completed distributed
    move uses projectors computed from the network [n] before the first
    direction's update, ... *)
Theorem C19_second_direction_is_stale (w w' : world) (n : net T) (x1 x2 : nat) :
  2 <= length w -> 1 <= nx -> 1 <= ny -> x1 < nx -> x2 < nx -> (forall x, In x w -> fst x = n) ->
  left_right_move_dist w x1 x2 = Ok w' ->
  exists (p1 p2 : nat -> T) n', (forall x, In x w' -> fst x = n') /\
  forall y, y < ny -> let s := (x2, y) in
    let target := nbr nx ny 0 in let next := nbr nx ny 3 in let prev := nbr nx ny 1 in
    (exists r r', calculate T R bperm calcH calcF pt n r s (target s) (target (prev s)) (prev s) 2
                  = Ok (p1 y, p2 y, r')) /\
    cj1 (n s (SC 1)) (n s (SE 0)) (p1 y) = Ok (n' (target s) (SC 1)) /\
    cj2 (n s (SC 2)) (n s (SE 2)) (p2 (snd (next s))) = Ok (n' (target s) (SC 2)) /\
    ej (n s (SE 1)) (bperm 2 (n s SA)) (p2 y) (p1 (snd (next s))) = Ok (n' (target s) (SE 1)).
Proof.
  intros Hw Hx Hy H1 H2 Hn H.
  destruct (dist_move_result T R bperm cj1 cj2 ej calcH calcF pt nx ny 0 w x1 x2 w' n
    ltac:(lia) Hw Hy Hn H) as (d1 & d2 & d3 & d4 & n' & _ & B & P & _ & Q).
  destruct (renorm_pair_spec T bperm cj1 cj2 ej nx ny 0 x1 x2 d1 d2 d3 d4 n n'
    ltac:(lia) H1 H2 P) as (_ & E & _).
  assert (Some0 : exists t0 : T, True).
  { destruct (B 0 Hy) as (a & _). eauto. }
  destruct Some0 as [t0 _].
  exists (fun y => match d3 y with Some a => a | None => t0 end),
         (fun y => match d4 y with Some a => a | None => t0 end), n'.
  split; auto. intros y Hy' s target next prev.
  destruct (B y Hy') as (a & b & r & r' & A3 & A4 & C).
  destruct (E y Hy') as (wr & W1 & W2). change ((0 + 2) mod 4) with 2 in *. cbn [on_line] in W1, W2. fold s in W1, W2.
  rewrite A3, A4. split.
  { exists r, r'. unfold calc_at in C. cbn [Nat.add on_line] in C. exact C. }
  assert (Hj : snd (next s) < ny) by (apply Nat.mod_upper_bound; lia).
  destruct (B _ Hj) as (aj & bj & _ & _ & A3j & A4j & _). rewrite A3j, A4j.
  destruct W2 as (W21 & W22 & W23).
  unfold row_result, dget in W1.
  change (row_of 2 s) with y in W1.
  change (row_of 2 (nbr nx ny ((2 + 1) mod 4) s)) with (snd (next s)) in W1.
  rewrite A3, A4, A3j, A4j in W1. cbn [bind] in W1.
  repeat match type of W1 with bind ?e _ = _ => destruct e eqn:?; cbn [bind] in W1; [|discriminate] end.
  injection W1 as <-.
  change ((2 + 2) mod 4) with 0 in *. change ((3 + 2) mod 4) with 1 in *. change ((2 + 2) mod 4) with 0 in *.
  cbn [fst snd] in *. fold target in W21, W22, W23. rewrite W21, W22, W23. auto.
Qed.

(** ... so it agrees with the sequential moves as soon as the first move does not
    change the projectors of the second. *)
Theorem C19_equal_when_independent (w w' : world) (n : net T) (x1 x2 : nat) (r : R) :
  (forall r r' a b, drop T R (calcH r a b) = drop T R (calcH r' a b)) ->
  (forall r r' a b c d, drop T R (calcF r a b c d) = drop T R (calcF r' a b c d)) ->
  2 <= length w -> 1 <= nx -> 1 <= ny -> (forall x, In x w -> fst x = n) ->
  left_right_move_dist w x1 x2 = Ok w' ->
  (forall n1 r1, left_move n r x1 = Ok (n1, r1) -> forall y ri, y < ny ->
     calc_at T R bperm calcH calcF pt nx ny n1 2 (x2, y) ri =
     calc_at T R bperm calcH calcF pt nx ny n 2 (x2, y) ri) ->
  exists n1 r1 n2 r2, left_move n r x1 = Ok (n1, r1) /\ right_move n1 r1 x2 = Ok (n2, r2) /\
    forall x, In x w' -> fst x = n2.
Proof.
  intros DH DF Hw Hx Hy Hn H Hi.
  destruct (dist_move_result T R bperm cj1 cj2 ej calcH calcF pt nx ny 0 w x1 x2 w' n
    ltac:(lia) Hw Hy Hn H) as (d1 & d2 & d3 & d4 & n' & A & B & P & _ & Q).
  destruct (seq_pair_eq T R bperm cj1 cj2 ej calcH calcF pt nx ny DH DF 0 x1 x2 d1 d2 d3 d4 n r
    ltac:(lia) Hy A) with (n' := n') as [r' E]; auto.
  - intros n1 E1 kb i Hi'. destruct (B i Hi') as (a & b & ra & rb & X & Y & Z).
    exists a, b, ra, rb. split; auto. split; auto. rewrite <- Z.
    destruct (move_with T R bperm cj1 cj2 ej calcH calcF pt nx ny DH DF 0 x1 n d1 d2 r
      ltac:(lia) Hy A) as [r1 M]. rewrite E1 in M. cbn [bind] in M.
    exact (Hi n1 r1 M i ra Hi').
  - unfold seq_pair in E.
    match type of E with bind ?e _ = _ => destruct e as [[n1 r1]|] eqn:M end; cbn [bind fst snd] in E; [|discriminate].
    exists n1, r1, n', r'. auto.
Qed.

(** C55.  [nx'] absorbs: after the moves, every site t across the bond line from
    a site s of the line of s1 has absorbed s into its edge on that side, and vice
    versa; site tensors are unchanged. *)
Definition both_absorbed (b : bond) (n n' : net T) : Prop :=
  let k := b_k b in
  (forall s t, in_cell nx ny s -> in_cell nx ny t -> adjacent nx ny k s t ->
     line_of k s = line_of k (b_s1 b) ->
     exists p q, ej (n s (SE ((k + 1) mod 4))) (bperm ((k + 2) mod 4) (n s SA)) p q
                 = Ok (n' t (SE ((k + 1) mod 4)))) /\
  (forall s t, in_cell nx ny s -> in_cell nx ny t -> adjacent nx ny k s t ->
     line_of k t = line_of k (b_s2 b) ->
     exists p q, ej (n t (SE ((k + 3) mod 4))) (bperm k (n t SA)) p q
                 = Ok (n' s (SE ((k + 3) mod 4)))) /\
  (forall s, n' s SA = n s SA).

Lemma pred_succ_mod n x : x < n -> ((x + 1) mod n + n - 1) mod n = x.
Proof.
  clear. intros H. assert (B : (x + 1) mod n < n) by (apply Nat.mod_upper_bound; lia).
  rewrite mod_pred_eq by exact B. rewrite mod_succ_eq by exact H.
  destruct (Nat.eqb_spec (x + 1) n); [cbn; lia|].
  destruct (Nat.eqb_spec (x + 1) 0); lia.
Qed.
Lemma succ_pred_mod n x : x < n -> ((x + n - 1) mod n + 1) mod n = x.
Proof.
  clear. intros H. assert (B : (x + n - 1) mod n < n) by (apply Nat.mod_upper_bound; lia).
  rewrite mod_succ_eq by exact B. rewrite mod_pred_eq by exact H.
  destruct (Nat.eqb_spec x 0).
  - destruct (Nat.eqb_spec (n - 1 + 1) n); lia.
  - destruct (Nat.eqb_spec (x - 1 + 1) n); lia.
Qed.

Lemma nbr_back k s : k < 4 -> in_cell nx ny s -> nbr nx ny ((k + 2) mod 4) (nbr nx ny k s) = s.
Proof.
  clear. intros Hk [A B]. destruct s as [x y]; cbn in A, B.
  destruct k as [|[|[|[|k]]]]; try lia;
    [change ((0 + 2) mod 4) with 2|change ((1 + 2) mod 4) with 3|change ((2 + 2) mod 4) with 0|change ((3 + 2) mod 4) with 1];
    unfold nbr; cbn [fst snd]; f_equal; auto using pred_succ_mod, succ_pred_mod.
Qed.

Lemma pair_both_absorbed b d1 d2 d3 d4 n n' : b_k b < 4 ->
  in_cell nx ny (b_s1 b) -> in_cell nx ny (b_s2 b) ->
  renorm_pair T bperm cj1 cj2 ej nx ny ((b_k b + 2) mod 4) (line_of (b_k b) (b_s1 b)) (line_of (b_k b) (b_s2 b))
    d1 d2 d3 d4 n = Ok n' -> both_absorbed b n n'.
Proof.
  intros Hk H1 H2 H. set (k := b_k b) in *. set (m := (k + 2) mod 4) in *.
  assert (Hm : m < 4) by (apply Nat.mod_upper_bound; lia).
  assert (Em : (m + 2) mod 4 = k) by (subst m; clearbody k; clear - Hk; destruct k as [|[|[|[|]]]]; try lia; reflexivity).
  assert (L : forall s, line_of m s = line_of k s)
    by (subst m; clearbody k; clear - Hk; intros; destruct k as [|[|[|[|]]]]; try lia; reflexivity).
  assert (Lm : lines_of nx ny m = lines_of nx ny k)
    by (subst m; clearbody k; clear - Hk; intros; destruct k as [|[|[|[|]]]]; try lia; reflexivity).
  destruct (in_cell_bounds nx ny k _ Hk H1) as [B1 _]. destruct (in_cell_bounds nx ny k _ Hk H2) as [B2 _].
  rewrite <- Lm in B1, B2.
  destruct (renorm_pair_absorbed T bperm cj1 cj2 ej nx ny m _ _ d1 d2 d3 d4 n n' Hm B1 B2 H) as (A & B & C).
  rewrite Em in B. unfold both_absorbed. fold k. split; [|split]; auto.
  - intros s t Hs Ht Ad Hl. apply adjacent_nbr in Ad; auto. subst t.
    destruct (A s Hs) as (p & q & E); [rewrite L; exact Hl|]. exists p, q.
    replace ((k + 1) mod 4) with ((3 + m) mod 4)
      by (subst m; clearbody k; clear - Hk; destruct k as [|[|[|[|]]]]; try lia; reflexivity).
    fold m. rewrite E, Em. reflexivity.
  - intros s t Hs Ht Ad Hl. apply adjacent_nbr in Ad; auto. subst t.
    destruct (B _ Ht) as (p & q & E); [rewrite L; exact Hl|]. exists p, q.
    replace ((k + 3) mod 4) with ((3 + k) mod 4) by (f_equal; lia).
    rewrite E. rewrite nbr_back; auto.
Qed.

Theorem C55_sequential (b : bond) (n n' : net T) (r r' : R) :
  b_k b < 4 -> in_cell nx ny (b_s1 b) -> in_cell nx ny (b_s2 b) ->
  absorb_bond b (n, r) = Ok (n', r') -> both_absorbed b n n'.
Proof.
  intros Hk H1 H2 H. rewrite absorb_bond_eq in H by exact Hk.
  destruct (seq_pair_renorm T R bperm cj1 cj2 ej calcH calcF pt nx ny _ _ _ _ _ _ _
    ltac:(apply Nat.mod_upper_bound; lia) H) as (d1 & d2 & d3 & d4 & P).
  eapply pair_both_absorbed; eauto.
Qed.

Lemma both_absorbed_ext b n n' n'' : (forall s sl, n'' s sl = n' s sl) ->
  both_absorbed b n n' -> both_absorbed b n n''.
Proof.
  intros E (A & B & C). split; [|split].
  - intros s t Hs Ht Ad Hl. destruct (A s t Hs Ht Ad Hl) as (p & q & X). exists p, q. now rewrite E.
  - intros s t Hs Ht Ad Hl. destruct (B s t Hs Ht Ad Hl) as (p & q & X). exists p, q. now rewrite E.
  - intros s. now rewrite E.
Qed.

Theorem C55_distributed (b : bond) (n : net T) (w w' : world) :
  b_k b < 4 -> in_cell nx ny (b_s1 b) -> in_cell nx ny (b_s2 b) ->
  2 <= length w -> (forall x, In x w -> fst x = n) ->
  absorb_bond_dist b w = Ok w' ->
  forall x, In x w' -> both_absorbed b n (fst x).
Proof.
  intros Hk H1 H2 Hw Hn H x Hx'. rewrite absorb_bond_dist_eq in H by exact Hk.
  destruct (in_cell_bounds nx ny (b_k b) _ Hk H1) as [B1 R1].
  destruct (in_cell_bounds nx ny (b_k b) _ Hk H2) as [B2 R2].
  destruct (b_k b) as [|[|[|[|k]]]] eqn:Ek; try lia; cbn [Nat.sub] in H;
    match type of H with dist_move _ _ _ _ _ _ _ _ _ _ _ ?ka _ ?c1 ?c2 = _ =>
      destruct (dist_move_result T R bperm cj1 cj2 ej calcH calcF pt nx ny ka w c1 c2 w' n
        ltac:(lia) Hw ltac:(cbn in *; lia) Hn H) as (d1 & d2 & d3 & d4 & n' & _ & _ & P & _ & Q)
    end; rewrite (Q x Hx').
  - destruct (renorm_pair_comm T bperm cj1 cj2 ej nx ny 0 _ _ d1 d2 d3 d4 n n' ltac:(lia) B2 B1 P) as (n'' & P' & E).
    apply (both_absorbed_ext b n n''); [intros; now rewrite E|].
    eapply pair_both_absorbed; eauto; [lia|]. rewrite Ek. exact P'.
  - destruct (renorm_pair_comm T bperm cj1 cj2 ej nx ny 1 _ _ d1 d2 d3 d4 n n' ltac:(lia) B2 B1 P) as (n'' & P' & E).
    apply (both_absorbed_ext b n n''); [intros; now rewrite E|].
    eapply pair_both_absorbed; eauto; [lia|]. rewrite Ek. exact P'.
  - eapply pair_both_absorbed; eauto; [lia|]. rewrite Ek. exact P.
  - eapply pair_both_absorbed; eauto; [lia|]. rewrite Ek. exact P.
Qed.

(** With half-system deterministic projectors both codes leave the same network,
    though for k = 0, 1 they run the two directions in opposite orders. *)
Theorem C55_same_network (b : bond) (n : net T) (r : R) (w w' : world) :
  pt = Half ->
  (forall r r' a b, drop T R (calcH r a b) = drop T R (calcH r' a b)) ->
  (forall r r' a b c d, drop T R (calcF r a b c d) = drop T R (calcF r' a b c d)) ->
  b_k b < 4 -> in_cell nx ny (b_s1 b) -> in_cell nx ny (b_s2 b) ->
  2 <= length w -> (forall x, In x w -> fst x = n) ->
  absorb_bond_dist b w = Ok w' ->
  exists n' r', absorb_bond b (n, r) = Ok (n', r') /\
    forall x, In x w' -> forall s sl, fst x s sl = n' s sl.
Proof.
  intros Hp DH DF Hk H1 H2 Hw Hn H. rewrite absorb_bond_dist_eq in H by exact Hk.
  rewrite absorb_bond_eq by exact Hk.
  destruct (in_cell_bounds nx ny (b_k b) _ Hk H1) as [B1 R1].
  destruct (in_cell_bounds nx ny (b_k b) _ Hk H2) as [B2 R2].
  destruct (b_k b) as [|[|[|[|k]]]] eqn:Ek; try lia; cbn [Nat.sub] in H;
    match type of H with dist_move _ _ _ _ _ _ _ _ _ _ _ ?ka _ ?c1 ?c2 = _ =>
      destruct (dist_is_seq_half T R bperm cj1 cj2 ej calcH calcF pt nx ny DH DF ka w c1 c2 w' n r
        ltac:(lia) Hw ltac:(cbn in *; lia) ltac:(assumption) ltac:(assumption) Hp Hn H) as (n' & r' & S & _ & Q)
    end.
  - destruct (seq_pair_comm_half T R bperm cj1 cj2 ej calcH calcF pt nx ny DH DF 0 _ _ n r n' r'
      ltac:(lia) ltac:(cbn in *; lia) B2 B1 Hp S) as (n'' & r'' & S' & E).
    exists n'', r''. split; [exact S'|]. intros x Hx s sl. rewrite (Q x Hx). now rewrite E.
  - destruct (seq_pair_comm_half T R bperm cj1 cj2 ej calcH calcF pt nx ny DH DF 1 _ _ n r n' r'
      ltac:(lia) ltac:(cbn in *; lia) B2 B1 Hp S) as (n'' & r'' & S' & E).
    exists n'', r''. split; [exact S'|]. intros x Hx s sl. rewrite (Q x Hx). now rewrite E.
  - exists n', r'. split; [exact S|]. intros x Hx s sl. now rewrite (Q x Hx).
  - exists n', r'. split; [exact S|]. intros x Hx s sl. now rewrite (Q x Hx).
Qed.

End Props.

(** Concrete cases: the toy kernels of P05_Mover, without generator dependence. *)
Definition det_calcH (r : nat) (q1 q4 : quarter nat) : res (nat * nat * nat) :=
  Ok (q_c _ q1 + q_e1 _ q4, q_e2 _ q1, S r).
Definition det_calcF (r : nat) (q1 q2 q3 q4 : quarter nat) : res (nat * nat * nat) :=
  Ok (q_c _ q1 + q_c _ q2, q_c _ q3 + q_c _ q4, S r).
Definition ex_dist pt ws nx ny x1 x2 :=
  left_right_move_dist nat nat (fun k a => a + k) ex_cj ex_cj ex_ej det_calcH det_calcF pt nx ny
    (map (fun r => (ex_net, r)) (seq 0 ws)) x1 x2.
Definition outcome {A} (m : res A) : option exn := match m with Ok _ => None | Err e => Some e end.

Example C16_example :
  outcome (ex_dist Half 4 2 2 0 1) = None /\ outcome (ex_dist Half 2 2 5 0 1) = None /\
  outcome (ex_dist Half 3 2 2 0 1) = None /\
  outcome (ex_dist Half 4 2 4 0 1) = Some KeyError /\ outcome (ex_dist Half 3 2 4 0 1) = Some KeyError /\
  outcome (ex_dist Half 6 2 2 0 1) = Some UnboundLocalError.
Proof. vm_compute. repeat split. Qed.

Definition seq_lr pt nx ny x1 x2 : res (net nat * nat) :=
  let! nr := left_move nat nat (fun k a => a + k) ex_cj ex_cj ex_ej det_calcH det_calcF pt nx ny ex_net 0 x1 in
  right_move nat nat (fun k a => a + k) ex_cj ex_cj ex_ej det_calcH det_calcF pt nx ny (fst nr) (snd nr) x2.
Definition table (nx ny : nat) (n : net nat) : list nat :=
  flat_map (fun s => n s SA :: flat_map (fun d => [n s (SC d); n s (SE d)]) [0;1;2;3]) (build_site_list nx ny).
Definition res_map {A B} (f : A -> B) (m : res A) : res B := match m with Ok a => Ok (f a) | Err e => Err e end.

Example C17_example :
  res_map (map (fun x => table 2 2 (fst x))) (ex_dist Half 4 2 2 0 1) =
  res_map (fun nr => repeat (table 2 2 (fst nr)) 4) (seq_lr Half 2 2 0 1).
Proof. vm_compute. reflexivity. Qed.

(** With full-system projectors the same kernels give different networks. *)
Theorem C19_sequential_refuted :
  exists w' n1 r1 n2 r2,
    ex_dist Full 4 2 2 0 0 = Ok w' /\
    left_move nat nat (fun k a => a + k) ex_cj ex_cj ex_ej det_calcH det_calcF Full 2 2 ex_net 0 0 = Ok (n1, r1) /\
    right_move nat nat (fun k a => a + k) ex_cj ex_cj ex_ej det_calcH det_calcF Full 2 2 n1 r1 0 = Ok (n2, r2) /\
    forall x, In x w' -> fst x (1, 0) (SC 1) <> n2 (1, 0) (SC 1).
Proof.
  assert (H : match ex_dist Full 4 2 2 0 0 with
    | Ok w' => match left_move nat nat (fun k a => a + k) ex_cj ex_cj ex_ej det_calcH det_calcF Full 2 2 ex_net 0 0 with
      | Ok (n1, r1) => match right_move nat nat (fun k a => a + k) ex_cj ex_cj ex_ej det_calcH det_calcF Full 2 2 n1 r1 0 with
        | Ok (n2, _) => forallb (fun x => negb (fst x (1, 0) (SC 1) =? n2 (1, 0) (SC 1))) w'
        | Err _ => false end
      | Err _ => false end
    | Err _ => false end = true) by (vm_compute; reflexivity).
  destruct (ex_dist _ _ _ _ _ _) as [w'|]; [|discriminate].
  destruct (left_move _ _ _ _ _ _ _ _ _ _ _ _ _ _) as [[n1 r1]|]; [|discriminate].
  destruct (right_move _ _ _ _ _ _ _ _ _ _ _ _ _ _) as [[n2 r2]|] eqn:E; [|discriminate].
  exists w', n1, r1, n2, r2. repeat split; auto.
  intros x Hx. rewrite forallb_forall in H. specialize (H x Hx).
  apply negb_true_iff, Nat.eqb_neq in H. exact H.
Qed.

Definition ex_update (n : net nat) (r : nat) (b : bond) : res (nat * nat * nat) := Ok (r + 7, r + 9, S r).
Definition ex_world := for_each [DBond (Bond (0, 0) (1, 0) 2); DCtmrg; DUD 1 0]
  (run_dop nat nat (fun k a => a + k) ex_cj ex_cj ex_ej ex_calcH ex_calcF Full 2 2 ex_update)
  [(ex_net, 3); (ex_net, 10); (ex_net, 20); (ex_net, 0)].
Example C18_example :
  match res_map (map (fun x => table 2 2 (fst x))) ex_world with
  | Ok [t1; t2; t3; t4] => t1 = t2 /\ t2 = t3 /\ t3 = t4 /\ t1 <> table 2 2 ex_net
  | _ => False
  end.
Proof.
  set (v := res_map _ _). vm_compute in v. set (u := table _ _ _). vm_compute in u. subst v u.
  repeat split; discriminate.
Qed.

Example C55_example :
  match absorb_bond nat nat (fun k a => a + k) ex_cj ex_cj ex_ej det_calcH det_calcF Half 2 3
    (Bond (0, 0) (0, 1) 1) (ex_net, 0) with
  | Ok (n', _) => (n' (0, 1) (SE 2), ex_net (0, 1) (SE 2)) | Err _ => (0, 0) end = (1025, 5).
Proof. vm_compute. reflexivity. Qed.

Print Assumptions C16_needs_good_world.
Print Assumptions C16_completion.
Print Assumptions C17_half_system_equals_sequential.
Print Assumptions C18_replicas.
Print Assumptions C19_second_direction_is_stale.
Print Assumptions C19_equal_when_independent.
Print Assumptions C19_sequential_refuted.
Print Assumptions C55_sequential.
Print Assumptions C55_distributed.
Print Assumptions C55_same_network.
