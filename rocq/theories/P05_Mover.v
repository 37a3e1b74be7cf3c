(** Properties C11, C12: directional moves and the CTMRG sweep. *)
From Coq Require Import List Arith Lia Permutation.
From Verif Require Import Lattice LatticeFacts Base Mover.
Import ListNotations.

Lemma calc_at_sites T R bperm calcH calcF pt nx ny n k s r : k < 4 -> in_cell nx ny s ->
  calc_at T R bperm calcH calcF pt nx ny n k s r =
  calculate T R bperm calcH calcF pt n r s (nbr nx ny ((k + 2) mod 4) s)
    (nbr nx ny ((k + 2) mod 4) (nbr nx ny ((k + 3) mod 4) s)) (nbr nx ny ((k + 3) mod 4) s) k.
Proof.
  intros Hk Hs. destruct s as [x y]. destruct k as [|[|[|[|k]]]]; try lia; reflexivity.
Qed.

(** C12.  Successful move k (0 left, 1 up, 2 right, 3 down) on line c.  There
    are projectors, computed from the network [n] before the move, such that each
    site s of the line gives the target site its two corners and edge, all
    computed from [n]; all other entries of all sites are unchanged. *)
Theorem C12_simultaneous (T R : Type) (bperm : nat -> T -> T)
    (cj1 cj2 : T -> T -> T -> res T) (ej : T -> T -> T -> T -> res T)
    (calcH : R -> quarter T -> quarter T -> res (T * T * R))
    (calcF : R -> quarter T -> quarter T -> quarter T -> quarter T -> res (T * T * R))
    (pt : ptype) (nx ny k c : nat) (n n' : net T) (r r' : R) :
  k < 4 -> c < lines_of nx ny k ->
  move_dir T R bperm cj1 cj2 ej calcH calcF pt nx ny k n r c = Ok (n', r') ->
  let target s := nbr nx ny ((k + 2) mod 4) s in
  let next s := nbr nx ny ((k + 1) mod 4) s in
  let prev s := nbr nx ny ((k + 3) mod 4) s in
  exists p1 p2 : site -> T,
  (forall i, i < rows_of nx ny k -> let s := on_line k c i in
     (exists ri rj, calculate T R bperm calcH calcF pt n ri s (target s) (target (prev s)) (prev s) k
        = Ok (p1 s, p2 s, rj)) /\
     cj1 (n s (SC ((3 + k) mod 4))) (n s (SE ((2 + k) mod 4))) (p1 s) = Ok (n' (target s) (SC ((3 + k) mod 4))) /\
     cj2 (n s (SC k)) (n s (SE k)) (p2 (next s)) = Ok (n' (target s) (SC k)) /\
     ej (n s (SE ((3 + k) mod 4))) (bperm k (n s SA)) (p2 s) (p1 (next s))
       = Ok (n' (target s) (SE ((3 + k) mod 4)))) /\
  (forall s sl, (forall i, i < rows_of nx ny k -> target (on_line k c i) <> s) \/
                ~ In sl [SC ((3 + k) mod 4); SC k; SE ((3 + k) mod 4)] -> n' s sl = n s sl).
Proof.
  intros Hk Hc H target next prev.
  destruct (move_spec T R bperm cj1 cj2 ej calcH calcF pt nx ny k n r c n' r' Hk Hc H)
    as (p1 & p2 & A & B & D1 & D2).
  exists p1, p2. split.
  - intros i Hi s. destruct (B i Hi) as (B1 & B2 & B3). split; [|auto].
    destruct (A i Hi) as (ri & rj & E). exists ri, rj. cbv zeta in E.
    rewrite calc_at_sites in E; auto. apply on_line_in_cell; auto.
  - intros s sl [Hs|Hsl]; [now apply D1|]. apply D2; intros ->; apply Hsl; cbn; auto.
Qed.

(** C12, order of the rows: running the rows of the second loop in any other
    order gives the same network. *)
Theorem C12_row_order (T R : Type) (bperm : nat -> T -> T)
    (cj1 cj2 : T -> T -> T -> res T) (ej : T -> T -> T -> T -> res T)
    (calcH : R -> quarter T -> quarter T -> res (T * T * R))
    (calcF : R -> quarter T -> quarter T -> quarter T -> quarter T -> res (T * T * R))
    (pt : ptype) (nx ny k c : nat) (n n' : net T) (r r' : R) (rows : list nat) :
  k < 4 -> c < lines_of nx ny k ->
  Permutation (seq 0 (rows_of nx ny k)) rows ->
  move_dir T R bperm cj1 cj2 ej calcH calcF pt nx ny k n r c = Ok (n', r') ->
  exists p1 p2 n'',
   proj_loop T R (seq 0 (rows_of nx ny k))
     (fun i => calc_at T R bperm calcH calcF pt nx ny n k (on_line k c i)) (dempty T) (dempty T) r
     = Ok (p1, p2, r') /\
   for_each (map (on_line k c) rows) (renorm_at T bperm cj1 cj2 ej nx ny p1 p2 k) n = Ok n'' /\
   (forall s sl, n'' s sl = n' s sl).
Proof.
  intros Hk Hc P. rewrite move_dir_eq by exact Hk.
  destruct (proj_loop _ _ _ _ _ _ _) as [[[p1 p2] r1]|] eqn:E; cbn [bind]; [|discriminate].
  destruct (for_each _ _ _) as [m'|] eqn:F; cbn [bind]; [|discriminate].
  intros X; inversion X; subst; clear X.
  destruct (rows_perm T bperm cj1 cj2 ej nx ny p1 p2 k _ (map (on_line k c) rows) n n' Hk
     (line_independent nx ny k c Hk Hc) (Permutation_map _ P) F) as (n'' & F' & Q).
  exists p1, p2, n''. auto.
Qed.

(** C11.  Visits: over a sweep the left and right moves visit each column and
    the up and down moves each row exactly once. *)
Theorem C11_each_line_once (nx ny k : nat) : k < 4 ->
  Permutation (map snd (filter (fun m => fst m =? k) (sweep nx ny))) (seq 0 (lines_of nx ny k)).
Proof.
  assert (F : forall l a (f g : nat -> nat) b, a <> b ->
    map snd (filter (fun m => fst m =? a) (flat_map (fun x => [(a, f x); (b, g x)]) l)) = map f l /\
    map snd (filter (fun m => fst m =? b) (flat_map (fun x => [(a, f x); (b, g x)]) l)) = map g l).
  { induction l as [|x l IH]; intros a f g b N; [auto|]. cbn.
    rewrite !Nat.eqb_refl. destruct (Nat.eqb_spec b a), (Nat.eqb_spec a b); try congruence; try lia.
    cbn. destruct (IH a f g b N) as [-> ->]. auto. }
  assert (F0 : forall l a b c (f g : nat -> nat), c <> a -> c <> b ->
    filter (fun m => fst m =? c) (flat_map (fun x => [(a, f x); (b, g x)]) l) = []).
  { induction l as [|x l IH]; intros; cbn; auto.
    destruct (Nat.eqb_spec a c), (Nat.eqb_spec b c); try congruence. auto. }
  intros Hk. unfold sweep. rewrite filter_app, map_app.
  destruct k as [|[|[|[|k]]]]; try lia; cbn [lines_of].
  - destruct (F (seq 0 nx) 0 (fun x => x) (fun x => (nx - x + 1) mod nx) 2) as [-> _]; [lia|].
    rewrite F0, map_id, app_nil_r by lia. apply Permutation_refl.
  - destruct (F (seq 0 ny) 1 (fun x => (ny - x + 1) mod ny) (fun x => x) 3) as [-> _]; [lia|].
    rewrite F0 by lia. apply sweep_perm.
  - destruct (F (seq 0 nx) 0 (fun x => x) (fun x => (nx - x + 1) mod nx) 2) as [_ ->]; [lia|].
    rewrite F0, app_nil_r by lia. apply sweep_perm.
  - destruct (F (seq 0 ny) 1 (fun x => (ny - x + 1) mod ny) (fun x => x) 3) as [_ ->]; [lia|].
    rewrite F0, map_id by lia. apply Permutation_refl.
Qed.

Theorem C11_step_is_sweep (T R : Type) (bperm : nat -> T -> T)
    (cj1 cj2 : T -> T -> T -> res T) (ej : T -> T -> T -> T -> res T)
    (calcH : R -> quarter T -> quarter T -> res (T * T * R))
    (calcF : R -> quarter T -> quarter T -> quarter T -> quarter T -> res (T * T * R))
    (pt : ptype) (nx ny : nat) (nr : net T * R) :
  ctmrg_step T R bperm cj1 cj2 ej calcH calcF pt nx ny nr =
  for_each (sweep nx ny) (fun m nr =>
    move_dir T R bperm cj1 cj2 ej calcH calcF pt nx ny (fst m) (fst nr) (snd nr) (snd m)) nr.
Proof. exact (ctmrg_step_eq T R bperm cj1 cj2 ej calcH calcF pt nx ny nr). Qed.

(** C11.  After steps >= 1 completed steps every corner and edge of every site
    of the cell is a kernel output of these steps: whatever marks ([GC], [GE])
    distinguish the kernels' outputs, all of them carry it.  Site tensors are
    unchanged. *)
Theorem C11_all_refreshed (T R : Type) (bperm : nat -> T -> T)
    (cj1 cj2 : T -> T -> T -> res T) (ej : T -> T -> T -> T -> res T)
    (calcH : R -> quarter T -> quarter T -> res (T * T * R))
    (calcF : R -> quarter T -> quarter T -> quarter T -> quarter T -> res (T * T * R))
    (pt : ptype) (nx ny steps : nat) (n n' : net T) (r r' : R) (GC GE : T -> Prop) :
  (forall c e p x, cj1 c e p = Ok x -> GC x) ->
  (forall c e p x, cj2 c e p = Ok x -> GC x) ->
  (forall e a p q x, ej e a p q = Ok x -> GE x) ->
  ctmrg T R bperm cj1 cj2 ej calcH calcF pt nx ny steps (n, r) = Ok (n', r') ->
  (forall s, n' s SA = n s SA) /\
  (1 <= steps -> forall s d, in_cell nx ny s -> d < 4 -> GC (n' s (SC d)) /\ GE (n' s (SE d))).
Proof.
  intros H1 H2 H3. unfold ctmrg.
  assert (L : length (seq 0 steps) = steps) by apply seq_length.
  revert L. generalize (seq 0 steps) as l. intros l; revert steps n r.
  induction l as [|z l IH]; intros steps n r L H.
  - cbn in *. inversion H; subst. split; auto. lia.
  - cbn [for_each] in H.
    destruct (ctmrg_step T R bperm cj1 cj2 ej calcH calcF pt nx ny (n, r)) as [[n1 r1]|] eqn:E;
      cbn [bind] in H; [|discriminate].
    destruct (sweep_good T R bperm cj1 cj2 ej calcH calcF pt nx ny GC GE H1 H2 H3 n r n1 r1 E) as [A B].
    destruct (IH _ n1 r1 eq_refl H) as [A' B'].
    split; [intros; now rewrite A', A|]. intros _.
    destruct l as [|z' l]; [|apply B'; cbn; lia].
    cbn in H; inversion H; subst. exact B.
Qed.

(** Concrete case: natural numbers for tensors, every kernel adds up its
    arguments plus a mark of 1000; the sweep of a 1x2 and a 3x2 cell succeeds and
    marks everything. *)
Definition ex_cj (a b c : nat) : res nat := Ok (1000 + (a + b + c) mod 100).
Definition ex_ej (a b c d : nat) : res nat := Ok (1000 + (a + b + c + d) mod 100).
Definition ex_calcH (r : nat) (q1 q4 : quarter nat) : res (nat * nat * nat) :=
  Ok (q_c _ q1 + q_e1 _ q4, q_e2 _ q1 + r, S r).
Definition ex_calcF (r : nat) (q1 q2 q3 q4 : quarter nat) : res (nat * nat * nat) :=
  Ok (q_c _ q1 + q_c _ q2, q_c _ q3 + q_c _ q4 + r, S r).
Definition ex_net : net nat := fun s sl =>
  match sl with SA => 5 | SC d => 1 + fst s + d | SE d => 2 + snd s + d end.
Definition ex_step pt nx ny :=
  ctmrg nat nat (fun k a => a + k) ex_cj ex_cj ex_ej ex_calcH ex_calcF pt nx ny 1 (ex_net, 0).
Definition all_marked (nx ny : nat) (m : res (net nat * nat)) : bool :=
  match m with
  | Ok (n, _) => forallb (fun s => forallb (fun d => (1000 <=? n s (SC d)) && (1000 <=? n s (SE d)))%bool [0;1;2;3])
                   (build_site_list nx ny)
  | Err _ => false
  end.
Example C11_example : all_marked 3 2 (ex_step Full 3 2) = true /\ all_marked 1 2 (ex_step Half 1 2) = true.
Proof. vm_compute. auto. Qed.

Example C12_example : exists n' r',
  move_dir nat nat (fun k a => a + k) ex_cj ex_cj ex_ej ex_calcH ex_calcF Half 1 2 0 ex_net 0 0 = Ok (n', r')
  /\ 0 < lines_of 1 2 0 /\ n' (0, 1) (SC 3) <> ex_net (0, 1) (SC 3) /\ n' (0,1) (SC 1) = ex_net (0,1) (SC 1).
Proof. eexists _, _. split; [reflexivity|]. vm_compute. repeat split; try lia. Qed.

Print Assumptions C12_simultaneous.
Print Assumptions C12_row_order.
Print Assumptions C11_each_line_once.
Print Assumptions C11_step_is_sweep.
Print Assumptions C11_all_refreshed.
