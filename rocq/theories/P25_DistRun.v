(** C68: a whole distributed program against the sequential one
    (acetn/renormalization/ctmrg.py, acetn/evolution/fast_full_update.py 29-69). *)
From Coq Require Import List Arith Lia Bool.
From Verif Require Import ListAux Lattice LatticeFacts Base Mover Dist P05_Mover P06_Dist.
Import ListNotations.

Section DistRun.
Variables (T R : Type) (bperm : nat -> T -> T)
    (cj1 cj2 : T -> T -> T -> res T) (ej : T -> T -> T -> T -> res T)
    (calcH : R -> quarter T -> quarter T -> res (T * T * R))
    (calcF : R -> quarter T -> quarter T -> quarter T -> quarter T -> res (T * T * R))
    (pt : ptype) (nx ny : nat)
    (update : net T -> R -> bond -> res (T * T * R)).

Notation left_move := (left_move T R bperm cj1 cj2 ej calcH calcF pt nx ny).
Notation right_move := (right_move T R bperm cj1 cj2 ej calcH calcF pt nx ny).
Notation up_move := (up_move T R bperm cj1 cj2 ej calcH calcF pt nx ny).
Notation down_move := (down_move T R bperm cj1 cj2 ej calcH calcF pt nx ny).
Notation move_dir := (move_dir T R bperm cj1 cj2 ej calcH calcF pt nx ny).
Notation left_right_move_dist := (left_right_move_dist T R bperm cj1 cj2 ej calcH calcF pt nx ny).
Notation up_down_move_dist := (up_down_move_dist T R bperm cj1 cj2 ej calcH calcF pt nx ny).
Notation ctmrg_step := (ctmrg_step T R bperm cj1 cj2 ej calcH calcF pt nx ny).
Notation ctmrg_step_dist := (ctmrg_step_dist T R bperm cj1 cj2 ej calcH calcF pt nx ny).
Notation run_dop := (run_dop T R bperm cj1 cj2 ej calcH calcF pt nx ny update).
Notation absorb_bond := (absorb_bond T R bperm cj1 cj2 ej calcH calcF pt nx ny).
Notation absorb_bond_dist := (absorb_bond_dist T R bperm cj1 cj2 ej calcH calcF pt nx ny).
Notation world := (list (net T * R)).

(** ---- the sequential program ---- *)

(** fast_full_update.py 47-69 in a run which is not distributed *)
Definition bond_update (b : bond) (nr : net T * R) : res (net T * R) :=
  let! (a1, a2, r) := update (fst nr) (snd nr) b in
  absorb_bond b (upd T (upd T (fst nr) (b_s1 b) SA a1) (b_s2 b) SA a2, r).
Definition run_sop (o : dop) (nr : net T * R) : res (net T * R) :=
  match o with
  | DLR x1 x2 => let! nr := left_move (fst nr) (snd nr) x1 in right_move (fst nr) (snd nr) x2
  | DUD y1 y2 => let! nr := up_move (fst nr) (snd nr) y1 in down_move (fst nr) (snd nr) y2
  | DBond b => bond_update b nr
  | DCtmrg => ctmrg_step nr
  end.
Definition valid_op (o : dop) : Prop :=
  match o with
  | DLR x1 x2 => x1 < nx /\ x2 < nx
  | DUD y1 y2 => y1 < ny /\ y2 < ny
  | DBond b => b_k b < 4 /\ in_cell nx ny (b_s1 b) /\ in_cell nx ny (b_s2 b)
  | DCtmrg => True
  end.

(** ---- the moves only look at the entries of the network ---- *)
Definition neq (n m : net T) : Prop := forall s sl, n s sl = m s sl.
Definition rel {A} (P : A -> A -> Prop) (a b : res A) : Prop :=
  match a, b with Ok x, Ok y => P x y | Err e, Err f => e = f | _, _ => False end.
Definition seq_rel (x y : net T * R) : Prop := neq (fst x) (fst y) /\ snd x = snd y.

Lemma rel_bind {A B} (P : A -> A -> Prop) (Q : B -> B -> Prop) a b f g :
  rel P a b -> (forall x y, P x y -> rel Q (f x) (g y)) -> rel Q (bind a f) (bind b g).
Proof. intros H1 H2. destruct a, b; cbn in *; auto; try contradiction. Qed.

Lemma rel_for_each {A B} (P : B -> B -> Prop) (l : list A) f g :
  (forall a x y, In a l -> P x y -> rel P (f a x) (g a y)) -> forall x y, P x y -> rel P (for_each l f x) (for_each l g y).
Proof.
  induction l as [|a l IH]; intros H x y Hxy; cbn; auto.
  apply (rel_bind P); [apply H; auto; now left|]. intros x' y' Hx. apply IH; auto. intros; apply H; auto. now right.
Qed.

Lemma upd_neq n m s sl v : neq n m -> neq (upd T n s sl v) (upd T m s sl v).
Proof. intros H s' sl'. unfold upd. destruct (site_eq_dec _ _); auto. destruct (slot_eq_dec _ _); auto. Qed.

Lemma rb_neq n m p1 p2 s1 s2 i j k : neq n m ->
  rel neq (renormalize_boundary T bperm cj1 cj2 ej n p1 p2 s1 s2 i j k) (renormalize_boundary T bperm cj1 cj2 ej m p1 p2 s1 s2 i j k).
Proof.
  intros H. unfold renormalize_boundary. rewrite !H.
  destruct (dget _ p1 i); cbn [bind rel]; auto. destruct (cj1 _ _ _) as [c1|]; cbn [bind rel]; auto.
  destruct (dget _ p2 j); cbn [bind rel]; auto.
  assert (H1 : neq (upd T n s2 (SC ((3 + k) mod 4)) c1) (upd T m s2 (SC ((3 + k) mod 4)) c1)) by now apply upd_neq.
  rewrite !H1. destruct (cj2 _ _ _) as [c2|]; cbn [bind rel]; auto.
  destruct (dget _ p2 i); cbn [bind rel]; auto. destruct (dget _ p1 j); cbn [bind rel]; auto.
  assert (H2 := upd_neq _ _ s2 (SC k) c2 H1). rewrite !H2. destruct (ej _ _ _ _); cbn [bind rel]; auto.
  now apply upd_neq.
Qed.

Lemma calculate_neq n m r s1 s2 s3 s4 k : neq n m ->
  calculate T R bperm calcH calcF pt n r s1 s2 s3 s4 k = calculate T R bperm calcH calcF pt m r s1 s2 s3 s4 k.
Proof. intros H. unfold calculate, quarter_of. now rewrite !H. Qed.

Lemma move_neq k n m r c : neq n m -> rel seq_rel (move_dir k n r c) (move_dir k m r c).
Proof.
  intros H.
  assert (G : forall rows (f g : nat -> R -> res (T * T * R)) (body : dict T -> dict T -> nat -> net T -> res (net T)) (l : list nat),
    (forall i r, f i r = g i r) -> (forall p1 p2 a x y, neq x y -> rel neq (body p1 p2 a x) (body p1 p2 a y)) ->
    rel seq_rel (let! (p1, p2, r') := proj_loop T R rows f (dempty T) (dempty T) r in let! n' := for_each l (body p1 p2) n in Ok (n', r'))
      (let! (p1, p2, r') := proj_loop T R rows g (dempty T) (dempty T) r in let! n' := for_each l (body p1 p2) m in Ok (n', r'))).
  { intros rows f g body l Hf Hb. rewrite (proj_loop_ext T R rows f g) by auto.
    destruct (proj_loop _ _ rows g _ _ r) as [[[p1 p2] r']|]; cbn [bind rel]; auto.
    apply (rel_bind neq).
    - apply rel_for_each; auto.
    - intros x y Hxy. cbn. split; auto. }
  destruct k as [|[|[|k]]]; cbn [Mover.move_dir]; apply G; intros; first [apply calculate_neq; exact H | apply rb_neq; assumption].
Qed.

(** ---- one operation ---- *)
Hypothesis half : pt = Half.
Hypothesis detH : forall r r' a b, drop T R (calcH r a b) = drop T R (calcH r' a b).
Hypothesis detU : forall n m r r' b, neq n m -> drop T R (update n r b) = drop T R (update m r' b).
Hypotheses (nx0 : 1 <= nx) (ny0 : 1 <= ny).

(** the world [w] holds, on every rank, the network of the sequential program *)
Definition tracks (w : world) (nr : net T * R) : Prop :=
  2 <= length w /\ exists n, (forall x, In x w -> fst x = n) /\ neq n (fst nr).

Definition follows (w' : world) (m : res (net T * R)) (len : nat) : Prop :=
  exists nr, m = Ok nr /\ tracks w' nr /\ length w' = len.

Lemma two_moves n r nr c1 c2 k1 k2 : neq n (fst nr) -> r = snd nr ->
  forall n1 r1 n2 r2, move_dir k1 n r c1 = Ok (n1, r1) -> move_dir k2 n1 r1 c2 = Ok (n2, r2) ->
  exists x, (let! nr := move_dir k1 (fst nr) (snd nr) c1 in move_dir k2 (fst nr) (snd nr) c2) = Ok x /\ neq n2 (fst x).
Proof.
  intros H -> n1 r1 n2 r2 E1 E2. pose proof (move_neq k1 n (fst nr) (snd nr) c1 H) as M. rewrite E1 in M.
  destruct (move_dir k1 (fst nr) (snd nr) c1) as [[m1 q1]|]; [|contradiction]. destruct M as [M Q]; cbn in M, Q. subst q1.
  cbn [bind fst snd]. pose proof (move_neq k2 n1 m1 r1 c2 M) as M2. rewrite E2 in M2.
  destruct (move_dir k2 m1 r1 c2) as [[m2 q2]|]; [|contradiction]. destruct M2 as [M2 _]. eauto.
Qed.

Lemma lr_follows w w' nr x1 x2 : tracks w nr -> x1 < nx -> x2 < nx -> left_right_move_dist w x1 x2 = Ok w' ->
  follows w' (let! nr := left_move (fst nr) (snd nr) x1 in right_move (fst nr) (snd nr) x2) (length w).
Proof.
  intros (L & n & Hn & E) H1 H2 H.
  destruct (C17_half_system_equals_sequential T R bperm cj1 cj2 ej calcH calcF pt nx ny update w w' n x1 x2 half detH L nx0 ny0 Hn) as [P _].
  destruct (P H H1 H2 (snd nr)) as (n1 & r1 & n2 & r2 & E1 & E2 & L' & Q).
  destruct (two_moves n (snd nr) nr x1 x2 0 2 E eq_refl n1 r1 n2 r2 E1 E2) as (x & X & N).
  exists x. split; [exact X|]. split; [|exact L']. split; [lia|]. exists n2. auto.
Qed.
Lemma ud_follows w w' nr y1 y2 : tracks w nr -> y1 < ny -> y2 < ny -> up_down_move_dist w y1 y2 = Ok w' ->
  follows w' (let! nr := up_move (fst nr) (snd nr) y1 in down_move (fst nr) (snd nr) y2) (length w).
Proof.
  intros (L & n & Hn & E) H1 H2 H.
  destruct (C17_half_system_equals_sequential T R bperm cj1 cj2 ej calcH calcF pt nx ny update w w' n y1 y2 half detH L nx0 ny0 Hn) as [_ P].
  destruct (P H H1 H2 (snd nr)) as (n1 & r1 & n2 & r2 & E1 & E2 & L' & Q).
  destruct (two_moves n (snd nr) nr y1 y2 1 3 E eq_refl n1 r1 n2 r2 E1 E2) as (x & X & N).
  exists x. split; [exact X|]. split; [|exact L']. split; [lia|]. exists n2. auto.
Qed.

Lemma for_each_follows {A} (l : list A) (f : A -> world -> res world) (g : A -> net T * R -> res (net T * R)) :
  (forall a w w' nr, In a l -> tracks w nr -> f a w = Ok w' -> follows w' (g a nr) (length w)) ->
  forall w w' nr, tracks w nr -> for_each l f w = Ok w' -> follows w' (for_each l g nr) (length w).
Proof.
  induction l as [|a l IH]; intros H w w' nr Hw E; cbn in *.
  - injection E as <-. exists nr. auto.
  - destruct (f a w) as [w1|] eqn:E1; cbn [bind] in E; [|discriminate].
    destruct (H a w w1 nr (or_introl eq_refl) Hw E1) as (nr1 & -> & T1 & L1). cbn [bind].
    destruct (IH (fun a w w' nr Ha => H a w w' nr (or_intror Ha)) w1 w' nr1 T1 E) as (nr2 & -> & T2 & L2).
    exists nr2. rewrite <- L1. auto.
Qed.

Lemma sweep_bound n i : 1 <= n -> (n - i + 1) mod n < n.
Proof. intros. apply Nat.mod_upper_bound. lia. Qed.

Lemma op_follows o w w' nr : valid_op o -> tracks w nr -> run_dop o w = Ok w' -> follows w' (run_sop o nr) (length w).
Proof.
  intros V Hw H. destruct o as [x1 x2|y1 y2|b|]; cbn [Dist.run_dop run_sop valid_op] in *.
  - apply lr_follows; tauto.
  - apply ud_follows; tauto.
  - destruct V as (Hk & H1 & H2). destruct Hw as (L & n & Hn & E).
    destruct w as [|[n0 r0] rest]; [cbn in L; lia|]. cbn [bond_update_dist] in H.
    destruct (update n0 r0 b) as [[[a1 a2] r0']|] eqn:Eu; cbn [bind] in H; [|discriminate].
    assert (N0 : n0 = n) by (apply (Hn (n0, r0)); now left). subst n0.
    unfold bond_update. pose proof (detU n (fst nr) r0 (snd nr) b E) as D. rewrite Eu in D. cbn in D.
    destruct (update (fst nr) (snd nr) b) as [[[a1' a2'] r']|]; [|discriminate]. injection D as <- <-. cbn [bind].
    set (w1 := map _ _) in H. pose (n1 := upd T (upd T n (b_s1 b) SA a1) (b_s2 b) SA a2).
    assert (L1 : length w1 = length ((n, r0) :: rest)) by (unfold w1; rewrite map_length; reflexivity).
    assert (S1 : forall x, In x w1 -> fst x = n1).
    { intros x Hx. unfold w1 in Hx. apply in_map_iff in Hx as (y & <- & Hy). cbn [fst]. unfold bond_write, n1. f_equal. f_equal.
      destruct Hy as [<-|Hy]; [reflexivity|apply Hn; now right]. }
    (* with half-system projectors the other calculation is never used *)
    assert (F : exists n' r'', absorb_bond b (n1, r') = Ok (n', r'') /\ forall x, In x w' -> neq (fst x) n').
    { pose proof (C55_same_network T R bperm cj1 cj2 ej calcH (fun _ _ _ _ _ => Err KeyError) pt nx ny update b n1 r' w1 w' half detH
        (fun _ _ _ _ _ _ => eq_refl) Hk H1 H2 ltac:(lia) S1) as P.
      rewrite half in *. exact (P H). }
    assert (LW : length w' = length w1 /\ exists n', forall x, In x w' -> fst x = n').
    { destruct (run_dop_same T R bperm cj1 cj2 ej calcH calcF pt nx ny update (DBond b) ((n, r0) :: rest) w' nx0 ny0 L) as [[n' Hn'] LL].
      - exists n. exact Hn.
      - cbn [Dist.run_dop bond_update_dist]. rewrite Eu. exact H.
      - split; [lia|]. exists n'. exact Hn'. }
    destruct F as (n' & r'' & F & Q). destruct LW as (LW & n2 & Hn2).
    rewrite (absorb_bond_eq T R bperm cj1 cj2 ej calcH calcF pt nx ny b n1 r' Hk) in F.
    rewrite (absorb_bond_eq T R bperm cj1 cj2 ej calcH calcF pt nx ny b _ r' Hk).
    unfold seq_pair in *.
    destruct (move_dir _ n1 r' _) as [[m1 q1]|] eqn:E1; cbn [bind] in F; [|discriminate].
    edestruct (two_moves n1 r' (upd T (upd T (fst nr) (b_s1 b) SA a1) (b_s2 b) SA a2, r')) as (x & X & N); [|reflexivity|exact E1|exact F|].
    { cbn [fst]. apply upd_neq, upd_neq, E. }
    exists x. split; [exact X|]. split; [|lia]. split; [lia|]. exists n2. split; auto.
    assert (I : exists y, In y w') by (destruct w' as [|y w']; [cbn in LW; lia|exists y; now left]).
    destruct I as (y & Hy). intros s sl. rewrite <- N, <- (Q y Hy), (Hn2 y Hy). reflexivity.
  - unfold ctmrg_step_dist in H. unfold ctmrg_step.
    match type of H with bind ?e _ = _ => destruct e as [w1|] eqn:E end; cbn [bind] in H; [|discriminate].
    destruct (for_each_follows (seq 0 nx) (fun xi w => left_right_move_dist w xi ((nx - xi + 1) mod nx))
      (fun xi nr => let! nr := left_move (fst nr) (snd nr) xi in right_move (fst nr) (snd nr) ((nx - xi + 1) mod nx))
      ltac:(intros a v v' m Ha Hv Ev; apply in_seq in Ha; apply lr_follows; auto; [lia|now apply sweep_bound]) w w1 nr Hw E) as (nr1 & -> & T1 & L1).
    cbn [bind]. rewrite <- L1.
    exact (for_each_follows (seq 0 ny) (fun yi w => up_down_move_dist w ((ny - yi + 1) mod ny) yi)
      (fun yi nr => let! nr := up_move (fst nr) (snd nr) ((ny - yi + 1) mod ny) in down_move (fst nr) (snd nr) yi)
      ltac:(intros a v v' m Ha Hv Ev; apply in_seq in Ha; apply ud_follows; auto; [now apply sweep_bound|lia]) w1 w' nr1 T1 H).
Qed.

(** C68: half-system projectors by a deterministic SVD, a deterministic bond
    update.  Every distributed program (moves, sweeps and bond updates in any
    order) which completes leaves on every rank the network which the sequential
    program computes, whatever the generator states of the ranks; and then the
    sequential program completes. *)
Theorem C68_distributed_program (ops : list dop) (w w' : world) (n : net T) (r : R) :
  Forall valid_op ops -> 2 <= length w -> (forall x, In x w -> fst x = n) ->
  for_each ops run_dop w = Ok w' ->
  exists n' r', for_each ops run_sop (n, r) = Ok (n', r') /\ length w' = length w /\
    forall x, In x w' -> forall s sl, fst x s sl = n' s sl.
Proof.
  intros V L Hn H. rewrite Forall_forall in V.
  destruct (for_each_follows ops run_dop run_sop (fun a w w' nr Ha => op_follows a w w' nr (V a Ha)) w w' (n, r)) as ([n' r'] & E & (_ & m & Hm & Q) & L').
  - split; auto. exists n. split; auto. intros s sl; reflexivity.
  - exact H.
  - exists n', r'. split; [exact E|]. split; [exact L'|]. intros x Hx s sl. rewrite (Hm x Hx). apply Q.
Qed.
End DistRun.

(** a program with a bond update, a sweep and a move, on four ranks with different
    generator states: the distributed and the sequential run give the same tables *)
Definition toy_update (n : net nat) (r : nat) (b : bond) : res (nat * nat * nat) := Ok (n (b_s1 b) SA + 7, n (b_s2 b) SA + 9, S r).
Definition toy_ops : list dop := [DBond (Bond (0, 0) (1, 0) 2); DCtmrg; DUD 1 0; DBond (Bond (1, 1) (1, 0) 3)].
Definition toy_dist := for_each toy_ops (run_dop nat nat (fun k a => a + k) ex_cj ex_cj ex_ej det_calcH det_calcF Half 2 2 toy_update)
  [(ex_net, 3); (ex_net, 10); (ex_net, 20); (ex_net, 0)].
Example C68_example : outcome toy_dist = None /\
  res_map (map (fun x => table 2 2 (fst x))) toy_dist =
  res_map (fun x => repeat (table 2 2 (fst x)) 4) (for_each toy_ops
    (run_sop nat nat (fun k a => a + k) ex_cj ex_cj ex_ej det_calcH det_calcF Half 2 2 toy_update) (ex_net, 5)).
Proof. vm_compute. auto. Qed.

Print Assumptions C68_distributed_program.
