(** Model of the distributed moves of directional_mover.py (183-271), the
    distributed branch of ctmrg.py (20-24) and of fast_full_update.py (29-69,
    103-129).

    All ranks run the same program in lock step between collectives, so the
    processes are modelled as a list (rank = position).  all_gather returns the
    same list on every rank (distributed.py 84-108), so the projector
    dictionaries built from it are kept once.  A rank that raises before a
    collective makes the whole move fail. *)
From Coq Require Import List Arith Lia Bool Permutation.
From Verif Require Import ListAux Lattice LatticeFacts Base Mover.
Import ListNotations.

(** range(0, stop, step) for step >= 1 *)
Definition pyrange0 (stop step : nat) : list nat :=
  map (fun i => i * step) (seq 0 ((stop + step - 1) / step)).

(** run a computation on every rank *)
Fixpoint mapi_res {A B} (f : nat -> A -> res B) (rank : nat) (l : list A) : res (list B) :=
  match l with
  | [] => Ok []
  | a :: l => let! b := f rank a in let! bs := mapi_res f (S rank) l in Ok (b :: bs)
  end.

Lemma mapi_res_spec {A B} (f : nat -> A -> res B) l : forall k l',
  mapi_res f k l = Ok l' ->
  length l' = length l /\
  forall i a, nth_error l i = Some a -> exists b, nth_error l' i = Some b /\ f (k + i) a = Ok b.
Proof.
  induction l as [|a l IH]; intros k l' H; cbn in H.
  - inversion H; subst. split; auto. intros [|]; discriminate.
  - destruct (f k a) as [b|] eqn:E; cbn in H; [|discriminate].
    destruct (mapi_res f (S k) l) as [bs|] eqn:E'; cbn in H; [|discriminate].
    inversion H; subst. destruct (IH _ _ E') as [L N]. split; [cbn; lia|].
    intros [|i] a' Ha; cbn in *.
    + inversion Ha; subst. exists b. now rewrite Nat.add_0_r.
    + destruct (N i a' Ha) as (b' & Hb & F). exists b'. split; auto. now rewrite Nat.add_succ_r.
Qed.

Lemma mapi_res_ok {A B} (f : nat -> A -> res B) l : forall k,
  (forall i a, nth_error l i = Some a -> exists b, f (k + i) a = Ok b) -> exists l', mapi_res f k l = Ok l'.
Proof.
  induction l as [|a l IH]; intros k H; cbn; eauto.
  destruct (H 0 a eq_refl) as [b E]. rewrite Nat.add_0_r in E. rewrite E; cbn.
  destruct (IH (S k)) as [l' ->]; [|cbn; eauto].
  intros i a' Ha. destruct (H (S i) a' Ha) as [b' E']. exists b'.
  now rewrite Nat.add_succ_r in E'.
Qed.

Lemma mapi_res_err {A B} (f : nat -> A -> res B) e l : forall k,
  (forall i a, nth_error l i = Some a -> (exists b, f (k + i) a = Ok b) \/ f (k + i) a = Err e) ->
  (exists i a, nth_error l i = Some a /\ f (k + i) a = Err e) -> mapi_res f k l = Err e.
Proof.
  induction l as [|a l IH]; intros k H (i & a' & Ha & E); [destruct i; discriminate|]. cbn.
  destruct (H 0 a eq_refl) as [[b Eb]|Eb]; rewrite Nat.add_0_r in Eb; rewrite Eb; cbn; auto.
  destruct i as [|i]; cbn in Ha.
  - inversion Ha; subst. rewrite Nat.add_0_r in E. congruence.
  - rewrite IH; auto.
    + intros j a0 Hj. specialize (H (S j) a0 Hj). now rewrite Nat.add_succ_r in H.
    + exists i, a'. split; auto. now rewrite Nat.add_succ_r in E.
Qed.

Section Dist.
Variables (T R : Type).
Variable bperm : nat -> T -> T.
Variable cj1 : T -> T -> T -> res T.
Variable cj2 : T -> T -> T -> res T.
Variable ej : T -> T -> T -> T -> res T.
Variable calcH : R -> quarter T -> quarter T -> res (T * T * R).
Variable calcF : R -> quarter T -> quarter T -> quarter T -> quarter T -> res (T * T * R).
Variable pt : ptype.
Variables nx ny : nat.

Notation net := (net T).
Notation dict := (dict T).
Notation dempty := (dempty T).

(** One process: its network, its random generator, and the local variables
    proj1_i, proj2_i ([None] = not yet bound). *)
Record proc := Proc { p_net : net; p_rng : R; p_loc : option (T * T) }.

(** lines 196-203 / 241-248 on one rank.  [first], [second] are the two
    projector calculations, h = ws//2, t = shift//ws, rows = ny or nx. *)
Definition rank_step (first second : net -> nat -> R -> res (T * T * R)) (h rows t rank : nat)
    (p : proc) : res proc :=
  if rank <? h then
    let i := rank + t in
    if i <? rows then let! (a, b, r) := first (p_net p) i (p_rng p) in Ok (Proc (p_net p) r (Some (a, b)))
    else Ok p
  else
    let i := rank - h + t in
    if i <? rows then let! (a, b, r) := second (p_net p) i (p_rng p) in Ok (Proc (p_net p) r (Some (a, b)))
    else Ok p.

(** lines 205-206: reading the local variable raises if it was never bound *)
Definition gather (ps : list proc) : res (list (T * T)) :=
  mapi_res (fun _ p => match p_loc p with Some ab => Ok ab | None => Err UnboundLocalError end) 0 ps.

Definition get_all (all : list (T * T)) (i : nat) : res (T * T) :=
  match nth_error all i with Some ab => Ok ab | None => Err IndexError end.

Definition dicts := (dict * dict * dict * dict)%type.

(** lines 208-212: fill the dictionaries *)
Definition fill (all : list (T * T)) (h t : nat) (ds : dicts) : res dicts :=
  for_each (seq 0 h) (fun i ds =>
    let! ab := get_all all i in let! cd := get_all all (i + h) in
    let '(d1l, d2l, d1r, d2r) := ds in
    Ok (dset T d1l (i + t) (fst ab), dset T d2l (i + t) (snd ab),
        dset T d1r (i + t) (fst cd), dset T d2r (i + t) (snd cd))) ds.

(** lines 193-212 *)
Definition dist_projectors (first second : net -> nat -> R -> res (T * T * R)) (rows : nat)
    (ps : list proc) : res (dicts * list proc) :=
  let ws := length ps in let h := ws / 2 in
  for_each (pyrange0 (2 * rows) ws) (fun shift st =>
    let '(ds, ps) := st in
    let t := shift / ws in
    let! ps := mapi_res (rank_step first second h rows t) 0 ps in
    let! all := gather ps in
    let! ds := fill all h t ds in
    Ok (ds, ps)) ((dempty, dempty, dempty, dempty), ps).

(** lines 214-226 on one rank *)
Definition lr_renormalize (x1 x2 : nat) (ds : dicts) (n : net) : res net :=
  let '(d1l, d2l, d1r, d2r) := ds in
  let! n := for_each (seq 0 ny) (fun yi m =>
    let xj := (x1 + 1) mod nx in let yj := (yi + 1) mod ny in
    renormalize_boundary T bperm cj1 cj2 ej m d1l d2l (x1, yi) (xj, yi) yi yj 0) n in
  for_each (seq 0 ny) (fun yi m =>
    let xj := (x2 + nx - 1) mod nx in let yj := (yi + ny - 1) mod ny in
    renormalize_boundary T bperm cj1 cj2 ej m d1r d2r (x2, yi) (xj, yi) yi yj 2) n.
(** lines 259-271 on one rank *)
Definition ud_renormalize (y1 y2 : nat) (ds : dicts) (n : net) : res net :=
  let '(d1u, d2u, d1d, d2d) := ds in
  let! n := for_each (seq 0 nx) (fun xi m =>
    let xj := (xi + 1) mod nx in let yj := (y1 + ny - 1) mod ny in
    renormalize_boundary T bperm cj1 cj2 ej m d1u d2u (xi, y1) (xi, yj) xi xj 1) n in
  for_each (seq 0 nx) (fun xi m =>
    let xj := (xi + nx - 1) mod nx in let yj := (y2 + 1) mod ny in
    renormalize_boundary T bperm cj1 cj2 ej m d1d d2d (xi, y2) (xi, yj) xi xj 3) n.

(** A world: network and random generator of every rank. *)
Definition world := list (net * R).
Definition start (w : world) : list proc := map (fun nr => Proc (fst nr) (snd nr) None) w.
Definition finish (f : net -> res net) (ps : list proc) : res world :=
  mapi_res (fun _ p => let! n := f (p_net p) in Ok (n, p_rng p)) 0 ps.

Definition left_proj n x yi r := calculate_left_projectors T R bperm calcH calcF pt nx ny n x yi r.
Definition right_proj n x yi r := calculate_right_projectors T R bperm calcH calcF pt nx ny n x yi r.
Definition up_proj n y xi r := calculate_up_projectors T R bperm calcH calcF pt nx ny n xi y r.
Definition down_proj n y xi r := calculate_down_projectors T R bperm calcH calcF pt nx ny n xi y r.

(** 183-226 *)
Definition left_right_move_dist (w : world) (x1 x2 : nat) : res world :=
  let! (ds, ps) := dist_projectors (fun n => left_proj n x1) (fun n => right_proj n x2) ny (start w) in
  finish (lr_renormalize x1 x2 ds) ps.
(** 228-271 *)
Definition up_down_move_dist (w : world) (y1 y2 : nat) : res world :=
  let! (ds, ps) := dist_projectors (fun n => up_proj n y1) (fun n => down_proj n y2) nx (start w) in
  finish (ud_renormalize y1 y2 ds) ps.

(** fast_full_update.py 103-129 *)
Definition absorb_bond_dist (b : bond) (w : world) : res world :=
  let s1 := b_s1 b in let s2 := b_s2 b in
  match b_k b with
  | 0 => left_right_move_dist w (fst s2) (fst s1)
  | 1 => up_down_move_dist w (snd s2) (snd s1)
  | 2 => left_right_move_dist w (fst s1) (fst s2)
  | 3 => up_down_move_dist w (snd s1) (snd s2)
  | _ => Ok w
  end.
(** ctmrg.py 20-24, one step of the distributed branch *)
Definition ctmrg_step_dist (w : world) : res world :=
  let! w := for_each (seq 0 nx) (fun xi w => left_right_move_dist w xi ((nx - xi + 1) mod nx)) w in
  for_each (seq 0 ny) (fun yi w => up_down_move_dist w ((ny - yi + 1) mod ny) yi) w.

(** ---- lemmas ---- *)

Lemma dset_get (d : dict) i v j : dset T d i v j = if j =? i then Some v else d j.
Proof. reflexivity. Qed.

(** the dictionaries after [fill] *)
Lemma fill_spec all h t : 2 * h <= length all -> forall d1 d2 d3 d4,
  exists e1 e2 e3 e4, fill all h t (d1, d2, d3, d4) = Ok (e1, e2, e3, e4) /\
  (forall i, t <= i < t + h -> exists ab cd, nth_error all (i - t) = Some ab /\
      nth_error all (i - t + h) = Some cd /\
      e1 i = Some (fst ab) /\ e2 i = Some (snd ab) /\ e3 i = Some (fst cd) /\ e4 i = Some (snd cd)) /\
  (forall i, ~ (t <= i < t + h) -> e1 i = d1 i /\ e2 i = d2 i /\ e3 i = d3 i /\ e4 i = d4 i).
Proof.
  intros L. unfold fill.
  assert (G : forall l d1 d2 d3 d4, NoDup l -> (forall i, In i l -> i < h) ->
   exists e1 e2 e3 e4, for_each l (fun i ds =>
    let! ab := get_all all i in let! cd := get_all all (i + h) in
    let '(d1l, d2l, d1r, d2r) := ds in
    Ok (dset T d1l (i + t) (fst ab), dset T d2l (i + t) (snd ab),
        dset T d1r (i + t) (fst cd), dset T d2r (i + t) (snd cd))) (d1, d2, d3, d4) = Ok (e1, e2, e3, e4) /\
   (forall i, In i l -> exists ab cd, nth_error all i = Some ab /\ nth_error all (i + h) = Some cd /\
      e1 (i + t) = Some (fst ab) /\ e2 (i + t) = Some (snd ab) /\
      e3 (i + t) = Some (fst cd) /\ e4 (i + t) = Some (snd cd)) /\
   (forall i, (forall j, In j l -> i <> j + t) -> e1 i = d1 i /\ e2 i = d2 i /\ e3 i = d3 i /\ e4 i = d4 i)).
  { induction l as [|a l IH]; intros d1 d2 d3 d4 Hnd Hl.
    - exists d1, d2, d3, d4. cbn. repeat split; auto. intros i [].
    - assert (Ha : a < h) by (apply Hl; now left).
      cbn [for_each]. unfold get_all.
      destruct (nth_error all a) as [ab|] eqn:E1; [|apply nth_error_None in E1; lia].
      destruct (nth_error all (a + h)) as [cd|] eqn:E2; [|apply nth_error_None in E2; lia].
      cbn [bind]. inversion Hnd as [|? ? Hn Hnd']; subst.
      destruct (IH (dset T d1 (a + t) (fst ab)) (dset T d2 (a + t) (snd ab))
                   (dset T d3 (a + t) (fst cd)) (dset T d4 (a + t) (snd cd)) Hnd'
                   (fun i Hi => Hl i (or_intror Hi))) as (e1 & e2 & e3 & e4 & F & I & O).
      exists e1, e2, e3, e4. split; [exact F|]. split.
      + intros i [<- | Hi]; [|now apply I]. exists ab, cd. split; [exact E1|]. split; [exact E2|].
        destruct (O (a + t)) as (O1 & O2 & O3 & O4).
        { intros j Hj X. assert (j = a) by lia. subst; contradiction. }
        rewrite O1, O2, O3, O4, !dset_get, Nat.eqb_refl. auto.
      + intros i Hi. destruct (O i) as (O1 & O2 & O3 & O4); [intros j Hj; apply Hi; now right|].
        rewrite O1, O2, O3, O4, !dset_get.
        destruct (Nat.eqb_spec i (a + t)) as [-> |]; [exfalso; apply (Hi a); auto; now left|auto]. }
  intros d1 d2 d3 d4.
  destruct (G (seq 0 h) d1 d2 d3 d4 (seq_NoDup _ _)) as (e1 & e2 & e3 & e4 & F & I & O).
  { intros i Hi. apply in_seq in Hi; lia. }
  exists e1, e2, e3, e4. split; [exact F|]. split.
  - intros i Hi. destruct (I (i - t)) as (ab & cd & A1 & A2 & A3); [apply in_seq; lia|].
    replace (i - t + t) with i in A3 by lia. eauto.
  - intros i Hi. apply O. intros j Hj X. apply in_seq in Hj. lia.
Qed.

(** ---- the projector phase ---- *)
Section Phase.
Variables (first second : net -> nat -> R -> res (T * T * R)) (rows : nat).
Variable ps0 : list proc.
Hypothesis ws2 : 2 <= length ps0.
Hypothesis rows1 : 1 <= rows.
Hypothesis unbound0 : forall p, In p ps0 -> p_loc p = None.
Let ws := length ps0.
Let h := ws / 2.

Definition iter (t : nat) (st : dicts * list proc) : res (dicts * list proc) :=
  let '(ds, ps) := st in
  let! ps := mapi_res (rank_step first second h rows t) 0 ps in
  let! all := gather ps in
  let! ds := fill all h t ds in
  Ok (ds, ps).

Definition niter : nat := (2 * rows + ws - 1) / ws.

Lemma dist_projectors_eq :
  dist_projectors first second rows ps0 =
  for_each (seq 0 niter) iter ((dempty, dempty, dempty, dempty), ps0).
Proof.
  unfold dist_projectors, pyrange0. rewrite for_each_map. apply for_each_ext.
  intros t [ds ps] _. unfold iter. fold ws. fold h. rewrite Nat.div_mul by (unfold ws; lia). reflexivity.
Qed.

(** A projector pair computed for row i from the network of some rank. *)
Definition computed (f : net -> nat -> R -> res (T * T * R)) (i : nat) (a b : T) : Prop :=
  exists p r r', In p ps0 /\ f (p_net p) i r = Ok (a, b, r').

(** State after t iterations. *)
Definition Inv (t : nat) (st : dicts * list proc) : Prop :=
  let '((d1, d2, d3, d4), ps) := st in
  map p_net ps = map p_net ps0 /\
  (forall i, (i < t - 1 + h /\ 0 < t) <-> d1 i <> None) /\
  (forall i, d1 i = None <-> d2 i = None) /\ (forall i, d1 i = None <-> d3 i = None) /\
  (forall i, d1 i = None <-> d4 i = None) /\
  (forall i a b, i < rows -> d1 i = Some a -> d2 i = Some b -> computed first i a b) /\
  (forall i a b, i < rows -> d3 i = Some a -> d4 i = Some b -> computed second i a b) /\
  (forall p, In p ps -> (0 < t <-> p_loc p <> None)).

Lemma h_bounds : 1 <= h /\ 2 * h <= ws <= 2 * h + 1.
Proof.
  unfold h. pose proof (Nat.div_mod ws 2 ltac:(lia)). pose proof (Nat.mod_upper_bound ws 2 ltac:(lia)).
  assert (2 <= ws) by exact ws2. split; [|lia]. destruct (ws / 2); lia.
Qed.

(** all ranks have a row to compute in the first iteration *)
Definition enough_rows : Prop := ws - h <= rows.

Lemma rank_step_net t rank p p' : rank_step first second h rows t rank p = Ok p' ->
  p_net p' = p_net p /\ (p_loc p <> None -> p_loc p' <> None) /\
  (forall i, i = (if rank <? h then rank + t else rank - h + t) -> i < rows ->
     exists a b, p_loc p' = Some (a, b) /\
       exists r r', (if rank <? h then first else second) (p_net p) i r = Ok (a, b, r')) /\
  (rows <= (if rank <? h then rank + t else rank - h + t) -> p' = p).
Proof.
  unfold rank_step. cbv zeta. destruct (rank <? h).
  - destruct (Nat.ltb_spec (rank + t) rows) as [Hl|Hl].
    + destruct (first (p_net p) (rank + t) (p_rng p)) as [[[a b] r]|] eqn:E; cbn [bind]; [|discriminate].
      intros X; injection X as <-. cbn [p_net p_loc]. repeat split; try lia; try discriminate.
      intros i -> _. exists a, b. split; auto. eauto.
    + intros X; injection X as <-. repeat split; auto. intros; lia.
  - destruct (Nat.ltb_spec (rank - h + t) rows) as [Hl|Hl].
    + destruct (second (p_net p) (rank - h + t) (p_rng p)) as [[[a b] r]|] eqn:E; cbn [bind]; [|discriminate].
      intros X; injection X as <-. cbn [p_net p_loc]. repeat split; try lia; try discriminate.
      intros i -> _. exists a, b. split; auto. eauto.
    + intros X; injection X as <-. repeat split; auto. intros; lia.
Qed.

Lemma nth_nets ps i p : map p_net ps = map p_net ps0 -> nth_error ps i = Some p ->
  exists p0, In p0 ps0 /\ p_net p0 = p_net p.
Proof.
  intros E H. assert (H' : nth_error (map p_net ps) i = Some (p_net p)) by now apply map_nth_error.
  rewrite E in H'. apply nth_error_In in H'. apply in_map_iff in H' as (p0 & E0 & I0). eauto.
Qed.

Lemma mapi_nets t ps ps' : mapi_res (rank_step first second h rows t) 0 ps = Ok ps' ->
  map p_net ps' = map p_net ps.
Proof.
  generalize 0. revert ps'. induction ps as [|p ps IH]; intros ps' k H; cbn in H.
  - inversion H; auto.
  - destruct (rank_step _ _ _ _ _ _ p) as [p1|] eqn:E; cbn in H; [|discriminate].
    destruct (mapi_res _ (S k) ps) as [ps1|] eqn:E1; cbn in H; [|discriminate].
    inversion H; subst. cbn. rewrite (IH _ _ E1). apply rank_step_net in E as (-> & _). auto.
Qed.

Lemma gather_spec ps all : gather ps = Ok all ->
  length all = length ps /\ forall i p, nth_error ps i = Some p -> nth_error all i = p_loc p /\ p_loc p <> None.
Proof.
  unfold gather. intros H. destruct (mapi_res_spec _ _ _ _ H) as [L N]. split; auto.
  intros i p Hp. destruct (N i p Hp) as (b & Hb & E). cbn in E.
  destruct (p_loc p) eqn:X; inversion E; subst. split; [auto|congruence].
Qed.

Lemma iter_inv t st st' : Inv t st -> iter t st = Ok st' -> Inv (S t) st'.
Proof.
  destruct st as [[[[d1 d2] d3] d4] ps]. unfold iter, Inv at 1.
  intros (N & D1 & D2 & D3 & D4 & C1 & C2 & Lc) H.
  destruct (mapi_res _ 0 ps) as [ps1|] eqn:E1; cbn [bind] in H; [|discriminate].
  destruct (gather ps1) as [all|] eqn:E2; cbn [bind] in H; [|discriminate].
  destruct (mapi_res_spec _ _ _ _ E1) as [L1 S1].
  destruct (gather_spec _ _ E2) as [L2 S2].
  assert (Lps : length ps = ws).
  { unfold ws. rewrite <- (map_length p_net ps), N. apply map_length. }
  destruct h_bounds as [Hh1 Hh2].
  destruct (fill_spec all h t) with (d1:=d1) (d2:=d2) (d3:=d3) (d4:=d4)
    as (e1 & e2 & e3 & e4 & F & I & O); [rewrite L2, L1, Lps; lia|].
  rewrite F in H. cbn [bind] in H. inversion H; subst st'; clear H.
  unfold Inv. split; [rewrite (mapi_nets _ _ _ E1); exact N|].
  assert (Row : forall i, t <= i < t + h -> i < rows ->
     exists a b c d, e1 i = Some a /\ e2 i = Some b /\ e3 i = Some c /\ e4 i = Some d /\
       computed first i a b /\ computed second i c d).
  { intros i Hi Hr. destruct (I i Hi) as (ab & cd & A1 & A2 & B1 & B2 & B3 & B4).
    exists (fst ab), (snd ab), (fst cd), (snd cd). repeat (split; [assumption|]).
    destruct (nth_error ps (i - t)) as [p|] eqn:P1; [|apply nth_error_None in P1; lia].
    destruct (nth_error ps (i - t + h)) as [q|] eqn:Q1; [|apply nth_error_None in Q1; lia].
    destruct (S1 _ _ P1) as (p' & P2 & P3). destruct (S1 _ _ Q1) as (q' & Q2 & Q3).
    destruct (S2 _ _ P2) as (P4 & _). destruct (S2 _ _ Q2) as (Q4 & _).
    apply rank_step_net in P3 as (_ & _ & P3 & _). apply rank_step_net in Q3 as (_ & _ & Q3 & _).
    cbn [Nat.add] in P3, Q3.
    destruct (Nat.ltb_spec (i - t) h) as [|]; [|lia].
    destruct (Nat.ltb_spec (i - t + h) h) as [|]; [lia|].
    destruct (P3 i ltac:(lia) Hr) as (a & b & X1 & r & r' & X2).
    destruct (Q3 i ltac:(lia) Hr) as (c & d & Y1 & u & u' & Y2).
    rewrite A1, X1 in P4. rewrite A2, Y1 in Q4. inversion P4; inversion Q4; subst. cbn.
    destruct (nth_nets _ _ _ N P1) as (p0 & I0 & E0). destruct (nth_nets _ _ _ N Q1) as (q0 & J0 & F0).
    split; [exists p0, r, r'; rewrite E0; auto | exists q0, u, u'; rewrite F0; auto]. }
  assert (Cases : forall i, (t <= i < t + h) \/ ~ (t <= i < t + h)) by (intros; lia).
  assert (Set' : forall i, t <= i < t + h -> e1 i <> None /\ e2 i <> None /\ e3 i <> None /\ e4 i <> None).
  { intros i Hi. destruct (I i Hi) as (ab & cd & _ & _ & -> & -> & -> & ->). repeat split; discriminate. }
  assert (None4 : forall (x y : option T), x <> None -> y <> None -> (x = None <-> y = None))
    by (intros; split; intros; contradiction).
  repeat split; intros.
  - destruct (Cases i) as [Hi|Hi]; [apply (Set' i Hi)|].
    destruct (O i Hi) as (-> & _). apply D1. lia.
  - destruct (Cases i) as [Hi|Hi]; [lia|]. destruct (O i Hi) as (X & _). rewrite X in H. apply D1 in H. lia.
  - lia.
  - destruct (Cases i) as [Hi|Hi]; [apply Set' in Hi; tauto|]. destruct (O i Hi) as (X1 & X2 & X3 & X4).
    rewrite X1 in H. rewrite X2. now apply D2.
  - destruct (Cases i) as [Hi|Hi]; [apply Set' in Hi; tauto|]. destruct (O i Hi) as (X1 & X2 & X3 & X4).
    rewrite X2 in H. rewrite X1. now apply D2.
  - destruct (Cases i) as [Hi|Hi]; [apply Set' in Hi; tauto|]. destruct (O i Hi) as (X1 & X2 & X3 & X4).
    rewrite X1 in H. rewrite X3. now apply D3.
  - destruct (Cases i) as [Hi|Hi]; [apply Set' in Hi; tauto|]. destruct (O i Hi) as (X1 & X2 & X3 & X4).
    rewrite X3 in H. rewrite X1. now apply D3.
  - destruct (Cases i) as [Hi|Hi]; [apply Set' in Hi; tauto|]. destruct (O i Hi) as (X1 & X2 & X3 & X4).
    rewrite X1 in H. rewrite X4. now apply D4.
  - destruct (Cases i) as [Hi|Hi]; [apply Set' in Hi; tauto|]. destruct (O i Hi) as (X1 & X2 & X3 & X4).
    rewrite X4 in H. rewrite X1. now apply D4.
  - destruct (Cases i) as [Hi|Hi].
    + destruct (Row i Hi H) as (a' & b' & c' & d' & X1 & X2 & X3 & X4 & K1 & K2). congruence.
    + destruct (O i Hi) as (X1 & X2 & X3 & X4). rewrite X1 in H0; rewrite X2 in H1. eauto.
  - destruct (Cases i) as [Hi|Hi].
    + destruct (Row i Hi H) as (a' & b' & c' & d' & X1 & X2 & X3 & X4 & K1 & K2). congruence.
    + destruct (O i Hi) as (X1 & X2 & X3 & X4). rewrite X3 in H0; rewrite X4 in H1. eauto.
  - apply In_nth_error in H as [i Hi]. apply (S2 i p Hi).
  - lia.
Qed.

Lemma Inv0 : Inv 0 ((dempty, dempty, dempty, dempty), ps0).
Proof.
  unfold Inv, Mover.dempty. repeat split; intros; try lia; try discriminate; auto; try congruence. all: exfalso; auto.
Qed.

Lemma iters_inv : forall m t st st', Inv t st -> for_each (seq t m) iter st = Ok st' -> Inv (t + m) st'.
Proof.
  induction m as [|m IH]; intros t st st' Hi H.
  - cbn in H. inversion H; subst. now rewrite Nat.add_0_r.
  - cbn [seq for_each] in H. destruct (iter t st) as [st1|] eqn:E; cbn [bind] in H; [|discriminate].
    rewrite Nat.add_succ_r. apply (IH (S t) st1); auto. eapply iter_inv; eauto.
Qed.

Lemma niter_pos : 1 <= niter.
Proof.
  unfold niter. assert (2 <= ws) by exact ws2.
  rewrite <- (Nat.div_same ws) at 1 by lia. apply Nat.div_le_mono; lia.
Qed.

(** result of a successful phase *)
Lemma phase_spec ds ps : dist_projectors first second rows ps0 = Ok (ds, ps) -> Inv niter (ds, ps).
Proof. rewrite dist_projectors_eq. intros H. exact (iters_inv niter 0 _ _ Inv0 H). Qed.

(** a successful phase had enough rows *)
Lemma first_iter_enough st : iter 0 ((dempty, dempty, dempty, dempty), ps0) = Ok st -> enough_rows.
Proof.
  unfold iter. intros H.
  destruct (mapi_res _ 0 ps0) as [ps1|] eqn:E1; cbn [bind] in H; [|discriminate].
  destruct (gather ps1) as [all|] eqn:E2; cbn [bind] in H; [|discriminate].
  destruct (mapi_res_spec _ _ _ _ E1) as [L1 S1]. destruct (gather_spec _ _ E2) as [L2 S2].
  unfold enough_rows. destruct h_bounds as [Hh1 Hh2].
  destruct (le_lt_dec (ws - h) rows) as [|X]; auto. exfalso.
  destruct (nth_error ps0 (ws - 1)) as [p|] eqn:P1; [|apply nth_error_None in P1; fold ws in P1; lia].
  destruct (S1 _ _ P1) as (p' & P2 & P3). destruct (S2 _ _ P2) as (_ & P4).
  apply rank_step_net in P3 as (_ & _ & _ & P3). apply P4. rewrite P3.
  - apply unbound0. eapply nth_error_In; eauto.
  - cbn [Nat.add]. destruct (Nat.ltb_spec (ws - 1) h); lia.
Qed.

Lemma phase_enough st : dist_projectors first second rows ps0 = Ok st -> enough_rows.
Proof.
  rewrite dist_projectors_eq. pose proof niter_pos. destruct niter as [|m]; [lia|].
  cbn [seq for_each]. destruct (iter 0 _) as [st1|] eqn:E; cbn [bind]; [|discriminate].
  intros _. eapply first_iter_enough; eauto.
Qed.

Section TotalPhase.
Hypothesis first_total : forall n i r, exists x, first n i r = Ok x.
Hypothesis second_total : forall n i r, exists x, second n i r = Ok x.

Lemma rank_step_total t rank p : exists p', rank_step first second h rows t rank p = Ok p'.
Proof.
  unfold rank_step. destruct (rank <? h);
  (match goal with |- context [?x <? rows] => destruct (x <? rows) end); eauto.
  - destruct (first_total (p_net p) (rank + t) (p_rng p)) as [[[a b] r] ->]. cbn; eauto.
  - destruct (second_total (p_net p) (rank - h + t) (p_rng p)) as [[[a b] r] ->]. cbn; eauto.
Qed.

Lemma iter_total t st : Inv t st -> enough_rows -> exists st', iter t st = Ok st'.
Proof.
  destruct st as [[[[d1 d2] d3] d4] ps]. intros (N & _ & _ & _ & _ & _ & _ & Lc) En. unfold iter.
  destruct (mapi_res_ok (rank_step first second h rows t) ps 0) as [ps1 E1].
  { intros. apply rank_step_total. }
  rewrite E1. cbn [bind].
  destruct (mapi_res_spec _ _ _ _ E1) as [L1 S1]. destruct h_bounds as [Hh1 Hh2].
  assert (Lps : length ps = ws).
  { unfold ws. rewrite <- (map_length p_net ps), N. apply map_length. }
  destruct (mapi_res_ok (fun _ p => match p_loc p with Some ab => Ok ab | None => Err UnboundLocalError end) ps1 0)
    as [all E2].
  { intros i p' Hp'. assert (Li : i < length ps) by (rewrite <- L1; apply nth_error_Some; congruence).
    destruct (nth_error ps i) as [p|] eqn:P1; [|apply nth_error_None in P1; lia].
    destruct (S1 _ _ P1) as (p'' & P2 & P3). rewrite Hp' in P2; inversion P2; subst p''.
    assert (Hl : p_loc p' <> None).
    { apply rank_step_net in P3 as (_ & P4 & P5 & _). cbn [Nat.add] in P5.
      destruct (Nat.eq_dec t 0) as [-> |Nt].
      - destruct (P5 _ eq_refl) as (a & b & -> & _); [|discriminate].
        unfold enough_rows in En. destruct (Nat.ltb_spec i h); lia.
      - apply P4. apply (Lc p); [eapply nth_error_In; eauto|lia]. }
    destruct (p_loc p') as [ab|]; [eauto|congruence]. }
  unfold gather. rewrite E2. cbn [bind].
  destruct (mapi_res_spec _ _ _ _ E2) as [L2 _].
  destruct (fill_spec all h t) with (d1:=d1) (d2:=d2) (d3:=d3) (d4:=d4)
    as (e1 & e2 & e3 & e4 & F & _ & _); [rewrite L2, L1, Lps; lia|].
  rewrite F. cbn; eauto.
Qed.

Lemma phase_total : enough_rows -> exists st, dist_projectors first second rows ps0 = Ok st.
Proof.
  intros En. rewrite dist_projectors_eq.
  assert (G : forall m t st, Inv t st -> exists st', for_each (seq t m) iter st = Ok st').
  { induction m as [|m IH]; intros t st Hi; cbn [seq for_each]; eauto.
    destruct (iter_total t st Hi En) as [st1 E]. rewrite E. cbn [bind].
    apply IH. eapply iter_inv; eauto. }
  apply (G niter 0 _ Inv0).
Qed.

Lemma phase_unbound : ~ enough_rows -> dist_projectors first second rows ps0 = Err UnboundLocalError.
Proof.
  intros En. rewrite dist_projectors_eq. pose proof niter_pos. destruct niter as [|m]; [lia|].
  cbn [seq for_each]. unfold iter at 1.
  destruct (mapi_res_ok (rank_step first second h rows 0) ps0 0) as [ps1 E1].
  { intros. apply rank_step_total. }
  rewrite E1. cbn [bind].
  destruct (mapi_res_spec _ _ _ _ E1) as [L1 S1]. destruct h_bounds as [Hh1 Hh2].
  assert (G : gather ps1 = Err UnboundLocalError).
  { apply mapi_res_err.
    - intros i a _. destruct (p_loc a); eauto.
    - destruct (nth_error ps0 (ws - 1)) as [p|] eqn:P1; [|apply nth_error_None in P1; fold ws in P1; lia].
      destruct (S1 _ _ P1) as (p' & P2 & P3). exists (ws - 1), p'. split; auto.
      apply rank_step_net in P3 as (_ & _ & _ & P3). rewrite P3.
      + rewrite unbound0; auto. eapply nth_error_In; eauto.
      + unfold enough_rows in En. cbn [Nat.add]. destruct (Nat.ltb_spec (ws - 1) h); lia. }
  rewrite G. reflexivity.
Qed.
End TotalPhase.
End Phase.

(** ---- both distributed moves in one form ---- *)

Notation rows_of := (rows_of nx ny).
Notation lines_of := (lines_of nx ny).
Notation calc_at := (calc_at T R bperm calcH calcF pt nx ny).
Notation renorm_at := (renorm_at T bperm cj1 cj2 ej nx ny).

(** ka = 0: left/right on columns c1, c2; ka = 1: up/down on rows c1, c2 *)
Definition dist_move (ka : nat) (w : world) (c1 c2 : nat) : res world :=
  match ka with 0 => left_right_move_dist w c1 c2 | _ => up_down_move_dist w c1 c2 end.

Definition two_renorm (ka c1 c2 : nat) (ds : dicts) (n : net) : res net :=
  let '(d1, d2, d3, d4) := ds in
  let! n := for_each (map (on_line ka c1) (seq 0 (rows_of ka))) (renorm_at d1 d2 ka) n in
  for_each (map (on_line (ka + 2) c2) (seq 0 (rows_of ka))) (renorm_at d3 d4 (ka + 2)) n.

Lemma mapi_res_ext {A B} (f g : nat -> A -> res B) l : forall k, (forall i a, f i a = g i a) ->
  mapi_res f k l = mapi_res g k l.
Proof. induction l as [|a l IH]; intros k H; cbn; auto. rewrite H, (IH (S k) H). auto. Qed.

Lemma dist_move_eq ka w c1 c2 : ka < 2 ->
  dist_move ka w c1 c2 =
  let! (ds, ps) := dist_projectors (fun n i => calc_at n ka (on_line ka c1 i))
                     (fun n i => calc_at n (ka + 2) (on_line (ka + 2) c2 i)) (rows_of ka) (start w) in
  finish (two_renorm ka c1 c2 ds) ps.
Proof.
  intros Hk. destruct ka as [|[|]]; try lia;
  cbn [dist_move]; unfold left_right_move_dist, up_down_move_dist.
  - change (dist_projectors (fun n => left_proj n c1) (fun n => right_proj n c2) ny (start w)) with
     (dist_projectors (fun n i => calc_at n 0 (on_line 0 c1 i))
        (fun n i => calc_at n 2 (on_line 2 c2 i)) ny (start w)).
    cbn [Nat.add Mover.rows_of].
    destruct (dist_projectors _ _ _ _) as [[[[[d1 d2] d3] d4] ps]|]; cbn [bind]; auto.
    unfold finish. apply mapi_res_ext. intros _ p. f_equal. unfold lr_renormalize, two_renorm.
    cbn [Nat.add Mover.rows_of]. rewrite for_each_map.
    match goal with |- bind ?a _ = bind ?b _ => change b with a; destruct a; cbn [bind]; auto end.
    now rewrite for_each_map.
  - change (dist_projectors (fun n => up_proj n c1) (fun n => down_proj n c2) nx (start w)) with
     (dist_projectors (fun n i => calc_at n 1 (on_line 1 c1 i))
        (fun n i => calc_at n 3 (on_line 3 c2 i)) nx (start w)).
    cbn [Nat.add Mover.rows_of].
    destruct (dist_projectors _ _ _ _) as [[[[[d1 d2] d3] d4] ps]|]; cbn [bind]; auto.
    unfold finish. apply mapi_res_ext. intros _ p. f_equal. unfold ud_renormalize, two_renorm.
    cbn [Nat.add Mover.rows_of]. rewrite for_each_map.
    match goal with |- bind ?a _ = bind ?b _ => change b with a; destruct a; cbn [bind]; auto end.
    now rewrite for_each_map.
Qed.

(** ---- completion (C16) ---- *)

(** The world sizes that work, for a given number of rows. *)
Definition completes (ws rows : nat) : Prop :=
  let h := ws / 2 in
  (ws mod 2 = 0 /\ (h = 1 \/ h + 1 = rows \/ h = rows)) \/ (ws mod 2 = 1 /\ rows = h + 1).

Lemma completes_iff ws rows : 2 <= ws -> 1 <= rows ->
  (ws - ws / 2 <= rows /\ rows <= (2 * rows + ws - 1) / ws - 1 + ws / 2) <->
  (completes ws rows /\ ws - ws / 2 <= rows).
Proof.
  clear. intros Hw Hr. unfold completes.
  pose proof (Nat.div_mod ws 2 ltac:(lia)) as E. pose proof (Nat.mod_upper_bound ws 2 ltac:(lia)) as M.
  set (h := ws / 2) in *. set (m := ws mod 2) in *.
  pose proof (Nat.div_mod (2 * rows + ws - 1) ws ltac:(lia)) as Eq.
  pose proof (Nat.mod_upper_bound (2 * rows + ws - 1) ws ltac:(lia)) as Mq.
  set (q := (2 * rows + ws - 1) / ws) in *. set (u := (2 * rows + ws - 1) mod ws) in *.
  clearbody h m q u.
  assert (Hh : 1 <= h) by lia.
  assert (Hm : m = 0 \/ m = 1) by lia.
  split.
  - intros [H1 H2]. split; [|exact H1].
    assert (Hd : exists d, rows = h + d) by (exists (rows - h); lia). destruct Hd as [d ->].
    assert (q >= d + 1 \/ (q = 0 /\ d = 0)) as [Hq|[-> ->]] by lia.
    + assert (ws * (d + 1) <= 2 * (h + d) + ws - 1) by nia.
      destruct Hm as [-> | ->].
      * left. split; auto.
        destruct (Nat.eq_dec h 1); [auto|]. destruct (Nat.eq_dec d 0); [lia|].
        destruct (Nat.eq_dec d 1); [lia|]. exfalso. nia.
      * right. split; auto. destruct (Nat.eq_dec d 0); [lia|]. destruct (Nat.eq_dec d 1); [lia|]. exfalso; nia.
    + lia.
  - intros [[[-> D]|[-> D]] H1]; split; auto; try lia.
    + destruct D as [-> |[D| ->]]; [|subst rows|lia].
      * assert (ws = 2) by lia. subst ws. lia.
      * assert (q >= 2); [|lia]. nia.
    + subst rows. assert (q >= 2); [|lia]. nia.
Qed.

Lemma row_on_line k c i : row_of k (on_line k c i) = i.
Proof. unfold row_of, on_line; destruct k as [|[|[|k']]]; reflexivity. Qed.

Lemma next_row k c i : k < 4 -> 1 <= rows_of k ->
  row_of k (nbr nx ny ((k + 1) mod 4) (on_line k c i)) < rows_of k \/ rows_of k <= i.
Proof.
  clear. intros Hk H. destruct (le_lt_dec (rows_of k) i); [auto|left].
  destruct k as [|[|[|[|k']]]]; try lia; cbn in *; apply Nat.mod_upper_bound; lia.
Qed.

Section TotalMove.
Hypothesis cj1_total : forall a b c, exists x, cj1 a b c = Ok x.
Hypothesis cj2_total : forall a b c, exists x, cj2 a b c = Ok x.
Hypothesis ej_total : forall a b c d, exists x, ej a b c d = Ok x.
Hypothesis calcH_total : forall r a b, exists x, calcH r a b = Ok x.
Hypothesis calcF_total : forall r a b c d, exists x, calcF r a b c d = Ok x.

Lemma calc_at_total n k s r : exists x, calc_at n k s r = Ok x.
Proof. unfold Mover.calc_at, calculate. destruct pt; auto. Qed.

Lemma renorm_at_cases (d1 d2 : dict) k s m : k < 4 ->
  let i := row_of k s in let j := row_of k (nbr nx ny ((k + 1) mod 4) s) in
  (d1 i <> None -> d2 i <> None -> d1 j <> None -> d2 j <> None -> exists m', renorm_at d1 d2 k s m = Ok m') /\
  (d1 i = None -> renorm_at d1 d2 k s m = Err KeyError) /\
  ((exists m', renorm_at d1 d2 k s m = Ok m') \/ renorm_at d1 d2 k s m = Err KeyError).
Proof.
  intros Hk i j. rewrite renorm_at_eq by exact Hk. unfold row_result, dget. fold j. fold i.
  destruct (d1 i) as [x|]; cbn [bind].
  - destruct (cj1_total (m s (SC ((3 + k) mod 4))) (m s (SE ((2 + k) mod 4))) x) as [c1 ->]. cbn [bind].
    destruct (d2 j) as [y|]; cbn [bind].
    + destruct (cj2_total (m s (SC k)) (m s (SE k)) y) as [c2 ->]; cbn [bind].
      destruct (d2 i) as [z|]; cbn [bind].
      * destruct (d1 j) as [v|]; cbn [bind].
        -- destruct (ej_total (m s (SE ((3 + k) mod 4))) (bperm k (m s SA)) z v) as [e ->]; cbn [bind].
           repeat split; intros; eauto; discriminate.
        -- repeat split; intros; try congruence; auto.
      * repeat split; intros; try congruence; auto.
    + repeat split; intros; try congruence; auto.
  - repeat split; intros; try congruence; auto.
Qed.

Lemma renorm_rows_ok (d1 d2 : dict) k c : k < 4 -> 1 <= rows_of k ->
  (forall i, i < rows_of k -> d1 i <> None /\ d2 i <> None) ->
  forall n, exists n', for_each (map (on_line k c) (seq 0 (rows_of k))) (renorm_at d1 d2 k) n = Ok n'.
Proof.
  intros Hk Hr Hd.
  assert (G : forall l n, (forall i, In i l -> i < rows_of k) ->
     exists n', for_each (map (on_line k c) l) (renorm_at d1 d2 k) n = Ok n').
  { induction l as [|i l IH]; intros n Hl; cbn [map for_each]; eauto.
    assert (Hi : i < rows_of k) by (apply Hl; now left).
    destruct (renorm_at_cases d1 d2 k (on_line k c i) n Hk) as (A & _ & _).
    cbv zeta in A. rewrite row_on_line in A.
    destruct (next_row k c i Hk Hr) as [Hj|]; [|lia].
    destruct A as [n' E]; try (apply Hd; auto). rewrite E. cbn [bind].
    apply IH. intros; apply Hl; now right. }
  intros n. apply G. intros i Hi. apply in_seq in Hi. lia.
Qed.

Lemma renorm_rows_err (d1 d2 : dict) k c : k < 4 ->
  (exists i, i < rows_of k /\ d1 i = None) ->
  forall n, for_each (map (on_line k c) (seq 0 (rows_of k))) (renorm_at d1 d2 k) n = Err KeyError.
Proof.
  intros Hk (i & Hi & Di).
  assert (G : forall l n, In i l -> for_each (map (on_line k c) l) (renorm_at d1 d2 k) n = Err KeyError).
  { induction l as [|a l IH]; intros n Hl; [destruct Hl|]. cbn [map for_each].
    destruct (renorm_at_cases d1 d2 k (on_line k c a) n Hk) as (_ & B & Dd).
    cbv zeta in B. rewrite row_on_line in B.
    destruct (Nat.eq_dec a i) as [-> |Na]; [rewrite B; auto|].
    destruct Dd as [[n' ->]| ->]; cbn [bind]; auto. apply IH.
    destruct Hl; [contradiction|auto]. }
  intros n. apply G. apply in_seq. lia.
Qed.

Lemma start_unbound w : forall p, In p (start w) -> p_loc p = None.
Proof. intros p H. apply in_map_iff in H as (x & <- & _). reflexivity. Qed.

Lemma dist_move_total ka w c1 c2 : ka < 2 -> 2 <= length w -> 1 <= rows_of ka ->
  let ws := length w in let rows := rows_of ka in
  (ws - ws / 2 <= rows -> completes ws rows -> exists w', dist_move ka w c1 c2 = Ok w') /\
  (ws - ws / 2 <= rows -> ~ completes ws rows -> dist_move ka w c1 c2 = Err KeyError) /\
  (rows < ws - ws / 2 -> dist_move ka w c1 c2 = Err UnboundLocalError).
Proof.
  intros Hk Hw Hr ws rows. rewrite dist_move_eq by exact Hk.
  assert (Ls : length (start w) = ws) by apply map_length.
  assert (T1 : forall n i r, exists x, (fun n i => calc_at n ka (on_line ka c1 i)) n i r = Ok x)
    by (intros; apply calc_at_total).
  assert (T2 : forall n i r, exists x, (fun n i => calc_at n (ka + 2) (on_line (ka + 2) c2 i)) n i r = Ok x)
    by (intros; apply calc_at_total).
  assert (Rk : rows_of (ka + 2) = rows_of ka) by (destruct ka as [|[|]]; try lia; reflexivity).
  assert (W2 : 2 <= length (start w)) by lia.
  pose proof (completes_iff ws rows Hw Hr) as CI.
  assert (P : ws - ws / 2 <= rows -> exists d1 d2 d3 d4 ps,
    dist_projectors (fun n i => calc_at n ka (on_line ka c1 i))
      (fun n i => calc_at n (ka + 2) (on_line (ka + 2) c2 i)) rows (start w) = Ok ((d1,d2,d3,d4), ps) /\
    (1 <= length ps) /\
    (rows <= (2 * rows + ws - 1) / ws - 1 + ws / 2 -> forall i, i < rows ->
        d1 i <> None /\ d2 i <> None /\ d3 i <> None /\ d4 i <> None) /\
    (~ (rows <= (2 * rows + ws - 1) / ws - 1 + ws / 2) -> exists i, i < rows /\ d1 i = None)).
  { intros En.
    destruct (phase_total _ _ rows (start w) W2 Hr (start_unbound w) T1 T2) as [[[[[d1 d2] d3] d4] ps] E].
    { unfold enough_rows. rewrite Ls. exact En. }
    exists d1, d2, d3, d4, ps. split; [exact E|].
    pose proof (phase_spec _ _ rows (start w) W2 Hr (start_unbound w) _ _ E) as (N & D1 & D2 & D3 & D4 & _ & _ & _).
    assert (NP : 1 <= niter rows (start w)) by (eapply niter_pos; eauto; exact (fun n i => calc_at n ka (on_line ka c1 i))).
    unfold niter in *. rewrite Ls in *.
    split; [|split].
    - assert (length ps = ws) by (rewrite <- Ls, <- (map_length p_net ps), N; apply map_length). lia.
    - intros Hle i Hi. assert (X : d1 i <> None) by (apply D1; lia).
      repeat split; auto; intros Y; apply X; [now apply D2|now apply D3|now apply D4].
    - intros Hgt. exists ((2 * rows + ws - 1) / ws - 1 + ws / 2). split; [lia|].
      destruct (d1 _) eqn:Z; auto. exfalso.
      assert (X : d1 ((2 * rows + ws - 1) / ws - 1 + ws / 2) <> None) by congruence.
      apply D1 in X. lia. }
  split; [|split].
  - intros En Cm. destruct (P En) as (d1 & d2 & d3 & d4 & ps & E & _ & Dall & _).
    fold rows. rewrite E. cbn [bind]. unfold finish.
    apply mapi_res_ok. intros i p _. unfold two_renorm. fold rows.
    assert (Dall' := Dall (proj2 (proj2 CI (conj Cm En)))).
    destruct (renorm_rows_ok d1 d2 ka c1 ltac:(lia) Hr) with (n := p_net p) as [n1 E1].
    { intros j Hj. destruct (Dall' j Hj) as (? & ? & ? & ?). auto. }
    unfold rows. rewrite E1. cbn [bind].
    destruct (renorm_rows_ok d3 d4 (ka + 2) c2 ltac:(lia) ltac:(lia)) with (n := n1) as [n2 E2].
    { rewrite Rk. intros j Hj. destruct (Dall' j Hj) as (? & ? & ? & ?). auto. }
    rewrite Rk in E2. rewrite E2. cbn; eauto.
  - intros En Cm. destruct (P En) as (d1 & d2 & d3 & d4 & ps & E & L & _ & Dn).
    fold rows. rewrite E. cbn [bind]. unfold finish.
    destruct Dn as (i & Hi & Di). { intros X. apply Cm. apply CI. auto. }
    assert (F : forall n, two_renorm ka c1 c2 (d1, d2, d3, d4) n = Err KeyError).
    { intros n. unfold two_renorm. rewrite (renorm_rows_err d1 d2 ka c1 ltac:(lia)); eauto. }
    apply mapi_res_err.
    + intros j p _. right. rewrite F. reflexivity.
    + destruct ps as [|p ps]; [cbn in L; lia|]. exists 0, p. split; auto. rewrite F. reflexivity.
  - intros Lt. fold rows. rewrite phase_unbound; auto.
    + apply start_unbound.
    + unfold enough_rows. rewrite Ls. lia.
Qed.

End TotalMove.

(** completion needs a working world size, whatever the kernels do *)
Lemma dist_move_ok_enough ka w c1 c2 w' : ka < 2 -> 2 <= length w -> 1 <= rows_of ka ->
  dist_move ka w c1 c2 = Ok w' -> length w - length w / 2 <= rows_of ka.
Proof.
  intros Hk Hw Hr. rewrite dist_move_eq by exact Hk.
  destruct (dist_projectors _ _ _ _) as [[ds ps]|] eqn:E; cbn [bind]; [|discriminate]. intros _.
  assert (Ls : length (start w) = length w) by apply map_length.
  assert (H := phase_enough _ _ (rows_of ka) (start w) ltac:(lia) Hr
     (fun p Hp => match in_map_iff _ _ _ with conj f _ => match f Hp with ex_intro _ x (conj e _) =>
        eq_trans (eq_sym (f_equal p_loc e)) eq_refl end end) _ E).
  unfold enough_rows in H. rewrite Ls in H. exact H.
Qed.

(** ---- two opposite moves ---- *)

Definition slots_of (k : nat) : list slot := [SC ((3 + k) mod 4); SC k; SE ((3 + k) mod 4)].

(** both renormalisation loops, direction ka first *)
Definition renorm_pair (ka c1 c2 : nat) (d1 d2 d3 d4 : dict) (n : net) : res net :=
  let kb := (ka + 2) mod 4 in
  let! n := for_each (map (on_line ka c1) (seq 0 (rows_of ka))) (renorm_at d1 d2 ka) n in
  for_each (map (on_line kb c2) (seq 0 (rows_of kb))) (renorm_at d3 d4 kb) n.

Lemma opp_rows k : k < 4 -> rows_of ((k + 2) mod 4) = rows_of k /\ lines_of ((k + 2) mod 4) = lines_of k.
Proof. clear. intros Hk. destruct k as [|[|[|[|k]]]]; try lia; auto. Qed.

Lemma two_renorm_pair ka c1 c2 d1 d2 d3 d4 n : ka < 2 ->
  two_renorm ka c1 c2 (d1, d2, d3, d4) n = renorm_pair ka c1 c2 d1 d2 d3 d4 n.
Proof. intros Hk. destruct ka as [|[|]]; try lia; reflexivity. Qed.

Notation row_result := (row_result T bperm cj1 cj2 ej nx ny).
Notation target k s := (nbr nx ny ((k + 2) mod 4) s).

(** entries of n' at the target of s are the row result w *)
Definition has_row (k : nat) (s : site) (n' : net) (w : T * T * T) : Prop :=
  n' (target k s) (SC ((3 + k) mod 4)) = fst (fst w) /\
  n' (target k s) (SC k) = snd (fst w) /\
  n' (target k s) (SE ((3 + k) mod 4)) = snd w.

Lemma slots_disjoint k sl : k < 4 -> In sl (slots_of k) -> ~ In sl (slots_of ((k + 2) mod 4)).
Proof.
  clear. intros Hk. destruct k as [|[|[|[|k]]]]; try lia; cbn;
    intros [<- |[<- |[<- |[]]]] [H|[H|[H|[]]]]; discriminate.
Qed.

Lemma row_result_opp d1 d2 k s n n1 : k < 4 ->
  (forall s' sl, ~ In sl (slots_of k) -> n1 s' sl = n s' sl) ->
  row_result d1 d2 ((k + 2) mod 4) s n1 = row_result d1 d2 ((k + 2) mod 4) s n.
Proof.
  intros Hk H. unfold Mover.row_result.
  rewrite !H; auto; destruct k as [|[|[|[|k]]]]; try lia; cbn;
    intros [X|[X|[X|[]]]]; discriminate.
Qed.

Lemma rows_loop_spec d1 d2 k c n n' : k < 4 -> c < lines_of k ->
  for_each (map (on_line k c) (seq 0 (rows_of k))) (renorm_at d1 d2 k) n = Ok n' ->
  (forall i, i < rows_of k -> exists w, row_result d1 d2 k (on_line k c i) n = Ok w /\
     has_row k (on_line k c i) n' w) /\
  (forall s sl, (forall i, i < rows_of k -> target k (on_line k c i) <> s) \/ ~ In sl (slots_of k) ->
     n' s sl = n s sl).
Proof.
  intros Hk Hc H.
  destruct (rows_spec T bperm cj1 cj2 ej nx ny d1 d2 k Hk _ _ _ (line_independent nx ny k c Hk Hc) H)
    as (A & B & D).
  split.
  - intros i Hi. destruct (A (on_line k c i)) as (c1 & c2 & e & E & E1 & E2 & E3).
    { apply in_map, in_seq; lia. }
    exists (c1, c2, e). unfold has_row; auto.
  - intros s sl [X|X].
    + apply B. intros s0 Hs0. apply in_map_iff in Hs0 as (i & <- & Hi). apply in_seq in Hi. apply X; lia.
    + apply D; intros ->; apply X; cbn; auto.
Qed.

Lemma renorm_pair_spec ka c1 c2 d1 d2 d3 d4 n n' : ka < 4 -> c1 < lines_of ka -> c2 < lines_of ka ->
  renorm_pair ka c1 c2 d1 d2 d3 d4 n = Ok n' ->
  let kb := (ka + 2) mod 4 in
  (forall i, i < rows_of ka -> exists w, row_result d1 d2 ka (on_line ka c1 i) n = Ok w /\
     has_row ka (on_line ka c1 i) n' w) /\
  (forall i, i < rows_of ka -> exists w, row_result d3 d4 kb (on_line kb c2 i) n = Ok w /\
     has_row kb (on_line kb c2 i) n' w) /\
  (forall s sl,
     (forall i, i < rows_of ka -> target ka (on_line ka c1 i) <> s) \/ ~ In sl (slots_of ka) ->
     (forall i, i < rows_of ka -> target kb (on_line kb c2 i) <> s) \/ ~ In sl (slots_of kb) ->
     n' s sl = n s sl).
Proof.
  intros Hk H1 H2 H kb. unfold renorm_pair in H. fold kb in H.
  destruct (opp_rows ka Hk) as [Er El]. fold kb in Er, El.
  assert (Hkb : kb < 4) by (apply Nat.mod_upper_bound; lia).
  destruct (for_each _ (renorm_at d1 d2 ka) n) as [n1|] eqn:E1; cbn [bind] in H; [|discriminate].
  destruct (rows_loop_spec _ _ _ _ _ _ Hk H1 E1) as [A1 A2].
  destruct (rows_loop_spec d3 d4 kb c2 n1 n' Hkb ltac:(lia) H) as [B1 B2].
  rewrite Er in *.
  assert (Un : forall s' sl, ~ In sl (slots_of ka) -> n1 s' sl = n s' sl) by (intros; apply A2; auto).
  split; [|split].
  - intros i Hi. destruct (A1 i Hi) as (w & W1 & W2). exists w. split; auto.
    unfold has_row in *. destruct W2 as (X & Y & Z).
    rewrite !B2; auto; right; unfold kb; apply slots_disjoint; cbn; auto.
  - intros i Hi. destruct (B1 i Hi) as (w & W1 & W2). exists w. split; auto.
    rewrite <- W1. symmetry. apply row_result_opp; auto.
  - intros s sl Xa Xb. rewrite B2 by exact Xb. apply A2. exact Xa.
Qed.

Lemma in_slots_dec sl k : In sl (slots_of k) \/ ~ In sl (slots_of k).
Proof. clear. destruct (in_dec slot_eq_dec sl (slots_of k)); auto. Qed.

Lemma target_dec k c s :
  (exists i, i < rows_of k /\ target k (on_line k c i) = s) \/
  (forall i, i < rows_of k -> target k (on_line k c i) <> s).
Proof.
  destruct (in_dec site_eq_dec s (map (fun i => target k (on_line k c i)) (seq 0 (rows_of k)))) as [I|I].
  - left. apply in_map_iff in I as (i & E & Hi). apply in_seq in Hi. exists i. split; auto; lia.
  - right. intros i Hi X. apply I. apply in_map_iff. exists i. split; auto. apply in_seq; lia.
Qed.

Lemma has_row_det k s n n' w sl : has_row k s n w -> has_row k s n' w -> In sl (slots_of k) ->
  n' (target k s) sl = n (target k s) sl.
Proof.
  intros (A1 & A2 & A3) (B1 & B2 & B3) [<- |[<- |[<- |[]]]]; congruence.
Qed.

(** the two loops commute *)
Lemma renorm_pair_comm ka c1 c2 d1 d2 d3 d4 n n' : ka < 4 -> c1 < lines_of ka -> c2 < lines_of ka ->
  renorm_pair ka c1 c2 d1 d2 d3 d4 n = Ok n' ->
  exists n'', renorm_pair ((ka + 2) mod 4) c2 c1 d3 d4 d1 d2 n = Ok n'' /\
    forall s sl, n'' s sl = n' s sl.
Proof.
  intros Hk H1 H2 H. set (kb := (ka + 2) mod 4).
  destruct (renorm_pair_spec _ _ _ _ _ _ _ _ _ Hk H1 H2 H) as (A & B & D). fold kb in B, D.
  destruct (opp_rows ka Hk) as [Er El]. fold kb in Er, El.
  assert (Hkb : kb < 4) by (apply Nat.mod_upper_bound; lia).
  assert (Eka : (kb + 2) mod 4 = ka) by (subst kb; clear - Hk; destruct ka as [|[|[|[|]]]]; try lia; reflexivity).
  assert (Ex : exists n'', renorm_pair kb c2 c1 d3 d4 d1 d2 n = Ok n'').
  { unfold renorm_pair. rewrite Eka.
    destruct (rows_ok T bperm cj1 cj2 ej nx ny d3 d4 kb Hkb
       (map (on_line kb c2) (seq 0 (rows_of kb))) n) as [n1 E1].
    - apply line_independent; lia.
    - intros s Hs. apply in_map_iff in Hs as (i & <- & Hi). apply in_seq in Hi.
      destruct (B i ltac:(lia)) as (w & W & _). eauto.
    - rewrite E1. cbn [bind].
      destruct (rows_loop_spec d3 d4 kb c2 n n1 Hkb ltac:(lia) E1) as [_ B2].
      eapply (rows_ok T bperm cj1 cj2 ej nx ny d1 d2 ka Hk).
      + apply line_independent; lia.
      + intros s Hs. apply in_map_iff in Hs as (i & <- & Hi). apply in_seq in Hi.
        destruct (A i ltac:(lia)) as (w & W & _). exists w. rewrite <- W.
        rewrite <- Eka. apply row_result_opp; auto. }
  destruct Ex as [n'' E]. exists n''. split; auto. intros s sl.
  destruct (renorm_pair_spec kb c2 c1 d3 d4 d1 d2 n n'' Hkb ltac:(lia) ltac:(lia) E) as (A' & B' & D').
  rewrite Eka, Er in *.
  assert (Fa : In sl (slots_of ka) -> forall i, i < rows_of ka -> target ka (on_line ka c1 i) = s -> n'' s sl = n' s sl).
  { intros Hs i Hi <-. destruct (A i Hi) as (w & W1 & W2). destruct (B' i Hi) as (w' & W1' & W2').
    assert (w' = w) by congruence. subst w'. eapply has_row_det; eauto. }
  assert (Fb : In sl (slots_of kb) -> forall i, i < rows_of ka -> target kb (on_line kb c2 i) = s -> n'' s sl = n' s sl).
  { intros Hs i Hi <-. destruct (B i Hi) as (w & W1 & W2). destruct (A' i Hi) as (w' & W1' & W2').
    assert (w' = w) by congruence. subst w'. eapply has_row_det; eauto. }
  destruct (in_slots_dec sl ka) as [Sa|Sa].
  - destruct (target_dec ka c1 s) as [(i & Hi & Es)|Na]; [eauto|].
    assert (Nb : ~ In sl (slots_of kb)) by (unfold kb; apply slots_disjoint; auto).
    rewrite D, D'; auto.
  - destruct (in_slots_dec sl kb) as [Sb|Sb].
    + destruct (target_dec kb c2 s) as [(i & Hi & Es)|Nb]; [rewrite Er in Hi; eauto|].
      rewrite Er, Eka in Nb. rewrite D, D'; auto.
    + rewrite D, D'; auto.
Qed.

(** ---- result of a distributed move (C17, C18, C19) ---- *)

Lemma finish_spec (f : net -> res net) ps w' n :
  finish f ps = Ok w' -> ps <> [] -> (forall p, In p ps -> p_net p = n) ->
  exists n', f n = Ok n' /\ length w' = length ps /\ forall x, In x w' -> fst x = n'.
Proof.
  unfold finish. intros H Hne Hn.
  destruct (mapi_res_spec _ _ _ _ H) as [L S].
  assert (K : forall i x, nth_error w' i = Some x -> f n = Ok (fst x)).
  { intros i x Hx. assert (i < length ps) by (rewrite <- L; apply nth_error_Some; congruence).
    destruct (nth_error ps i) as [p|] eqn:P; [|apply nth_error_None in P; lia].
    destruct (S i p P) as (b & Hb & E). rewrite Hx in Hb. inversion Hb; subst b.
    rewrite Hn in E by (eapply nth_error_In; eauto).
    destruct (f n); cbn in E; inversion E; auto. }
  destruct w' as [|x w']; [destruct ps; cbn in L; [congruence|lia]|].
  pose proof (K 0 x eq_refl) as K0.
  exists (fst x). split; [exact K0|]. split; auto.
  intros y Hy. apply In_nth_error in Hy as [i Hi]. specialize (K i y Hi). congruence.
Qed.

Lemma loop_keys d1 d2 k c n n' : k < 4 ->
  for_each (map (on_line k c) (seq 0 (rows_of k))) (renorm_at d1 d2 k) n = Ok n' ->
  forall i, i < rows_of k -> d1 i <> None /\ d2 i <> None.
Proof.
  intros Hk H.
  assert (G : forall l n, for_each (map (on_line k c) l) (renorm_at d1 d2 k) n = Ok n' ->
     forall i, In i l -> d1 i <> None /\ d2 i <> None).
  { induction l as [|a l IH]; intros m E i Hi; [destruct Hi|]. cbn [map for_each] in E.
    destruct (renorm_at d1 d2 k (on_line k c a) m) as [m1|] eqn:E1; cbn [bind] in E; [|discriminate].
    destruct Hi as [-> | Hi]; [|eapply IH; eauto].
    rewrite renorm_at_eq in E1 by exact Hk. unfold Mover.row_result, dget in E1.
    rewrite row_on_line in E1.
    destruct (d1 i); cbn [bind] in E1; [|discriminate].
    destruct (cj1 _ _ _); cbn [bind] in E1; [|discriminate].
    destruct (d2 (row_of k (nbr nx ny ((k + 1) mod 4) (on_line k c i)))); cbn [bind] in E1; [|discriminate].
    destruct (cj2 _ _ _); cbn [bind] in E1; [|discriminate].
    destruct (d2 i); cbn [bind] in E1; [|discriminate]. split; discriminate. }
  intros i Hi. apply (G _ _ H). apply in_seq; lia.
Qed.

Lemma dist_move_result ka w c1 c2 w' n : ka < 2 -> 2 <= length w -> 1 <= rows_of ka ->
  (forall x, In x w -> fst x = n) ->
  dist_move ka w c1 c2 = Ok w' ->
  exists d1 d2 d3 d4 n',
   (forall i, i < rows_of ka -> exists a b r r',
      d1 i = Some a /\ d2 i = Some b /\ calc_at n ka (on_line ka c1 i) r = Ok (a, b, r')) /\
   (forall i, i < rows_of ka -> exists a b r r',
      d3 i = Some a /\ d4 i = Some b /\ calc_at n (ka + 2) (on_line (ka + 2) c2 i) r = Ok (a, b, r')) /\
   renorm_pair ka c1 c2 d1 d2 d3 d4 n = Ok n' /\
   length w' = length w /\ (forall x, In x w' -> fst x = n').
Proof.
  intros Hk Hw Hr Hn. rewrite dist_move_eq by exact Hk.
  destruct (dist_projectors _ _ _ _) as [[[[[d1 d2] d3] d4] ps]|] eqn:E; cbn [bind]; [|discriminate].
  intros F.
  assert (Ls : length (start w) = length w) by apply map_length.
  assert (U : forall p, In p (start w) -> p_loc p = None).
  { intros p H. apply in_map_iff in H as (x & <- & _). reflexivity. }
  pose proof (phase_spec _ _ (rows_of ka) (start w) ltac:(lia) Hr U _ _ E)
    as (N & D1 & D2 & D3 & D4 & C1 & C2 & _).
  assert (Net0 : forall p, In p (start w) -> p_net p = n).
  { intros p H. apply in_map_iff in H as (x & <- & Hx). cbn. auto. }
  assert (Lp : length ps = length w) by (rewrite <- Ls, <- (map_length p_net ps), N; apply map_length).
  assert (Net1 : forall p, In p ps -> p_net p = n).
  { intros p H. assert (H' : In (p_net p) (map p_net ps)) by now apply in_map.
    rewrite N in H'. apply in_map_iff in H' as (p0 & <- & H0). auto. }
  destruct (finish_spec _ ps w' n F) as (n' & F1 & F2 & F3); auto.
  { intros ->. cbn in Lp. lia. }
  rewrite two_renorm_pair in F1 by exact Hk.
  exists d1, d2, d3, d4, n'.
  assert (Fk := F1). unfold renorm_pair in Fk.
  destruct (for_each _ (renorm_at d1 d2 ka) n) as [n1|] eqn:E1; cbn [bind] in Fk; [|discriminate].
  pose proof (loop_keys d1 d2 ka c1 n n1 ltac:(lia) E1) as K1.
  assert (Comp : forall f i a b, computed (start w) f i a b -> exists r r', f n i r = Ok (a, b, r')).
  { intros f i a b (p & r & r' & Hp & Hf). rewrite (Net0 p Hp) in Hf. eauto. }
  repeat split; auto; try congruence.
  - intros i Hi. destruct (K1 i Hi) as [X1 X2].
    destruct (d1 i) as [a|] eqn:A; [|congruence]. destruct (d2 i) as [b|] eqn:B; [|congruence].
    destruct (Comp _ _ _ _ (C1 i a b Hi A B)) as (r & r' & Hc). exists a, b, r, r'. auto.
  - intros i Hi. destruct (K1 i Hi) as [X1 X2].
    assert (X3 : d3 i <> None) by (intros Y; apply X1; now apply D3).
    assert (X4 : d4 i <> None) by (intros Y; apply X1; now apply D4).
    destruct (d3 i) as [a|] eqn:A; [|congruence]. destruct (d4 i) as [b|] eqn:B; [|congruence].
    destruct (Comp _ _ _ _ (C2 i a b Hi A B)) as (r & r' & Hc). exists a, b, r, r'. auto.
Qed.

(** completing needs a suitable world size, whatever the kernels do *)
Lemma dist_move_ok_completes ka w c1 c2 w' : ka < 2 -> 2 <= length w -> 1 <= rows_of ka ->
  dist_move ka w c1 c2 = Ok w' -> completes (length w) (rows_of ka) /\ length w - length w / 2 <= rows_of ka.
Proof.
  intros Hk Hw Hr H0. assert (H := H0). rewrite dist_move_eq in H by exact Hk.
  apply completes_iff; auto. split; [eapply dist_move_ok_enough; eauto|].
  destruct (dist_projectors _ _ _ _) as [[[[[d1 d2] d3] d4] ps]|] eqn:E; cbn [bind] in H; [|discriminate].
  assert (Ls : length (start w) = length w) by apply map_length.
  assert (U : forall p, In p (start w) -> p_loc p = None).
  { intros p Hp. apply in_map_iff in Hp as (x & <- & _). reflexivity. }
  pose proof (phase_spec _ _ (rows_of ka) (start w) ltac:(lia) Hr U _ _ E)
    as (N & D1 & _ & _ & _ & _ & _ & _).
  assert (Lp : length ps = length w) by (rewrite <- Ls, <- (map_length p_net ps), N; apply map_length).
  unfold niter in D1. rewrite Ls in D1.
  destruct ps as [|p ps]; [cbn in Lp; lia|]. unfold finish in H. cbn [mapi_res] in H.
  destruct (two_renorm ka c1 c2 (d1, d2, d3, d4) (p_net p)) as [m|] eqn:F; cbn [bind] in H; [|discriminate].
  unfold two_renorm in F.
  destruct (for_each _ (renorm_at d1 d2 ka) (p_net p)) as [n1|] eqn:E1; cbn [bind] in F; [|discriminate].
  pose proof (loop_keys d1 d2 ka c1 _ n1 ltac:(lia) E1) as K1.
  destruct (le_lt_dec (rows_of ka) ((2 * rows_of ka + length w - 1) / length w - 1 + length w / 2)); auto.
  destruct (K1 _ l) as [X _]. apply D1 in X. lia.
Qed.

(** ---- comparison with the sequential moves ---- *)

Definition drop (m : res (T * T * R)) : res (T * T) :=
  match m with Ok (a, b, _) => Ok (a, b) | Err e => Err e end.

Section Seq.
(** deterministic projector calculations (full-rank SVD) *)
Hypothesis detH : forall r r' a b, drop (calcH r a b) = drop (calcH r' a b).
Hypothesis detF : forall r r' a b c d, drop (calcF r a b c d) = drop (calcF r' a b c d).

Lemma calc_at_det n k s r r' : drop (calc_at n k s r) = drop (calc_at n k s r').
Proof. unfold Mover.calc_at, calculate. destruct pt; auto. Qed.

Lemma proj_loop_det f d1 d2 :
  (forall i r r', drop (f i r) = drop (f i r')) ->
  forall rows, NoDup rows -> (forall i, In i rows -> exists a b r r',
     d1 i = Some a /\ d2 i = Some b /\ f i r = Ok (a, b, r')) ->
  forall e1 e2 r, exists p1 p2 r', proj_loop T R rows f e1 e2 r = Ok (p1, p2, r') /\
   forall i, In i rows -> p1 i = d1 i /\ p2 i = d2 i.
Proof.
  intros Hd. induction rows as [|i rows IH]; intros Hnd Hf e1 e2 r.
  - cbn. exists e1, e2, r. split; auto. intros i [].
  - inversion Hnd as [|? ? Hn Hnd']; subst. cbn [proj_loop].
    destruct (Hf i (or_introl eq_refl)) as (a & b & r1 & r2 & A & B & E).
    specialize (Hd i r1 r) as X. rewrite E in X. cbn in X.
    destruct (f i r) as [[[a' b'] r']|] eqn:E'; cbn in X; [|discriminate]. inversion X; subst a' b'.
    cbn [bind].
    destruct (IH Hnd' (fun j Hj => Hf j (or_intror Hj)) (dset T e1 i a) (dset T e2 i b) r')
      as (p1 & p2 & r'' & P & Q).
    exists p1, p2, r''. split; auto. intros j [<- | Hj]; [|auto].
    destruct (proj_loop_spec T R _ _ _ _ _ _ _ _ Hnd' P) as [_ Out].
    destruct (Out i Hn) as [-> ->]. unfold dset. rewrite Nat.eqb_refl. auto.
Qed.

Lemma renorm_loop_ext d1 d2 e1 e2 k c n : k < 4 -> 1 <= rows_of k ->
  (forall i, i < rows_of k -> d1 i = e1 i /\ d2 i = e2 i) ->
  for_each (map (on_line k c) (seq 0 (rows_of k))) (renorm_at d1 d2 k) n =
  for_each (map (on_line k c) (seq 0 (rows_of k))) (renorm_at e1 e2 k) n.
Proof.
  intros Hk Hr H. apply for_each_ext. intros s m Hs.
  apply in_map_iff in Hs as (i & <- & Hi). apply in_seq in Hi.
  rewrite !renorm_at_eq by exact Hk. f_equal. unfold Mover.row_result, dget.
  rewrite row_on_line. destruct (H i ltac:(lia)) as [-> ->].
  destruct (next_row k c i Hk Hr) as [Hj|]; [|lia].
  destruct (H _ Hj) as [-> ->]. reflexivity.
Qed.

Notation move_dir := (move_dir T R bperm cj1 cj2 ej calcH calcF pt nx ny).

(** a move whose projectors are known *)
Lemma move_with k c n d1 d2 r : k < 4 -> 1 <= rows_of k ->
  (forall i, i < rows_of k -> exists a b r r',
      d1 i = Some a /\ d2 i = Some b /\ calc_at n k (on_line k c i) r = Ok (a, b, r')) ->
  exists r', move_dir k n r c =
    let! n' := for_each (map (on_line k c) (seq 0 (rows_of k))) (renorm_at d1 d2 k) n in Ok (n', r').
Proof.
  intros Hk Hr Hd. rewrite move_dir_eq by exact Hk.
  destruct (proj_loop_det (fun i => calc_at n k (on_line k c i)) d1 d2
     (fun i r r' => calc_at_det n k (on_line k c i) r r') (seq 0 (rows_of k)) (seq_NoDup _ _)
     (fun i Hi => Hd i ltac:(apply in_seq in Hi; lia)) (dempty) (dempty) r) as (p1 & p2 & r' & P & Q).
  exists r'. rewrite P. cbn [bind].
  rewrite (renorm_loop_ext p1 p2 d1 d2 k c n Hk Hr); auto.
  intros i Hi. apply Q. apply in_seq; lia.
Qed.

(** Half-system projectors of the opposite direction do not see the first move. *)
Lemma calc_half_opp n n1 k s r : k < 4 -> pt = Half ->
  (forall s' sl, ~ In sl (slots_of k) -> n1 s' sl = n s' sl) ->
  calc_at n1 ((k + 2) mod 4) s r = calc_at n ((k + 2) mod 4) s r.
Proof.
  intros Hk Hp H. unfold Mover.calc_at, calculate. rewrite Hp.
  assert (Q : forall s' j, (j = (k + 2) mod 4 \/ j = (k + 2) mod 4 + 3) ->
     quarter_of T bperm n1 s' j = quarter_of T bperm n s' j).
  { intros s' j Hj. unfold quarter_of.
    rewrite !H; auto; destruct Hj as [-> | ->]; destruct k as [|[|[|[|k]]]]; try lia; cbn;
      intros [X|[X|[X|[]]]]; discriminate. }
  rewrite !Q; auto.
Qed.

(** the sequential pair of moves *)
Definition seq_pair (ka c1 c2 : nat) (n : net) (r : R) : res (net * R) :=
  let! nr := move_dir ka n r c1 in move_dir ((ka + 2) mod 4) (fst nr) (snd nr) c2.

(** If the second direction's projectors computed after the first move are the
    ones in d3, d4 then the sequential pair is the renormalisation pair. *)
Lemma seq_pair_eq ka c1 c2 d1 d2 d3 d4 n r : ka < 4 -> 1 <= rows_of ka ->
  (forall i, i < rows_of ka -> exists a b r r',
      d1 i = Some a /\ d2 i = Some b /\ calc_at n ka (on_line ka c1 i) r = Ok (a, b, r')) ->
  (forall n1, for_each (map (on_line ka c1) (seq 0 (rows_of ka))) (renorm_at d1 d2 ka) n = Ok n1 ->
   let kb := (ka + 2) mod 4 in
   forall i, i < rows_of ka -> exists a b r r',
      d3 i = Some a /\ d4 i = Some b /\ calc_at n1 kb (on_line kb c2 i) r = Ok (a, b, r')) ->
  forall n', renorm_pair ka c1 c2 d1 d2 d3 d4 n = Ok n' ->
  exists r', seq_pair ka c1 c2 n r = Ok (n', r').
Proof.
  intros Hk Hr Ha Hb n' H. unfold seq_pair, renorm_pair in *.
  destruct (move_with ka c1 n d1 d2 r Hk Hr Ha) as [r1 ->].
  destruct (for_each _ (renorm_at d1 d2 ka) n) as [n1|] eqn:E1; cbn [bind fst snd] in *; [|discriminate].
  destruct (opp_rows ka Hk) as [Er El].
  assert (Hkb : (ka + 2) mod 4 < 4) by (apply Nat.mod_upper_bound; lia).
  destruct (move_with ((ka + 2) mod 4) c2 n1 d3 d4 r1 Hkb ltac:(lia)) as [r2 ->].
  { rewrite Er. exact (Hb n1 eq_refl). }
  rewrite H. cbn; eauto.
Qed.

Lemma plus2_mod ka : ka < 2 -> (ka + 2) mod 4 = ka + 2.
Proof. clear. intros H. destruct ka as [|[|]]; try lia; reflexivity. Qed.

Lemma dist_is_seq_half ka w c1 c2 w' n r : ka < 2 -> 2 <= length w -> 1 <= rows_of ka ->
  c1 < lines_of ka -> c2 < lines_of ka -> pt = Half -> (forall x, In x w -> fst x = n) ->
  dist_move ka w c1 c2 = Ok w' ->
  exists n' r', seq_pair ka c1 c2 n r = Ok (n', r') /\ length w' = length w /\
    forall x, In x w' -> fst x = n'.
Proof.
  intros Hk Hw Hr H1 H2 Hp Hn H.
  destruct (dist_move_result ka w c1 c2 w' n Hk Hw Hr Hn H)
    as (d1 & d2 & d3 & d4 & n' & A & B & P & L & Q).
  destruct (seq_pair_eq ka c1 c2 d1 d2 d3 d4 n r ltac:(lia) Hr A) with (n' := n') as [r' E]; eauto.
  intros n1 E1 kb i Hi.
  destruct (rows_loop_spec d1 d2 ka c1 n n1 ltac:(lia) H1 E1) as [_ U].
  destruct (B i Hi) as (a & b & r1 & r2 & X & Y & Z). exists a, b, r1, r2.
  split; auto. split; auto. unfold kb.
  rewrite (calc_half_opp n n1 ka); auto. rewrite plus2_mod by exact Hk. exact Z.
Qed.

(** the other sequential order gives the same network (half-system) *)
Lemma seq_pair_comm_half ka c1 c2 n r n' r' : ka < 4 -> 1 <= rows_of ka ->
  c1 < lines_of ka -> c2 < lines_of ka -> pt = Half ->
  seq_pair ka c1 c2 n r = Ok (n', r') ->
  exists n'' r'', seq_pair ((ka + 2) mod 4) c2 c1 n r = Ok (n'', r'') /\ forall s sl, n'' s sl = n' s sl.
Proof.
  intros Hk Hr H1 H2 Hp H. set (kb := (ka + 2) mod 4).
  destruct (opp_rows ka Hk) as [Er El]. fold kb in Er, El.
  assert (Hkb : kb < 4) by (apply Nat.mod_upper_bound; lia).
  assert (Eka : (kb + 2) mod 4 = ka) by (subst kb; clear - Hk; destruct ka as [|[|[|[|]]]]; try lia; reflexivity).
  unfold seq_pair in H. fold kb in H.
  destruct (move_dir ka n r c1) as [[n1 r1]|] eqn:M1; cbn [bind fst snd] in H; [|discriminate].
  rewrite move_dir_eq in M1 by exact Hk. rewrite move_dir_eq in H by exact Hkb.
  destruct (proj_loop _ _ _ _ _ _ r) as [[[d1 d2] r1']|] eqn:P1; cbn [bind] in M1; [|discriminate].
  destruct (for_each _ (renorm_at d1 d2 ka) n) as [n1'|] eqn:F1; cbn [bind] in M1; [|discriminate].
  inversion M1; subst n1' r1'; clear M1.
  destruct (proj_loop _ _ _ _ _ _ r1) as [[[d3 d4] r2']|] eqn:P2; cbn [bind] in H; [|discriminate].
  destruct (for_each _ (renorm_at d3 d4 kb) n1) as [n2'|] eqn:F2; cbn [bind] in H; [|discriminate].
  inversion H; subst n2' r2'; clear H.
  assert (RP : renorm_pair ka c1 c2 d1 d2 d3 d4 n = Ok n').
  { unfold renorm_pair. fold kb. rewrite F1. exact F2. }
  destruct (renorm_pair_comm ka c1 c2 d1 d2 d3 d4 n n' Hk H1 H2 RP) as (n'' & RP' & Q).
  destruct (proj_loop_spec T R _ _ _ _ _ _ _ _ (seq_NoDup _ _) P1) as [A _].
  destruct (proj_loop_spec T R _ _ _ _ _ _ _ _ (seq_NoDup _ _) P2) as [B _].
  destruct (rows_loop_spec _ _ _ _ _ _ Hk H1 F1) as [_ U].
  assert (A' : forall i, i < rows_of ka -> exists a b r r',
      d1 i = Some a /\ d2 i = Some b /\ calc_at n ka (on_line ka c1 i) r = Ok (a, b, r')).
  { intros i Hi. destruct (A i) as (a & b & ri & rj & X & Y & Z); [apply in_seq; lia|].
    exists a, b, ri, rj; auto. }
  assert (B' : forall i, i < rows_of kb -> exists a b r r',
      d3 i = Some a /\ d4 i = Some b /\ calc_at n kb (on_line kb c2 i) r = Ok (a, b, r')).
  { intros i Hi. destruct (B i) as (a & b & ri & rj & X & Y & Z); [apply in_seq; lia|].
    exists a, b, ri, rj. split; auto. split; auto. rewrite <- X.
    symmetry. apply calc_half_opp; auto. }
  exists n''.
  destruct (seq_pair_eq kb c2 c1 d3 d4 d1 d2 n r Hkb ltac:(lia) B') with (n' := n'') as [r'' E]; eauto.
  rewrite Eka. intros m Fm kb' i Hi.
  destruct (rows_loop_spec d3 d4 kb c2 n m Hkb ltac:(lia) Fm) as [_ Um].
  destruct (A' i ltac:(lia)) as (a & b & ri & rj & X & Y & Z).
  exists a, b, ri, rj. split; auto. split; auto. rewrite <- Z. unfold kb'.
  pose proof (calc_half_opp n m kb (on_line ka c1 i) ri Hkb Hp) as G. rewrite Eka in G. apply G; auto.
Qed.

End Seq.

(** ---- absorbing a bond (C55) ---- *)

Notation left_move := (left_move T R bperm cj1 cj2 ej calcH calcF pt nx ny).
Notation right_move := (right_move T R bperm cj1 cj2 ej calcH calcF pt nx ny).
Notation up_move := (up_move T R bperm cj1 cj2 ej calcH calcF pt nx ny).
Notation down_move := (down_move T R bperm cj1 cj2 ej calcH calcF pt nx ny).

Notation move_dir := (move_dir T R bperm cj1 cj2 ej calcH calcF pt nx ny).

(** fast_full_update.py 88-101 *)
Definition absorb_bond (b : bond) (nr : net * R) : res (net * R) :=
  let s1 := b_s1 b in let s2 := b_s2 b in
  match b_k b with
  | 0 => let! nr := right_move (fst nr) (snd nr) (fst s1) in left_move (fst nr) (snd nr) (fst s2)
  | 1 => let! nr := down_move (fst nr) (snd nr) (snd s1) in up_move (fst nr) (snd nr) (snd s2)
  | 2 => let! nr := left_move (fst nr) (snd nr) (fst s1) in right_move (fst nr) (snd nr) (fst s2)
  | 3 => let! nr := up_move (fst nr) (snd nr) (snd s1) in down_move (fst nr) (snd nr) (snd s2)
  | _ => Ok nr
  end.

Lemma absorb_bond_eq b n r : b_k b < 4 ->
  absorb_bond b (n, r) =
  seq_pair ((b_k b + 2) mod 4) (line_of (b_k b) (b_s1 b)) (line_of (b_k b) (b_s2 b)) n r.
Proof.
  intros Hk. unfold absorb_bond, seq_pair.
  destruct (b_k b) as [|[|[|[|k]]]]; try lia; reflexivity.
Qed.

Lemma absorb_bond_dist_eq b w : b_k b < 4 ->
  absorb_bond_dist b w =
  match b_k b with
  | 0 | 1 => dist_move (b_k b) w (line_of (b_k b) (b_s2 b)) (line_of (b_k b) (b_s1 b))
  | _ => dist_move (b_k b - 2) w (line_of (b_k b) (b_s1 b)) (line_of (b_k b) (b_s2 b))
  end.
Proof.
  intros Hk. unfold absorb_bond_dist.
  destruct (b_k b) as [|[|[|[|k]]]]; try lia; reflexivity.
Qed.

Lemma seq_pair_renorm ka c1 c2 n r n' r' : ka < 4 ->
  seq_pair ka c1 c2 n r = Ok (n', r') -> exists d1 d2 d3 d4, renorm_pair ka c1 c2 d1 d2 d3 d4 n = Ok n'.
Proof.
  intros Hk H. unfold seq_pair in H. set (kb := (ka + 2) mod 4) in *.
  assert (Hkb : kb < 4) by (apply Nat.mod_upper_bound; lia).
  destruct (move_dir ka n r c1) as [[n1 r1]|] eqn:M1; cbn [bind fst snd] in H; [|discriminate].
  rewrite move_dir_eq in M1 by exact Hk. rewrite move_dir_eq in H by exact Hkb.
  destruct (proj_loop _ _ _ _ _ _ r) as [[[d1 d2] r1']|] eqn:P1; cbn [bind] in M1; [|discriminate].
  destruct (for_each _ (renorm_at d1 d2 ka) n) as [n1'|] eqn:F1; cbn [bind] in M1; [|discriminate].
  injection M1 as -> ->.
  destruct (proj_loop _ _ _ _ _ _ r1) as [[[d3 d4] r2']|] eqn:P2; cbn [bind] in H; [|discriminate].
  destruct (for_each _ (renorm_at d3 d4 kb) n1) as [n2'|] eqn:F2; cbn [bind] in H; [|discriminate].
  injection H as -> ->.
  exists d1, d2, d3, d4. unfold renorm_pair. fold kb. rewrite F1. exact F2.
Qed.

(** the edge of the site across from s, seen from it in direction k, holds the
    tensor of s *)
Definition absorbed (n n' : net) (k : nat) (s : site) : Prop :=
  exists p q, ej (n s (SE ((3 + k) mod 4))) (bperm k (n s SA)) p q
              = Ok (n' (target k s) (SE ((3 + k) mod 4))).

Lemma row_result_absorbed d1 d2 k s n n' w :
  row_result d1 d2 k s n = Ok w -> has_row k s n' w -> absorbed n n' k s.
Proof.
  unfold Mover.row_result, has_row, absorbed. intros H (_ & _ & E).
  repeat match type of H with bind ?e _ = _ => destruct e eqn:?; cbn [bind] in H; [|discriminate] end.
  injection H as <-. cbn [snd] in E. rewrite E. eauto.
Qed.

Lemma line_on k s : on_line k (line_of k s) (row_of k s) = s.
Proof. destruct s. destruct k as [|[|[|]]]; reflexivity. Qed.

Lemma in_cell_bounds k s : k < 4 -> in_cell nx ny s -> line_of k s < lines_of k /\ row_of k s < rows_of k.
Proof. intros Hk [A B]. destruct s. destruct k as [|[|[|[|]]]]; cbn in *; auto; lia. Qed.

Lemma renorm_pair_absorbed ka c1 c2 d1 d2 d3 d4 n n' : ka < 4 -> c1 < lines_of ka -> c2 < lines_of ka ->
  renorm_pair ka c1 c2 d1 d2 d3 d4 n = Ok n' ->
  (forall s, in_cell nx ny s -> line_of ka s = c1 -> absorbed n n' ka s) /\
  (forall s, in_cell nx ny s -> line_of ka s = c2 -> absorbed n n' ((ka + 2) mod 4) s) /\
  (forall s, n' s SA = n s SA).
Proof.
  intros Hk H1 H2 H.
  destruct (renorm_pair_spec _ _ _ _ _ _ _ _ _ Hk H1 H2 H) as (A & B & D). set (kb := (ka + 2) mod 4) in *.
  split; [|split].
  - intros s Hs <-. destruct (in_cell_bounds ka s Hk Hs) as [_ Hr].
    destruct (A _ Hr) as (w & W1 & W2). rewrite line_on in *. eapply row_result_absorbed; eauto.
  - intros s Hs <-. destruct (in_cell_bounds ka s Hk Hs) as [_ Hr].
    destruct (B _ Hr) as (w & W1 & W2).
    assert (E : on_line kb (line_of ka s) (row_of ka s) = s).
    { rewrite <- (line_on ka s) at 3. unfold kb. clear - Hk.
      destruct ka as [|[|[|[|]]]]; try lia; reflexivity. }
    rewrite E in *. eapply row_result_absorbed; eauto.
  - intros s. apply D; right; cbn; intros [X|[X|[X|[]]]]; discriminate.
Qed.

(** ---- replicas (C18) ---- *)

(** fast_full_update.py 47-62: rank 0 computes the new site tensors, all ranks
    receive and store them *)
Variable update : net -> R -> bond -> res (T * T * R).
Definition bond_write (b : bond) (a1 a2 : T) (n : net) : net :=
  upd T (upd T n (b_s1 b) SA a1) (b_s2 b) SA a2.
(** fast_full_update.py 29-69 *)
Definition bond_update_dist (b : bond) (w : world) : res world :=
  match w with
  | [] => Ok []
  | (n0, r0) :: rest =>
      let! (a1, a2, r0') := update n0 r0 b in
      absorb_bond_dist b (map (fun nr => (bond_write b a1 a2 (fst nr), snd nr)) ((n0, r0') :: rest))
  end.

Inductive dop := DLR (x1 x2 : nat) | DUD (y1 y2 : nat) | DBond (b : bond) | DCtmrg.
Definition run_dop (o : dop) (w : world) : res world :=
  match o with
  | DLR x1 x2 => left_right_move_dist w x1 x2
  | DUD y1 y2 => up_down_move_dist w y1 y2
  | DBond b => bond_update_dist b w
  | DCtmrg => ctmrg_step_dist w
  end.

Definition same_nets (w : world) : Prop := exists n, forall x, In x w -> fst x = n.

Lemma dist_move_same ka w c1 c2 w' : ka < 2 -> 2 <= length w -> 1 <= rows_of ka ->
  same_nets w -> dist_move ka w c1 c2 = Ok w' -> same_nets w' /\ length w' = length w.
Proof.
  intros Hk Hw Hr [n Hn] H.
  destruct (dist_move_result ka w c1 c2 w' n Hk Hw Hr Hn H) as (? & ? & ? & ? & n' & _ & _ & _ & L & Q).
  split; auto. exists n'; auto.
Qed.

Lemma for_each_same {A} (l : list A) (f : A -> world -> res world) :
  (forall a w w', 2 <= length w -> same_nets w -> f a w = Ok w' -> same_nets w' /\ length w' = length w) ->
  forall w w', 2 <= length w -> same_nets w -> for_each l f w = Ok w' -> same_nets w' /\ length w' = length w.
Proof.
  intros Hf. induction l as [|a l IH]; intros w w' Hw Hs H; cbn in H.
  - inversion H; subst; auto.
  - destruct (f a w) as [w1|] eqn:E; cbn [bind] in H; [|discriminate].
    destruct (Hf a w w1 Hw Hs E) as [S1 L1].
    destruct (IH w1 w' ltac:(lia) S1 H) as [S2 L2]. split; auto; lia.
Qed.

Lemma run_dop_same o w w' : 1 <= nx -> 1 <= ny -> 2 <= length w -> same_nets w ->
  run_dop o w = Ok w' -> same_nets w' /\ length w' = length w.
Proof.
  intros Hx Hy Hw Hs H.
  assert (LR : forall w w' a b, 2 <= length w -> same_nets w -> left_right_move_dist w a b = Ok w' ->
     same_nets w' /\ length w' = length w).
  { intros. eapply (dist_move_same 0); eauto. }
  assert (UD : forall w w' a b, 2 <= length w -> same_nets w -> up_down_move_dist w a b = Ok w' ->
     same_nets w' /\ length w' = length w).
  { intros. eapply (dist_move_same 1); eauto. }
  destruct o as [x1 x2|y1 y2|b|]; cbn [run_dop] in H; eauto.
  - destruct w as [|[n0 r0] rest]; [cbn in Hw; lia|]. cbn [bond_update_dist] in H.
    destruct (update n0 r0 b) as [[[a1 a2] r0']|]; cbn [bind] in H; [|discriminate].
    set (w1 := map _ _) in H.
    assert (S1 : same_nets w1).
    { destruct Hs as [n Hn]. exists (bond_write b a1 a2 n). intros x Hx'.
      unfold w1 in Hx'. apply in_map_iff in Hx' as (y & <- & Hy'). cbn. f_equal.
      destruct Hy' as [<- | Hy']; [apply (Hn (n0, r0)); now left | apply Hn; now right]. }
    assert (L1 : length w1 = length ((n0, r0) :: rest)) by (unfold w1; rewrite map_length; reflexivity).
    unfold absorb_bond_dist in H. rewrite <- L1.
    assert (W1 : 2 <= length w1) by (rewrite L1; exact Hw).
    destruct (b_k b) as [|[|[|[|k]]]];
      [exact (LR _ _ _ _ W1 S1 H) | exact (UD _ _ _ _ W1 S1 H) | exact (LR _ _ _ _ W1 S1 H)
      | exact (UD _ _ _ _ W1 S1 H) | injection H as <-; auto].
  - unfold ctmrg_step_dist in H.
    match type of H with bind ?e _ = _ => destruct e as [w1|] eqn:E end; cbn [bind] in H; [|discriminate].
    assert (G1 : same_nets w1 /\ length w1 = length w).
    { refine (for_each_same _ _ _ w w1 Hw Hs E). intros a v v' Hv Sv Ev. exact (LR _ _ _ _ Hv Sv Ev). }
    destruct G1 as [S1 L1].
    assert (G2 : same_nets w' /\ length w' = length w1).
    { refine (for_each_same _ _ _ w1 w' ltac:(lia) S1 H). intros a v v' Hv Sv Ev. exact (UD _ _ _ _ Hv Sv Ev). }
    destruct G2; split; auto; lia.
Qed.

End Dist.
