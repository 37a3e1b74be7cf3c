(** Properties C39, C40 (ALS loops), C52, C61 (bond weights), C53 (cells of width
    one), C54 (strides), C57 (configuration), C59 (Neel state), C60 (timing
    decorator). *)
From Coq Require Import String ZArith.
From Coq Require Import List Arith Lia Bool Permutation.
From Verif Require Import ListAux Lattice LatticeFacts Base Evolve AlsLoop Strides Lambda Runtime Config Neel.
Import ListNotations.

(** ---------------- C39, C40: ALS loops ---------------- *)
Section AlsProps.
Variables (T num : Type) (solve1 solve2 csolve1 csolve2 : method -> T -> res T) (cost : T -> T -> num)
  (absn : num -> num) (sub div : num -> num -> num) (ltb : num -> num -> bool).
Notation solve_torch := (solve_torch T num solve1 solve2 cost absn sub div ltb).
Notation solve_cutensor := (solve_cutensor T num cost absn sub div ltb csolve1 csolve2).
Notation sweeps := (sweeps T solve1 solve2).
Notation settled := (settled T num solve1 solve2 cost absn sub div ltb).

(** With linear solvers that agree, both backends return the same, error or not,
    for every known method, tolerance, limit and any arithmetic. *)
Theorem C39_backends_agree (m : string) (tol : num) (niter : nat) (a1r a2r : T) :
  m = "cholesky"%string \/ m = "pinv"%string ->
  (forall mm a, solve1 mm a = csolve1 mm a) -> (forall mm a, solve2 mm a = csolve2 mm a) ->
  solve_torch m tol niter a1r a2r = solve_cutensor m tol niter a1r a2r.
Proof.
  intros Hm H1 H2. unfold AlsLoop.solve_torch, AlsLoop.solve_cutensor.
  destruct Hm as [-> | ->].
  - change (parse_solver_method "cholesky") with (Ok Cholesky). cbn [bind].
    apply (loops_agree T num solve1 solve2 cost absn sub div ltb csolve1 csolve2 "cholesky" Cholesky tol); auto. lia.
  - change (parse_solver_method "pinv") with (Ok Pinv). cbn [bind].
    apply (loops_agree T num solve1 solve2 cost absn sub div ltb csolve1 csolve2 "pinv" Pinv tol); auto. lia.
Qed.

(** An unknown method: torch fails in the first sweep with an unbound variable,
    and not at all without sweeps; the extension always refuses. *)
Theorem C39_unknown_method (m : string) (tol : num) (niter : nat) (a1r a2r : T) :
  m <> "cholesky"%string -> m <> "pinv"%string ->
  solve_torch m tol niter a1r a2r = (if niter =? 0 then Ok (a1r, a2r) else Err UnboundLocalError) /\
  solve_cutensor m tol niter a1r a2r = Err RuntimeError.
Proof.
  intros H1 H2. unfold AlsLoop.solve_torch, AlsLoop.solve_cutensor, parse_solver_method.
  destruct (string_dec m "cholesky"); [congruence|]. destruct (string_dec m "pinv"); [congruence|].
  split; auto. destruct niter; cbn [torch_loop Nat.eqb]; auto.
  unfold py_solve, parse_py. destruct (string_dec m "cholesky"); [congruence|]. destruct (string_dec m "pinv"); [congruence|].
  reflexivity.
Qed.

(** The result is that of [k] complete sweeps: never more than niter, stopping
    early only after a sweep whose relative cost change is below tol and which is
    at least the third, and then at the first such. *)
Theorem C40_number_of_sweeps (m : string) (mm : method) (tol : num) (niter : nat) (a1r a2r : T) :
  parse_solver_method m = Ok mm ->
  exists k, k <= niter /\ solve_torch m tol niter a1r a2r = sweeps mm a1r a2r k /\
    (forall j, 3 <= j < k -> ~ settled mm tol a1r a2r j) /\
    (k < niter -> (exists e, sweeps mm a1r a2r k = Err e) \/ (3 <= k /\ settled mm tol a1r a2r k)).
Proof.
  intros Hm.
  assert (P : parse_py m = Some mm).
  { unfold parse_solver_method, parse_py in *. destruct (string_dec m "cholesky"); [congruence|].
    destruct (string_dec m "pinv"); congruence. }
  destruct (loop_prefix T num solve1 solve2 cost absn sub div ltb m mm tol a1r a2r P niter 0 (a1r, a2r) eq_refl
    (absn (cost a1r a2r)) ltac:(lia)) as (k & _ & K2 & K3 & K4 & K5).
  exists k. split; [lia|]. split; [exact K3|]. split; [|exact K5]. intros j Hj. apply K4; lia.
Qed.

(** In particular, without errors: niter sweeps when niter <= 3, at least 3
    otherwise. *)
Theorem C40_at_least_three (m : string) (mm : method) (tol : num) (niter : nat) (a1r a2r : T) :
  parse_solver_method m = Ok mm ->
  (forall j, exists x, sweeps mm a1r a2r j = Ok x) ->
  exists k, Nat.min 3 niter <= k <= niter /\ solve_torch m tol niter a1r a2r = sweeps mm a1r a2r k.
Proof.
  intros Hm Hok. destruct (C40_number_of_sweeps m mm tol niter a1r a2r Hm) as (k & K1 & K2 & _ & K4).
  exists k. split; auto. destruct (Nat.eq_dec k niter) as [-> |N]; [lia|].
  destruct K4 as [(e & E)|[H _]]; [lia| |lia]. destruct (Hok k) as [x X]. congruence.
Qed.
End AlsProps.

(** numbers; a solve halves, the cost is the sum; every sweep changes the cost by
    75 percent *)
Definition x_half (_ : method) (a : nat) : res nat := Ok (a / 2).
Definition x_als := solve_torch nat Z x_half x_half (fun a b => Z.of_nat (a + b)) Z.abs Z.sub (fun a b => (100 * a) / b)%Z Z.ltb.
Definition x_als_cpp := solve_cutensor nat Z (fun a b => Z.of_nat (a + b)) Z.abs Z.sub (fun a b => (100 * a) / b)%Z Z.ltb x_half x_half.
Example C40_example :
  x_als "pinv" 80%Z 10 4096 4096 = Ok (128, 64) /\    (* stops after the third sweep *)
  x_als "pinv" 80%Z 2 4096 4096 = Ok (512, 256) /\
  x_als "pinv" 10%Z 5 4096 4096 = Ok (8, 4).           (* never settles *)
Proof. vm_compute. auto. Qed.
Example C39_example : x_als_cpp "pinv" 80%Z 10 4096 4096 = Ok (128, 64) /\
  x_als "qr" 80%Z 10 4096 4096 = Err UnboundLocalError.
Proof. vm_compute. auto. Qed.

(** ---------------- C54: strides ---------------- *)
Theorem C54_in_bounds (shape idx : list nat) : valid_index shape idx ->
  address (compute_row_major_strides shape) idx < volume shape.
Proof. rewrite strides_eq. apply address_lt. Qed.
Theorem C54_injective (shape i j : list nat) : valid_index shape i -> valid_index shape j ->
  address (compute_row_major_strides shape) i = address (compute_row_major_strides shape) j -> i = j.
Proof. rewrite strides_eq. apply address_inj. Qed.
(** dense: every element of the buffer is addressed; row-major: later in
    lexicographic order is later in the buffer *)
Theorem C54_dense (shape : list nat) (a : nat) : a < volume shape ->
  exists idx, valid_index shape idx /\ address (compute_row_major_strides shape) idx = a.
Proof. rewrite strides_eq. apply address_surj. Qed.
Theorem C54_row_major (shape i j : list nat) : valid_index shape i -> valid_index shape j -> lex i j ->
  address (compute_row_major_strides shape) i < address (compute_row_major_strides shape) j.
Proof. rewrite strides_eq. apply address_lex. Qed.
(** no overflow beyond the number of elements (no empty extent) *)
Theorem C54_strides_bounded (shape : list nat) (s : nat) : Forall (fun d => 0 < d) shape ->
  In s (compute_row_major_strides shape) -> 0 < s <= volume shape.
Proof. rewrite strides_eq. apply strides_rec_bound. Qed.
Example C54_example : compute_row_major_strides [2; 3; 4] = [12; 4; 1] /\
  address (compute_row_major_strides [2; 3; 4]) [1; 2; 3] = 23.
Proof. vm_compute. auto. Qed.

(** ---------------- C52, C61: bond weights ---------------- *)
Section LambdaProps.
Variable V : Type.
Variable ones : V.
Notation lam := (lam V).

(** After any updates, the weight on side d of a site is the last one assigned to
    the unique bond there (ones if none was), whatever the order of the bond list. *)
Theorem C52_lookup (nx ny : nat) (bl : list bond) (h : list (bond * V)) (s : site) (d : nat) :
  Permutation bl (build_bond_list nx ny) -> in_cell nx ny s -> d < 4 ->
  exists b, In b bl /\ In (s, d) (bond_ends b) /\
    (forall b', In b' bl -> In (s, d) (bond_ends b') -> b' = b) /\
    get_weight V (run_sets V h (new_lambda V ones bl)) s d = Ok (weight_of V ones h b).
Proof.
  intros P Hs Hd. assert (N := ends_nodup nx ny bl P).
  assert (Hin : In (s, d) (flat_map bond_ends bl)).
  { eapply Permutation_in; [symmetry; eapply perm_trans; [apply Permutation_flat_map; exact P|apply bond_ends_perm]|].
    unfold cell_sides. rewrite !in_prod_iff. destruct s as [x y]. destruct Hs as [Hx Hy]. cbn in Hx, Hy.
    rewrite in_prod_iff, !in_seq. split; [lia|]. cbn. lia. }
  destruct (fold_sides V ones bl (Lam V (fun _ => None) (fun _ _ => None)) N s d) as [[_ C]|(b & H1 & H2 & H3)];
    [contradiction|].
  exists b. split; auto. split; auto. split.
  { intros b' Hb' He. exact (nodup_flat bond_ends bl b' b (s, d) N Hb' H1 He H2). }
  unfold get_weight. rewrite run_sets_sides. unfold new_lambda in *. rewrite H3, run_sets_data, fold_data.
  unfold weight_of. destruct (last_set V h b); auto. destruct (in_dec bond_eq_dec b bl); [reflexivity|contradiction].
Qed.

(** Updating one bond changes exactly what its two ends see. *)
Theorem C52_update (nx ny : nat) (bl : list bond) (h : list (bond * V)) (b : bond) (v : V) (s : site) (d : nat) :
  Permutation bl (build_bond_list nx ny) -> In b bl -> in_cell nx ny s -> d < 4 ->
  let x := run_sets V h (new_lambda V ones bl) in
  get_weight V (set_weight V b v x) s d =
  if (if site_eq_dec s (b_s1 b) then d =? b_k b else false) || (if site_eq_dec s (b_s2 b) then d =? (b_k b + 2) mod 4 else false)
  then Ok v else get_weight V x s d.
Proof.
  intros P Hb Hs Hd x. unfold x.
  change (set_weight V b v (run_sets V h (new_lambda V ones bl))) with (run_sets V [(b, v)] (run_sets V h (new_lambda V ones bl))).
  assert (E : run_sets V [(b, v)] (run_sets V h (new_lambda V ones bl)) = run_sets V (h ++ [(b, v)]) (new_lambda V ones bl)).
  { unfold run_sets. now rewrite fold_left_app. }
  rewrite E. destruct (C52_lookup nx ny bl (h ++ [(b, v)]) s d P Hs Hd) as (b1 & A1 & A2 & A3 & ->).
  destruct (C52_lookup nx ny bl h s d P Hs Hd) as (b2 & B1 & B2 & B3 & ->).
  assert (b2 = b1) by auto. subst b2.
  assert (L : weight_of V ones (h ++ [(b, v)]) b1 = if bond_eq_dec b b1 then v else weight_of V ones h b1).
  { unfold weight_of. assert (G : last_set V (h ++ [(b, v)]) b1 =
       if bond_eq_dec b b1 then Some v else last_set V h b1).
    { clear. induction h as [|p h IH]; cbn; [destruct (bond_eq_dec b b1); auto|].
      rewrite IH. destruct (bond_eq_dec b b1); auto. }
    rewrite G. destruct (bond_eq_dec b b1); auto. }
  rewrite L. destruct (bond_eq_dec b b1) as [<- |Ne].
  - apply in_ends in A2. destruct A2 as [[-> ->]|[-> ->]].
    + destruct (site_eq_dec _ _); [|congruence]. rewrite Nat.eqb_refl. reflexivity.
    + destruct (site_eq_dec (b_s2 b) (b_s2 b)); [|congruence]. rewrite Nat.eqb_refl, orb_true_r. reflexivity.
  - destruct (_ || _) eqn:X; [|reflexivity]. exfalso. apply Ne. apply A3; auto. apply in_ends.
    apply orb_prop in X as [X|X]; destruct (site_eq_dec _ _) in X; try discriminate; apply Nat.eqb_eq in X; auto.
Qed.
End LambdaProps.

Example C52_example :
  let x := run_sets nat [(Bond (1, 0) (0, 0) 2, 7); (Bond (0, 0) (0, 1) 1, 9); (Bond (1, 0) (0, 0) 2, 8)]
             (new_lambda nat 1 (rev (build_bond_list 2 2))) in
  map (fun d => get_weight nat x (0, 0) d) [0; 1; 2; 3; 4] = [Ok 8; Ok 9; Ok 1; Ok 1; Err KeyError] /\
  get_weight nat x (1, 0) 2 = Ok 8 /\ get_weight nat x (0, 1) 3 = Ok 9.
Proof. vm_compute. auto. Qed.

Section ResetProps.
Variables (S T W : Type) (weights : list bond -> W) (bond_update : bond -> S * W -> (S * W) * (T * T)).
Variables (tzero : T) (tadd : T -> T -> T) (tdiv : T -> nat -> T).
Notation evolve_simple := (evolve_simple S T W weights bond_update tzero tadd tdiv).

(** C61: two simple-update calls are the updates of one call of n+m steps with
    the weights reset in between. *)
Theorem C61_weights_reset (d1 d2 : bool) (n m : nat) (s : S) (bonds : list bond) :
  let whole := schedule bond bonds (n + m) in
  let k := n * length bonds in
  let mid := run_updates bond (S * W) T bond_update (s, weights bonds) (firstn k whole) in
  evolve_simple d2 m (fst (evolve_simple d1 n s bonds)) (snd (evolve_simple d1 n s bonds)) =
  (fst (run_updates bond (S * W) T bond_update
          (fst mid, weights (if Nat.even n then bonds else rev bonds)) (skipn k whole)),
   if Nat.even (n + m) then bonds else rev bonds).
Proof.
  cbv zeta. unfold Lambda.evolve_simple. cbn [fst snd]. rewrite !evolve_state, !evolve_bonds.
  rewrite schedule_app. 
  assert (L : length (schedule bond bonds n) = n * length bonds).
  { clear. induction n as [|n IH]; [reflexivity|]. rewrite schedule_S, app_length, IH.
    unfold step_bonds. destruct (Nat.even n); rewrite ?rev_length; lia. }
  rewrite <- L. rewrite firstn_app, firstn_all, Nat.sub_diag, firstn_O, app_nil_r.
  rewrite skipn_app, skipn_all, Nat.sub_diag. cbn [skipn app].
  unfold step_bonds. f_equal. rewrite Nat.even_add.
  destruct (Nat.even n), (Nat.even m); simpl; auto. apply rev_involutive.
Qed.
End ResetProps.

(** so splitting changes the result (tensor and weight are numbers, an update
    adds the weight to the tensor and increments it) *)
Definition x_upd (_ : bond) (p : nat * nat) := ((fst p + snd p, snd p + 1), (0, 0)).
Definition x_evolve := evolve_simple nat nat nat (fun _ => 1) x_upd 0 Nat.add Nat.div false.
Theorem C61_split_refuted : exists bonds s,
  let first := x_evolve 2 s bonds in
  fst (x_evolve 2 (fst first) (snd first)) <> fst (x_evolve 4 s bonds).
Proof. exists [Bond (0, 0) (1, 0) 2], 0. vm_compute. discriminate. Qed.
Example C61_example : x_evolve 3 0 [Bond (0, 0) (1, 0) 2] = (6, [Bond (0, 0) (1, 0) 2]).
Proof. reflexivity. Qed.

(** ---------------- C53: unit cells of width one ---------------- *)
(** the two ends of a bond are the same site exactly for horizontal bonds of
    cells with nx = 1 and vertical bonds of cells with ny = 1 *)
Theorem C53_when (nx ny : nat) (b : bond) : In b (build_bond_list nx ny) ->
  (b_s1 b = b_s2 b <-> (b_k b = 2 /\ nx = 1) \/ (b_k b = 1 /\ ny = 1)).
Proof.
  intros H. destruct (bond_list_adjacent nx ny b H) as ([Hx Hy] & _ & A & _).
  assert (K : b_k b = 2 \/ b_k b = 1).
  { unfold build_bond_list in H. apply in_app_iff in H as [H|H]; unfold horizontal_bonds, vertical_bonds in H;
      apply in_flat_map in H as (? & _ & H); apply in_map_iff in H as (? & <- & _); auto. }
  destruct b as [[x y] [x' y'] k]. cbn in *. destruct K as [-> | ->]; cbn in A.
  - destruct A as [[[L ->]|[L ->]] ->]; split; intros E.
    + injection E. lia.
    + destruct E as [[_ E]|[E _]]; lia.
    + injection E as E. left. lia.
    + destruct E as [[_ E]|[E _]]; [|lia]. f_equal. lia.
  - destruct A as [-> [[L ->]|[L ->]]]; split; intros E.
    + injection E. lia.
    + destruct E as [[E _]|[_ E]]; lia.
    + injection E as E. right. lia.
    + destruct E as [[E _]|[_ E]]; [lia|]. f_equal. lia.
Qed.

Section WidthOne.
Variables (A : Type) (new : bond -> A -> A -> A * A).
(** then the update keeps only the second result; otherwise both; other sites
    are untouched *)
Theorem C53_write_back (t : site -> A) (b : bond) (s : site) :
  let r := new b (t (b_s1 b)) (t (b_s2 b)) in
  update_sites A new t b s =
  if site_eq_dec s (b_s2 b) then snd r
  else if site_eq_dec s (b_s1 b) then fst r else t s.
Proof.
  cbv zeta. unfold update_sites. destruct (new b _ _) as [a1 a2]. cbn [fst snd]. unfold put.
  destruct (site_eq_dec s (b_s2 b)), (site_eq_dec s (b_s1 b)); auto.
Qed.
Theorem C53_first_result_lost (t : site -> A) (b : bond) :
  b_s1 b = b_s2 b ->
  update_sites A new t b (b_s1 b) = snd (new b (t (b_s1 b)) (t (b_s1 b))) /\
  (forall new', (forall x y, snd (new' b x y) = snd (new b x y)) ->
    forall s, update_sites A new' t b s = update_sites A new t b s).
Proof.
  intros E. split.
  - rewrite C53_write_back. cbv zeta. rewrite <- E. destruct (site_eq_dec _ _); [reflexivity|congruence].
  - intros new' H s. unfold update_sites. specialize (H (t (b_s1 b)) (t (b_s2 b))).
    destruct (new' b _ _) as [a1' a2'], (new b _ _) as [a1 a2]. cbn in H. subst a2'. unfold put. rewrite E.
    destruct (site_eq_dec s (b_s2 b)); auto.
Qed.
End WidthOne.
Example C53_example : let t := update_sites nat (fun _ x y => (x + 1, y + 10)) (fun _ => 5) in
  t (Bond (0, 0) (0, 0) 2) (0, 0) = 15 /\ t (Bond (0, 0) (1, 0) 2) (0, 0) = 6 /\
  In (Bond (0, 0) (0, 0) 2) (build_bond_list 1 2).
Proof. vm_compute. auto. Qed.

(** ---------------- C59: Neel state, bond directions ---------------- *)
Definition opposite (a b : site) : Prop :=
  initial_site_state a <> initial_site_state b /\ observables_negated a = negb (observables_negated b).

Lemma opposite_iff a b : opposite a b <-> (fst a + snd a) mod 2 <> (fst b + snd b) mod 2.
Proof.
  unfold opposite, initial_site_state, observables_negated.
  destruct (mod2 (fst a + snd a)) as [Ea|Ea], (mod2 (fst b + snd b)) as [Eb|Eb]; rewrite Ea, Eb; cbn; split;
    try (intros [H1 H2]; congruence); try congruence; intros _; split; auto; discriminate.
Qed.

(** <Z> in the product state with the given amplitudes *)
Definition z_value (v : list nat) : Z := let f i := Z.of_nat (nth i v 0) in (f 0%nat * f 0%nat - f 1%nat * f 1%nat)%Z.
(** the initial state is normalised, has two components, and its staggered
    magnetisation is +1 on every site *)
Theorem C59_staggered (s : site) :
  (if observables_negated s then - z_value (initial_site_state s) else z_value (initial_site_state s))%Z = 1%Z /\
  length (initial_site_state s) = 2 /\ list_sum (map (fun a => a * a) (initial_site_state s)) = 1.
Proof. unfold initial_site_state, observables_negated. destruct (_ =? 0); cbn; auto. Qed.
(** the default initial state: the first basis vector, for every dimension *)
Theorem C59_default_state (dim : nat) : 1 <= dim ->
  length (default_site_state dim) = dim /\ forall i, nth i (default_site_state dim) 0 = if i =? 0 then 1 else 0.
Proof.
  intros H. unfold default_site_state. split; [cbn; rewrite repeat_length; lia|].
  intros [|i]; cbn; auto. apply nth_repeat.
Qed.

Theorem C59_neel_iff_even (nx ny : nat) : 0 < nx -> 0 < ny ->
  ((forall b, In b (build_bond_list nx ny) -> opposite (b_s1 b) (b_s2 b)) <->
   Nat.even nx = true /\ Nat.even ny = true).
Proof.
  intros Px Py. split.
  - intros H. split.
    + assert (Hb : In (Bond (nx - 1, 0) (0, 0) 2) (build_bond_list nx ny)).
      { unfold build_bond_list, horizontal_bonds. apply in_app_iff. left. apply in_flat_map. exists (nx - 1).
        split; [apply in_seq; lia|]. apply in_map_iff. exists 0. split; [|apply in_seq; lia].
        cbv zeta. replace (nx - 1 + 1) with nx by lia. rewrite Nat.mod_same by lia. reflexivity. }
      apply H in Hb. apply opposite_iff in Hb. cbn [fst snd b_s1 b_s2] in Hb.
      apply Nat.even_spec. exists (nx / 2). pose proof (mod2_div nx) as D.
      destruct (mod2 nx) as [E|E]; [lia|]. exfalso. apply Hb. replace (nx - 1 + 0) with ((nx / 2) * 2) by lia.
      rewrite Nat.mod_mul by lia. reflexivity.
    + assert (Hb : In (Bond (0, ny - 1) (0, 0) 1) (build_bond_list nx ny)).
      { unfold build_bond_list, vertical_bonds. apply in_app_iff. right. apply in_flat_map. exists (ny - 1).
        split; [apply in_seq; lia|]. apply in_map_iff. exists 0. split; [|apply in_seq; lia].
        cbv zeta. replace (ny - 1 + 1) with ny by lia. rewrite Nat.mod_same by lia. reflexivity. }
      apply H in Hb. apply opposite_iff in Hb. cbn [fst snd b_s1 b_s2] in Hb.
      apply Nat.even_spec. exists (ny / 2). pose proof (mod2_div ny) as D.
      destruct (mod2 ny) as [E|E]; [lia|]. exfalso. apply Hb. replace (0 + (ny - 1)) with ((ny / 2) * 2) by lia.
      rewrite Nat.mod_mul by lia. reflexivity.
  - intros [Ex Ey] b Hb. apply opposite_iff. destruct (bond_list_adjacent nx ny b Hb) as (_ & _ & A & _).
    assert (Mx : nx mod 2 = 0). { apply Nat.even_spec in Ex as [k ->]. rewrite Nat.mul_comm. apply Nat.mod_mul. lia. }
    assert (My : ny mod 2 = 0). { apply Nat.even_spec in Ey as [k ->]. rewrite Nat.mul_comm. apply Nat.mod_mul. lia. }
    destruct b as [[x y] [x' y'] k]. cbn [b_s1 b_s2 b_k fst snd] in *. rewrite (mod2_add x y), (mod2_add x' y').
    unfold adjacent in A. destruct k as [|[|[|[|k]]]]; cbn [fst snd] in A; [| | | |contradiction];
      [destruct A as [A B]|destruct A as [B A]|destruct A as [A B]|destruct A as [B A]]; rewrite B;
      pose proof (succ_parity _ _ _ A ltac:(assumption)) as Q; clear A B;
      destruct (mod2 x) as [X|X], (mod2 x') as [X'|X'], (mod2 y) as [Y|Y], (mod2 y') as [Y'|Y'];
      revert Q; rewrite ?X, ?X', ?Y, ?Y'; intros Q; first [exfalso; apply Q; reflexivity | vm_compute; discriminate].
Qed.
Example C59_example : opposite (0, 0) (1, 0) /\ ~ opposite (2, 0) (0, 0) /\ In (Bond (2, 0) (0, 0) 2) (build_bond_list 3 2).
Proof. rewrite !opposite_iff. vm_compute. split; [discriminate|]. intuition. Qed.

(** C62: bond_direction names the way from s1 to s2; the cell's bonds are "+x" or
    "+y" only *)
Theorem C62_bond_direction (nx ny : nat) (b : bond) : In b (build_bond_list nx ny) ->
  (bond_direction b = Some "+x"%string /\ succ_mod nx (fst (b_s1 b)) (fst (b_s2 b)) /\ snd (b_s2 b) = snd (b_s1 b)) \/
  (bond_direction b = Some "+y"%string /\ succ_mod ny (snd (b_s1 b)) (snd (b_s2 b)) /\ fst (b_s2 b) = fst (b_s1 b)).
Proof.
  intros H. destruct (bond_list_adjacent nx ny b H) as (_ & _ & A & _).
  assert (K : b_k b = 2 \/ b_k b = 1).
  { unfold build_bond_list in H. apply in_app_iff in H as [H|H]; unfold horizontal_bonds, vertical_bonds in H;
      apply in_flat_map in H as (? & _ & H); apply in_map_iff in H as (? & <- & _); auto. }
  unfold bond_direction. destruct K as [K|K]; rewrite K in A |- *; cbn in A; [left|right]; intuition.
Qed.
Example C62_example : map bond_direction (build_bond_list 1 2) =
  [Some "+x"; Some "+x"; Some "+y"; Some "+y"]%string.
Proof. reflexivity. Qed.

(** ---------------- C60: timing decorator ---------------- *)
Section RuntimeProps.
Variables (W A T : Type) (elapsed : W -> W -> T).
Notation pyval := (pyval A T).
Notation action := (action W A T).
Notation record_runtime := (record_runtime W A T elapsed).
Arguments PNone {A T}. Arguments PTuple {A T}. Arguments PTime {A T}.

(** the effect and exceptions are those of the function; the result has the
    measured time attached, so that unpacking one more name works for tuples *)
Theorem C60_wrapper (func : action) (w : W) :
  match func w with
  | Err e => record_runtime func w = Err e
  | Ok (r, w') => exists r', record_runtime func w = Ok (r', w') /\
      (r = PNone -> r' = PTime (elapsed w w')) /\
      (forall l, r = PTuple l -> unpack A T (length l + 1) r' = Ok (l ++ [PTime (elapsed w w')])) /\
      (r <> PNone -> (forall l, r <> PTuple l) -> unpack A T 2 r' = Ok [r; PTime (elapsed w w')])
  end.
Proof.
  unfold Runtime.record_runtime. destruct (func w) as [[r w']|e]; cbn [bind]; auto.
  eexists. split; [reflexivity|]. split; [intros ->; reflexivity|]. split.
  - intros l ->. cbn [attach unpack]. rewrite app_length. cbn [length]. rewrite Nat.eqb_refl. reflexivity.
  - intros H1 H2. destruct r; cbn; auto; [congruence|exfalso; eapply H2; reflexivity].
Qed.

(** hence the bond update, which unpacks three names from update and one from
    absorb_bond, never fails on the shape of the results *)
Theorem C60_callers (update absorb : action) (store : pyval -> pyval -> W -> W) (w w1 w2 : W) (a1 a2 : pyval) :
  update w = Ok (PTuple [a1; a2], w1) -> absorb (store a1 a2 w1) = Ok (PNone, w2) ->
  bond_update W A T elapsed update absorb store w =
  Ok (PTuple [PTime (elapsed (store a1 a2 w1) w2); PTime (elapsed w w1)], w2).
Proof.
  intros H1 H2. unfold bond_update, Runtime.record_runtime. rewrite H1. cbn [bind attach app].
  cbn [unpack length Nat.eqb bind]. rewrite H2. reflexivity.
Qed.

(** the averaging variant performs warmup + record calls, keeps all their
    effects, and attaches the mean of the last ones to the last result *)
Variables (tzero : T) (tadd : T -> T -> T) (tdiv : T -> nat -> T).
Theorem C60_average (func : action) (nr nw : nat) (w w1 w2 : W) (l1 l2 : list (pyval * T)) :
  calls W A T elapsed func nw w = Ok l1 -> repeat_calls W A T func nw w = Ok w1 ->
  calls W A T elapsed func nr w1 = Ok l2 -> repeat_calls W A T func nr w1 = Ok w2 ->
  record_runtime_ave W A T elapsed tzero tadd tdiv func nr nw w =
  match rev l2 with
  | [] => Err ZeroDivision
  | (r, _) :: _ => Ok (attach A T r (tdiv (fold_left tadd (map snd l2) tzero) nr), w2)
  end.
Proof.
  intros H1 H2 H3 H4. unfold record_runtime_ave. rewrite (warmup_spec W A T elapsed), H1. cbn [bind]. rewrite H2. cbn [bind].
  rewrite timed_spec, H3. cbn [bind]. rewrite H4. cbn [bind].
  pose proof (calls_length _ _ _ _ _ _ _ _ H3) as L.
  destruct (rev l2) as [|[r t] l] eqn:E.
  - assert (l2 = []) by (rewrite <- (rev_involutive l2), E; reflexivity). subst. reflexivity.
  - destruct nr; [destruct l2; [discriminate|discriminate]|]. reflexivity.
Qed.
End RuntimeProps.
Example C60_example :
  let f : action nat nat nat := fun w => Ok (PTuple nat nat [POther nat nat 7; POther nat nat 8], w + 5) in
  record_runtime nat nat nat (fun a b => b - a) f 3 = Ok (PTuple nat nat [POther _ _ 7; POther _ _ 8; PTime _ _ 5], 8) /\
  record_runtime_ave nat nat nat (fun a b => b - a) 0 Nat.add Nat.div f 4 2 3 =
    Ok (PTuple nat nat [POther _ _ 7; POther _ _ 8; PTime _ _ 5], 33).
Proof. vm_compute. auto. Qed.

(** ---------------- C57: configuration ---------------- *)
Local Open Scope string_scope.
(** an option as the user wrote it, if at all *)
Definition user_option (user : dict) (section key : string) : option val :=
  match dlookup user section with Some (VDict d) => dlookup d key | _ => None end.
Definition dflt (o : option val) (d : val) : val := match o with Some v => v | None => d end.

Lemma config_parts w user g : ipeps_config w user = Ok g ->
  exists f tn ct ev phys, construct_dc IpepsFields user = Ok f /\ set_dtype w (fget f "dtype") = Ok (g_dtype g) /\
   set_device w (fget f "device") = Ok (g_device g) /\ call_dc TNConfig (fget f "TN") = Ok tn /\
   call_dc CTMRGConfig (fget f "ctmrg") = Ok ct /\ call_dc EvolutionConfig (fget f "evolution") = Ok ev /\
   phys_of tn = Ok phys /\ call_model (g_dtype g) (g_device g) phys (fget f "model") = Ok (g_model g) /\
   g_TN g = tn /\ g_ctmrg g = disable_pbar_if_slurm w ct /\
   g_evolution g = disable_pbar_if_slurm w (validate_backend w ev).
Proof.
  unfold ipeps_config. intros H.
  destruct (construct_dc IpepsFields user) as [f|] eqn:E0; [|discriminate]. cbn [bind] in H.
  destruct (set_dtype w _) eqn:E1; [|discriminate]. cbn [bind] in H.
  destruct (set_device w _) eqn:E2; [|discriminate]. cbn [bind] in H.
  destruct (call_dc TNConfig _) as [tn|] eqn:E3; [|discriminate]. cbn [bind] in H.
  destruct (call_dc CTMRGConfig _) as [ct|] eqn:E4; [|discriminate]. cbn [bind] in H.
  destruct (call_dc EvolutionConfig _) as [ev|] eqn:E5; [|discriminate]. cbn [bind] in H.
  destruct (phys_of tn) as [ph|] eqn:E6; [|discriminate]. cbn [bind] in H.
  destruct (call_model _ _ _ _) eqn:E7; [|discriminate]. cbn [bind] in H. injection H as <-.
  exists f, tn, ct, ev, ph. cbn. auto 12.
Qed.

Lemma field_of user f k : construct_dc IpepsFields user = Ok f -> In k (dc_fields IpepsFields) ->
  fget f k = dflt (dlookup user k) (dflt (dlookup (dc_opt IpepsFields) k) VNone).
Proof.
  intros H Hk. apply construct_dc_ok in H as (_ & _ & H). unfold fget. rewrite H.
  destruct (in_dec _ _ _); [|contradiction]. unfold dflt. destruct (dlookup user k); auto.
Qed.

Lemma section_of user f sec c d : construct_dc IpepsFields user = Ok f -> In sec ["TN"; "ctmrg"; "evolution"] ->
  call_dc c (fget f sec) = Ok d -> dc_req c = [] ->
  forall k, dlookup d k = if in_dec string_dec k (map fst (dc_opt c))
     then Some (dflt (user_option user sec k) (dflt (dlookup (dc_opt c) k) VNone)) else None.
Proof.
  intros H Hs Hc Hr k. assert (HI : In sec (dc_fields IpepsFields)) by (cbn in *; intuition).
  rewrite (field_of user f sec H HI) in Hc.
  destruct (construct_dc_ok _ _ _ H) as (_ & Req & _).
  unfold user_option. destruct (dlookup user sec) as [v|] eqn:E; cbn [dflt] in Hc.
  - destruct v; cbn in Hc; try discriminate. destruct (construct_dc_ok _ _ _ Hc) as (_ & _ & G).
    rewrite G. unfold dc_fields. rewrite Hr. cbn [app]. destruct (in_dec _ _ _); auto.
  - assert (N : sec <> "TN").
    { intros ->. apply dlookup_none in E. apply E. apply Req. cbn. auto. }
    assert (D : dflt (dlookup (dc_opt IpepsFields) sec) VNone = VDict []).
    { cbn in Hs. destruct Hs as [<- |[<- |[<- |[]]]]; [congruence|reflexivity|reflexivity]. }
    rewrite D in Hc. cbn [call_dc] in Hc. destruct (construct_dc_ok _ _ _ Hc) as (_ & _ & G).
    rewrite G. unfold dc_fields. rewrite Hr. cbn [app dlookup]. destruct (in_dec _ _ _); auto.
Qed.

(** every option is the user's value if given; otherwise the documented default
    (C57_defaults below gives these literally) *)
Theorem C57_user_options (w : world) (user : dict) (g : config) :
  ipeps_config w user = Ok g ->
  (forall k, dlookup (g_TN g) k = match dlookup (dc_opt TNConfig) k with None => None
     | Some d => Some (dflt (user_option user "TN" k) d) end) /\
  (forall k, k <> "disable_progressbar" -> dlookup (g_ctmrg g) k = match dlookup (dc_opt CTMRGConfig) k with None => None
     | Some d => Some (dflt (user_option user "ctmrg" k) d) end) /\
  (forall k, k <> "disable_progressbar" -> k <> "backend" ->
     dlookup (g_evolution g) k = match dlookup (dc_opt EvolutionConfig) k with None => None
     | Some d => Some (dflt (user_option user "evolution" k) d) end).
Proof.
  intros H. destruct (config_parts w user g H) as (f & tn & ct & ev & ph & E0 & _ & _ & E3 & E4 & E5 & _ & _ & -> & -> & ->).
  assert (X : forall c k, match dlookup (dc_opt c) k with None => ~ In k (map fst (dc_opt c)) | Some _ => In k (map fst (dc_opt c)) end).
  { intros c k. destruct (dlookup (dc_opt c) k) eqn:E; [|now apply dlookup_none].
    apply dlookup_in in E. apply in_map_iff. exists (k, v). auto. }
  assert (Y : forall d k, k <> "disable_progressbar" -> dlookup (disable_pbar_if_slurm w d) k = dlookup d k).
  { intros d k N. unfold disable_pbar_if_slurm. destruct (w_env w _); auto. rewrite dlookup_replace.
    destruct (dlookup d k); auto. destruct (string_dec _ k); congruence. }
  assert (Z : forall d k, k <> "backend" -> dlookup (validate_backend w d) k = dlookup d k).
  { intros d k N. unfold validate_backend.
    destruct (dlookup d "backend") as [[]|]; auto. destruct (string_dec s "cutensor") as [-> |Ns].
    - destruct (w_cutensor w); auto. rewrite dlookup_replace. destruct (dlookup d k); auto. destruct (string_dec _ k); congruence.
    - reflexivity. }
  split; [|split].
  - intros k. rewrite (section_of user f "TN" TNConfig tn E0 ltac:(cbn; auto) E3 eq_refl).
    specialize (X TNConfig k). destruct (dlookup (dc_opt TNConfig) k); destruct (in_dec _ _ _); auto; contradiction.
  - intros k N. rewrite Y by auto. rewrite (section_of user f "ctmrg" CTMRGConfig ct E0 ltac:(cbn; auto) E4 eq_refl).
    specialize (X CTMRGConfig k). destruct (dlookup (dc_opt CTMRGConfig) k); destruct (in_dec _ _ _); auto; contradiction.
  - intros k N N'. rewrite Y, Z by auto. rewrite (section_of user f "evolution" EvolutionConfig ev E0 ltac:(cbn; auto) E5 eq_refl).
    specialize (X EvolutionConfig k). destruct (dlookup (dc_opt EvolutionConfig) k); destruct (in_dec _ _ _); auto; contradiction.
Qed.

(** the documented defaults, for every environment outside SLURM *)
Theorem C57_defaults (w : world) :
  w_env w "SLURM_JOB_ID" = None -> w_attr w "float64" = Ok (VDtype "float64") -> w_device w "cpu" = Ok cpu ->
  ipeps_config w [("TN", VDict [])] = Ok (Config (VDtype "float64") (VDevice (Dev "cpu" None))
    [("nx", VInt 2); ("ny", VInt 2); ("dims", VDict [("phys", VInt 2); ("bond", VInt 2); ("chi", VInt 20)])]
    [("steps", VInt 40); ("projectors", VStr "half-system"); ("svd_type", VStr "rsvd"); ("svd_cutoff", VFloat 1 (-12));
     ("rsvd_niter", VInt 2); ("rsvd_oversampling", VInt 2); ("disable_progressbar", VBool false)]
    [("backend", VStr "torch"); ("update_type", VStr "full"); ("use_gauge_fix", VBool true);
     ("gauge_fix_atol", VFloat 1 (-12)); ("positive_approx_cutoff", VFloat 1 (-12)); ("als_niter", VInt 100);
     ("als_tol", VFloat 1 (-15)); ("als_method", VStr "cholesky"); ("als_epsilon", VFloat 1 (-12));
     ("disable_progressbar", VBool false)]
    [("dtype", VDtype "float64"); ("device", VDevice (Dev "cpu" None)); ("dim", VInt 2); ("name", VNone); ("params", VNone)]).
Proof.
  intros H1 H2 H3. unfold ipeps_config. cbn. rewrite H2. cbn. unfold set_device. rewrite H3. cbn.
  unfold disable_pbar_if_slurm. rewrite H1. reflexivity.
Qed.

(** the device: "cuda" only if available; any other request is kept *)
Theorem C57_device (w : world) (user : dict) (g : config) :
  ipeps_config w user = Ok g ->
  (g_device g = VDevice (Dev "cuda" None) -> w_cuda w = true) /\
  match dflt (dlookup user "device") (VStr "cpu") with
  | VNone => g_device g = VDevice (Dev (if w_cuda w then "cuda" else "cpu") None)
  | VStr s => exists d, w_device w s = Ok d /\
      g_device g = VDevice (if device_eq_dec d (Dev "cuda" None) then if w_cuda w then d else Dev "cpu" None else d)
  | VDevice d => g_device g = VDevice (if device_eq_dec d (Dev "cuda" None) then if w_cuda w then d else Dev "cpu" None else d)
  | v => g_device g = v
  end.
Proof.
  intros H. destruct (config_parts w user g H) as (f & tn & ct & ev & ph & E0 & _ & E2 & _).
  rewrite (field_of user f "device" E0) in E2 by (cbn; auto).
  change (dflt (dlookup (dc_opt IpepsFields) "device") VNone) with (VStr "cpu") in E2.
  assert (P : forall x d, Ok (VDevice (if device_eq_dec x cuda then if w_cuda w then x else cpu else x)) = Ok d ->
     d = VDevice cuda -> w_cuda w = true).
  { intros x d X ->. injection X as X. destruct (device_eq_dec x cuda) as [-> |]; [|congruence].
    destruct (w_cuda w); auto. discriminate. }
  unfold set_device in E2. destruct (dflt _ _); cbn [bind] in E2;
    try (injection E2 as <-; split; [discriminate|reflexivity]).
  - split; [eapply P; eauto|]. injection E2 as <-. destruct (w_cuda w); reflexivity.
  - destruct (w_device w s) as [d|] eqn:Ed; [|discriminate]. cbn [bind] in E2. split; [eapply P; eauto|].
    exists d. split; auto. injection E2 as <-. reflexivity.
  - split; [eapply P; eauto|]. injection E2 as <-. reflexivity.
Qed.

(** the dtype: a name is looked up in torch, None means float64, anything else is
    kept; the Hamiltonian is built with the same dtype *)
Theorem C57_dtype (w : world) (user : dict) (g : config) :
  ipeps_config w user = Ok g ->
  match dflt (dlookup user "dtype") (VStr "float64") with
  | VNone => g_dtype g = VDtype "float64"
  | VStr s => w_attr w s = Ok (g_dtype g)
  | v => g_dtype g = v
  end /\ dlookup (g_model g) "dtype" = Some (g_dtype g) /\ dlookup (g_model g) "device" = Some (g_device g).
Proof.
  intros H. destruct (config_parts w user g H) as (f & tn & ct & ev & ph & E0 & E1 & _ & _ & _ & _ & _ & E6 & _).
  rewrite (field_of user f "dtype" E0) in E1 by (cbn; auto).
  change (dflt (dlookup (dc_opt IpepsFields) "dtype") VNone) with (VStr "float64") in E1.
  split; [|split].
  - unfold set_dtype in E1. destruct (dflt _ _); auto; congruence.
  - unfold call_model in E6. destruct (fget f "model"); try discriminate. destruct (existsb _ d); [discriminate|].
    apply construct_dc_ok in E6 as (_ & _ & E6). rewrite E6. reflexivity.
  - unfold call_model in E6. destruct (fget f "model"); try discriminate. destruct (existsb _ d); [discriminate|].
    apply construct_dc_ok in E6 as (_ & _ & E6). rewrite E6. reflexivity.
Qed.
(** the model section: its dimension is the physical dimension of the TN section,
    name and parameters are the user's *)
Theorem C57_model (w : world) (user : dict) (g : config) :
  ipeps_config w user = Ok g ->
  (exists d, dlookup (g_TN g) "dims" = Some (VDict d) /\ dlookup (g_model g) "dim" = dlookup d "phys" /\ dlookup d "phys" <> None) /\
  (forall k, k = "name" \/ k = "params" -> dlookup (g_model g) k = Some (dflt (user_option user "model" k) VNone)).
Proof.
  intros H. destruct (config_parts w user g H) as (f & tn & ct & ev & ph & E0 & _ & _ & _ & _ & _ & E5 & E6 & -> & _).
  unfold phys_of, fget in E5. destruct (dlookup tn "dims") as [[ | | | | |l| | | ]|]; try discriminate.
  destruct (dlookup l "phys") as [v|] eqn:Ev; [|discriminate]. injection E5 as <-.
  rewrite (field_of user f "model" E0) in E6 by (cbn; auto 10).
  change (dflt (dlookup (dc_opt IpepsFields) "model") VNone) with (VDict []) in E6.
  unfold call_model in E6. destruct (dflt (dlookup user "model") (VDict [])) as [ | | | | |d| | | ] eqn:Ed; try discriminate.
  destruct (existsb _ d); [discriminate|]. apply construct_dc_ok in E6 as (_ & _ & E6). split.
  - exists l. rewrite E6, Ev. repeat split; discriminate.
  - intros k Hk. unfold user_option. unfold dflt in Ed.
    assert (Hd : match dlookup user "model" with Some (VDict d0) => dlookup d0 k | _ => None end = dlookup d k).
    { destruct (dlookup user "model") as [v'|]; [subst v'; reflexivity|]. injection Ed as <-. reflexivity. }
    rewrite Hd, E6. destruct Hk as [-> | ->]; cbn; destruct (dlookup d _); reflexivity.
Qed.
Example C57_model_example : forall w g,
  ipeps_config w [("TN", VDict [("dims", VDict [("bond", VInt 3); ("phys", VInt 5); ("chi", VInt 9)])]); ("model", VDict [("name", VStr "ising")])] = Ok g ->
  dlookup (g_model g) "dim" = Some (VInt 5) /\ dlookup (g_model g) "name" = Some (VStr "ising").
Proof.
  intros w g H. destruct (C57_model w _ g H) as [(d & Hd & -> & _) Hn]. rewrite (Hn "name") by auto.
  destruct (C57_user_options w _ g H) as [Ht _]. rewrite Ht in Hd. cbn in Hd. injection Hd as <-. auto.
Qed.
(** None given explicitly *)
Example C57_dtype_none : forall w g, ipeps_config w [("TN", VDict []); ("dtype", VNone)] = Ok g -> g_dtype g = VDtype "float64".
Proof. intros w g H. exact (proj1 (C57_dtype w _ g H)). Qed.

(** the fallback does not see an indexed device *)
Definition bare_world : world :=
  World (fun _ => None) false false (fun s => Ok (VDtype s))
    (fun s => if string_dec s "cuda:0" then Ok (Dev "cuda" (Some 0)) else Ok (Dev s None)).
Theorem C57_no_cuda_device_refuted : exists w user g,
  ipeps_config w user = Ok g /\ w_cuda w = false /\ exists i, g_device g = VDevice (Dev "cuda" i).
Proof.
  eexists bare_world, [("TN", VDict []); ("device", VStr "cuda:0")], _. split; [reflexivity|]. split; [reflexivity|].
  exists (Some 0). reflexivity.
Qed.

(** backend and progress bars *)
Theorem C57_backend (w : world) (user : dict) (g : config) :
  ipeps_config w user = Ok g ->
  let asked := dflt (user_option user "evolution" "backend") (VStr "torch") in
  dlookup (g_evolution g) "backend" =
    Some (match asked with VStr s => if string_dec s "cutensor" then if w_cutensor w then asked else VStr "torch" else asked
          | _ => asked end).
Proof.
  intros H asked. destruct (config_parts w user g H) as (f & tn & ct & ev & ph & E0 & _ & _ & _ & _ & E5 & _ & _ & _ & _ & ->).
  assert (Y : forall d, dlookup (disable_pbar_if_slurm w d) "backend" = dlookup d "backend").
  { intros d. unfold disable_pbar_if_slurm. destruct (w_env w _); auto. rewrite dlookup_replace. destruct (dlookup d "backend"); auto. }
  rewrite Y. pose proof (section_of user f "evolution" EvolutionConfig ev E0 ltac:(cbn; auto) E5 eq_refl "backend") as B.
  cbn in B. fold asked in B. unfold validate_backend. rewrite B.
  destruct asked as [| | | |s| | | |]; try exact B.
  destruct (string_dec s "cutensor") as [-> |Ns].
  - destruct (w_cutensor w); [exact B|]. rewrite dlookup_replace, B. reflexivity.
  - exact B.
Qed.

Theorem C57_progressbar (w : world) (user : dict) (g : config) (sec : string) (d : dict) :
  ipeps_config w user = Ok g -> (sec, d) = ("ctmrg", g_ctmrg g) \/ (sec, d) = ("evolution", g_evolution g) ->
  dlookup d "disable_progressbar" = Some
    (match w_env w "SLURM_JOB_ID" with
     | None => dflt (user_option user sec "disable_progressbar") (VBool false)
     | Some _ =>
         let name := match w_env w "SLURM_JOB_NAME" with Some s => s | None => "" end in
         let part := match w_env w "SLURM_JOB_PARTITION" with Some s => s | None => "" end in
         VBool (negb (contains "interactive" name || String.eqb part "interactive"))
     end).
Proof.
  intros H Hs. destruct (config_parts w user g H) as (f & tn & ct & ev & ph & E0 & _ & _ & _ & E4 & E5 & _ & _ & _ & Gc & Ge).
  assert (Y : forall d v, dlookup d "disable_progressbar" = Some v ->
    dlookup (disable_pbar_if_slurm w d) "disable_progressbar" = Some (match w_env w "SLURM_JOB_ID" with
     | None => v | Some _ => VBool (negb (contains "interactive" (getenv w "SLURM_JOB_NAME") || String.eqb (getenv w "SLURM_JOB_PARTITION") "interactive")) end)).
  { intros d0 v Hv. unfold disable_pbar_if_slurm. destruct (w_env w "SLURM_JOB_ID"); [|exact Hv].
    rewrite dlookup_replace, Hv. destruct (string_dec "disable_progressbar" "disable_progressbar"); [|congruence].
    do 2 f_equal. destruct (contains "interactive" _); cbn [orb negb]; auto.
    destruct (string_dec _ _) as [X|N]; [rewrite X; reflexivity|]. apply String.eqb_neq in N. rewrite N. reflexivity. }
  destruct Hs as [Hs|Hs]; injection Hs as -> ->.
  - rewrite Gc. pose proof (section_of user f "ctmrg" CTMRGConfig ct E0 ltac:(cbn; auto) E4 eq_refl "disable_progressbar") as B.
    cbn in B. rewrite (Y _ _ B). reflexivity.
  - rewrite Ge. pose proof (section_of user f "evolution" EvolutionConfig ev E0 ltac:(cbn; auto) E5 eq_refl "disable_progressbar") as B.
    cbn in B. rewrite (Y _ (dflt (user_option user "evolution" "disable_progressbar") (VBool false))); [reflexivity|].
    unfold validate_backend. destruct (dlookup ev "backend") as [[]|]; try exact B.
    destruct (string_dec s "cutensor") as [-> |Ns].
    + destruct (w_cutensor w); auto. rewrite dlookup_replace, B. reflexivity.
    + exact B.
Qed.

(** misspelt options and a missing TN section are refused *)
Theorem C57_unknown_option (w : world) (user d : dict) (sec k : string) (g : config) :
  ipeps_config w user = Ok g ->
  In "TN" (map fst user) /\
  (forall k, In k (map fst user) -> In k ["TN"; "dtype"; "device"; "ctmrg"; "evolution"; "model"]) /\
  (dlookup user sec = Some (VDict d) -> In k (map fst d) ->
   In (sec, k) (map (pair "TN") ["nx"; "ny"; "dims"] ++
     map (pair "ctmrg") ["steps"; "projectors"; "svd_type"; "svd_cutoff"; "rsvd_niter"; "rsvd_oversampling"; "disable_progressbar"] ++
     map (pair "evolution") ["backend"; "update_type"; "use_gauge_fix"; "gauge_fix_atol"; "positive_approx_cutoff";
       "als_niter"; "als_tol"; "als_method"; "als_epsilon"; "disable_progressbar"] ++
     map (pair "model") ["name"; "params"]) \/ sec = "dtype" \/ sec = "device").
Proof.
  intros H. destruct (config_parts w user g H) as (f & tn & ct & ev & ph & E0 & _ & _ & E3 & E4 & E5 & _ & E7 & _).
  destruct (construct_dc_ok _ _ _ E0) as (A & B & _).
  split; [apply B; cbn; auto|]. split; [exact A|]. intros Hs Hk.
  assert (Hsec : In sec (dc_fields IpepsFields)).
  { apply A. apply dlookup_in in Hs. apply in_map_iff. exists (sec, VDict d). auto. }
  assert (F : fget f sec = VDict d) by (rewrite (field_of user f sec E0 Hsec), Hs; reflexivity).
  assert (P : forall c x, call_dc c (fget f sec) = Ok x -> In k (dc_fields c)).
  { intros c x. rewrite F. cbn [call_dc]. intros X. apply construct_dc_ok in X as (X & _). auto. }
  change (In sec ["TN"; "dtype"; "device"; "ctmrg"; "evolution"; "model"]) in Hsec.
  destruct Hsec as [<- |[<- |[<- |[<- |[<- |[<- |[]]]]]]]; auto; left; apply in_app_iff.
  - left. apply in_map. exact (P _ _ E3).
  - right. apply in_app_iff. left. apply in_map. exact (P _ _ E4).
  - right. apply in_app_iff. right. apply in_app_iff. left. apply in_map. exact (P _ _ E5).
  - right. apply in_app_iff. right. apply in_app_iff. right. apply in_map.
    rewrite F in E7. cbn [call_model] in E7. destruct (existsb _ d) eqn:X; [discriminate|].
    apply construct_dc_ok in E7 as (Y & _). specialize (Y k).
    rewrite map_app, in_app_iff in Y. specialize (Y (or_intror Hk)). cbn in Y.
    apply in_map_iff in Hk as (p & <- & Hp).
    assert (Q : mem_str (fst p) ["dtype"; "device"; "dim"] = false).
    { destruct (mem_str (fst p) ["dtype"; "device"; "dim"]) eqn:Q; auto. exfalso.
      assert (existsb (fun p => mem_str (fst p) ["dtype"; "device"; "dim"]) d = true) by (apply existsb_exists; eauto). congruence. }
    unfold mem_str in Q. destruct (in_dec _ _ _) as [|N] in Q; [discriminate|]. cbn in N. cbn. intuition.
Qed.

Example C57_example :
  let w := World (fun k => if string_dec k "SLURM_JOB_ID" then Some "17" else if string_dec k "SLURM_JOB_NAME" then Some "my-interactive-job" else None)
             false false (fun s => Ok (VDtype s)) (fun s => Ok (Dev s None)) in
  match ipeps_config w [("TN", VDict [("nx", VInt 3)]); ("device", VStr "cuda"); ("dtype", VNone);
                        ("evolution", VDict [("backend", VStr "cutensor"); ("disable_progressbar", VBool true)])] with
  | Ok g => (g_device g, dlookup (g_TN g) "nx", dlookup (g_evolution g) "backend", dlookup (g_evolution g) "disable_progressbar")
  | Err _ => (VNone, None, None, None)
  end = (VDevice (Dev "cpu" None), Some (VInt 3), Some (VStr "torch"), Some (VBool false)) /\
  ipeps_config w [("TN", VDict [("n_x", VInt 3)])] = Err TypeError.
Proof. vm_compute. auto. Qed.

Print Assumptions C39_backends_agree.
Print Assumptions C39_unknown_method.
Print Assumptions C40_number_of_sweeps.
Print Assumptions C40_at_least_three.
Print Assumptions C54_in_bounds.
Print Assumptions C54_injective.
Print Assumptions C54_dense.
Print Assumptions C54_row_major.
Print Assumptions C54_strides_bounded.
Print Assumptions C52_lookup.
Print Assumptions C52_update.
Print Assumptions C61_weights_reset.
Print Assumptions C61_split_refuted.
Print Assumptions C53_when.
Print Assumptions C53_write_back.
Print Assumptions C53_first_result_lost.
Print Assumptions C59_neel_iff_even.
Print Assumptions C59_staggered.
Print Assumptions C59_default_state.
Print Assumptions C62_bond_direction.
Print Assumptions C60_wrapper.
Print Assumptions C60_callers.
Print Assumptions C60_average.
Print Assumptions C57_user_options.
Print Assumptions C57_defaults.
Print Assumptions C57_device.
Print Assumptions C57_dtype.
Print Assumptions C57_model.
Print Assumptions C57_no_cuda_device_refuted.
Print Assumptions C57_backend.
Print Assumptions C57_progressbar.
Print Assumptions C57_unknown_option.
