(** Properties C04, C05, C06: the gate table and the Hamiltonian objects. *)
From Coq Require Import List Arith Lia.
From Verif Require Import Lattice LatticeFacts Gate.
Import ListNotations.

(** C04.  Whatever table and objects earlier constructions left ([t], [h]), a
    construction for a model that builds its bond terms on demand leaves in the
    table, for each bond, the gate of that model, and for each site with a
    one-site term its gate; no object that existed before is changed. *)
Theorem C04_gates_of_own_model (M G D : Type) (madd wrap : M -> M -> M)
    (expm1 expm2 : D -> M -> G) (one : site -> option M) (two : bond -> M) (dtau : D)
    (bonds : list bond) (sites : list site) (t : table G) (h : list M) :
  let th := make_gate M G D madd wrap expm1 expm2 (Model M one (Fresh M two)) dtau bonds sites (t, h) in
  (forall b, In b bonds -> fst th (KBond b) =
     Some (expm2 dtau (match one (b_s1 b), one (b_s2 b) with
                       | Some h1, Some h2 => madd (two b) (wrap h1 h2)
                       | _, _ => two b end))) /\
  (forall s h1, In s sites -> one s = Some h1 -> fst th (KSite s) = Some (expm1 dtau h1)) /\
  (forall i m, nth_error h i = Some m -> nth_error (snd th) i = Some m).
Proof.
  cbv zeta. unfold make_gate.
  destruct (build_two_fresh M G D madd wrap expm2 one two dtau bonds
     (build_one_site_gates M G D expm1 (Model M one (Fresh M two)) dtau sites t) h)
    as (junk & E1 & E2 & E3).
  destruct (build_one_spec M G D expm1 (Model M one (Fresh M two)) dtau sites t) as (O1 & _ & _).
  split; [exact E2|]. split.
  - intros s h1 Hs H1. rewrite E3 by discriminate. exact (O1 s Hs h1 H1).
  - intros i m Hm. rewrite E1. rewrite nth_error_app1; auto.
    apply nth_error_Some. congruence.
Qed.

(** C05.  In a sequence of constructions (of any models), a key has the value
    given by the last construction that covers it, as if the table had been
    empty before ([t'] is arbitrary), and its old value if none covers it. *)
Theorem C05_last_construction_wins (M G D : Type) (madd wrap : M -> M -> M)
    (expm1 expm2 : D -> M -> G) (pre post : list (construction M D)) (c : construction M D)
    (k : key) (th : table G * list M) (t' : table G) :
  let run cs := constructs M G D madd wrap expm1 expm2 cs th in
  covers M D c k -> (forall c', In c' post -> ~ covers M D c' k) ->
  refs_ok M D c (snd (run pre)) ->
  fst (run (pre ++ c :: post)) k =
  fst (construct M G D madd wrap expm1 expm2 c (t', snd (run pre))) k.
Proof. intros run. exact (constructs_last M G D madd wrap expm1 expm2 pre c post k th t'). Qed.

Theorem C05_uncovered_keys_keep (M G D : Type) (madd wrap : M -> M -> M)
    (expm1 expm2 : D -> M -> G) (cs : list (construction M D)) (k : key) (th : table G * list M) :
  (forall c, In c cs -> ~ covers M D c k) ->
  fst (constructs M G D madd wrap expm1 expm2 cs th) k = fst th k.
Proof. exact (constructs_uncovered M G D madd wrap expm1 expm2 cs th k). Qed.

(** What two_site_hamiltonian(bond).mat reads as, e.g. in a later energy
    measurement. *)
Definition ham_read (M : Type) (m : model M) (b : bond) (h : list M) : option M :=
  let '(r, h') := call_two_site M m b h in nth_error h' r.

(** C06, models that build their operators on demand: after any number of
    constructions the Hamiltonian reads the same, every object that existed before
    (of this or another model) has its value, and the gate of a bond is made of
    the bond's own terms with the last time step. *)
Theorem C06_fresh_model_keeps_hamiltonian (M G D : Type) (madd wrap : M -> M -> M)
    (expm1 expm2 : D -> M -> G) (one : site -> option M) (two : bond -> M) (dtaus : list D) (dtau : D)
    (bonds : list bond) (sites : list site) (t : table G) (h : list M) (b : bond) :
  let m := Model M one (Fresh M two) in
  let th := make_gates M G D madd wrap expm1 expm2 m (dtaus ++ [dtau]) bonds sites (t, h) in
  ham_read M m b (snd th) = Some (two b) /\
  (forall i x, nth_error h i = Some x -> nth_error (snd th) i = Some x) /\
  (In b bonds -> fst th (KBond b) =
     Some (expm2 dtau (match one (b_s1 b), one (b_s2 b) with
                       | Some h1, Some h2 => madd (two b) (wrap h1 h2)
                       | _, _ => two b end))).
Proof.
  cbv zeta. split; [|split].
  - unfold ham_read, call_two_site; cbn [two_site_ham].
    rewrite nth_error_app2, Nat.sub_diag by lia. reflexivity.
  - generalize (dtaus ++ [dtau]) as ds. intros ds; revert t h.
    induction ds as [|d ds IH]; intros t h i x Hx; [exact Hx|]. cbn [make_gates].
    destruct (C04_gates_of_own_model M G D madd wrap expm1 expm2 one two d bonds sites t h) as (_ & _ & A).
    destruct (make_gate _ _ _ _ _ _ _ _ _ _ _ _) as [t1 h1]. apply IH, A, Hx.
  - intros Hb. revert t h. induction dtaus as [|d ds IH]; intros t h; cbn [app make_gates].
    + destruct (C04_gates_of_own_model M G D madd wrap expm1 expm2 one two dtau bonds sites t h) as (A & _).
      apply A, Hb.
    + destruct (make_gate _ _ _ _ _ _ _ _ _ _ _ _) as [t1 h1]. apply IH.
Qed.

(** C06, models that keep their operator objects ([f b] is the object of bond
    b, possibly the same for all bonds).  The gate of a bond contains the
    one-site parts of all the bonds up to it that are served by its object, and
    after n constructions an object holds its original value plus, n times
    over, the one-site parts of all its bonds. *)
Theorem C06_cached_gates (M G D : Type) (madd wrap : M -> M -> M)
    (expm1 expm2 : D -> M -> G) (one : site -> option M) (f : bond -> nat) (dtau : D)
    (bonds : list bond) (sites : list site) (t : table G) (h : list M)
    (pre post : list bond) (b : bond) (m0 : M) :
  NoDup bonds -> (forall b, In b bonds -> f b < length h) ->
  bonds = pre ++ b :: post -> nth_error h (f b) = Some m0 ->
  fst (make_gate M G D madd wrap expm1 expm2 (Model M one (Cached M f)) dtau bonds sites (t, h)) (KBond b)
  = Some (expm2 dtau
      (fold_left (fun m b' => match one (b_s1 b'), one (b_s2 b') with
                              | Some h1, Some h2 => madd m (wrap h1 h2)
                              | _, _ => m end)
         (filter (fun b' => f b' =? f b) (pre ++ [b])) m0)).
Proof.
  intros Hnd Hf E Hm. unfold make_gate.
  destruct (build_two_cached M G D madd wrap expm2 one f dtau bonds
    (build_one_site_gates M G D expm1 (Model M one (Cached M f)) dtau sites t) h Hnd Hf)
    as (_ & _ & H & _).
  rewrite (H pre b post m0 E Hm). unfold accumulate, served, wrapped_part.
  do 2 f_equal. generalize (filter (fun b' => f b' =? f b) (pre ++ [b])) as l.
  intros l. revert m0 Hm. clear. intros m0 _; revert m0.
  induction l as [|x l IH]; intros m0; [reflexivity|]. cbn [fold_left].
  destruct (one (b_s1 x)), (one (b_s2 x)); apply IH.
Qed.

Theorem C06_cached_hamiltonian_after (M G D : Type) (madd wrap : M -> M -> M)
    (expm1 expm2 : D -> M -> G) (one : site -> option M) (f : bond -> nat) (dtaus : list D)
    (bonds : list bond) (sites : list site) (t : table G) (h : list M) (b : bond) (m0 : M) :
  let m := Model M one (Cached M f) in
  NoDup bonds -> (forall b, In b bonds -> f b < length h) -> ham_read M m b h = Some m0 ->
  ham_read M m b (snd (make_gates M G D madd wrap expm1 expm2 m dtaus bonds sites (t, h)))
  = Some (fold_left (fun m b' => match one (b_s1 b'), one (b_s2 b') with
                              | Some h1, Some h2 => madd m (wrap h1 h2)
                              | _, _ => m end)
            (concat (repeat (filter (fun b' => f b' =? f b) bonds) (length dtaus))) m0).
Proof.
  cbv zeta. unfold ham_read, call_two_site; cbn [two_site_ham]. intros Hnd Hf Hm.
  destruct (make_gates_cached M G D madd wrap expm1 expm2 one f bonds sites Hnd dtaus t h Hf)
    as (_ & H).
  rewrite (H _ _ Hm). unfold accumulate, served, wrapped_part. f_equal.
  generalize (concat (repeat (filter (fun b0 => f b0 =? f b) bonds) (length dtaus))) as l.
  intros l. clear. revert m0. induction l as [|x l IH]; intros m0; [reflexivity|]. cbn [fold_left].
  destruct (one (b_s1 x)), (one (b_s2 x)); apply IH.
Qed.

(** Concrete cases: numbers for matrices (madd = +, wrap = h1+h2, gate = the
    pair (dtau, generator)), a 2x1 cell with one-site terms 1 on every site. *)
Definition ex_one (s : site) : option nat := Some (S (fst s)).
Definition ex_make := make_gate nat (nat * nat) nat Nat.add Nat.add (fun d h => (d, h)) (fun d h => (d, h)).
Definition ex_empty : table (nat * nat) := fun _ => None.

Example C04_example :
  let stale : table (nat * nat) := fun _ => Some (99, 99) in
  fst (ex_make (Model nat ex_one (Fresh nat (fun b => 10 * b_k b))) 7
        (build_bond_list 2 1) (build_site_list 2 1) (stale, [5])) (KBond (Bond (0,0) (1,0) 2))
  = Some (7, 23).
Proof. reflexivity. Qed.

(** The expectation "building gates leaves the model's operator alone" and "the
    gate of each bond is made of that bond's own terms" fail for a model
    returning one kept object (value 100): the four bonds of the 2x1 cell get
    103, 106, 108, 112, and the object ends at 112. *)
Example C06_hamiltonian_unchanged_refuted :
  let m := Model nat ex_one (Cached nat (fun _ => 0)) in
  let th := ex_make m 7 (build_bond_list 2 1) (build_site_list 2 1) (ex_empty, [100]) in
  map (fun b => fst th (KBond b)) (build_bond_list 2 1) =
    [Some (7, 103); Some (7, 106); Some (7, 108); Some (7, 112)] /\
  ham_read nat m (Bond (0,0) (1,0) 2) [100] = Some 100 /\
  ham_read nat m (Bond (0,0) (1,0) 2) (snd th) = Some 112.
Proof. repeat split. Qed.

(** A stale one-site gate of an earlier model survives a later construction
    whose model has no one-site term. *)
Example C05_example :
  let c1 := Constr nat nat (Model nat ex_one (Fresh nat (fun b => 10 * b_k b))) 7
              (build_bond_list 2 1) (build_site_list 2 1) in
  let c2 := Constr nat nat (Model nat (fun _ => None) (Fresh nat (fun b => 1))) 3
              (build_bond_list 2 1) (build_site_list 2 1) in
  let th := constructs nat (nat * nat) nat Nat.add Nat.add (fun d h => (d, h)) (fun d h => (d, h))
              [c1; c2] (ex_empty, []) in
  covers nat nat c2 (KBond (Bond (0,0) (1,0) 2)) /\ refs_ok nat nat c2 [] /\
  fst th (KBond (Bond (0,0) (1,0) 2)) = Some (3, 1) /\
  ~ covers nat nat c2 (KSite (1,0)) /\ fst th (KSite (1,0)) = Some (7, 2).
Proof. repeat split; simpl; auto. intros [_ H]; congruence. Qed.

Print Assumptions C04_gates_of_own_model.
Print Assumptions C05_last_construction_wins.
Print Assumptions C05_uncovered_keys_keep.
Print Assumptions C06_fresh_model_keeps_hamiltonian.
Print Assumptions C06_cached_gates.
Print Assumptions C06_cached_hamiltonian_after.
