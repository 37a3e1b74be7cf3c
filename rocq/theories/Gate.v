(** Model of acetn/evolution/gate.py.

    Matrices are elements of an arbitrary type [M]; [madd] is matrix addition,
    [wrap h1 h2] is 0.25*(kron(h1,I)+kron(I,h2)) (lines 100-106), [expm1 dtau h]
    is calculate_gate (line 125), [expm2 dtau h] is calculate_gate followed by the
    reshape to four legs (line 107).  The operator objects a model hands out live
    in a heap, because line 106 adds in place to [two_site_hamiltonian(bond).mat]. *)
From Coq Require Import List Arith Lia Bool.
From Verif Require Import Lattice.
Import ListNotations.

Section Gate.
Variables (M G D : Type).
Variable madd : M -> M -> M.
Variable wrap : M -> M -> M.
Variables (expm1 expm2 : D -> M -> G).

(** gate.py 33-60: keys of the table are sites (tuples) or Bond objects; a Bond
    never equals a tuple. *)
Inductive key := KSite (s : site) | KBond (b : bond).
Definition key_eq_dec (a b : key) : {a = b} + {a <> b}.
Proof. decide equality; [apply site_eq_dec | apply bond_eq_dec]. Defined.

(** gate.py 9: [_gate] is a class attribute, one table for the whole process. *)
Definition table := key -> option G.
Definition set_gate (t : table) (k : key) (g : G) : table :=
  fun k' => if key_eq_dec k' k then Some g else t k'.

(** Heap of operator matrices; a reference is a position. *)
Notation heap := (list M).
Definition hset (h : heap) (r : nat) (m : M) : heap :=
  firstn r h ++ match skipn r h with [] => [] | _ :: t => m :: t end.

(** What a model's two_site_hamiltonian(bond).mat is: a new object on every
    call ([Fresh f], e.g. the built-in models, which rebuild the Pauli
    operators), or an object the model keeps and returns again ([Cached f]). *)
Inductive two_site :=
| Fresh (f : bond -> M)
| Cached (f : bond -> nat).

Record model := Model { one_site_ham : site -> option M; two_site_ham : two_site }.

Definition call_two_site (m : model) (b : bond) (h : heap) : nat * heap :=
  match two_site_ham m with
  | Fresh f => (length h, h ++ [f b])
  | Cached f => (f b, h)
  end.

(** gate.py 76-80 with wrap_one_site = True (line 27), so scale = 1. *)
Definition build_one_site_gates (m : model) (dtau : D) (sites : list site) (t : table) : table :=
  fold_left (fun t s => match one_site_ham m s with
                        | Some h => set_gate t (KSite s) (expm1 dtau h)
                        | None => t end) sites t.

(** gate.py 97-107 for one bond; [None] if the reference dangles (cannot happen
    in Python, excluded by the hypotheses of the theorems). *)
Definition build_bond_gate (m : model) (dtau : D) (b : bond) (th : table * heap) : table * heap :=
  let '(t, h) := th in
  let '(r, h1) := call_two_site m b h in
  match nth_error h1 r with
  | None => (t, h1)
  | Some bond_ham =>
    match one_site_ham m (b_s1 b), one_site_ham m (b_s2 b) with
    | Some h1s, Some h2s =>
        let new := madd bond_ham (wrap h1s h2s) in
        (set_gate t (KBond b) (expm2 dtau new), hset h1 r new)
    | _, _ => (set_gate t (KBond b) (expm2 dtau bond_ham), h1)
    end
  end.

Definition build_two_site_gates (m : model) (dtau : D) (bonds : list bond) (th : table * heap)
  : table * heap :=
  fold_left (fun th b => build_bond_gate m dtau b th) bonds th.

(** gate.py 10-31 *)
Definition make_gate (m : model) (dtau : D) (bonds : list bond) (sites : list site)
    (th : table * heap) : table * heap :=
  let '(t, h) := th in
  build_two_site_gates m dtau bonds (build_one_site_gates m dtau sites t, h).

(** ---- specification side ---- *)

(** The generator a bond gate should be made of, given the bond term. *)
Definition generator (one : site -> option M) (two : bond -> M) (b : bond) : M :=
  match one (b_s1 b), one (b_s2 b) with
  | Some h1, Some h2 => madd (two b) (wrap h1 h2)
  | _, _ => two b
  end.

(** One-site part added for a bond, if any. *)
Definition wrapped_part (one : site -> option M) (b : bond) : option M :=
  match one (b_s1 b), one (b_s2 b) with
  | Some h1, Some h2 => Some (wrap h1 h2)
  | _, _ => None
  end.

(** An operator object after the one-site parts of [bs] have been added to it
    one after the other. *)
Definition accumulate (one : site -> option M) (h : M) (bs : list bond) : M :=
  fold_left (fun m b => match wrapped_part one b with Some w => madd m w | None => m end) bs h.

(** ---- lemmas ---- *)

Lemma set_gate_same t k g : set_gate t k g k = Some g.
Proof. unfold set_gate. destruct (key_eq_dec k k); congruence. Qed.
Lemma set_gate_other t k g k' : k' <> k -> set_gate t k g k' = t k'.
Proof. unfold set_gate. destruct (key_eq_dec k' k); congruence. Qed.

Lemma hset_length h r m : length (hset h r m) = length h.
Proof.
  unfold hset. rewrite app_length, firstn_length.
  destruct (skipn r h) eqn:E.
  - assert (length (skipn r h) = 0) by now rewrite E. rewrite skipn_length in H. simpl; lia.
  - assert (length (skipn r h) = S (length l)) by now rewrite E. rewrite skipn_length in H. simpl; lia.
Qed.

Lemma hset_same h r m : r < length h -> nth_error (hset h r m) r = Some m.
Proof.
  intros H. unfold hset. destruct (skipn r h) eqn:E.
  - assert (length (skipn r h) = 0) by now rewrite E. rewrite skipn_length in H0. lia.
  - rewrite nth_error_app2; rewrite firstn_length; [|lia].
    replace (r - Nat.min r (length h)) with 0 by lia. reflexivity.
Qed.

Lemma hset_other h r m i : i <> r -> nth_error (hset h r m) i = nth_error h i.
Proof.
  intros H. unfold hset.
  destruct (le_lt_dec (length h) r) as [L|L].
  - rewrite skipn_all2 by lia. rewrite firstn_all2 by lia. now rewrite app_nil_r.
  - rewrite <- (firstn_skipn r h) at 3.
    destruct (lt_dec i r).
    + rewrite !nth_error_app1; auto; rewrite firstn_length; lia.
    + rewrite !nth_error_app2; rewrite firstn_length; try lia.
      destruct (skipn r h) eqn:E; auto.
      replace (i - Nat.min r (length h)) with (S (i - r - 1)) by lia. reflexivity.
Qed.

Lemma build_bond_gate_fresh one f dtau b t h :
  exists junk, build_bond_gate (Model one (Fresh f)) dtau b (t, h) =
   (set_gate t (KBond b) (expm2 dtau (generator one f b)), h ++ [junk]).
Proof.
  unfold build_bond_gate, call_two_site; simpl.
  rewrite nth_error_app2, Nat.sub_diag by lia; simpl.
  unfold generator.
  assert (E : forall m', hset (h ++ [f b]) (length h) m' = h ++ [m']).
  { intros. unfold hset. rewrite firstn_app, firstn_all, Nat.sub_diag; simpl.
    rewrite skipn_app, skipn_all, Nat.sub_diag; simpl. now rewrite app_nil_r. }
  destruct (one (b_s1 b)), (one (b_s2 b)); try rewrite E; eexists; reflexivity.
Qed.

Lemma build_two_fresh one f dtau bonds : forall t h,
  exists junk, let r := build_two_site_gates (Model one (Fresh f)) dtau bonds (t, h) in
  snd r = h ++ junk /\
  (forall b, In b bonds -> fst r (KBond b) = Some (expm2 dtau (generator one f b))) /\
  (forall k, (forall b, In b bonds -> k <> KBond b) -> fst r k = t k).
Proof.
  induction bonds as [|b bonds IH]; intros t h.
  - exists []. simpl. rewrite app_nil_r. repeat split; intros; try contradiction; auto.
  - cbv zeta in *. unfold build_two_site_gates in *; cbn [fold_left].
    destruct (build_bond_gate_fresh one f dtau b t h) as [j E]. rewrite E.
    destruct (IH (set_gate t (KBond b) (expm2 dtau (generator one f b))) (h ++ [j]))
      as (junk & H1 & H2 & H3).
    exists (j :: junk). split; [|split].
    + rewrite H1, <- app_assoc. reflexivity.
    + intros b' [<- | Hb]; [|now apply H2].
      destruct (in_dec bond_eq_dec b bonds) as [i|n]; [now apply H2|].
      rewrite H3; [apply set_gate_same|].
      intros b' Hb' E'. inversion E'; subst; contradiction.
    + intros k Hk. rewrite H3.
      * apply set_gate_other. apply Hk; now left.
      * intros; apply Hk; now right.
Qed.

Lemma build_one_spec m dtau sites : forall t,
  (forall s, In s sites -> forall h, one_site_ham m s = Some h ->
     build_one_site_gates m dtau sites t (KSite s) = Some (expm1 dtau h)) /\
  (forall s, (~ In s sites \/ one_site_ham m s = None) ->
     build_one_site_gates m dtau sites t (KSite s) = t (KSite s)) /\
  (forall b, build_one_site_gates m dtau sites t (KBond b) = t (KBond b)).
Proof.
  induction sites as [|s sites IH]; intros t.
  - repeat split; auto; intros; contradiction.
  - pose (t' := match one_site_ham m s with Some h => set_gate t (KSite s) (expm1 dtau h) | None => t end).
    change (build_one_site_gates m dtau (s :: sites) t) with (build_one_site_gates m dtau sites t').
    destruct (IH t') as (I1 & I2 & I3). repeat split.
    + intros s' [<- | Hs] h Hh.
      * destruct (in_dec site_eq_dec s sites); [now apply I1|].
        rewrite I2 by auto. unfold t'. rewrite Hh. apply set_gate_same.
      * now apply I1.
    + intros s' H. rewrite I2.
      * unfold t'. destruct (one_site_ham m s) eqn:E; auto. apply set_gate_other.
        intros X; inversion X; subst. destruct H as [H|H]; [apply H; now left|congruence].
      * destruct H as [H|H]; [left; intros X; apply H; now right|now right].
    + intros b. rewrite I3. unfold t'. destruct (one_site_ham m s); auto.
Qed.

(** Operators the model keeps: [f b] is the object returned for bond b. *)
Lemma build_bond_gate_cached one f dtau b t h m0 :
  nth_error h (f b) = Some m0 ->
  let m1 := match wrapped_part one b with Some w => madd m0 w | None => m0 end in
  let res := build_bond_gate (Model one (Cached f)) dtau b (t, h) in
  fst res = set_gate t (KBond b) (expm2 dtau m1) /\
  nth_error (snd res) (f b) = Some m1 /\ length (snd res) = length h /\
  (forall i, i <> f b -> nth_error (snd res) i = nth_error h i).
Proof.
  intros H. assert (L : f b < length h) by (apply nth_error_Some; congruence).
  unfold build_bond_gate, call_two_site, wrapped_part; simpl. rewrite H.
  destruct (one (b_s1 b)), (one (b_s2 b)); simpl; repeat split;
    auto using hset_same, hset_length, hset_other.
Qed.

(** The bonds of [bs] that are served by object [r]. *)
Definition served (f : bond -> nat) (r : nat) (bs : list bond) : list bond :=
  filter (fun b => f b =? r) bs.

Lemma build_two_cached one f dtau bonds : forall t h,
  NoDup bonds -> (forall b, In b bonds -> f b < length h) ->
  let res := build_two_site_gates (Model one (Cached f)) dtau bonds (t, h) in
  length (snd res) = length h /\
  (forall r m0, nth_error h r = Some m0 ->
     nth_error (snd res) r = Some (accumulate one m0 (served f r bonds))) /\
  (forall pre b post m0, bonds = pre ++ b :: post -> nth_error h (f b) = Some m0 ->
     fst res (KBond b) =
       Some (expm2 dtau (accumulate one m0 (served f (f b) (pre ++ [b]))))) /\
  (forall k, (forall b, In b bonds -> k <> KBond b) -> fst res k = t k).
Proof.
  induction bonds as [|b bonds IH]; intros t h Hnd Hf.
  - simpl. repeat split; auto. intros [|] b0 post m0 E; discriminate.
  - inversion Hnd as [|? ? Hb Hnd']; subst.
    destruct (nth_error h (f b)) as [mb|] eqn:Hmb.
    2:{ apply nth_error_None in Hmb. specialize (Hf b (or_introl eq_refl)). lia. }
    destruct (build_bond_gate_cached one f dtau b t h mb Hmb) as (E1 & E2 & E3 & E4).
    cbv zeta in *. unfold build_two_site_gates; cbn [fold_left].
    destruct (build_bond_gate (Model one (Cached f)) dtau b (t, h)) as [t1 h1] eqn:E.
    simpl in E1, E2, E3, E4.
    assert (Hf1 : forall b', In b' bonds -> f b' < length h1)
      by (intros; rewrite E3; apply Hf; now right).
    destruct (IH t1 h1 Hnd' Hf1) as (I0 & I1 & I2 & I3). unfold build_two_site_gates in *.
    assert (S1 : forall r m0 bs, nth_error h r = Some m0 -> exists m1, nth_error h1 r = Some m1 /\
              accumulate one m0 (served f r (b :: bs)) = accumulate one m1 (served f r bs)).
    { intros r m0 bs Hr. simpl. destruct (Nat.eqb_spec (f b) r) as [<- | n].
      - rewrite Hmb in Hr; inversion Hr; subst. eexists; split; [exact E2|]. reflexivity.
      - exists m0. split; auto. rewrite E4; auto. }
    split; [congruence|]. split; [|split].
    + intros r m0 Hr. destruct (S1 r m0 bonds Hr) as (m1 & Hm1 & ->). now apply I1.
    + intros pre b' post m0 Eq Hr. destruct pre as [|p pre]; simpl in Eq; inversion Eq; subst.
      * rewrite I3.
        -- simpl. rewrite Nat.eqb_refl, set_gate_same. rewrite Hmb in Hr; inversion Hr; subst. reflexivity.
        -- intros b'' Hb'' X; inversion X; subst; contradiction.
      * destruct (S1 _ m0 (pre ++ [b']) Hr) as (m1 & Hm1 & S).
        change ((p :: pre) ++ [b']) with (p :: (pre ++ [b'])). rewrite S. eapply I2; eauto.
    + intros k Hk. rewrite I3.
      * rewrite E1. apply set_gate_other, Hk; now left.
      * intros; apply Hk; now right.
Qed.

(** Several constructions of gates for the same model, one per evolve call. *)
Fixpoint make_gates (m : model) (dtaus : list D) (bonds : list bond) (sites : list site)
    (th : table * heap) : table * heap :=
  match dtaus with
  | [] => th
  | d :: ds => make_gates m ds bonds sites (make_gate m d bonds sites th)
  end.

Lemma accumulate_app one m a b : accumulate one m (a ++ b) = accumulate one (accumulate one m a) b.
Proof. unfold accumulate. apply fold_left_app. Qed.

Lemma make_gates_cached one f bonds sites : NoDup bonds -> forall dtaus t h,
  (forall b, In b bonds -> f b < length h) ->
  let res := make_gates (Model one (Cached f)) dtaus bonds sites (t, h) in
  length (snd res) = length h /\
  (forall r m0, nth_error h r = Some m0 ->
     nth_error (snd res) r =
       Some (accumulate one m0 (concat (repeat (served f r bonds) (length dtaus))))).
Proof.
  intros Hnd. induction dtaus as [|d ds IH]; intros t h Hf; cbn [make_gates].
  - simpl; auto.
  - unfold make_gate.
    destruct (build_two_cached one f d bonds
      (build_one_site_gates (Model one (Cached f)) d sites t) h Hnd Hf) as (L & A & _ & _).
    destruct (build_two_site_gates _ _ _ _) as [t1 h1]; cbn [fst snd] in *.
    destruct (IH t1 h1) as (L' & A'); [intros; rewrite L; auto|].
    split; [congruence|]. intros r m0 Hr. rewrite (A' _ _ (A _ _ Hr)).
    cbn [length repeat concat]. now rewrite accumulate_app.
Qed.

(** ---- sequences of constructions with arbitrary models (C05) ---- *)

Record construction := Constr
  { c_model : model; c_dtau : D; c_bonds : list bond; c_sites : list site }.
Definition construct (c : construction) (th : table * heap) : table * heap :=
  make_gate (c_model c) (c_dtau c) (c_bonds c) (c_sites c) th.
Definition constructs (cs : list construction) (th : table * heap) : table * heap :=
  fold_left (fun th c => construct c th) cs th.

(** The keys a construction writes. *)
Definition covers (c : construction) (k : key) : Prop :=
  match k with
  | KBond b => In b (c_bonds c)
  | KSite s => In s (c_sites c) /\ one_site_ham (c_model c) s <> None
  end.

(** The objects a model keeps exist. *)
Definition refs_ok (c : construction) (h : heap) : Prop :=
  match two_site_ham (c_model c) with
  | Fresh _ => True
  | Cached f => forall b, In b (c_bonds c) -> f b < length h
  end.

Lemma build_bond_gate_length m dtau b t h :
  length h <= length (snd (build_bond_gate m dtau b (t, h))).
Proof.
  unfold build_bond_gate, call_two_site.
  destruct (two_site_ham m) as [f|f];
    [destruct (nth_error (h ++ [f b]) (length h)) | destruct (nth_error h (f b))];
    try destruct (one_site_ham m (b_s1 b)), (one_site_ham m (b_s2 b)); simpl;
    rewrite ?hset_length, ?app_length; lia.
Qed.

Lemma build_bond_gate_form m dtau b h :
  exists g h', (forall t, build_bond_gate m dtau b (t, h) =
      (match g with Some g => set_gate t (KBond b) g | None => t end, h')) /\
  ((match two_site_ham m with Fresh _ => True | Cached f => f b < length h end) -> g <> None).
Proof.
  unfold build_bond_gate.
  destruct (call_two_site m b h) as [r h1] eqn:E.
  destruct (nth_error h1 r) as [x|] eqn:N.
  - destruct (one_site_ham m (b_s1 b)), (one_site_ham m (b_s2 b)); eexists (Some _), _;
      split; try discriminate; intros; reflexivity.
  - exists None, h1. split; [reflexivity|]. intros H. exfalso.
    apply nth_error_None in N. unfold call_two_site in E.
    destruct (two_site_ham m); inversion E; subst; [rewrite app_length in N; simpl in N; lia|lia].
Qed.

Lemma build_two_form m dtau bonds : forall h,
  exists h', forall t t',
   snd (build_two_site_gates m dtau bonds (t, h)) = h' /\
   (forall k, (forall b, In b bonds -> k <> KBond b) ->
      fst (build_two_site_gates m dtau bonds (t, h)) k = t k) /\
   (match two_site_ham m with Fresh _ => True | Cached f => forall b, In b bonds -> f b < length h end ->
    forall b, In b bonds -> fst (build_two_site_gates m dtau bonds (t, h)) (KBond b) =
      fst (build_two_site_gates m dtau bonds (t', h)) (KBond b)).
Proof.
  induction bonds as [|b bonds IH]; intros h.
  - exists h. intros. simpl. repeat split; auto. intros; contradiction.
  - destruct (build_bond_gate_form m dtau b h) as (g & h1 & E & Hg).
    destruct (IH h1) as (h' & H). exists h'. intros t t'.
    unfold build_two_site_gates in *; cbn [fold_left]. rewrite !E.
    set (u := match g with Some g0 => set_gate t (KBond b) g0 | None => t end).
    set (u' := match g with Some g0 => set_gate t' (KBond b) g0 | None => t' end).
    destruct (H u u') as (H1 & H2 & H3). split; [exact H1|]. split.
    + intros k Hk. rewrite H2 by (intros; apply Hk; now right).
      unfold u. destruct g; auto. apply set_gate_other, Hk; now left.
    + intros Hr b' Hb'.
      assert (Hb : match two_site_ham m with Fresh _ => True | Cached f => f b < length h end)
        by (destruct (two_site_ham m); auto; apply Hr; now left).
      destruct (in_dec bond_eq_dec b' bonds) as [i|n].
      * apply H3; auto. pose proof (build_bond_gate_length m dtau b t h) as L.
        rewrite E in L; simpl in L.
        destruct (two_site_ham m); auto. intros b0 Hb0. specialize (Hr b0 (or_intror Hb0)). lia.
      * destruct Hb' as [<- |]; [|contradiction].
        destruct (H u' u) as (_ & H2' & _).
        assert (D' : forall b0, In b0 bonds -> KBond b <> KBond b0)
          by (intros b0 Hb0 X; inversion X; subst; contradiction).
        rewrite H2, H2' by exact D'.
        unfold u, u'. destruct g; [now rewrite !set_gate_same|]. now specialize (Hg Hb).
Qed.

Lemma construct_form c h : exists h', forall t t',
   snd (construct c (t, h)) = h' /\
   (forall k, ~ covers c k -> fst (construct c (t, h)) k = t k) /\
   (refs_ok c h -> forall k, covers c k -> fst (construct c (t, h)) k = fst (construct c (t', h)) k).
Proof.
  destruct c as [m d bs ss]; unfold construct, make_gate, refs_ok, covers; cbn [c_model c_dtau c_bonds c_sites].
  destruct (build_two_form m d bs h) as (h' & H). exists h'. intros t t'.
  destruct (H (build_one_site_gates m d ss t) (build_one_site_gates m d ss t')) as (H1 & H2 & H3).
  destruct (H (build_one_site_gates m d ss t') (build_one_site_gates m d ss t)) as (_ & H2' & _).
  destruct (build_one_spec m d ss t) as (A1 & A2 & A3).
  destruct (build_one_spec m d ss t') as (B1 & B2 & B3).
  split; [exact H1|]. split.
  - intros [s|b] Hk.
    + rewrite H2 by discriminate. apply A2.
      destruct (in_dec site_eq_dec s ss) as [i|]; [|now left]. right.
      destruct (one_site_ham m s); auto. exfalso. apply Hk. split; [auto|discriminate].
    + rewrite H2; [apply A3|]. intros b' Hb' X; inversion X; subst; contradiction.
  - intros Hr [s|b] Hk.
    + rewrite H2, H2' by discriminate. destruct Hk as [Hs Hn].
      destruct (one_site_ham m s) as [x|] eqn:Ex; [|congruence].
      now rewrite (A1 s Hs x Ex), (B1 s Hs x Ex).
    + apply H3; auto.
Qed.

Lemma constructs_uncovered cs : forall th k,
  (forall c, In c cs -> ~ covers c k) -> fst (constructs cs th) k = fst th k.
Proof.
  induction cs as [|c cs IH]; intros [t h] k Hk; auto.
  unfold constructs in *; cbn [fold_left].
  rewrite IH by (intros; apply Hk; now right).
  destruct (construct_form c h) as (h' & H). destruct (H t t) as (_ & H2 & _).
  apply H2, Hk; now left.
Qed.

Lemma constructs_last pre c post k th t' :
  covers c k -> (forall c', In c' post -> ~ covers c' k) ->
  refs_ok c (snd (constructs pre th)) ->
  fst (constructs (pre ++ c :: post) th) k =
  fst (construct c (t', snd (constructs pre th))) k.
Proof.
  intros Hc Hp Hr. unfold constructs at 1. rewrite fold_left_app; cbn [fold_left].
  change (fold_left (fun th c => construct c th) pre th) with (constructs pre th).
  change (fold_left (fun th c => construct c th) post ?x) with (constructs post x).
  rewrite constructs_uncovered by exact Hp.
  destruct (constructs pre th) as [t h]; cbn [snd] in *.
  destruct (construct_form c h) as (h' & H). destruct (H t t') as (_ & _ & H3). auto.
Qed.

End Gate.
