(** Properties C27-C30: measured values. *)
From Coq Require Import String Ascii Permutation.
From mathcomp Require Import all_ssreflect all_algebra.
From Verif Require Import Base Lattice LatticeFacts Mover Tensor TN Rdm RdmFacts Fits EinsumLin P09_Rdm Measure MeasureFacts.
Set Implicit Arguments.
Unset Strict Implicit.
Unset Printing Implicit Defensive.
Import GRing.Theory Num.Theory.
Local Open Scope ring_scope.
Local Open Scope string_scope.

Lemma total_flatten (C : numClosedFieldType) A X (l : seq A) (f : A -> seq (string * C)) :
  total X (flatten [seq f a | a <- l]) = \sum_(a <- l) total X (f a).
Proof. by rewrite /total big_flatten big_map. Qed.

Lemma total_cons (C : numClosedFieldType) X k (v : C) l :
  total X ((k, v) :: l) = (if String.eqb X k then v else 0) + total X l.
Proof. by rewrite /total big_cons /=; case: String.eqb; rewrite ?add0r. Qed.

Lemma total_notin (C : numClosedFieldType) X (l : seq (string * C)) : ~~ inks X (keys l) -> total X l = 0.
Proof.
elim: l => [|[k v] l IH]; first by rewrite /total big_nil.
by rewrite total_cons /inks /= negb_or => /andP[/negbTE -> /IH ->]; rewrite addr0.
Qed.

(** the value belonging to a name *)
Definition named {V : Type} {C : numClosedFieldType} (f : V -> C) (X : string) (d : dict V) : C :=
  if dget X d is Some op then f op else 0.

Lemma total_named (C : numClosedFieldType) V (f : V -> C) X (d : dict V) : uniq_keys (keys d) ->
  total X [seq (kv.1, f kv.2) | kv <- d] = named f X d.
Proof.
rewrite /named; elim: d => [|[k v] d IH] /=; first by rewrite /total big_nil.
move=> /andP[Hk U]; rewrite total_cons IH //; case: seqbP => [E|_]; last by rewrite add0r.
by move: Hk; rewrite -E dget_keys; case: (dget X d) => // _; rewrite addr0.
Qed.

Lemma inks_sub X ks ks' : (forall Y, inks Y ks = inks Y ks') -> inks X ks = inks X ks'.
Proof. exact. Qed.

Lemma all_keys (C : numClosedFieldType) V (f : V -> C) (d : dict V) (P : pred string) :
  all (fun kv : string * C => P kv.1) [seq (kv.1, f kv.2) | kv <- d] = all P (keys d).
Proof. by elim: d => //= kv d ->. Qed.

Lemma all_inks (P : pred string) ks : (forall X, inks X ks -> P X) -> all P ks.
Proof.
elim: ks => //= k ks IH H; rewrite H ?IH // => [X HX|]; last by rewrite /inks /= String.eqb_refl.
by apply: H; rewrite /inks /= -/(inks X ks) HX orbT.
Qed.
Lemma inks_all (P : pred string) ks X : all P ks -> inks X ks -> P X.
Proof. by elim: ks => //= k ks IH /andP[Pk Pks]; rewrite /inks /=; case: seqbP => [->|_] //=; apply: IH. Qed.

Lemma all_In A (P : pred A) l : (forall a, List.In a l -> P a) -> all P l.
Proof. by elim: l => //= a l IH H; rewrite H ?IH // => [b Hb|]; [apply: H; right|left]. Qed.
Lemma In_all A (P : pred A) l a : all P l -> List.In a l -> P a.
Proof. by elim: l => //= b l IH /andP[Pb Pl] [<-|/IH]; auto. Qed.
Lemma all_flat A B (P : pred B) (f : A -> seq B) l : all P (flatten (map f l)) = all (fun a => all P (f a)) l.
Proof. by elim: l => //= a l IH; rewrite all_cat IH. Qed.

Lemma eq_big_In A (C : numClosedFieldType) (l : seq A) (F G : A -> C) : (forall a, List.In a l -> F a = G a) ->
  \sum_(a <- l) F a = \sum_(a <- l) G a.
Proof.
elim: l => [|a l IH] H; rewrite ?big_nil // !big_cons H ?IH //; last by left.
by move=> b Hb; apply: H; right.
Qed.

Section Values.
Variable C : numClosedFieldType.
Variable m : model C.
Variables (rdm1 : site -> res (tensor C)) (rdm2 : bond -> res (tensor C)).
Variables (rho1 : site -> tensor C) (rho2 : bond -> tensor C).
Variables (sites : seq site) (b0 : bond) (bonds : seq bond).
Let d := m_dim m.
Let obs1 := one_site_observables m.
Let obs2 := two_site_observables m.
Let ks1 := keys (obs1 (0, 0)%N).
Let ks2 := keys (obs2 b0).

Hypothesis G1 : forall s, List.In s sites -> site_good m rdm1 s (rho1 s).
Hypothesis G2 : forall b, List.In b (b0 :: bonds) -> bond_good m rdm2 b (rho2 b).
Hypothesis Hsites : sites <> [::].
(** Python dictionaries have distinct keys *)
Hypothesis U1 : forall s, uniq_keys (keys (obs1 s)).
Hypothesis U2 : forall b, uniq_keys (keys (obs2 b)).

Let l1 := flatten [seq ("Energy", site_energy m (rho1 s) s) ::
                         (if nonempty ks1 then site_values m (rho1 s) s else [::]) | s <- sites].
Let l2 := flatten [seq ("Energy", bond_energy m (rho2 b) b) ::
                         (if nonempty ks2 then bond_values m (rho2 b) b else [::]) | b <- b0 :: bonds].

(** sums over sites and bonds *)
Definition sum_site_energy : C := \sum_(s <- sites) site_energy m (rho1 s) s.
Definition sum_bond_energy : C := \sum_(b <- b0 :: bonds) bond_energy m (rho2 b) b.
Definition sum_site (X : string) : C := \sum_(s <- sites) named (exp1 d (rho1 s)) X (obs1 s).
Definition sum_bond (X : string) : C := \sum_(b <- b0 :: bonds) named (exp2 d (rho2 b)) X (obs2 b).

Lemma total_l1 X : total X l1 = (if String.eqb X "Energy" then sum_site_energy else 0) + (if nonempty ks1 then sum_site X else 0).
Proof.
rewrite /l1 total_flatten.
under eq_bigr => s _ do rewrite total_cons.
rewrite big_split /=; congr (_ + _).
  by case: String.eqb => //; rewrite big1.
case: (nonempty ks1); last by rewrite big1 // => s _; rewrite /total big_nil.
by apply: eq_bigr => s _; apply: total_named.
Qed.
Lemma total_l2 X : total X l2 = (if String.eqb X "Energy" then sum_bond_energy else 0) + (if nonempty ks2 then sum_bond X else 0).
Proof.
rewrite /l2 total_flatten.
under eq_bigr => s _ do rewrite total_cons.
rewrite big_split /=; congr (_ + _).
  by case: String.eqb => //; rewrite big1.
case: (nonempty ks2); last by rewrite big1 // => s _; rewrite /total big_nil.
by apply: eq_bigr => b _; apply: total_named.
Qed.

(** the name X is among the names offered by site (0,0), resp. the first bond *)
Let in1 X := inks X ks1.
Let in2 X := inks X ks2.
Definition bad_site_name (X : string) : bool := nonempty ks1 && ~~ in1 X && ~~ String.eqb X "Energy".
Definition bad_bond_name (X : string) : bool := nonempty ks2 && ~~ in2 X && ~~ in1 X && ~~ String.eqb X "Energy".
Definition no_bad_names : bool :=
  all (fun s => all (fun X => ~~ bad_site_name X) (keys (obs1 s))) sites &&
  all (fun b => all (fun X => ~~ bad_bond_name X) (keys (obs2 b))) (b0 :: bonds).

(** value reported under X, in terms of the sums above *)
Definition after_sites (X : string) : option C :=
  if in1 X then Some ((if String.eqb X "Energy" then sum_site_energy + sum_site X else sum_site X) / (size sites)%:R)
  else if String.eqb X "Energy" then Some (sum_site_energy + (if nonempty ks1 then sum_site X else 0))
  else None.
Definition after_bonds (X : string) : option C :=
  if in2 X then Some ((if String.eqb X "Energy" then sum_bond_energy + sum_bond X else sum_bond X) / (size (b0 :: bonds))%:R)
  else if after_sites X is Some x then
    Some (x + ((if String.eqb X "Energy" then sum_bond_energy else 0) + (if nonempty ks2 then sum_bond X else 0)))
  else None.
Definition reported (X : string) : option C :=
  if String.eqb X "Energy" then omap (fun x => x / (size sites)%:R) (after_bonds X) else after_bonds X.

Lemma sizeN : size sites != 0%N. Proof. by case: (sites) Hsites. Qed.

Lemma ks1_nonempty X : in1 X -> nonempty ks1. Proof. by rewrite /in1; case: (ks1). Qed.
Lemma ks2_nonempty X : in2 X -> nonempty ks2. Proof. by rewrite /in2; case: (ks2). Qed.

Lemma site_phase : all (fun s => all (fun X => ~~ bad_site_name X) (keys (obs1 s))) sites ->
  exists a, calculate_one_site_measurements m rdm1 sites [:: ("Energy", 0)] = Ok a /\ forall X, dget X a = after_sites X.
Proof.
move=> H; rewrite (one_siteE _ G1) -/obs1 -/ks1 -/l1.
have [||| a [E Ha]] := @phase_ok C ks1 l1 (size sites) [:: ("Energy", 0)]; first exact: sizeN; first exact: U1.
  rewrite /l1 all_flat; apply: sub_all H => s Hs /=; rewrite orbT /=.
  case N: (nonempty ks1) => //; rewrite /site_values.
  rewrite (all_keys _ _ (fun X => (inks X ks1 || inks X [:: "Energy"]))).
  apply: sub_all Hs => X; rewrite /bad_site_name N /= negb_and !negbK /in1 /inks /= orbF //.
exists a; split=> // X; rewrite Ha /phase_val total_l1 /after_sites -/(in1 X).
case I: (in1 X).
  by rewrite (ks1_nonempty I); case: String.eqb; rewrite ?add0r.
by rewrite /=; case: String.eqb => //; rewrite add0r.
Qed.

(** C28.  measure raises KeyError exactly when some site offers a name that site
    (0,0) does not offer (and that offers at least one), or some bond offers a name
    offered neither by the first bond (which offers at least one) nor by site
    (0,0); "Energy" never raises.  Otherwise it returns, and the value under every
    name, collisions included, is [reported]. *)
Theorem C28_exact :
  if no_bad_names then
    exists a, measure m rdm1 rdm2 sites (b0 :: bonds) = Ok a /\ forall X, dget X a = reported X
  else measure m rdm1 rdm2 sites (b0 :: bonds) = Err KeyError.
Proof.
rewrite /no_bad_names; case: ifP => [/andP[H1 H2]|H].
  have [a [Ea Ha]] := site_phase H1; rewrite /measure Ea [bind (Ok a) _]/bind (two_siteE _ G2) -/obs2 -/ks2 -/l2.
  have Ka X : inks X (keys a) = in1 X || String.eqb X "Energy".
    by rewrite dget_keys Ha /after_sites; case: ifP => //; case: String.eqb.
  have [||| a' [E' Ha']] := @phase_ok C ks2 l2 (size bonds).+1 a; first by []; first exact: U2.
    rewrite /l2 all_flat; apply: sub_all H2 => b Hb /=; rewrite Ka orbT orbT /=.
    case N: (nonempty ks2) => //; rewrite /bond_values.
    rewrite (all_keys _ _ (fun X => inks X ks2 || inks X (keys a))).
    by apply: sub_all Hb => X; rewrite /bad_bond_name N /= !negb_and !negbK -orbA Ka.
  rewrite E' /= /dict_div.
  have B X : dget X a' = after_bonds X.
    rewrite Ha' /phase_val total_l2 /after_bonds Ha -/(in2 X); case I: (in2 X) => //.
    by rewrite (ks2_nonempty I); case: String.eqb; rewrite ?add0r.
  rewrite B; have : after_bonds "Energy" <> None.
    rewrite /after_bonds; case: ifP => // _; rewrite /after_sites; case: ifP => //.
  rewrite /reported; case E: (after_bonds "Energy") => [x|] // _; rewrite (negbTE sizeN).
  eexists; split=> // X; rewrite dget_dset; case: seqbP => [->|_]; last exact: B.
  by rewrite E.
move/negbT: H; rewrite negb_and; case H1: (all _ sites) => /=; last first.
  move=> _; rewrite /measure (one_siteE _ G1) -/obs1 -/ks1 -/l1 phase_err //.
  move/negbT: H1; apply: contra; rewrite /l1 all_flat; apply: sub_all => s /= /andP[_].
  case N: (nonempty ks1); last by move=> _; rewrite /bad_site_name N /=; elim: (keys (obs1 s)).
  rewrite /site_values (all_keys _ _ (fun X => (inks X ks1 || inks X [:: "Energy"]))).
  by apply: sub_all => X; rewrite /bad_site_name N /= negb_and !negbK /in1 /inks /= orbF.
move=> H2; have [a [Ea Ha]] := site_phase H1; rewrite /measure Ea [bind (Ok a) _]/bind (two_siteE _ G2) -/obs2 -/ks2 -/l2.
have Ka X : inks X (keys a) = in1 X || String.eqb X "Energy".
  by rewrite dget_keys Ha /after_sites; case: ifP => //; case: String.eqb.
rewrite phase_err //; move: H2; apply: contra; rewrite /l2 all_flat; apply: sub_all => b /= /andP[_].
case N: (nonempty ks2); last by move=> _; rewrite /bad_bond_name N /=; elim: (keys (obs2 b)).
rewrite /bond_values (all_keys _ _ (fun X => inks X ks2 || inks X (keys a))).
by apply: sub_all => X; rewrite /bad_bond_name N /= !negb_and !negbK -orbA Ka.
Qed.

(** C27.  If all sites offer the same names, all bonds offer the same names, no
    name is shared between the two sets or is "Energy": the reported values are
    the energy per site and the averages. *)
Theorem C27_averages :
  (forall s, List.In s sites -> forall X, inks X (keys (obs1 s)) = in1 X) ->
  (forall b, List.In b (b0 :: bonds) -> forall X, inks X (keys (obs2 b)) = in2 X) ->
  ~~ in1 "Energy" -> ~~ in2 "Energy" -> (forall X, ~~ (in1 X && in2 X)) ->
  exists a, [/\ measure m rdm1 rdm2 sites (b0 :: bonds) = Ok a,
    dget "Energy" a = Some ((sum_site_energy + sum_bond_energy) / (size sites)%:R),
    forall X, in1 X -> dget X a = Some (sum_site X / (size sites)%:R),
    forall X, in2 X -> dget X a = Some (sum_bond X / (size (b0 :: bonds))%:R) &
    forall X, ~~ in1 X -> ~~ in2 X -> X <> "Energy" -> dget X a = None].
Proof.
move=> S1 S2 N1 N2 Dj.
have A : no_bad_names.
  apply/andP; split.
    by apply: all_In => s /S1 Hs; apply: all_inks => X; rewrite Hs /bad_site_name => ->; rewrite andbF.
  by apply: all_In => b /S2 Hb; apply: all_inks => X; rewrite Hb /bad_bond_name => ->; rewrite andbF.
have := C28_exact; rewrite A.
move=> [a [E Ha]]; exists a.
have Z1 X : ~~ in1 X -> sum_site X = 0.
  move=> N; rewrite /sum_site (eq_big_In (G := fun=> 0)); first by rewrite big1.
  by move=> s /S1 Hs; rewrite /named; move: (Hs X); rewrite dget_keys (negbTE N); case: dget.
have Z2 X : ~~ in2 X -> sum_bond X = 0.
  move=> N; rewrite /sum_bond (eq_big_In (G := fun=> 0)); first by rewrite big1.
  by move=> b /S2 Hb; rewrite /named; move: (Hb X); rewrite dget_keys (negbTE N); case: dget.
split=> //; [|move=> X HX|move=> X HX|move=> X HX HY /seqbP/negbTE NE]; rewrite Ha /reported /after_bonds /after_sites.
- rewrite (negbTE N1) (negbTE N2) /= Z1 // Z2 //.
  by case: (nonempty ks1); case: (nonempty ks2); rewrite !addr0.
- have NE : String.eqb X "Energy" = false by apply/seqbP => EX; move: N1; rewrite -EX HX.
  have HY : in2 X = false by apply/negbTE; apply: contra (Dj X) => ->; rewrite HX.
  by rewrite NE HX HY Z2 ?HY // add0r; case: (nonempty ks2); rewrite addr0.
- have NE : String.eqb X "Energy" = false by apply/seqbP => EX; move: N2; rewrite -EX HX.
  by rewrite NE HX.
- by rewrite NE (negbTE HX) (negbTE HY).
Qed.

(** C28, collisions: what is returned when names clash.  A name offered as one-site
    and as two-site observable reports only the bond average; a one-site observable
    called "Energy" is added to the energy and divides the site part twice; a
    two-site observable called "Energy" erases the site energies. *)
Theorem C28_collisions : no_bad_names ->
  exists a, [/\ measure m rdm1 rdm2 sites (b0 :: bonds) = Ok a,
    (forall X, X <> "Energy" -> in1 X -> in2 X -> dget X a = Some (sum_bond X / (size (b0 :: bonds))%:R)),
    (in1 "Energy" -> ~~ nonempty ks2 -> dget "Energy" a =
       Some (((sum_site_energy + sum_site "Energy") / (size sites)%:R + sum_bond_energy) / (size sites)%:R)),
    (in2 "Energy" -> dget "Energy" a =
       Some ((sum_bond_energy + sum_bond "Energy") / (size (b0 :: bonds))%:R / (size sites)%:R)) &
    (~~ nonempty ks1 -> forall X, X <> "Energy" -> ~~ in2 X -> dget X a = None)].
Proof.
move=> H; have := C28_exact; rewrite H => -[a [E Ha]]; exists a.
split=> //; [move=> X /seqbP/negbTE NE H1 H2|move=> H1 N2|move=> H2|move=> N1 X /seqbP/negbTE NE H2];
  rewrite Ha /reported /after_bonds /after_sites.
- by rewrite NE H2.
- have -> : in2 "Energy" = false by apply/negbTE; apply: contra N2; apply: ks2_nonempty.
  by rewrite H1 (negbTE N2) /= addr0.
- by rewrite H2.
- have -> : in1 X = false by apply/negbTE; apply: contra N1; apply: ks1_nonempty.
  by rewrite NE (negbTE H2).
Qed.

End Values.

(** two outcomes with the same error or the same values *)
Definition same_result (C : numClosedFieldType) (r r' : res (dict C)) : Prop :=
  match r, r' with
  | Ok a, Ok a' => forall X, dget X a = dget X a'
  | Err e, Err e' => e = e'
  | _, _ => False
  end.

Lemma perm_sum A (C : numClosedFieldType) (l l' : seq A) (F : A -> C) : Permutation l l' ->
  \sum_(a <- l) F a = \sum_(a <- l') F a.
Proof.
elim=> {l l'} [//|a l l' _ IH|a b l|l l' l'' _ -> _ ->] //; rewrite !big_cons; first by rewrite IH.
by rewrite addrCA.
Qed.
Lemma perm_all A (l l' : seq A) (P : pred A) : Permutation l l' -> all P l = all P l'.
Proof. by elim=> {l l'} [//|a l l' _ IH|a b l|l l' l'' _ -> _ ->] //=; [rewrite IH|rewrite andbCA]. Qed.
Lemma perm_size A (l l' : seq A) : Permutation l l' -> size l = size l'.
Proof. by elim=> {l l'} [//|a l l' _ /= ->|//|l l' l'' _ -> _ ->]. Qed.

(** C29.  The result does not depend on the order of the bonds (nor of the sites),
    provided all bonds offer the same names. *)
Theorem C29_order (C : numClosedFieldType) (m : model C) (rdm1 : site -> res (tensor C)) (rdm2 : bond -> res (tensor C))
    (rho1 : site -> tensor C) (rho2 : bond -> tensor C) (sites sites' : seq site) (bonds bonds' : seq bond) :
  (forall s, List.In s sites -> site_good m rdm1 s (rho1 s)) ->
  (forall b, List.In b bonds -> bond_good m rdm2 b (rho2 b)) ->
  (forall s, uniq_keys (keys (one_site_observables m s))) ->
  (forall b, uniq_keys (keys (two_site_observables m b))) ->
  (forall b b' X, List.In b bonds -> List.In b' bonds ->
     inks X (keys (two_site_observables m b)) = inks X (keys (two_site_observables m b'))) ->
  sites <> [::] -> bonds <> [::] -> Permutation sites sites' -> Permutation bonds bonds' ->
  same_result (measure m rdm1 rdm2 sites bonds) (measure m rdm1 rdm2 sites' bonds').
Proof.
move=> G1 G2 U1 U2 Sn Ns Nb P1 P2.
case Eb: bonds Nb => [//|b0 bs] _; case Eb': bonds' => [|b0' bs'].
  by move: P2; rewrite Eb Eb' => /Permutation_sym/Permutation_nil.
have Ns' : sites' <> [::] by move=> E; move: P1; rewrite E => /Permutation_sym/Permutation_nil.
have G1' s : List.In s sites' -> site_good m rdm1 s (rho1 s).
  by move=> /(Permutation_in _ (Permutation_sym P1)); apply: G1.
have G2' b : List.In b (b0 :: bs) -> bond_good m rdm2 b (rho2 b) by rewrite -Eb; apply: G2.
have G2'' b : List.In b (b0' :: bs') -> bond_good m rdm2 b (rho2 b).
  by rewrite -Eb' => /(Permutation_in _ (Permutation_sym P2)); apply: G2.
have X1 := C28_exact G1 G2' Ns U1 U2; have X2 := C28_exact G1' G2'' Ns' U1 U2.
have I0 : List.In b0 bonds by rewrite Eb; left.
have I0' : List.In b0' bonds by apply: (Permutation_in _ (Permutation_sym P2)); rewrite Eb'; left.
have Ek X : inks X (keys (two_site_observables m b0)) = inks X (keys (two_site_observables m b0')) by apply: Sn.
have En : nonempty (keys (two_site_observables m b0)) = nonempty (keys (two_site_observables m b0')).
  move: Ek; case: (keys (two_site_observables m b0)) => [|x l]; case: (keys (two_site_observables m b0')) => [|y l'] // /(_ _) H.
    by have := H y; rewrite /inks /= String.eqb_refl.
  by have := H x; rewrite /inks /= String.eqb_refl.
have Eok : no_bad_names m sites b0 bs = no_bad_names m sites' b0' bs'.
  rewrite /no_bad_names (perm_all _ P1) -Eb -Eb' (perm_all _ P2); congr (_ && _).
  by apply: eq_all => b; apply: eq_all => X; rewrite /bad_bond_name En Ek.
move: X1 X2; rewrite Eok; case: ifP => _; last by move=> -> ->.
move=> [a [-> Ha]] [a' [-> Ha']] X; rewrite Ha Ha' /reported /after_bonds /after_sites.
rewrite /sum_site_energy /sum_bond_energy /sum_site /sum_bond.
by rewrite !(perm_sum _ P1) -!Eb !(perm_sum _ P2) -!Eb' (perm_size P1) (perm_size P2) Ek En.
Qed.

(** ---- C30 ---- *)
Section Scale.
Variable C : numClosedFieldType.

Lemma ReM (g x : C) : g \is Num.real -> 'Re (g * x) = g * 'Re x.
Proof. by move=> Hg; rewrite ReMl. Qed.

Definition rmap (f : C -> C) (r : res C) : res C := let! x := r in Ok (f x).

Lemma re_scaled spec g ts' ts cs : scaled_all cs ts' ts -> \prod_(c <- cs) c = g -> g \is Num.real ->
  (forall f, einsum spec ts = Ok f -> shape f = [::]) ->
  (let! t := einsum spec ts' in Ok ('Re (at_ t [::]))) = rmap (fun x => g * x) (let! t := einsum spec ts in Ok ('Re (at_ t [::]))).
Proof.
move=> Hs Hg Rg Sf; case E: (einsum spec ts) => [f|e] /=; last by rewrite (einsum_scaled_err Hs E).
have [f' [-> [S H]]] := einsum_scaled Hs E; rewrite /= H ?Hg ?ReM //; by rewrite (Sf f E).
Qed.

Lemma einsum_scalar spec (ts : seq (tensor C)) f ins : parse spec = Some (ins, [::]) -> einsum spec ts = Ok f -> shape f = [::].
Proof. by rewrite /einsum => -> /=; case: ifP => // _; case: ifP => // _ [<-]. Qed.

Lemma site_norm_scaled g (r' r : tensor C) : scaled g r' r -> g \is Num.real -> site_norm r' = rmap (fun x => g * x) (site_norm r).
Proof.
move=> H R; rewrite /site_norm; apply: (@re_scaled "pp->" g [:: r'] [:: r] [:: g]) => //; first by rewrite big_seq1.
by move=> f; apply: einsum_scalar.
Qed.
Lemma bond_norm_scaled g (r' r : tensor C) : scaled g r' r -> g \is Num.real -> bond_norm r' = rmap (fun x => g * x) (bond_norm r).
Proof.
move=> H R; rewrite /bond_norm; apply: (@re_scaled "pqpq->" g [:: r'] [:: r] [:: g]) => //; first by rewrite big_seq1.
by move=> f; apply: einsum_scalar.
Qed.
Lemma one_site_scaled g (r' r op : tensor C) : scaled g r' r -> g \is Num.real ->
  measure_one_site r' op = rmap (fun x => g * x) (measure_one_site r op).
Proof.
move=> H R; rewrite /measure_one_site; apply: (@re_scaled "Pp,pP->" g [:: r'; op] [:: r; op] [:: g; 1]) => //.
  by split=> //; split=> //; apply: scaled_refl.
  by rewrite big_cons big_seq1 mulr1.
by move=> f; apply: einsum_scalar.
Qed.
Lemma two_site_scaled g (r' r op : tensor C) : scaled g r' r -> g \is Num.real ->
  measure_two_site r' op = rmap (fun x => g * x) (measure_two_site r op).
Proof.
move=> H R; rewrite /measure_two_site; apply: (@re_scaled "PQpq,pqPQ->" g [:: r'; op] [:: r; op] [:: g; 1]) => //.
  by split=> //; split=> //; apply: scaled_refl.
  by rewrite big_cons big_seq1 mulr1.
by move=> f; apply: einsum_scalar.
Qed.

Lemma rdiv_scaled (g x y : C) : g != 0 -> rdiv (g * x) (g * y) = rdiv x y.
Proof.
move=> Hg; rewrite /rdiv mulf_eq0 (negbTE Hg) /=; case: ifP => // _.
by rewrite -mulf_div divff // mul1r.
Qed.

Lemma for_each_ext A B (l : seq A) (f g : A -> B -> res B) b :
  (forall a b, List.In a l -> f a b = g a b) -> for_each l f b = for_each l g b.
Proof.
elim: l b => [|a l IH] b H //=; rewrite H; last by left.
by case: (g a b) => //= b'; apply: IH => a' b'' Ha; apply: H; right.
Qed.

Variable m : model C.
Variables (rdm1 rdm1' : site -> res (tensor C)) (rdm2 rdm2' : bond -> res (tensor C)).

Definition same_up_to_real (r' r : res (tensor C)) : Prop :=
  exists g t t', [/\ g \is Num.real, g != 0, r = Ok t, r' = Ok t' & scaled g t' t].

Lemma measure_scaled sites bonds :
  (forall s, List.In s sites -> same_up_to_real (rdm1' s) (rdm1 s)) ->
  (forall b, List.In b bonds -> same_up_to_real (rdm2' b) (rdm2 b)) ->
  measure m rdm1' rdm2' sites bonds = measure m rdm1 rdm2 sites bonds.
Proof.
move=> H1 H2; rewrite /measure.
have -> : calculate_one_site_measurements m rdm1' sites [:: ("Energy", 0)] =
          calculate_one_site_measurements m rdm1 sites [:: ("Energy", 0)].
  rewrite /calculate_one_site_measurements; congr (bind _ _); apply: for_each_ext => s a /H1 [g [t [t' [Rg Ng -> -> S]]]] /=.
  rewrite (site_norm_scaled S Rg); case: (site_norm t) => //= nrm.
  rewrite /measure_site_energy; case: (one_site_hamiltonian m s) => [h|] /=.
    rewrite (one_site_scaled h S Rg); case: (measure_one_site t h) => //= x; rewrite rdiv_scaled //.
    case: (rdiv x nrm) => //= e; case: (dict_add _ _ a) => //= a'; case: ifP => // _.
    rewrite /measure_site_observables; apply: for_each_ext => -[nm op] a'' _.
    by rewrite (one_site_scaled op S Rg); case: (measure_one_site t op) => //= y; rewrite rdiv_scaled.
  case: (dict_add _ _ a) => //= a'; case: ifP => // _.
  rewrite /measure_site_observables; apply: for_each_ext => -[nm op] a'' _.
  by rewrite (one_site_scaled op S Rg); case: (measure_one_site t op) => //= y; rewrite rdiv_scaled.
case: (calculate_one_site_measurements _ _ _ _) => [a|] //.
rewrite [bind (Ok a) _]/bind [in RHS]/bind.
congr (bind _ _); case: bonds H2 => [|b0 bonds] // H2.
rewrite /calculate_two_site_measurements; congr (bind _ _); apply: for_each_ext => b {}a /H2 [g [t [t' [Rg Ng -> -> S]]]] /=.
rewrite (bond_norm_scaled S Rg); case: (bond_norm t) => //= nrm.
rewrite /measure_bond_energy; case: (reshape _ _) => //= h.
rewrite (two_site_scaled h S Rg); case: (measure_two_site t h) => //= x; rewrite rdiv_scaled //.
case: (rdiv x nrm) => //= e; case: (dict_add _ _ a) => //= a'; case: ifP => // _.
rewrite /measure_bond_observables; apply: for_each_ext => -[nm op] a'' _; case: (reshape _ _) => //= o.
by rewrite (two_site_scaled o S Rg); case: (measure_two_site t o) => //= y; rewrite rdiv_scaled.
Qed.
End Scale.

(** slots that exist *)
Definition real_slot (x : slot) : Prop := match x with SA => True | SC d => (d < 4)%N | SE d => (d < 4)%N end.

Lemma measure_scaled_net (C : numClosedFieldType) (m : model C) (nx ny D p : nat) chi (n n' : Mover.net (tensor C))
    (c : site -> slot -> C) (empty empty' : nat -> tensor C) (sites : seq site) (bonds : seq bond) :
  fits nx ny D p chi n ->
  (forall s x, in_cell nx ny s -> real_slot x -> scaled (c s x) (n' s x) (n s x)) ->
  (forall s x, in_cell nx ny s -> real_slot x -> c s x != 0) ->
  (forall s x, in_cell nx ny s -> real_slot x -> x <> SA -> c s x \is Num.real) ->
  (forall s, List.In s sites -> in_cell nx ny s) ->
  (forall b, List.In b bonds -> exists s1 k, [/\ in_cell nx ny s1, (k < 4)%N & b = Bond s1 (nbr nx ny k s1) k]) ->
  measure m (build_site_rdm n') (build_bond_rdm empty' n') sites bonds =
  measure m (build_site_rdm n) (build_bond_rdm empty n) sites bonds.
Proof.
move=> Hf Hc Hn Hr Hs Hb.
have Hf' : fits nx ny D p chi n'.
  move=> s Is; have [F1 F2] := Hf s Is; split=> [|k Hk]; first by have [-> _] := Hc s SA Is I.
  by have [? ?] := F2 k Hk; have [-> _] := Hc s (SC k) Is Hk; have [-> _] := Hc s (SE k) Is Hk.
have SJ s : in_cell nx ny s -> scaled (c s SA)^* (conj (n' s SA)) (conj (n s SA)).
  by move=> Is; have [E H] := Hc s SA Is I; split=> //= i Hi; rewrite H // rmorphM.
have R s : c s SA * (c s SA)^* \is Num.real by apply: ger0_real; apply: mul_conjC_ge0.
apply: measure_scaled => [s /Hs Is|b /Hb [s1 [k [I1 Hk ->]]]].
  have [r [f [Er Ef _ T]]] := C31_site_rdm Hf Is; have [r' [f' [Er' Ef' _ T']]] := C31_site_rdm Hf' Is.
  pose cs := [:: c s (SC 0); c s (SE 0); c s (SC 1); c s (SE 1); c s (SC 2); c s (SE 2); c s (SC 3); c s (SE 3);
     c s SA; (c s SA)^*].
  have [|f'' []] := @einsum_scaled C _ cs
    [:: n' s (SC 0); n' s (SE 0); n' s (SC 1); n' s (SE 1); n' s (SC 2); n' s (SE 2); n' s (SC 3); n' s (SE 3); n' s SA; conj (n' s SA)] _ _ _ Ef.
    by do 8 (split; first exact: Hc); split; [exact: Hc|split; [exact: SJ|]].
  rewrite Ef' => -[<-] Sc; exists (\prod_(x <- cs) x), r, r'; split=> //.
  - by rewrite /cs !big_cons big_nil mulr1; do 8 (apply: rpredM; first by apply: Hr => //; rewrite ?/k1 ?/k2 ?/k3 /= ?ltn_mod); apply: R.
  - by rewrite /cs !big_cons big_nil !mulf_neq0 ?conjC_eq0 ?Hn ?oner_neq0 // /= ?/k1 ?/k2 ?/k3 ?ltn_mod.
  - exact: scaled_teq Sc T' T.
set s2 := nbr nx ny k s1.
have I2 : in_cell nx ny s2 by apply: nbr_cell.
have [r [f [u [Er Ef _ T _]]]] := C32_bond_rdm empty Hf I1 Hk.
have [r' [f' [u' [Er' Ef' _ T' _]]]] := C32_bond_rdm empty' Hf' I1 Hk.
move: Ef Ef'; rewrite -/s2; set k1 := ((k + 1) %% 4)%N; set k2 := ((k + 2) %% 4)%N; set k3 := ((k + 3) %% 4)%N => Ef Ef'.
pose cs := [:: c s2 (SC k); c s2 (SE k); c s1 (SE k); c s1 (SC k1); c s1 (SE k1); c s1 (SC k2); c s1 (SE k2);
  c s2 (SE k2); c s2 (SC k3); c s2 (SE k3); c s1 SA; (c s1 SA)^*; c s2 SA; (c s2 SA)^*].
have [|f'' []] := @einsum_scaled C _ cs
    [:: n' s2 (SC k); n' s2 (SE k); n' s1 (SE k); n' s1 (SC k1); n' s1 (SE k1); n' s1 (SC k2); n' s1 (SE k2);
          n' s2 (SE k2); n' s2 (SC k3); n' s2 (SE k3); n' s1 SA; conj (n' s1 SA); n' s2 SA; conj (n' s2 SA)] _ _ _ Ef.
  do 10 (split; first by apply: Hc => //; rewrite /k1 /k2 /k3 /= ?ltn_mod).
  by split; [exact: Hc|split; [exact: SJ|split; [exact: Hc|split; [exact: SJ|]]]].
rewrite Ef' => -[<-] Sc; exists (\prod_(x <- cs) x), r, r'; split=> //.
- rewrite /cs !big_cons big_nil mulr1; do 10 (apply: rpredM; first by apply: Hr => //; rewrite ?/k1 ?/k2 ?/k3 /= ?ltn_mod).
  by rewrite mulrA; apply: rpredM; apply: R.
- by rewrite /cs !big_cons big_nil !mulf_neq0 ?conjC_eq0 ?Hn ?oner_neq0 // /= ?/k1 ?/k2 ?/k3 ?ltn_mod.
- exact: scaled_teq Sc T' T.
Qed.

(** C30, scaling.  Multiply every site tensor of a network that fits together by a
    non-zero complex number and every corner and edge tensor by a non-zero real
    number (all numbers chosen independently): whatever measure() returns, errors
    included, does not change. *)
Theorem C30_scale (C : numClosedFieldType) (m : model C) (nx ny D p : nat) chi (n : Mover.net (tensor C))
    (c : site -> slot -> C) (empty empty' : nat -> tensor C) (sites : seq site) (bonds : seq bond) :
  fits nx ny D p chi n ->
  (forall s x, in_cell nx ny s -> c s x != 0) ->
  (forall s x, in_cell nx ny s -> x <> SA -> c s x \is Num.real) ->
  (forall s, List.In s sites -> in_cell nx ny s) ->
  (forall b, List.In b bonds -> exists s1 k, [/\ in_cell nx ny s1, (k < 4)%N & b = Bond s1 (nbr nx ny k s1) k]) ->
  let n' : Mover.net (tensor C) := fun s x => tscale (c s x) (n s x) in
  measure m (build_site_rdm n') (build_bond_rdm empty' n') sites bonds =
  measure m (build_site_rdm n) (build_bond_rdm empty n) sites bonds.
Proof.
move=> Hf Hn Hr Hs Hb n'; apply: measure_scaled_net Hf _ _ _ Hs Hb => [s x Is _|s x Is _|s x Is _ Nx].
- exact: scaled_tscale.
- exact: Hn.
- exact: Hr.
Qed.

(** the normalised value measure.py computes for one operator *)
Definition measured1 (C : numClosedFieldType) (rho op : tensor C) : res C :=
  let! nrm := site_norm rho in let! x := measure_one_site rho op in rdiv x nrm.
Definition measured2 (C : numClosedFieldType) (d : nat) (rho op : tensor C) : res C :=
  let! nrm := bond_norm rho in let! op := reshape op (nseq 4 d) in let! x := measure_two_site rho op in rdiv x nrm.
Definition comb2 (C : numClosedFieldType) (a b : C) (s t : tensor C) : tensor C :=
  Tensor (shape s) (fun i => a * at_ s i + b * at_ t i).

(** C30, normalisation and linearity *)
Theorem C30_identity (C : numClosedFieldType) (d : nat) (rho : tensor C) :
  (shape rho = [:: d; d] -> 'Re (tr1 d rho) != 0 -> measured1 rho (eye C d) = Ok 1) /\
  (shape rho = [:: d; d; d; d] -> 'Re (tr2 d rho) != 0 -> measured2 d rho (eye C (d * d)) = Ok 1).
Proof.
split=> Hs Hn.
  rewrite /measured1 (site_normE Hs) [bind (Ok _) _]/bind measure1E // /exp1; congr Ok.
  rewrite (_ : \sum_(P < d) _ = tr1 d rho) ?divff //; apply: eq_bigr => P _.
  rewrite (bigD1 P) //= eqxx mulr1 big1 ?addr0 // => q /negbTE Hq.
  by rewrite (_ : (nat_of_ord q == P) = false) ?mulr0 // -Hq.
rewrite /measured2 (bond_normE Hs) [bind (Ok _) _]/bind measure2E // /exp2; congr Ok.
rewrite (_ : \sum_(P < d) _ = tr2 d rho) ?divff //.
apply: eq_bigr => P _; apply: eq_bigr => Q _.
have inj (p q : 'I_d) : ((p * d + q)%N == (P * d + Q)%N) = (p == P) && (q == Q).
  apply/eqP/andP => [E|[/eqP -> /eqP ->]] //.
  have d0 : (0 < d)%N by apply: leq_ltn_trans (ltn_ord Q).
  have := congr1 (fun x => x %/ d)%N E; have := congr1 (fun x => x %% d)%N E.
  by rewrite !modnMDl !modn_small // !divnMDl // !divn_small // !addn0 => /ord_inj -> /ord_inj ->.
rewrite (bigD1 P) //= (bigD1 Q) //= inj !eqxx mulr1 !big1 ?addr0 //.
  by move=> p /negbTE Hp; rewrite big1 // => q _; rewrite inj Hp mulr0.
by move=> q /negbTE Hq; rewrite inj Hq andbF mulr0.
Qed.

Theorem C30_linear (C : numClosedFieldType) (d : nat) (rho o1 o2 : tensor C) (a b : C) :
  a \is Num.real -> b \is Num.real ->
  (shape rho = [:: d; d] -> 'Re (tr1 d rho) != 0 -> shape o1 = [:: d; d] -> shape o2 = [:: d; d] ->
   exists x y, [/\ measured1 rho o1 = Ok x, measured1 rho o2 = Ok y & measured1 rho (comb2 a b o1 o2) = Ok (a * x + b * y)]) /\
  (shape rho = [:: d; d; d; d] -> 'Re (tr2 d rho) != 0 -> shape o1 = [:: d * d; d * d]%N -> shape o2 = [:: d * d; d * d]%N ->
   exists x y, [/\ measured2 d rho o1 = Ok x, measured2 d rho o2 = Ok y & measured2 d rho (comb2 a b o1 o2) = Ok (a * x + b * y)]).
Proof.
move=> Ra Rb; split=> Hs Hn H1 H2.
  rewrite /measured1 (site_normE Hs) ![bind (Ok _) _]/bind !(measure1E Hs) //.
  eexists _, _; split=> //; congr Ok; rewrite /exp1 !mulrA -mulrDl -!ReM // -raddfD /=; congr ('Re _ / _).
  rewrite !big_distrr -big_split /=; apply: eq_bigr => P _; rewrite !big_distrr -big_split /=; apply: eq_bigr => q _.
  by rewrite mulrDr !(mulrCA (at_ rho _)).
rewrite /measured2 (bond_normE Hs) ![bind (Ok _) _]/bind !(measure2E Hs) //.
eexists _, _; split=> //; congr Ok; rewrite /exp2 !mulrA -mulrDl -!ReM // -raddfD /=; congr ('Re _ / _).
rewrite !big_distrr -big_split /=; apply: eq_bigr => P _; rewrite !big_distrr -big_split /=; apply: eq_bigr => Q _.
rewrite !big_distrr -big_split /=; apply: eq_bigr => q _; rewrite !big_distrr -big_split /=; apply: eq_bigr => r _.
by rewrite mulrDr !(mulrCA (at_ rho _)).
Qed.

(** ---- C63: which operator is measured ---- *)

(** product state: bond and boundary dimensions 1, the site vectors psi *)
Definition prod_net (C : numClosedFieldType) (d : nat) (psi : site -> nat -> C) : Mover.net (tensor C) :=
  fun s x => match x with
  | SA => Tensor [:: 1; 1; 1; 1; d]%N (fun idx => psi s (nth 0%N idx 4))
  | SC _ => Tensor [:: 1; 1]%N (fun _ => 1)
  | SE _ => Tensor [:: 1; 1; 1; 1]%N (fun _ => 1)
  end.

Lemma prod_fits (C : numClosedFieldType) nx ny d (psi : site -> nat -> C) :
  fits nx ny 1 d (fun _ _ => 1%N) (prod_net d psi).
Proof. by []. Qed.

(** C63.  In a product state measure.py computes the expectation value of the
    transposed operator: the operator is contracted with its row index on the ket
    layer.  One site and two sites. *)
Theorem C63_transposed (C : numClosedFieldType) (nx ny d : nat) (psi : site -> nat -> C) (s : site) (op : tensor C) :
  in_cell nx ny s -> shape op = [:: d; d] -> \sum_(p < d) `|psi s p| ^+ 2 != 0 ->
  exists rho, build_site_rdm (prod_net d psi) s = Ok rho /\
    measured1 rho op = Ok ('Re (\sum_(i < d) \sum_(j < d) (psi s i)^* * at_ op [:: nat_of_ord j; nat_of_ord i] * psi s j)
                           / \sum_(p < d) `|psi s p| ^+ 2).
Proof.
move=> Is Ho Hn; have [rho [f [E F Sr T]]] := C31_site_rdm (prod_fits d psi) Is.
exists rho; split=> //.
have R P p : (P < d)%N -> (p < d)%N -> at_ rho [:: P; p] = (psi s P)^* * psi s p.
  move=> HP Hp; case: T => Ss ->; last by rewrite Sr /= HP Hp.
  move: F; rewrite /einsum /= ; case: ifP => // _ [<-] /=; rewrite /sumn !big_ord1 /= /factor /=.
  by rewrite !mul1r mulrC.
have Tr : 'Re (tr1 d rho) = \sum_(p < d) `|psi s p| ^+ 2.
  rewrite (_ : tr1 d rho = \sum_(p < d) `|psi s p| ^+ 2).
    by apply: Creal_ReP; apply: ger0_real; apply: sumr_ge0 => p _; apply: exprn_ge0.
  by apply: eq_bigr => p _; rewrite R // normCKC.
rewrite /measured1 (site_normE Sr) [bind (Ok _) _]/bind (measure1E Sr Ho) ?Tr //.
rewrite /exp1 Tr; congr (Ok ('Re _ / _)).
by apply: eq_bigr => P _; apply: eq_bigr => p _; rewrite R // mulrAC.
Qed.

Theorem C63_transposed_bond (C : numClosedFieldType) (nx ny d k : nat) (psi : site -> nat -> C) (s1 : site) (op : tensor C)
    (empty : nat -> tensor C) :
  in_cell nx ny s1 -> (k < 4)%N -> shape op = [:: d * d; d * d]%N ->
  let s2 := nbr nx ny k s1 in
  let N := \sum_(p < d) \sum_(q < d) `|psi s1 p * psi s2 q| ^+ 2 in
  N != 0 ->
  exists rho, build_bond_rdm empty (prod_net d psi) (Bond s1 s2 k) = Ok rho /\
    measured2 d rho op =
      Ok ('Re (\sum_(i < d) \sum_(i' < d) \sum_(j < d) \sum_(j' < d)
                 (psi s1 i * psi s2 i')^* * at_ op [:: (j * d + j')%N; (i * d + i')%N] * (psi s1 j * psi s2 j')) / N).
Proof.
move=> Is Hk Ho s2 N Hn; have [rho [f [u [E F _ T [_ Sf]]]]] := C32_bond_rdm empty (prod_fits d psi) Is Hk.
exists rho; split=> //.
have Sr : shape rho = [:: d; d; d; d] by case: T => ->.
have R P Q p q : (P < d)%N -> (Q < d)%N -> (p < d)%N -> (q < d)%N ->
    at_ rho [:: P; Q; p; q] = (psi s1 P * psi s2 Q)^* * (psi s1 p * psi s2 q).
  move=> HP HQ Hp Hq; case: T => Ss ->; last by rewrite Sr /= HP HQ Hp Hq.
  have X : at_ f [:: P; Q; p; q] = psi s1 p * ((psi s1 P)^* * (psi s2 q * (psi s2 Q)^*)).
    move: F; rewrite -/s2; clearbody s2; clear -Hk; case: k Hk => [|[|[|[|]]]] // _; rewrite /einsum /=;
      (case: ifP => // _ [<-] /=); by rewrite /sumn !big_ord1 /= /factor /= !mul1r.
  by rewrite X rmorphM [in RHS]mulrC !mulrA; congr (_ * _); rewrite mulrAC.
have Tr : 'Re (tr2 d rho) = N.
  rewrite (_ : tr2 d rho = N).
    by apply: Creal_ReP; apply: ger0_real; apply: sumr_ge0 => p _; apply: sumr_ge0 => q _; apply: exprn_ge0.
  by apply: eq_bigr => p _; apply: eq_bigr => q _; rewrite R // normCKC.
rewrite /measured2 (bond_normE Sr) [bind (Ok _) _]/bind (measure2E Sr Ho) ?Tr //.
rewrite /exp2 Tr; congr (Ok ('Re _ / _)).
apply: eq_bigr => P _; apply: eq_bigr => Q _; apply: eq_bigr => p _; apply: eq_bigr => q _.
by rewrite R // mulrAC.
Qed.

(** the expectation that measure returns <psi|O|psi>/<psi|psi> is false: psi = (1, i)
    has <Y> = 1, but -1 is reported *)
Theorem C63_not_transposed_refuted (C : numClosedFieldType) :
  let psi : site -> nat -> C := fun _ p => if p == 0%N then 1 else 'i in
  let Y : tensor C := Tensor [:: 2; 2]%N (fun idx => match idx with [:: 0; 1] => - 'i | [:: 1; 0] => 'i | _ => 0 end) in
  (\sum_(i < 2) \sum_(j < 2) (psi (0, 0)%N i)^* * at_ Y [:: nat_of_ord i; nat_of_ord j] * psi (0, 0)%N j)
    / (\sum_(p < 2) `|psi (0, 0)%N p| ^+ 2) = 1 /\
  exists rho, build_site_rdm (prod_net 2 psi) (0, 0)%N = Ok rho /\ measured1 rho Y = Ok (- 1).
Proof.
move=> psi Y.
have N2 : \sum_(p < 2) `|psi (0, 0)%N p| ^+ 2 = 2%:R :> C.
  by rewrite !big_ord_recr big_ord0 /= /psi /= normr1 normCi expr1n add0r -(natrD _ 1 1).
have Z2 : 2%:R != 0 :> C by rewrite pnatr_eq0.
split.
  rewrite N2 !big_ord_recr !big_ord0 /= /psi /= !add0r conjC1 !mul1r !(mulr0, mul0r, addr0, add0r, mulr1) conjCi.
  by rewrite !mulNr -!expr2 sqrCi opprK -(natrD _ 1 1) divff.
have [||| rho [E M]] := @C63_transposed C 1 1 2 psi (0, 0)%N Y; [by split; apply/ltP|by []|by rewrite N2|].
exists rho; split=> //; rewrite M N2; congr Ok.
rewrite !big_ord_recr !big_ord0 /= /psi /= !add0r conjC1 !mul1r !(mulr0, mul0r, addr0, add0r, mulr1) conjCi.
rewrite mulrNN -expr2 sqrCi -opprD -(natrD _ 1 1).
have -> : 'Re (- 2%:R : C) = - 2%:R by apply: Creal_ReP; rewrite rpredN realn.
by rewrite mulNr divff.
Qed.

(** ---- concrete cases ---- *)
Section Examples.
Variable C : numClosedFieldType.
Definition ex_rho1 : tensor C := Tensor [:: 2; 2]%N (fun idx => if idx is [:: 0; 0] then 1 else 0).
Definition ex_rho2 : tensor C := Tensor [:: 2; 2; 2; 2]%N (fun idx => if idx is [:: 0; 0; 0; 0] then 1 else 0).
Definition ex_z : tensor C := Tensor [:: 2; 2]%N (fun idx => match idx with [:: 0; 0] => 1 | [:: 1; 1] => - 1 | _ => 0 end).
Definition ex_model (nm0 nm1 nb : string) : model C :=
  Model 2 (fun s => if s.1 == 0%N then [:: (nm0, ex_z)] else [:: (nm1, ex_z)]) (fun _ => [:: (nb, eye C 4)])
    (fun s => if s.1 == 0%N then None else Some ex_z) (fun _ => eye C 4).
Definition ex_sites : seq site := [:: (0, 0); (1, 0)]%N.
Definition ex_bond : bond := Bond (0, 0)%N (1, 0)%N 2.

Lemma ex_site_good nm0 nm1 nb s : site_good (ex_model nm0 nm1 nb) (fun _ => Ok ex_rho1) s ex_rho1.
Proof.
split=> //; last by rewrite /=; case: ifP.
  rewrite (_ : tr1 _ _ = 1); first by rewrite (Creal_ReP 1 (rpred1 _)) oner_neq0.
  by rewrite /tr1 !big_ord_recr big_ord0 /= add0r addr0.
by move=> h /=; case: ifP => // _ [<-].
Qed.
Lemma ex_bond_good nm0 nm1 nb b : bond_good (ex_model nm0 nm1 nb) (fun _ => Ok ex_rho2) b ex_rho2.
Proof.
split=> //; rewrite (_ : tr2 _ _ = 1); first by rewrite (Creal_ReP 1 (rpred1 _)) oner_neq0.
by rewrite /tr2 !big_ord_recr !big_ord0 /= !add0r !addr0.
Qed.

Lemma ex_exp1 : exp1 2 ex_rho1 ex_z = 1.
Proof.
rewrite /exp1 /tr1 !big_ord_recr !big_ord0 /= !(add0r, addr0, mul0r, mulr1).
by rewrite (Creal_ReP 1 (rpred1 _)) divr1.
Qed.
Lemma ex_exp2 : exp2 2 ex_rho2 (eye C 4) = 1.
Proof.
rewrite /exp2 /tr2 !big_ord_recr !big_ord0 /= !(add0r, addr0, mul0r, mulr1).
by rewrite (Creal_ReP 1 (rpred1 _)) divr1.
Qed.

(** C27: two sites, one bond; a site energy on one site only *)
Example C27_example : exists a,
  [/\ measure (ex_model "sz" "sz" "id") (fun _ => Ok ex_rho1) (fun _ => Ok ex_rho2) ex_sites [:: ex_bond] = Ok a,
     dget "Energy" a = Some 1, dget "sz" a = Some 1 & dget "id" a = Some 1].
Proof.
have [|||||||||| a [Ea E H1 H2 _]] := @C27_averages C (ex_model "sz" "sz" "id") (fun _ => Ok ex_rho1) (fun _ => Ok ex_rho2)
  (fun _ => ex_rho1) (fun _ => ex_rho2) ex_sites ex_bond [::] => //.
- by move=> s _; apply: ex_site_good.
- by move=> s _; apply: ex_bond_good.
- by move=> s /=; case: ifP.
- by move=> s _ X /=; case: ifP.
- by move=> X; rewrite /inks /= !orbF; case: seqbP => // ->.
exists a; split=> //.
- rewrite E /sum_site_energy /sum_bond_energy /ex_sites !big_cons !big_nil /site_energy /bond_energy /= ex_exp1 ex_exp2.
  by rewrite !(add0r, addr0) -(natrD _ 1 1) divff // pnatr_eq0.
- rewrite H1 // /sum_site /ex_sites !big_cons big_nil /named /= !ex_exp1.
  by rewrite addr0 -(natrD _ 1 1) divff // pnatr_eq0.
- by rewrite H2 // /sum_bond !big_cons big_nil /named /= !ex_exp2 addr0 divr1.
Qed.

(** C28: site (1,0) offers a name that site (0,0) does not *)
Example C28_example :
  measure (ex_model "sz" "mz" "id") (fun _ => Ok ex_rho1) (fun _ => Ok ex_rho2) ex_sites [:: ex_bond] = Err KeyError.
Proof.
apply: (@C28_exact C (ex_model "sz" "mz" "id") (fun _ => Ok ex_rho1) (fun _ => Ok ex_rho2)
  (fun _ => ex_rho1) (fun _ => ex_rho2) ex_sites ex_bond [::]) => //.
- by move=> s _; apply: ex_site_good.
- by move=> s _; apply: ex_bond_good.
- by move=> s /=; case: ifP.
Qed.

(** ... and the other way round nothing is raised: the bond observable is called as
    the site observable, whose average is lost *)
Example C28_example_collision : exists a,
  measure (ex_model "sz" "sz" "sz") (fun _ => Ok ex_rho1) (fun _ => Ok ex_rho2) ex_sites [:: ex_bond] = Ok a /\
  dget "sz" a = Some (exp2 2 ex_rho2 (eye C 4)).
Proof.
have [|||||| a [Ea H _ _ _]] := @C28_collisions C (ex_model "sz" "sz" "sz") (fun _ => Ok ex_rho1) (fun _ => Ok ex_rho2)
  (fun _ => ex_rho1) (fun _ => ex_rho2) ex_sites ex_bond [::] => //.
- by move=> s _; apply: ex_site_good.
- by move=> s _; apply: ex_bond_good.
- by move=> s /=; case: ifP.
exists a; split=> //; rewrite H // /sum_bond big_cons big_nil /named /=; by rewrite addr0 divr1.
Qed.
End Examples.

Print Assumptions C27_averages.
Print Assumptions C28_exact.
Print Assumptions C28_collisions.
Print Assumptions C29_order.
Print Assumptions C30_scale.
Print Assumptions C30_identity.
Print Assumptions C30_linear.
Print Assumptions C63_transposed.
Print Assumptions C63_transposed_bond.
Print Assumptions C63_not_transposed_refuted.
