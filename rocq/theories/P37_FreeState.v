(** Property C86: the whole state of a model without interactions is evolved exactly
    by simple updates. *)
From Coq Require Import String Ascii Permutation.
From mathcomp Require Import all_ssreflect all_algebra.
From Verif Require Import Base Lattice LatticeFacts Mover Gate GateSum Tensor TN Rdm RdmFacts Fits Measure FullUpdate Linalg Mat Rsvd Renorm Spectral Als AlsFacts EighChol Dist Lambda Evolve P16_Als P22_SimpleUpdate P26_SiteUpdate Session P29_Session ProductFacts P30_Product P31_Calls CoverFacts Torus P34_State FreeCount P36_Free.
Set Implicit Arguments.
Unset Strict Implicit.
Unset Printing Implicit Defensive.
Import GRing.Theory Num.Theory.
Local Open Scope ring_scope.

(** ** One-site operators on all points of a lattice *)
Section Points.
Variable C : numClosedFieldType.
Variable T : finType.
Variable p : nat.
Notation amps := ((T -> nat) -> C).

(** the operator that acts on the physical state of the point t with the matrix U t,
    for all points together (old index first) *)
Definition act_points (U : T -> 'M[C]_p) (f : amps) : amps := fun s =>
  \sum_(s' : {ffun T -> 'I_p}) (\prod_t ent (U t) (s' t) (s t)) * f (fun t => nat_of_ord (s' t)).

(** amplitudes depend on the values of a configuration only *)
Definition cext (f : amps) : Prop := forall s s', config p s -> (forall t, s t = s' t) -> f s = f s'.
Definition acts (U : T -> 'M[C]_p) (F : amps -> amps) : Prop := forall f, cext f -> forall s, config p s -> F f s = act_points U f s.

Lemma act_points_cext U f : cext (act_points U f).
Proof. by move=> s s' _ E; apply: eq_bigr => x _; congr (_ * _); apply: eq_bigr => t _; rewrite E. Qed.

Lemma act_points_ext U f g s : (forall s, config p s -> f s = g s) -> act_points U f s = act_points U g s.
Proof. by move=> E; apply: eq_bigr => x _; rewrite E. Qed.

Lemma acts_comp U V F G : acts U F -> acts V G -> acts (fun t => V t *m U t) (F \o G).
Proof.
move=> HF HG f Hf s Hs /=; rewrite HF; last first.
- exact: Hs.
- move=> s1 s2 H1 E; have H2 : config p s2 by move=> t; rewrite -E.
  by rewrite !HG //; exact: act_points_cext.
rewrite (act_points_ext _ _ (HG f Hf)) /act_points.
under eq_bigr do rewrite mulr_sumr; rewrite exchange_big /=; apply: eq_bigr => s2 _.
under eq_bigr do rewrite mulrA -big_split /=.
rewrite -mulr_suml; congr (_ * _).
rewrite -(bigA_distr_bigA (fun t (j : 'I_p) => ent (U t) j (s t) * ent (V t) (s2 t) j)) /=; apply: eq_bigr => t _.
rewrite -[s t]/(nat_of_ord (Ordinal (Hs t))) ent_ord mxE; apply: eq_bigr => j _.
by rewrite !ent_ord mulrC.
Qed.

Lemma ent1 (i j : 'I_p) : ent (1%:M : 'M[C]_p) i j = (i == j)%:R.
Proof. by rewrite ent_ord mxE. Qed.

(** one point *)
Definition act1 (M : 'M[C]_p) (t : T) (f : amps) : amps := fun s => sumn p (fun P => f (put s t P) * ent M P (s t)).

Lemma acts_1 M t : acts (fun t' => if t' == t then M else 1%:M) (act1 M t).
Proof.
move=> f Hf s Hs.
pose so : {ffun T -> 'I_p} := [ffun x => Ordinal (Hs x)].
pose h (P : 'I_p) : {ffun T -> 'I_p} := [ffun x => if x == t then P else so x].
rewrite /act_points (bigID (fun s' : {ffun T -> 'I_p} => [forall x, (x != t) ==> (s' x == so x)])) /= [X in _ + X]big1 ?addr0; last first.
{ move=> s' /forallPn [x]; rewrite negb_imply => /andP[xt Ns].
  rewrite (bigD1 x) //= (negbTE xt) -[s x]/(nat_of_ord (Ordinal (Hs x))) ent1.
  by move: Ns; rewrite ffunE => /negbTE ->; rewrite !mul0r. }
rewrite /act1 /sumn (reindex_onto h (fun s' => s' t)) /=; last first.
  move=> s' /forallP H; apply/ffunP => x; rewrite ffunE; case: eqP => [-> //|/eqP Nx].
  by have := H x; rewrite Nx => /eqP.
rewrite [RHS](eq_bigl xpredT) => [|P]; last first.
  by rewrite ffunE eqxx eqxx andbT; apply/forallP => x; rewrite ffunE; case: eqP => //=.
apply: eq_bigr => P _; rewrite mulrC; congr (_ * _).
  rewrite (bigD1 t) //= eqxx ffunE eqxx big1 ?mulr1 // => x Nx.
  by rewrite (negbTE Nx) !ffunE (negbTE Nx) -[s x]/(nat_of_ord (Ordinal (Hs x))) ent1 eqxx.
apply: Hf => [x|x]; rewrite /put; first by case: eqP.
by rewrite ffunE; case: eqP => // _; rewrite ffunE.
Qed.
End Points.

(** ** The gates of a model without interactions *)
Section Free.
Variable C : numClosedFieldType.
Notation tensor := (tensor C).
Variable mexp : forall n, 'M[C]_n -> 'M[C]_n.
Variable u : setup C.
Notation nx := (u_nx u).
Notation ny := (u_ny u).
Notation p := (u_phys u).
Variable one : site -> option tensor.
Hypothesis L : exp_laws mexp u one.
Hypotheses (nx1 : (1 < nx)%N) (ny1 : (1 < ny)%N).
Variable T : finType.
Variables (nb : nat -> T -> T) (cell : T -> site).
Hypothesis cov : covers nb nx ny cell.
Notation amps := ((T -> nat) -> C).
Notation acts := (@acts C T p).

Lemma acts_same U V (F G : amps -> amps) : (forall t, U t = V t) -> (forall f, cext p f -> forall s, config p s -> F f s = G f s) -> acts U F -> acts V G.
Proof.
move=> E EF H f Hf s Hs; rewrite -EF // H //; apply: eq_bigr => s' _; congr (_ * _).
by apply: eq_bigr => t _; rewrite E.
Qed.

(** the exponential of n quarters of the term at a point *)
Definition dose (dtau : C) (t : T) (n : nat) : 'M[C]_p := mexp ((- dtau / 4%:R * n%:R) *: term u one (cell t)).
Lemma dose0 dtau t : dose dtau t 0 = 1%:M.
Proof. by have [L0 _ _ _] := L; rewrite /dose mulr0 scale0r. Qed.
Lemma doseD dtau t m n : dose dtau t (m + n) = dose dtau t m *m dose dtau t n.
Proof. by have [_ _ La _] := L; case: cov => _ Hc _; rewrite /dose -La // -mulrDr -natrD. Qed.

Lemma nb_other k t : (k < 4)%N -> nb k t != t.
Proof.
case: cov => _ Hc Hn Hk; apply/eqP => E; have := Hn k t Hk; rewrite E => X.
by case: (nbr_other nx ny k (cell t) (elimT ltP nx1) (elimT ltP ny1) (Hc t)).
Qed.

(** the gate of a bond at one copy *)
Lemma acts_bond K dtau k t : (k < 4)%N ->
  (forall P Q r s, (P < p)%N -> (Q < p)%N -> (r < p)%N -> (s < p)%N -> K P Q r s = ent (dose dtau t 1) P r * ent (dose dtau (nb k t) 1) Q s) ->
  acts (fun t' => dose dtau t' ((t' == t) + (nb k t == t'))) (act2 p K t (nb k t)).
Proof.
move=> Hk HK; have N := nb_other t Hk.
apply: acts_same (acts_comp (acts_1 (dose dtau t 1) t) (acts_1 (dose dtau (nb k t) 1) (nb k t))) => [t'|f Hf s Hs] /=.
  rewrite [nb k t == t']eq_sym; case: (eqVneq t' (nb k t)) => [->|_]; first by rewrite (negbTE N) mulmx1.
  by rewrite mul1mx addn0; case: eqP => [->|_] //; rewrite dose0.
apply: eq_sumn => P HP; rewrite /act1 sumn_mulr; apply: eq_sumn => Q HQ.
by rewrite HK // /put (negbTE N) -mulrA; congr (_ * _); rewrite mulrC.
Qed.

Lemma acts_idle K k t : (k < 4)%N ->
  (forall P Q r s, (P < p)%N -> (Q < p)%N -> (r < p)%N -> (s < p)%N -> K P Q r s = ent (1%:M : 'M[C]_p) P r * ent (1%:M : 'M[C]_p) Q s) ->
  acts (fun _ => 1%:M) (act2 p K t (nb k t)).
Proof.
move=> Hk HK; have N := nb_other t Hk.
apply: acts_same (acts_comp (acts_1 (1%:M : 'M[C]_p) t) (acts_1 (1%:M : 'M[C]_p) (nb k t))) => [t'|f Hf s Hs] /=.
  by rewrite !if_same mulmx1.
apply: eq_sumn => P HP; rewrite /act1 sumn_mulr; apply: eq_sumn => Q HQ.
by rewrite HK // /put (negbTE N) -mulrA; congr (_ * _); rewrite mulrC.
Qed.

Lemma acts_nil : acts (fun _ => 1%:M) id.
Proof.
move=> f Hf s Hs; pose so : {ffun T -> 'I_p} := [ffun x => Ordinal (Hs x)].
rewrite /act_points (bigD1 so) //= [X in _ + X]big1 ?addr0 => [|s' Ns]; last first.
  have /existsP [t Nt] : [exists t, s' t != so t].
    by apply: contraR Ns => /existsPn H; apply/eqP/ffunP => t; have := H t; rewrite negbK => /eqP.
  rewrite (bigD1 t) //= -[s t]/(nat_of_ord (Ordinal (Hs t))) ent1.
  by move: Nt; rewrite ffunE => /negbTE ->; rewrite !mul0r.
rewrite big1 ?mul1r; first by apply: Hf => // t; rewrite ffunE.
by move=> t _; rewrite ffunE -[s t]/(nat_of_ord (Ordinal (Hs t))) ent1 eqxx.
Qed.

Lemma copies_count x k t' : (k < 4)%N -> in_cell nx ny x ->
  count (pred1 t') (copies cell x) = (cell t' == x) /\ count (fun t => nb k t == t') (copies cell x) = (cell t' == nbr nx ny k x).
Proof.
case: cov => HP Hc Hn Hk Hx; split.
  rewrite /copies count_uniq_mem; last by rewrite filter_uniq // enum_uniq.
  by rewrite mem_filter mem_enum andbT.
have k4 : ((k + 2) %% 4 < 4)%N by rewrite ltn_mod.
have B : nb k (nb ((k + 2) %% 4)%N t') = t'.
  have := HP ((k + 2) %% 4)%N t' k4; rewrite modnDml -addnA -[(2 + 2)%N]/4%N modnDr modn_small //.
rewrite (@eq_count _ _ (pred1 (nb ((k + 2) %% 4)%N t'))); last first.
  move=> t /=; apply/eqP/eqP => [<-|->]; [by rewrite HP|exact: B].
rewrite /copies count_uniq_mem; last by rewrite filter_uniq // enum_uniq.
rewrite mem_filter mem_enum andbT; congr nat_of_bool.
apply/eqP/eqP => [<-|E]; first by rewrite -Hn // B.
have := Hn _ t' k4; rewrite E => ->.
exact: nbr_inv.
Qed.

(** the gate of a bond at all its copies *)
Lemma acts_copies dtau (g : gates C) x : List.In x (build_bond_list nx ny) -> g_one g = None ->
  splits p (factors mexp u one dtau x).1 (factors mexp u one dtau x).2 (g_two g x) ->
  acts (fun t => dose dtau t (touches (has one) (cell t) x)) (act_bond u nb cell g x).
Proof.
move=> Hx G [_ S]; have [y [k [Hy Hk Ex]]] := bond_in (Permutation_refl _) Hx.
subst x; rewrite /act_bond /act_copies /one_of G /=.
move: S; rewrite /factors /touches /= ; case: ifP => Hh S.
{ have A l : (forall t, t \in l -> cell t = y) -> acts (fun t' => dose dtau t' (count (pred1 t') l + count (fun t => nb k t == t') l))
      (fun f => foldr (fun t => act2 p (kernel p (g_two g (Bond y (nbr nx ny k y) k)) None) t (nb k t)) f l).
    elim: l => [|t l IH] Hl; first by apply: acts_same acts_nil => // t; rewrite dose0.
    have Et : cell t = y by apply: Hl; rewrite mem_head.
    apply: acts_same (acts_comp (@acts_bond _ dtau k t Hk _) (IH _)) => [t'|//|P Q r s HP HQ Hr Hs|t1 H1].
    - by rewrite -doseD; congr (dose _ _ _); rewrite /= addnC addnACA [t' == t]eq_sym.
    - rewrite /kernel S // /dose mulr1 Et; case: cov => _ _ -> //; by rewrite Et.
    - by apply: Hl; rewrite in_cons H1 orbT.
  apply: acts_same (A (copies cell y) _) => [t'|//|t]; last by rewrite mem_filter => /andP[/eqP].
  have [-> ->] := copies_count t' Hk Hy.
  have N := nbr_other nx ny k y (elimT ltP nx1) (elimT ltP ny1) Hy.
  congr (dose _ _ _); rewrite andbT /site_eqb.
  case: (site_eq_dec y (cell t')) => [<-|N1].
    by rewrite eqxx; case: eqP => // X; case: N.
  have -> : (cell t' == y) = false by apply/eqP => X; case: N1.
  by case: (site_eq_dec (nbr nx ny k y) (cell t')) => [<-|N2]; rewrite ?eqxx //; case: eqP => // X; case: N2. }
have A l : acts (fun _ => 1%:M) (fun f => foldr (fun t => act2 p (kernel p (g_two g (Bond y (nbr nx ny k y) k)) None) t (nb k t)) f l).
  elim: l => [|t l IH]; first exact: acts_nil.
  apply: acts_same (acts_comp (@acts_idle _ k t Hk _) IH) => [t'|//|P Q r s HP HQ Hr Hs]; first by rewrite mulmx1.
  by rewrite /kernel S.
by apply: acts_same (A (copies cell y)) => // t'; rewrite andbF dose0.
Qed.

(** the gates of a list of bonds *)
Lemma acts_bonds dtau (g : gates C) l : g_one g = None -> gates_split u (factors mexp u one dtau) g -> (forall x, List.In x l -> List.In x (build_bond_list nx ny)) ->
  acts (fun t => dose dtau t (Datatypes.length (List.filter (touches (has one) (cell t)) l))) (act_bonds u nb cell g l).
Proof.
move=> G S; elim: l => [|x l IH] Hl; first by apply: acts_same acts_nil => // t; rewrite dose0.
have Hx := Hl x (or_introl erefl).
apply: acts_same (acts_comp (IH (fun y Hy => Hl y (or_intror Hy))) (acts_copies Hx G (S x Hx))) => // t.
by rewrite -doseD; cbn [List.filter]; case: (touches _ _ x).
Qed.

Lemma acts_schedule dtau (g : gates C) bl steps : g_one g = None -> gates_split u (factors mexp u one dtau) g -> Permutation bl (build_bond_list nx ny) ->
  acts (fun t => mexp ((- (dtau * steps%:R) * (quarters u one (cell t))%:R / 4%:R) *: term u one (cell t))) (act_bonds u nb cell g (schedule bond bl steps)).
Proof.
move=> G S HP; have [L0 _ _ _] := L; case: (cov) => _ Hc _.
apply: acts_same (acts_bonds G S _) => [t|//|x Hx]; last first.
  by apply: (Permutation_in _ HP); exact: in_sched Hx.
rewrite /dose; case Hh: (has one (cell t)); last first.
  by have -> : term u one (cell t) = 0; [move: Hh; rewrite /has /term; case: (one (cell t))|rewrite !scaler0].
rewrite schedule_count (filter_perm _ _ _ HP) quarters_count // multE natrM.
congr (mexp (_ *: _)).
by rewrite mulNr !mulNr mulrA [dtau / _ * _]mulrAC -!mulrA [_^-1 * _]mulrC.
Qed.
End Free.

(** ** Evolutions *)
Section Run.
Variable C : numClosedFieldType.
Notation tensor := (tensor C).
Local Open Scope string_scope.
Variable R : Type.
Variable randn : R -> forall n q : nat, 'M[C]_(n, q) * R.
Variable trand : R -> nat -> nat -> tensor * R.
Variable lqr : qr_fun C.
Variable lsvd : thin_svd_fun C.
Variable fsvd : full_svd_fun C.
Variable leigh : eigh_fun C.
Variable lchol : chol_fun C.
Variable rtol : nat -> nat -> C.
Variables (lcut noise : C).
Variable fuel : nat.
Variable mexp : forall n, 'M[C]_n -> 'M[C]_n.
Variable u : setup C.
Notation nx := (u_nx u).
Notation ny := (u_ny u).
Notation b := (u_bond u).
Notation p := (u_phys u).
Notation state := (Session.state C R).
Variable one : site -> option tensor.
Variable two : bond -> tensor.
Hypothesis Sq : qr_spec lqr.
Hypothesis Sf : full_svd_spec fsvd.
Hypothesis l0 : 0 < lcut.
Hypotheses (nx1 : (1 < nx)%N) (ny1 : (1 < ny)%N) (b0 : (0 < b)%N) (p0 : (0 < p)%N).
Hypothesis L : exp_laws mexp u one.
Hypothesis Sh : forall x h, one x = Some h -> shape h = [:: p; p].
Hypothesis H2 : no_bonds u two.
Variable T : finType.
Variables (nb : nat -> T -> T) (cell : T -> site).
Hypothesis cov : covers nb nx ny cell.
Notation evolve := (Session.evolve randn trand lqr lsvd fsvd leigh lchol rtol lcut noise fuel u).
Notation amplitude := (amplitude u nb cell).

(** the gates evolve() makes of the model *)
Notation gates_for th bl dtau := (model_gates mexp p (Gate.Model tensor one (Gate.Fresh tensor two)) dtau bl (build_site_list nx ny) th).
(** the exact evolution of the whole state through imaginary time tau *)
Definition exact (tau : C) : ((T -> nat) -> C) -> (T -> nat) -> C :=
  act_points (fun t => mexp ((- tau * (quarters u one (cell t))%:R / 4%:R) *: term u one (cell t))).

Lemma free_ok th bl dtau : Permutation bl (build_bond_list nx ny) ->
  [/\ gates_ok u (gates_for th bl dtau), gates_split u (factors mexp u one dtau) (gates_for th bl dtau) & product_gates u (gates_for th bl dtau)].
Proof using L Sh H2.
move=> HP; have Hbl x : List.In x (build_bond_list nx ny) -> List.In x bl by apply: Permutation_in; exact: Permutation_sym.
have [G1 G2] := free_gates L Sh dtau th Hbl H2; split=> // x Hx.
by have [_ S] := G1 x Hx; exists (factors mexp u one dtau x).1, (factors mexp u one dtau x).2.
Qed.

Lemma amplitude_cext n : cext p (amplitude n).
Proof. by move=> s s' _ E; apply: psi_ext. Qed.

(** C86.  Evolving a model without interactions by simple updates, in any bond
    dimension and with any step, multiplies the amplitudes of the whole state, on
    every finite periodic lattice that covers the unit cell, by the exponentials of
    the site terms, up to a positive factor, as long as no weight that matters is
    below the cutoff. *)
Theorem C86_evolve th st dtau steps (s s' : state) : u_type u = "simple" -> s_init s = true ->
  Permutation (s_bonds s) (build_bond_list nx ny) ->
  (forall x, in_cell nx ny x -> shape (s_net s x SA) = [:: b; b; b; b; p]) ->
  let g := gates_for th (s_bonds s) dtau in
  along lqr fsvd lcut (weights_fine lcut u) g (schedule bond (s_bonds s) steps) (s_net s, new_lambda tensor (ones_vec u) (s_bonds s)) ->
  evolve st g steps s = Some (Ok s') ->
  exists2 d, 0 < d & forall f, config p f -> amplitude (s_net s') f = d * exact (dtau * steps%:R) (amplitude (s_net s)) f.
Proof using Sq Sf l0 nx1 ny1 b0 p0 L Sh H2 cov.
move=> Tu I HP Hf g Ha E; have [Hg Hs Hpg] := free_ok th dtau HP.
have [d d0 Hd] := C83_product Sq Sf l0 nx1 ny1 b0 p0 cov Tu I Hg Hpg HP Hf Ha E.
exists d => // f Hcf; rewrite Hd //; congr (_ * _).
by apply: (acts_schedule L nx1 ny1 cov _ _ Hs HP) => //; exact: amplitude_cext.
Qed.

(** with bond dimension 1 no weight is ever cut *)
Corollary C86_bond_one th st dtau steps (s s' : state) : b = 1%N -> lcut <= 1 -> u_type u = "simple" -> s_init s = true ->
  Permutation (s_bonds s) (build_bond_list nx ny) ->
  (forall x, in_cell nx ny x -> shape (s_net s x SA) = [:: b; b; b; b; p]) ->
  evolve st (gates_for th (s_bonds s) dtau) steps s = Some (Ok s') ->
  exists2 d, 0 < d & forall f, config p f -> amplitude (s_net s') f = d * exact (dtau * steps%:R) (amplitude (s_net s)) f.
Proof using Sq Sf l0 nx1 ny1 b0 p0 L Sh H2 cov.
move=> b1 l1 Tu I HP Hf E; have [Hg Hs Hpg] := free_ok th dtau HP.
have [d d0 Hd] := C83_bond_one Sq Sf l0 nx1 ny1 b0 p0 cov b1 l1 Tu I Hg Hpg HP Hf E.
exists d => // f Hcf; rewrite Hd //; congr (_ * _).
by apply: (acts_schedule L nx1 ny1 cov _ _ Hs HP) => //; exact: amplitude_cext.
Qed.
End Run.

(** ** A concrete case *)
Section Example.
Variable C : numClosedFieldType.
Notation tensor := (tensor C).
Local Open Scope string_scope.
Notation u := (cell_setup C 2 2).
Notation session := (@Session.session C unit (fun r _ _ => (0, r)) (@zeros_rand C) (@some_qr C) (@some_thin_svd C) (@some_full_svd C) (@some_eigh C) (@some_chol C) (fun _ _ => 0) 1 0 1 (fun _ => Tensor [::] (fun _ => 0))).
Notation construct := (@Session.construct C unit (@zeros_rand C) 0).
Notation amp a c := (amplitude u (tnbr (nx := 2) (ny := 2)) (tcell (a := a) (c := c) (nx := 2) (ny := 2))).

(** two evolutions of a field that raises the spins; on a lattice of any size the
    second one multiplies the state by (1 - tau raise) at every point *)
Example C86_example th th' dtau dtau' steps steps' : exists2 s, construct u (@blank C) tt 3 = Ok s & exists s1 s2,
  let ask th bl dtau steps := call_of (@series C) u (fun _ => Some (raise C)) (@nothing C) (AskEvolve th bl (fun _ => [:: 1; 0]) dtau steps) in
  [/\ session u [:: ask th (s_bonds s) dtau steps] s = Some (Ok (s1, [::])),
      session u [:: ask th' (s_bonds s1) dtau' steps'] s1 = Some (Ok (s2, [::])) &
      forall a c, (0 < a)%N -> (0 < c)%N -> exists2 d, 0 < d & forall f, config 2 f ->
        amp a c (s_net s2) f = d * act_points (fun _ => 1%:M - (dtau' * steps'%:R) *: mx_of 2 2 (raise C)) (amp a c (s_net s1)) f].
Proof.
have Srand r : shape (@zeros_rand C r 1 2).1 = [:: 1; 1; 1; 1; 2]%N by [].
have Srand' r : shape (@zeros_rand C r (u_bond u) 2).1 = [:: 1; 1; 1; 1; 2]%N by [].
have [s [Es Hs Us _]] := @C74_construct C unit (@zeros_rand C) 0 u Srand' isT isT (@blank C) tt 3 (fun _ _ => Order.POrderTheory.lexx 0) (Order.POrderTheory.lexx 0) isT.
exists s; first by rewrite Es.
have [v Iv Pv] := @C77_start C unit (@zeros_rand C) 0 u Srand isT erefl (@blank C) tt 3 s isT Es.
have tot m (A : 'M[C]_m) : @some_eigh C m A by [].
have Hm : als_method (u_evo u) = "cholesky" \/ als_method (u_evo u) = "pinv" by right.
have ni : u_type u = "full" -> (0 < als_niter (u_evo u))%N by [].
have Hp : u_ptype u = Half \/ svd_type (u_ctm u) = "full-rank" by right.
have Sh (x : site) (h : tensor) : (fun _ : site => Some (raise C)) x = Some h -> shape h = [:: u_phys u; u_phys u] by case=> <-.
have H2 : no_bonds u (@nothing C) by move=> b _; split=> //; apply/matrixP => i j; rewrite !mxE.
pose rq th bl (dtau : C) steps := AskEvolve th bl (fun _ => [:: 1; 0]) dtau steps.
have ok th0 bl (dt : C) k : Permutation bl (build_bond_list 2 2) -> request_ok u (rq th0 bl dt k) /\ request_kind (@zeros_rand C) 0 u (rq th0 bl dt k).
  by move=> HP; split=> [|y r2 _]; [split|exists 0%N; rewrite //= mul0r add0r oner_eq0].
have run ps (s0 : Session.state C unit) th0 (dt : C) k : product u ps s0 -> alive u (p_vec ps) ->
    exists s1 ps1, [/\ session u [:: call_of (@series C) u (fun _ => Some (raise C)) (@nothing C) (rq th0 (s_bonds s0) dt k)] s0 = Some (Ok (s1, [::])), product u ps1 s1, p_init ps1 & alive u (p_vec ps1)].
{ move=> P0 A0; have HP : Permutation (s_bonds s0) (build_bond_list 2 2) by case: P0 => _ _ -> ->.
  have [Hx Hk] := ok th0 (s_bonds s0) dt k HP.
  have Qx := request_ask (series_laws C 2 2) Sh H2 Hx; have Kx := request_kindly (@nothing C) (series_laws C 2 2) Hk.
  have [s1 [o1 [E1 A1]]] := perform_total (u := u) (lcut := 1) (noise := 0) (fun (r : unit) (n q : nat) => (0 : 'M[C]_(n, q), r)) (@some_chol C) (fun _ _ => 0) 0 (fun _ => Tensor [::] (fun _ => 0))
    (@some_qr_spec C) (@some_thin_svd_spec C) (@some_full_svd_spec C) (@some_eigh_spec C) tot Srand Hm (Order.POrderTheory.lexx 0) (fun _ => ltr01) ltr01 isT isT isT erefl ni Hp erefl erefl
    (Order.POrderTheory.lexx 0) ltr01 P0 A0 Qx Kx.
  have [ps1 [sp1 [H1 P1 R1]]] := perform_product (u := u) (@some_qr_spec C) (@some_thin_svd_spec C) (@some_full_svd_spec C) (@some_eigh_spec C) tot Srand Hm (Order.POrderTheory.lexx 0) (fun _ => ltr01) ltr01 isT isT isT erefl ni Hp P0 Qx E1.
  exists s1, ps1; cbn [Session.session]; rewrite E1.
  have A := A1 _ _ H1.
  case: H1 R1 => q [_ Eq ->]; case: o1 {E1 A1} => // _; split=> //.
  by rewrite Eq. }
have Ha : alive u (p_vec (PState v (build_bond_list 2 2) false)).
  by move=> x /Iv [r Hr]; exists 0%N; rewrite //= Hr // mul0r add0r oner_eq0.
have [s1 [ps1 [E1 P1 I1 A1]]] := run _ s th dtau steps Pv Ha.
have [s2 [ps2 [E2 P2 I2 A2]]] := run _ s1 th' dtau' steps' P1 A1.
exists s1, s2; split=> // a c a0 c0.
have [R1 _ Eb1 HP1 [_ Ei1]] := P1.
have cov := @torus_covers a c 2 2 a0 c0 isT isT.
have Hex (f : (_ -> nat) -> C) g : exact (@series C) u (fun _ => Some (raise C)) (tcell (a := a) (c := c) (nx := 2) (ny := 2)) (dtau' * steps'%:R) f g
    = act_points (fun _ => 1%:M - (dtau' * steps'%:R) *: mx_of 2 2 (raise C)) f g.
  have E0 : forall t : torus a c 2 2, series ((- (dtau' * steps'%:R) * (quarters u (fun _ => Some (raise C)) (tcell t))%:R / 4%:R) *: term u (fun _ => Some (raise C)) (tcell t))
      = 1%:M - (dtau' * steps'%:R) *: mx_of 2 2 (raise C).
    move=> t; have -> : quarters u (fun _ => Some (raise C)) (tcell t) = 4%N by rewrite /quarters /has sum_nat_const card_ord.
    by rewrite mulfK ?pnatr_eq0 // -[term _ _ _]/(mx_of 2 2 (raise C)) series1 scaleNr.
  by apply: eq_bigr => s' _; congr (_ * _); apply: eq_bigr => t _; rewrite E0.
have Hsh x : in_cell (u_nx u) (u_ny u) x -> shape (s_net s1 x SA) = [:: u_bond u; u_bond u; u_bond u; u_bond u; u_phys u] by move=> Hx; have [Fx _] := Ring.ring_okn R1 Hx; exact: Fx.
have ev : Session.evolve (fun (r : unit) (n q : nat) => (0, r)) (@zeros_rand C) (@some_qr C) (@some_thin_svd C) (@some_full_svd C) (@some_eigh C) (@some_chol C) (fun _ _ => 0) 1 0 1 u (fun _ => [:: 1; 0])
    (model_gates (@series C) (u_phys u) (Gate.Model tensor (fun _ => Some (raise C)) (Gate.Fresh tensor (@nothing C))) dtau' (s_bonds s1) (build_site_list (u_nx u) (u_ny u)) th') steps' s1 = Some (Ok s2).
  move: E2; cbn [Session.session call_of rq Session.perform]; case: Session.evolve => [[s3|]|] //=. by case=> ->.
have HPs : Permutation (s_bonds s1) (build_bond_list (u_nx u) (u_ny u)) by rewrite Eb1.
have [d d0 Hd] := C86_bond_one (u := u) (@some_qr_spec C) (@some_full_svd_spec C) ltr01 isT isT isT isT (series_laws C 2 2) Sh H2 cov erefl (Order.POrderTheory.lexx 1) erefl (etrans Ei1 I1) HPs Hsh ev.
by exists d => // f Hf; rewrite Hd // Hex.
Qed.
End Example.

Print Assumptions C86_evolve.
Print Assumptions C86_bond_one.
Print Assumptions C86_example.
