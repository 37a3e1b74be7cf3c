(** C97: states that are common eigenstates of the terms of a model do not change. *)
From Coq Require Import String Ascii Permutation.
From mathcomp Require Import all_ssreflect all_algebra.
From Verif Require Import Base Lattice LatticeFacts Mover Neel Gate GateSum P04_GateSum Tensor TN Rdm RdmFacts Fits Measure MeasureFacts FullUpdate Linalg Mat Rsvd RsvdFacts Renorm RenormFacts Spectral ProjFacts Psd Als AlsFacts EighChol UpdFacts InitFacts Dist Lambda Evolve P05_Mover MoveShape P08_Control P09_Rdm P13_Renorm P16_Als P17_Reduced P19_Gauge Eckart P20_Simple P22_SimpleUpdate P23_Solver P24_FullUpdate P26_SiteUpdate Cutensor P27_Cutensor Session P29_Session RealNet RealUpd P30_Product P31_Calls P32_Basis Layer CoverFacts Torus P34_State FreeCount P36_Free P37_FreeState P38_Cutoff P39_Classical ProductState P41_FullState Pauli P12_Pauli Samples P40_Samples P42_ClassicalFull P43_FreeFull P44_Symmetry.
Set Implicit Arguments.
Unset Strict Implicit.
Unset Printing Implicit Defensive.
Import GRing.Theory Num.Theory.
Local Open Scope ring_scope.
Local Open Scope string_scope.

Lemma sumnD (C : numClosedFieldType) n (F G : nat -> C) : sumn n (fun i => F i + G i) = sumn n F + sumn n G.
Proof. exact: big_split. Qed.
Lemma sumnMn (C : numClosedFieldType) n (F : nat -> C) k : sumn n (fun i => F i *+ k) = sumn n F *+ k.
Proof. by rewrite /sumn sumrMnl. Qed.

(** ** Eigenvectors of gates *)
Section Pair.
Variable C : numClosedFieldType.
Notation tensor := (tensor C).
Variable mexp : forall n, 'M[C]_n -> 'M[C]_n.
Variable u : setup C.
Notation p := (u_phys u).
Hypothesis p0 : (0 < p)%N.

(** ---- specification ---- *)
(** a vector of two sites on which an operator acts as the number a *)
Definition eigen2 (K : nat -> nat -> nat -> nat -> C) (a : C) (F : nat -> nat -> C) : Prop := forall r s, (r < p)%N -> (s < p)%N ->
  sumn p (fun P => sumn p (fun Q => F P Q * K P Q r s)) = a * F r s.
(** a vector of one site *)
Definition eigen1 (h : nat -> nat -> C) (a : C) (v : nat -> C) : Prop := forall r, (r < p)%N -> sumn p (fun P => v P * h P r) = a * v r.
(** eigenvectors of a matrix are eigenvectors of its exponential, with e of the eigenvalue *)
Definition exp_eigen (e : C -> C) : Prop := forall (M : 'M[C]_(p * p)) (v : 'rV[C]_(p * p)) a, v *m M = a *: v -> v *m mexp M = e a *: v.

(** ---- proofs ---- *)
Notation block h := (fun P Q r s => at_ h [:: (P * p + Q)%N; (r * p + s)%N]).

Lemma gate_eigen e dtau (h : tensor) a F : exp_eigen e -> eigen2 (block h) a F ->
  eigen2 (fun P Q r s => at_ (bond_gate mexp p dtau h) [:: P; Q; r; s]) (e (- dtau * a)) F.
Proof using p0.
move=> He H.
pose v : 'rV[C]_(p * p) := \row_i F (i %/ p)%N (i %% p)%N.
set M := mx_of (p * p) (p * p) (tscale (- dtau) h).
have E : v *m M = (- dtau * a) *: v.
  apply/rowP => j; rewrite !mxE; have [A B] := div_lt j.
  have := H _ _ A B; rewrite -divn_eq pair_sum /sumn => Hj; rewrite -mulrA -Hj mulr_sumr.
  apply: eq_bigr => i _; rewrite !mxE /= mulrCA -divn_eq; by [].
have {}E := He _ _ _ E => r s Hr Hs.
have I := pair_lt p0 Hr Hs; move/rowP/(_ (Ordinal I)): E; rewrite !mxE /= !(proj1 (pair_dv p0 _ _)) // !(proj2 (pair_dv p0 _ _)) // => <-.
rewrite pair_sum /sumn; apply: eq_bigr => i _; rewrite !mxE; congr (_ * _); have [A B] := div_lt i.
rewrite (proj2 (gate_entry mexp p0 dtau h A B Hr Hs)) -divn_eq; exact: (ent_ord _ i (Ordinal I)).
Qed.

Lemma generator_eigen (one : site -> option tensor) (two : bond -> tensor) x F eps eta1 eta2 :
  (forall h, one (b_s1 x) = Some h -> shape h = [:: p; p] /\ forall s, (s < p)%N -> eigen1 (fun P r => at_ h [:: P; r]) eta1 (fun P => F P s)) ->
  (forall h, one (b_s2 x) = Some h -> shape h = [:: p; p] /\ forall r, (r < p)%N -> eigen1 (fun P r => at_ h [:: P; r]) eta2 (F r)) ->
  eigen2 (block (two x)) eps F ->
  eigen2 (block (bond_generator p one two x)) (eps + if one (b_s1 x) && one (b_s2 x) then (eta1 + eta2) / 4%:R else 0) F.
Proof using p0.
move=> H1 H2 H r s Hr Hs; rewrite /bond_generator /generator.
case O1: (one (b_s1 x)) => [h1|]; last by rewrite /= addr0 H.
case O2: (one (b_s2 x)) => [h2|]; last by rewrite /= addr0 H.
have {H1} [S1 E1] := H1 _ O1; have {H2} [S2 E2] := H2 _ O2.
rewrite [isSome _ && isSome _]/= mulrDl -(H _ _ Hr Hs).
rewrite (eq_sumn (G := fun P => sumn p (fun Q => F P Q * at_ (two x) [:: (P * p + Q)%N; (r * p + s)%N]) +
    4%:R^-1 * ((F P s * at_ h1 [:: P; r]) + sumn p (fun Q => F P Q * at_ h2 [:: Q; s]) *+ (P == r)))) => [|P HP].
  rewrite sumnD; congr (_ + _); rewrite -sumn_mull sumnD.
  rewrite E1 // sumn_delta // E2 // -mulrDl mulrA [4%:R^-1 * _]mulrC; by [].
rewrite (eq_sumn (G := fun Q => F P Q * at_ (two x) [:: (P * p + Q)%N; (r * p + s)%N] +
    4%:R^-1 * ((F P Q * at_ h1 [:: P; r]) *+ (Q == s) + F P Q * at_ h2 [:: Q; s] *+ (P == r)))) => [|Q HQ].
  by rewrite sumnD; congr (_ + _); rewrite -sumn_mull sumnD sumn_delta // sumnMn.
rewrite /= /kronT /kron S1 S2 /= !(proj1 (pair_dv p0 _ _)) // !(proj2 (pair_dv p0 _ _)) //.
rewrite mulrDr; congr (_ + _); rewrite mulrCA; congr (_ * _); rewrite mulrDr.
congr (_ + _); [case: eqP|case: eqP] => _; by rewrite /= ?mulr1 ?mul1r ?mulr0 ?mul0r ?mulr0.
Qed.
End Pair.

(** ** Eigenstates on a lattice *)
Section Lattice.
Variable C : numClosedFieldType.
Notation tensor := (tensor C).
Variable u : setup C.
Notation nx := (u_nx u).
Notation ny := (u_ny u).
Notation b := (u_bond u).
Notation p := (u_phys u).
Hypotheses (nx1 : (1 < nx)%N) (ny1 : (1 < ny)%N).
Variable T : finType.
Variables (nb : nat -> T -> T) (cell : T -> site).
Hypothesis cov : covers nb nx ny cell.
Notation amps := ((T -> nat) -> C).
Notation act_bond := (@P34_State.act_bond C u T nb cell).
Notation act_bonds := (@P34_State.act_bonds C u T nb cell).

(** ---- specification ---- *)
(** an operator on one point, on two points, acts on the state as a number *)
Definition eigenstate1 (h : nat -> nat -> C) (a : C) (t : T) (f : amps) : Prop := forall s, config p s ->
  sumn p (fun P => f (put s t P) * h P (s t)) = a * f s.
Definition eigenstate2 (K : nat -> nat -> nat -> nat -> C) (a : C) (t t' : T) (f : amps) : Prop := forall s, config p s ->
  act2 p K t t' f s = a * f s.
(** so do the gates of all bonds, at all their copies *)
Definition steady (g : gates C) (a : bond -> C) (f : amps) : Prop := g_one g = None /\ forall x t, List.In x (build_bond_list nx ny) -> cell t = b_s1 x ->
  eigenstate2 (fun P Q r s => at_ (g_two g x) [:: P; Q; r; s]) (a x) t (nb (b_k x) t) f.
(** so do all terms of a model *)
Definition eigenstate (one : site -> option tensor) (two : bond -> tensor) (eta : site -> C) (eps : bond -> C) (f : amps) : Prop :=
  (forall t h, one (cell t) = Some h -> shape h = [:: p; p] /\ eigenstate1 (fun P r => at_ h [:: P; r]) (eta (cell t)) t f) /\
  (forall x t, List.In x (build_bond_list nx ny) -> cell t = b_s1 x ->
     eigenstate2 (fun P Q r s => at_ (two x) [:: (P * p + Q)%N; (r * p + s)%N]) (eps x) t (nb (b_k x) t) f).
(** the number that the gate of a bond is an exponential of *)
Definition local_energy (one : site -> option tensor) (eta : site -> C) (eps : bond -> C) (x : bond) : C :=
  eps x + if one (b_s1 x) && one (b_s2 x) then (eta (b_s1 x) + eta (b_s2 x)) / 4%:R else 0.

(** ---- proofs ---- *)
Lemma act_list_steady K k a l (f : amps) : (forall t, t \in l -> eigenstate2 K a t (nb k t) f) ->
  forall s, config p s -> foldr (fun t => act2 p K t (nb k t)) f l s = a ^+ size l * f s.
Proof using Type.
elim: l => [|t l IH] H s Hs /=; first by rewrite expr0 mul1r.
have H' y : y \in l -> eigenstate2 K a y (nb k y) f by move=> Hy; apply: H; rewrite inE Hy orbT.
have -> : act2 p K t (nb k t) (foldr (fun t => act2 p K t (nb k t)) f l) s = act2 p K t (nb k t) (fun s => a ^+ size l * f s) s.
  by apply: act2_ext => P Q HP HQ; apply: IH => //; do 2 apply: config_put => //.
rewrite act2_scale H //; last by rewrite inE eqxx.
by rewrite mulrA exprSr.
Qed.

Lemma act_bond_steady g a x (f : amps) : steady g a f -> List.In x (build_bond_list nx ny) ->
  forall s, config p s -> act_bond g x f s = a x ^+ size (copies cell (b_s1 x)) * f s.
Proof using Type.
move=> [G H] Hx s Hs; rewrite /P34_State.act_bond /act_copies /one_of G /kernel; apply: act_list_steady => // t.
by rewrite mem_filter => /andP[/eqP Et _]; apply: H.
Qed.

Lemma act_bonds_steady g a l (f : amps) : steady g a f -> (forall x, List.In x l -> List.In x (build_bond_list nx ny)) ->
  forall s, config p s -> act_bonds g l f s = (\prod_(x <- l) a x ^+ size (copies cell (b_s1 x))) * f s.
Proof using Type.
move=> Hf; elim: l => [|x l IH] Hl s Hs /=; first by rewrite big_nil mul1r.
have E := act_bond_steady Hf (Hl x (or_introl erefl)).
rewrite big_cons -mulrA -(IH (fun y Hy => Hl y (or_intror Hy)) s Hs).
by apply: act_bonds_ext.
Qed.

(** C97.  The gates of a model act as numbers on common eigenstates of its terms. *)
Variable mexp : forall n, 'M[C]_n -> 'M[C]_n.
Hypothesis p0 : (0 < p)%N.
Theorem C97_gates one two eta eps e th bl dtau (f : amps) : exp_eigen mexp u e -> eigenstate one two eta eps f -> cext p f ->
  Permutation bl (build_bond_list nx ny) ->
  let g := model_gates mexp p (Gate.Model tensor one (Gate.Fresh tensor two)) dtau bl (build_site_list nx ny) th in
  gates_ok u g /\ steady g (fun x => e (- dtau * local_energy one eta eps x)) f.
Proof using p0 nx1 ny1 cov.
case: th => t0 h0 He [M1 M2] Hc HP g; have Hbl x : List.In x (build_bond_list nx ny) -> List.In x bl by apply: Permutation_in; exact: Permutation_sym.
have G x : List.In x (build_bond_list nx ny) -> g_two g x = bond_gate mexp p dtau (bond_generator p one two x).
  by move=> Hx; rewrite /g /model_gates /= C02_generator_is_gate //; apply: Hbl.
split; first by split=> // x Hx; rewrite G //; have [] := gate_entry mexp p0 dtau (bond_generator p one two x) p0 p0 p0 p0.
split=> // x t Hx Et s Hs; rewrite G //.
have [y [k [Hy Hk Ex]]] := bond_in (Permutation_refl _) Hx.
have Et' : cell (nb (b_k x) t) = b_s2 x by have [_ _ c] := cov; rewrite Ex /= c // Et Ex.
set t' := nb (b_k x) t in Et' *.
have Nt : t' != t by apply: nb_other; [exact: nx1|exact: ny1|exact: cov|rewrite Ex].
pose F P Q := f (put (put s t P) t' Q).
have conf P Q : (P < p)%N -> (Q < p)%N -> config p (put (put s t P) t' Q) by move=> HP' HQ; do 2 apply: config_put => //.
have at1 P Q : put (put s t P) t' Q t = P by rewrite /put eqxx eq_sym (negPf Nt).
have at2 P Q : put (put s t P) t' Q t' = Q by rewrite /put eqxx.
have Fs : f s = F (s t) (s t').
  by apply: Hc => // z; rewrite /put; case: eqP => [->|_] //; case: eqP => [->|].
have E : eigen2 u (fun P Q r s => at_ (bond_generator p one two x) [:: (P * p + Q)%N; (r * p + s)%N]) (local_energy one eta eps x) F.
  apply: generator_eigen => //.
  - move=> h O; have [Sh H] := M1 t h (etrans (congr1 one Et) O); split=> // Q HQ r Hr; rewrite -Et.
    have := H _ (conf r Q Hr HQ); rewrite at1 => <-; apply: eq_sumn => P HP'; congr (_ * _).
    apply: Hc; first exact: conf.
    move=> z; rewrite /put; case: (z =P t') => [E'|_]; case: (z =P t) => [E''|_] //.
    by case/eqP: Nt; rewrite -E' -E''.
  - move=> h O; have [Sh H] := M1 t' h (etrans (congr1 one Et') O); split=> // r Hr Q HQ; rewrite -Et'.
    have := H _ (conf r Q Hr HQ); rewrite at2 => <-; apply: eq_sumn => P HP'; congr (_ * _).
    apply: Hc; first exact: conf.
    by move=> z; rewrite /put; case: (z =P t').
  move=> r q Hr Hq; have := M2 x t Hx Et _ (conf r q Hr Hq); rewrite -/t' /act2 at1 at2 => <-.
  apply: eq_sumn => P HP'; apply: eq_sumn => Q HQ; congr (_ * _).
  apply: Hc; first exact: conf.
  by move=> z; rewrite /put; case: (z =P t') => // _; case: (z =P t).
by have := gate_eigen p0 dtau He E (Hs t) (Hs t'); rewrite -Fs => <-.
Qed.
End Lattice.

(** ** Product states *)
Section Directed.
Variable C : numClosedFieldType.
Notation tensor := (tensor C).
Variable lqr : qr_fun C.
Variable fsvd : full_svd_fun C.
Hypothesis Sq : qr_spec lqr.
Hypothesis Sf : full_svd_spec fsvd.
Variable u : setup C.
Notation p := (u_phys u).

(** for all values of its bonds the tensor is a multiple of the vector v *)
Definition directed b (v : nat -> C) (a : tensor) : Prop := exists c : seq nat -> C,
  forall w, in_range [:: b; b; b; b; p] w -> at_ a w = c (take 4 w) * v (nth 0%N w 4).
Definition nonzero (v : nat -> C) : Prop := exists2 P, (P < p)%N & v P != 0.

Lemma leg1_put b k i y P P' : (k < 4)%N -> (y < b ^ 3)%N -> rcons (take 4 (leg1 k i (unravel [:: b; b; b] y) P)) P' = leg1 k i (unravel [:: b; b; b] y) P'.
Proof. by move=> Hk Hy; have [r [d' [w [-> _]]]] := unravel3_lt Hy; case: k Hk => [|[|[|[|]]]]. Qed.
Lemma leg2_put b k i y P P' : (k < 4)%N -> (y < b ^ 3)%N -> rcons (take 4 (leg2 k i (unravel [:: b; b; b] y) P)) P' = leg2 k i (unravel [:: b; b; b] y) P'.
Proof. by move=> Hk Hy; have [r [d' [w [-> _]]]] := unravel3_lt Hy; case: k Hk => [|[|[|[|]]]]. Qed.
Lemma leg1_take b k i y P : (k < 4)%N -> (y < b ^ 3)%N -> take 4 (leg1 k i (unravel [:: b; b; b] y) P) = take 4 (leg1 k i (unravel [:: b; b; b] y) 0).
Proof. by move=> Hk Hy; have [r [d' [w [-> _]]]] := unravel3_lt Hy; case: k Hk => [|[|[|[|]]]]. Qed.
Lemma leg2_take b k i y P : (k < 4)%N -> (y < b ^ 3)%N -> take 4 (leg2 k i (unravel [:: b; b; b] y) P) = take 4 (leg2 k i (unravel [:: b; b; b] y) 0).
Proof. by move=> Hk Hy; have [r [d' [w [-> _]]]] := unravel3_lt Hy; case: k Hk => [|[|[|[|]]]]. Qed.

Variables (b k : nat) (w1 w2 : nat -> tensor) (a1 a2 gate : tensor) (v1 v2 : nat -> C) (e : C).
Hypothesis Hk : (k < 4)%N.
Hypothesis D1 : directed b v1 a1.
Hypothesis D2 : directed b v2 a2.
Hypothesis Hg : eigen2 u (fun P Q r s => at_ gate [:: P; Q; r; s]) e (fun P Q => v1 P * v2 Q).
Notation goal := (two_site_gate p gate (pair_state b k id w1 w2 a1 a2)).

Lemma directed_goal : exists A B : nat -> nat -> C, forall P Q y x, (P < p)%N -> (Q < p)%N -> (y < b ^ 3)%N -> (x < b ^ 3)%N ->
  goal P Q y x = sumn b (fun i => A i y * B i x) * (v1 P * v2 Q).
Proof using Hk D1 D2 Hg.
case: D1 => c1 H1; case: D2 => c2 H2.
pose A i y := wgt1 b k w1 id y * c1 (take 4 (leg1 k i (unravel [:: b; b; b] y) 0)).
pose B i x := e * (wgt2 b k w2 id x * c2 (take 4 (leg2 k i (unravel [:: b; b; b] x) 0))).
exists A, B => P Q y x HP HQ Hy Hx; rewrite /two_site_gate.
rewrite (eq_sumn (G := fun P' => sumn p (fun Q' => wgt1 b k w1 id y * wgt2 b k w2 id x *
    sumn b (fun i => c1 (take 4 (leg1 k i (unravel [:: b; b; b] y) 0)) * c2 (take 4 (leg2 k i (unravel [:: b; b; b] x) 0))) *
    (v1 P' * v2 Q' * at_ gate [:: P'; Q'; P; Q])))) => [|P' HP'].
  rewrite (eq_sumn (G := fun P' => wgt1 b k w1 id y * wgt2 b k w2 id x *
    sumn b (fun i => c1 (take 4 (leg1 k i (unravel [:: b; b; b] y) 0)) * c2 (take 4 (leg2 k i (unravel [:: b; b; b] x) 0))) *
    sumn p (fun Q' => v1 P' * v2 Q' * at_ gate [:: P'; Q'; P; Q]))) => [|P' _]; last by symmetry; apply: sumn_mull.
  rewrite -sumn_mull Hg // mulrA; congr (_ * _); rewrite mulrAC sumn_mull; apply: eq_sumn => i Hi.
  by rewrite /A /B !mulrA [LHS](ACl (1*4*3*2*5)).
apply: eq_sumn => Q' HQ'; rewrite pair_joined // -!mulrA; congr (_ * (_ * _)); rewrite !mulrA; congr (_ * _).
rewrite -[RHS]mulrA /joined sumn_mulr; apply: eq_sumn => i Hi; rewrite H1 ?leg1_range // H2 ?leg2_range // leg1_4 // leg2_4 //.
by rewrite leg1_take // leg2_take // mulrACA.
Qed.

Lemma directed_within : within b p goal.
Proof using Hk D1 D2 Hg.
have [A [B H]] := directed_goal.
exists (Tensor [:: b ^ 3; b; p]%N (fun i => A (nth 0%N i 1) (nth 0%N i 0) * v1 (nth 0%N i 2))).
exists (Tensor [:: b ^ 3; b; p]%N (fun i => B (nth 0%N i 1) (nth 0%N i 0) * v2 (nth 0%N i 2))).
move=> P Q y x HP HQ Hy Hx; rewrite H // /P16_Als.state sumn_mulr; apply: eq_sumn => i Hi /=; exact: mulrACA.
Qed.

Hypothesis N1 : nonzero v1.
Hypothesis N2 : nonzero v2.
Lemma directed_update lcut a1' a2' lam : 0 < lcut -> (0 < p)%N -> matching (fun _ => b) p w1 a1 -> matching (fun _ => b) p w2 a2 -> shape gate = [:: p; p; p; p] ->
  simple_bond_update lqr fsvd lcut w1 w2 k a1 a2 gate None = Ok (a1', a2', lam) -> directed b v1 a1' /\ directed b v2 a2'.
Proof using Sq Sf Hk D1 D2 Hg N1 N2.
move=> l0 p0 M1 M2 Sg E; have [z1 [z2 [X1 X2 _]]] := update_span Sq Sf l0 Hk p0 M1 M2 Sg directed_within E.
have [A [B H]] := directed_goal; split.
  case: N1 => P0 HP0 V0; exists (fun l => at_ a1' (rcons l P0) / v1 P0) => w Hw.
  have [i [y [P [Hi Hy HP ->]]]] := leg1_onto Hk Hw; rewrite leg1_put // leg1_4 //.
  have [Y EY] : exists Y, forall P, (P < p)%N -> at_ a1' (leg1 k i (unravel [:: b; b; b] y) P) = Y * v1 P.
    exists ((wgt1 b k w1 (clamp lcut) y)^-1 * sumn (b ^ 3) (fun x => sumn p (fun Q => sumn b (fun i => A i y * B i x) * v2 Q * z1 i x Q))) => P' HP'.
    have W0 := wgt1_clamp b k w1 y l0; apply: (mulfI W0); rewrite -entry1E // X1 // !mulrA mulfV // mul1r.
    rewrite sumn_mulr; apply: eq_sumn => x Hx; rewrite sumn_mulr; apply: eq_sumn => Q HQ; rewrite H //.
    by rewrite mulrA [LHS](ACl (1*3*4*2)).
  by rewrite !EY // mulfK.
case: N2 => Q0 HQ0 V0; exists (fun l => at_ a2' (rcons l Q0) / v2 Q0) => w Hw.
have [i [x [Q [Hi Hx HQ ->]]]] := leg2_onto Hk Hw; rewrite leg2_put // leg2_4 //.
have [Y EY] : exists Y, forall Q, (Q < p)%N -> at_ a2' (leg2 k i (unravel [:: b; b; b] x) Q) = Y * v2 Q.
  exists ((wgt2 b k w2 (clamp lcut) x)^-1 * sumn (b ^ 3) (fun y => sumn p (fun P => sumn b (fun i => A i y * B i x) * v1 P * z2 i y P))) => Q' HQ'.
  have W0 := wgt2_clamp b k w2 x l0; apply: (mulfI W0); rewrite -entry2E // X2 // !mulrA mulfV // mul1r.
  rewrite sumn_mulr; apply: eq_sumn => y Hy; rewrite sumn_mulr; apply: eq_sumn => P HP; rewrite H //.
  by rewrite mulrA [LHS](ACl (1*2*4*3)).
by rewrite !EY // mulfK.
Qed.
End Directed.

(** ** Evolutions *)
Section Run.
Variable C : numClosedFieldType.
Notation tensor := (tensor C).
Notation net := (Mover.net tensor).
Variable R : Type.
Variable randn : R -> forall n q : nat, 'M[C]_(n, q) * R.
Variable trand : R -> nat -> nat -> tensor * R.
Variable lqr : qr_fun C.
Variable lsvd : thin_svd_fun C.
Variable fsvd : full_svd_fun C.
Variable leigh : eigh_fun C.
Variable lchol : chol_fun C.
Variable rtol : nat -> nat -> C.
Variable noise : C.
Variable fuel : nat.
Variable u : setup C.
Notation nx := (u_nx u).
Notation ny := (u_ny u).
Notation b := (u_bond u).
Notation p := (u_phys u).
Notation cfg := (u_evo u).
Notation state := (Session.state C R).
Hypothesis Sq : qr_spec lqr.
Hypothesis Sf : full_svd_spec fsvd.
Hypotheses (nx1 : (1 < nx)%N) (ny1 : (1 < ny)%N) (b0 : (0 < b)%N) (p0 : (0 < p)%N).
Variable T : finType.
Variables (nb : nat -> T -> T) (cell : T -> site).
Hypothesis cov : covers nb nx ny cell.
Notation amplitude := (@P34_State.amplitude C u T nb cell).
Notation act_bonds := (@P34_State.act_bonds C u T nb cell).
Notation renormalize := (Session.renormalize randn lqr lsvd fsvd u).
Notation evolve lcut := (Session.evolve randn trand lqr lsvd fsvd leigh lchol rtol lcut noise fuel.+1 u).
Notation evolve_tensors lcut := (Session.evolve_tensors randn lqr lsvd fsvd leigh lchol rtol lcut fuel.+1 u).
Notation start s := (s_net s, new_lambda tensor (ones_vec u) (s_bonds s)).
Notation step lcut := (simple_step lqr fsvd lcut).
Notation tidy := (@P34_State.tidy C u).

(** the same state, up to its norm and its sign *)
Definition same_state (n n' : net) : Prop := exists2 d, d != 0 & forall f, config p f -> amplitude n' f = d * amplitude n f.

Lemma numbers_nonzero (a : bond -> C) (k : bond -> nat) l : (forall x, List.In x l -> a x != 0) -> \prod_(x <- l) a x ^+ k x != 0.
Proof using Type.
elim: l => [|x l IH] H; first by rewrite big_nil oner_neq0.
by rewrite big_cons mulf_neq0 ?expf_neq0 ?IH // => [|y Hy]; apply: H; [left|right].
Qed.

Lemma unchanged g a bl steps (n n' : net) d : steady u nb cell g a (amplitude n) -> (forall x, List.In x (build_bond_list nx ny) -> a x != 0) ->
  Permutation bl (build_bond_list nx ny) -> 0 < d -> (forall f, config p f -> amplitude n' f = d * act_bonds g (schedule bond bl steps) (amplitude n) f) ->
  same_state n n'.
Proof using Type.
move=> Hs Ha HP d0 H; have Hl x : List.In x (schedule bond bl steps) -> List.In x (build_bond_list nx ny) by move/in_sched/(Permutation_in _ HP).
exists (d * \prod_(x <- schedule bond bl steps) a x ^+ size (copies cell (b_s1 x))).
  rewrite mulf_neq0 //; first exact: lt0r_neq0.
  by apply: (@numbers_nonzero a (fun x => size (copies cell (b_s1 x)))) => x /Hl /Ha.
by move=> f Hf; rewrite H // (act_bonds_steady Hs Hl) // mulrA.
Qed.

(** C97.  Simple updates that are not asked for more than the bonds can carry do not
    change a state on which all gates act as numbers. *)
Theorem C97_simple a g steps (s : state) : u_type u = "simple" -> s_init s = true -> gates_ok u g ->
  Permutation (s_bonds s) (build_bond_list nx ny) ->
  (forall x, in_cell nx ny x -> shape (s_net s x SA) = [:: b; b; b; b; p]) ->
  steady u nb cell g a (amplitude (s_net s)) -> (forall x, List.In x (build_bond_list nx ny) -> a x != 0) ->
  exists2 m, 0 < m & forall lcut st s', 0 < lcut <= m ->
    along lqr fsvd lcut (fits u) g (schedule bond (s_bonds s) steps) (start s) ->
    evolve lcut st g steps s = Some (Ok s') -> same_state (s_net s) (s_net s').
Proof using Sq Sf nx1 ny1 b0 p0 cov.
move=> Tu I Hg HP Hf Hs Ha.
have [m m0 Hm] := C87_small randn trand lsvd leigh lchol rtol noise fuel.+1 Sq Sf nx1 ny1 b0 p0 cov steps Tu I Hg HP Hf.
exists m => // lcut st s' Hl Hal E; have [d d0 H] := Hm lcut st s' Hl Hal E; exact: unchanged Hs Ha HP d0 H.
Qed.

(** ---- product states ---- *)
(** the vector of each site *)
Variable vv : site -> nat -> C.
Definition directed_net (n : net) : Prop := forall x, in_cell nx ny x -> directed u b (vv x) (n x SA).
(** the gates act on the vectors at the ends of their bonds as numbers *)
Definition aligned (g : gates C) (a : bond -> C) : Prop := g_one g = None /\ forall x, List.In x (build_bond_list nx ny) ->
  eigen2 u (fun P Q r s => at_ (g_two g x) [:: P; Q; r; s]) (a x) (fun P Q => vv (b_s1 x) P * vv (b_s2 x) Q).

Lemma directed_steady g a n : directed_net n -> aligned g a -> steady u nb cell g a (amplitude n).
Proof using nx1 ny1 cov.
move=> Hn [G Hg]; split=> // x t Hx Et s Hs.
have [y [k [Hy Hk Ex]]] := bond_in (Permutation_refl _) Hx.
have [_ Hcell Hc] := cov.
have Et' : cell (nb (b_k x) t) = b_s2 x by rewrite Ex /= Hc // Et Ex.
set t' := nb (b_k x) t in Et' *.
have Nt : t' != t by apply: nb_other; [exact: nx1|exact: ny1|exact: cov|rewrite Ex].
have [c1 H1] : directed u b (vv (b_s1 x)) (n (cell t) SA) by rewrite -{1}Et; apply: Hn.
have [c2 H2] : directed u b (vv (b_s2 x)) (n (cell t') SA) by rewrite -{1}Et'; apply: Hn.
pose l (m : {ffun T * bool -> 'I_b}) z := [:: nat_of_ord (m (line nb z 0)); nat_of_ord (m (line nb z 1)); nat_of_ord (m (line nb z 2)); nat_of_ord (m (line nb z 3))].
pose W m := c1 (l m t) * c2 (l m t') * \prod_(z | (z != t) && (z != t')) entry nb (sites n \o cell) m s z.
have F P Q : (P < p)%N -> (Q < p)%N -> amplitude n (put (put s t P) t' Q) = (\sum_m W m) * (vv (b_s1 x) P * vv (b_s2 x) Q).
  move=> HP HQ; rewrite /P34_State.amplitude /psi mulr_suml; apply: eq_bigr => m _.
  rewrite (bigD1 t) //= (bigD1 t') //=.
  rewrite [X in _ * (_ * X)](eq_bigr (fun z => entry nb (sites n \o cell) m s z)) => [|z /andP[/negPf A /negPf B]]; last first.
    by rewrite /entry /put A B.
  rewrite {1}/entry {1}/entry {1 2}/put eqxx [t == t']eq_sym (negPf Nt) /put !eqxx /= /sites H1 ?H2 /=; last 2 first.
  - by rewrite /= !ltn_ord ?HP ?HQ.
  - by rewrite /= !ltn_ord ?HP ?HQ.
  rewrite /W; move: (\prod_(_ | _) _) (vv _ _) (vv _ _) => X Y Z; rewrite -/(l m t) -/(l m t').
  by rewrite mulrA [LHS](AC (2*2*1) ((1*3*5)*(2*4)))%AC.
have -> : amplitude n s = (\sum_m W m) * (vv (b_s1 x) (s t) * vv (b_s2 x) (s t')).
  rewrite -F //; apply: amplitude_cext => // z; rewrite /put; case: eqP => [->|_] //; by case: eqP => [->|].
rewrite /act2 mulrCA -Hg // sumn_mull; apply: eq_sumn => P HP; rewrite sumn_mull; apply: eq_sumn => Q HQ.
by rewrite F // -[LHS]mulrA.
Qed.

Hypothesis Hv : forall x, in_cell nx ny x -> nonzero u (vv x).

Lemma directed_step lcut a g x bl nw nw' : 0 < lcut -> gates_ok u g -> aligned g a -> Permutation bl (build_bond_list nx ny) -> List.In x bl -> tidy bl nw ->
  directed_net nw.1 -> fits u g x nw /\ (step lcut g x nw = Ok nw' -> directed_net nw'.1).
Proof using Sq Sf nx1 ny1 p0 Hv.
case: nw => n w l0 Hg [G Hd] HP Hx [Hf [hs Ew [Hh Hn]]] Hc.
have [s [k [Hs Hk Ex]]] := bond_in HP Hx.
have Hx' := Permutation_in _ HP Hx.
have Sg : shape (g_two g x) = [:: p; p; p; p] by apply: (proj1 Hg).
have {}Hd := Hd x Hx'.
have Hs2 : in_cell nx ny (nbr nx ny k s) by apply: nbr_cell.
rewrite /= in Ew; subst x w; rewrite /simple_step /fits [(n, _).1]/= [(n, _).2]/= [b_s1 _]/= [b_s2 _]/= [b_k _]/=.
have [w1 E1 W1] := weights_ok HP Hs Hh; have [w2 E2 W2] := weights_ok HP Hs2 Hh.
rewrite E1 E2 [bind (Ok w1) _]/bind [bind (Ok w2) _]/bind.
have SA1 := Hf s Hs; have SA2 := Hf _ Hs2; rewrite [(n, _).1]/= in SA1 SA2 Hc.
have M1 : matching (fun _ => b) p w1 (n s SA) by [].
have M2 : matching (fun _ => b) p w2 (n (nbr nx ny k s) SA) by [].
split=> [v1 v2 _ _|]; first exact: (directed_within v1 v2 Hk (Hc _ Hs) (Hc _ Hs2) Hd).
rewrite /one_of G; case Eu: simple_bond_update => [[[a1 a2] la]|] //= [<-] y Hy /=.
have [K1 K2] := directed_update Sq Sf Hk (Hc _ Hs) (Hc _ Hs2) Hd (Hv Hs) (Hv Hs2) l0 p0 M1 M2 Sg Eu.
rewrite /write_pair /upd /=; case: (site_eq_dec y (nbr nx ny k s)) => [Ey|Ny] /=.
  by rewrite Ey.
by case: (site_eq_dec y s) => [->|Ny'] //=; apply: Hc.
Qed.

Lemma along_directed lcut a g bl l nw : 0 < lcut -> gates_ok u g -> aligned g a -> Permutation bl (build_bond_list nx ny) -> (forall x, List.In x l -> List.In x bl) -> tidy bl nw ->
  directed_net nw.1 -> along lqr fsvd lcut (fits u) g l nw.
Proof using Sq Sf nx1 ny1 b0 p0 cov Hv.
move=> l0 Hg Hd HP; elim: l nw => [|x l IH] nw Hl Ht Hc //=; have Hx := Hl x (or_introl erefl).
have [F _] := directed_step nw l0 Hg Hd HP Hx Ht Hc; split=> // nw' E; apply: IH => [y Hy||].
- by apply: Hl; right.
- by have [] := C83_step Sq Sf l0 nx1 ny1 b0 p0 cov Hg HP Hx Ht E.
by have [_ K] := directed_step nw' l0 Hg Hd HP Hx Ht Hc; apply: K.
Qed.

(** C97.  Simple updates do not change a product state whose vectors are eigenvectors of
    all gates, in every bond dimension. *)
Theorem C97_product a g steps (s : state) : u_type u = "simple" -> s_init s = true -> gates_ok u g ->
  Permutation (s_bonds s) (build_bond_list nx ny) ->
  (forall x, in_cell nx ny x -> shape (s_net s x SA) = [:: b; b; b; b; p]) ->
  directed_net (s_net s) -> aligned g a -> (forall x, List.In x (build_bond_list nx ny) -> a x != 0) ->
  exists2 m, 0 < m & forall lcut st s', 0 < lcut <= m -> evolve lcut st g steps s = Some (Ok s') -> same_state (s_net s) (s_net s').
Proof using Sq Sf nx1 ny1 b0 p0 cov Hv.
move=> Tu I Hg HP Hf Hn Hal Ha; have [m m0 Hm] := C97_simple steps Tu I Hg HP Hf (directed_steady Hn Hal) Ha.
exists m => // lcut st s' Hl; have l0 : 0 < lcut by case/andP: Hl.
exact: Hm Hl (along_directed l0 Hg Hal HP (fun x => @in_sched x _ steps) (tidy_start Hf) Hn).
Qed.

Hypothesis onto : forall s, in_cell nx ny s -> exists t, cell t = s.
(** C97.  The updates succeed unless the state is zero. *)
Theorem C97_succeeds a g steps (s : state) f : u_type u = "simple" -> gates_ok u g ->
  Permutation (s_bonds s) (build_bond_list nx ny) ->
  (forall x, in_cell nx ny x -> shape (s_net s x SA) = [:: b; b; b; b; p]) ->
  directed_net (s_net s) -> aligned g a -> (forall x, List.In x (build_bond_list nx ny) -> a x != 0) ->
  config p f -> amplitude (s_net s) f != 0 ->
  exists2 m, 0 < m & forall lcut, 0 < lcut <= m ->
    exists2 s', evolve_tensors lcut g steps s = Some (Ok s') & same_state (s_net s) (s_net s').
Proof using Sq Sf nx1 ny1 b0 p0 cov Hv onto.
move=> Tu Hg HP Hf Hn Hal Ha Hcf A; have Hs := directed_steady Hn Hal.
have Hl x : List.In x (schedule bond (s_bonds s) steps) -> List.In x (build_bond_list nx ny) by move/in_sched/(Permutation_in _ HP).
have N : act_bonds g (schedule bond (s_bonds s) steps) (amplitude (s_net s)) f != 0.
  by rewrite (act_bonds_steady Hs Hl) // mulf_neq0 //; apply: (@numbers_nonzero a (fun x => size (copies cell (b_s1 x)))) => x /Hl /Ha.
have [m m0 Hm] := C87_succeeds randn lsvd leigh lchol rtol fuel.+1 Sq Sf nx1 ny1 b0 p0 cov onto Tu Hg HP Hf Hcf N.
exists m => // lcut Hlc; have l0 : 0 < lcut by case/andP: Hlc.
have [s' E [d d0 H]] := Hm lcut Hlc (along_directed l0 Hg Hal HP (fun x => @in_sched x _ steps) (tidy_start Hf) Hn).
by exists s' => //; exact: unchanged Hs Ha HP d0 H.
Qed.
End Run.

(** ** Full updates *)
Section Full.
Variable C : numClosedFieldType.
Notation tensor := (tensor C).
Notation net := (Mover.net tensor).
Variable R : Type.
Variable randn : R -> forall n q : nat, 'M[C]_(n, q) * R.
Variable trand : R -> nat -> nat -> tensor * R.
Variable lqr : qr_fun C.
Variable lsvd : thin_svd_fun C.
Variable fsvd : full_svd_fun C.
Variable leigh : eigh_fun C.
Variable lchol : chol_fun C.
Variable rtol : nat -> nat -> C.
Variable noise : C.
Variable fuel : nat.
Variable u : setup C.
Notation nx := (u_nx u).
Notation ny := (u_ny u).
Notation b := (u_bond u).
Notation p := (u_phys u).
Notation cfg := (u_evo u).
Notation state := (Session.state C R).
Hypothesis Sq : qr_spec lqr.
Hypothesis Sf : full_svd_spec fsvd.
Hypotheses (nx1 : (1 < nx)%N) (ny1 : (1 < ny)%N) (b0 : (0 < b)%N) (p0 : (0 < p)%N).
Variable T : finType.
Variables (nb : nat -> T -> T) (cell : T -> site).
Hypothesis cov : covers nb nx ny cell.
Hypothesis Ss : thin_svd_spec lsvd.
Hypothesis Se : eigh_spec leigh.
Hypothesis tot : forall m (A : 'M[C]_m), leigh A.
Hypothesis Rq : real_qr lqr.
Hypothesis Rl : real_thin lsvd.
Hypothesis Rf : real_svd fsvd.
Hypothesis Re : real_eigh leigh.
Hypothesis Rr : real_rand randn.
Hypothesis Hx : exact_method leigh lchol cfg.
Hypothesis it : (0 < als_niter cfg)%N.
Hypothesis c0 : 0 < positive_approx_cutoff cfg.
Hypothesis a0 : use_gauge_fix cfg -> 0 < gauge_fix_atol cfg /\ gauge_fix_atol cfg ^+ 2 < positive_approx_cutoff cfg *+ minn (b ^ 3) (p * b).
Hypothesis Tf : u_type u = "full".
Hypothesis onto : forall s, in_cell nx ny s -> exists t, cell t = s.
Notation amplitude := (@P34_State.amplitude C u T nb cell).
Notation renormalize := (Session.renormalize randn lqr lsvd fsvd u).
Notation evolve lcut := (Session.evolve randn trand lqr lsvd fsvd leigh lchol rtol lcut noise fuel.+1 u).

(** C97.  Nor do full updates of real tensors with real gates. *)
Theorem C97_full a lcut c st g steps (s s' : state) : s_init s = true -> gates_ok u g -> gates_real u g ->
  healthy u c s -> real_net nx ny b p (s_net s) ->
  (forall s1, renormalize s = Ok s1 -> enough_along randn lqr lsvd fsvd leigh lchol rtol fuel u (s_chi s) g (schedule bond (s_bonds s) steps) (s_net s1, s_rng s1)) ->
  steady u nb cell g a (amplitude (s_net s)) -> (forall x, List.In x (build_bond_list nx ny) -> a x != 0) ->
  ~ vanishes u (amplitude (s_net s)) ->
  evolve lcut st g steps s = Some (Ok s') -> same_state u nb cell (s_net s) (s_net s').
Proof using All.
move=> I Hg Gr Hh Hn Hen Hs Ha Hv E; have [_ HP _] := Hh.
have Hl x : List.In x (schedule bond (s_bonds s) steps) -> List.In x (build_bond_list nx ny) by move/in_sched/(Permutation_in _ HP).
have Hv' : ~ vanishes u (P34_State.act_bonds u nb cell g (schedule bond (s_bonds s) steps) (amplitude (s_net s))).
  move=> V; apply: Hv => f Hf; have := V f Hf; rewrite (act_bonds_steady Hs Hl) // => /eqP.
  rewrite mulf_eq0 => /orP[|/eqP//]; rewrite (negPf (@numbers_nonzero C a (fun x => size (copies cell (b_s1 x))) _ _)) // => x /Hl; exact: Ha.
have [d0 dp H] := C90_evolve Sq Ss Sf Se tot Rq Rl Rf Re Rr b0 p0 nx1 ny1 Hx it c0 a0 Tf cov onto I Hg Gr Hh Hn Hen Hv' E.
exact: unchanged Hs Ha HP dp H.
Qed.
End Full.

(** ** Models *)
Section Models.
Variable C : numClosedFieldType.
Notation tensor := (tensor C).
Variable mexp : forall n, 'M[C]_n -> 'M[C]_n.
Variable u : setup C.
Notation nx := (u_nx u).
Notation ny := (u_ny u).
Notation p := (u_phys u).
Hypothesis p0 : (0 < p)%N.

(** the vectors of the sites are eigenvectors of the terms of the model *)
Definition aligned_model (one : site -> option tensor) (two : bond -> tensor) (eta : site -> C) (eps : bond -> C) (vv : site -> nat -> C) : Prop :=
  (forall x h, in_cell nx ny x -> one x = Some h -> shape h = [:: p; p] /\ eigen1 u (fun P r => at_ h [:: P; r]) (eta x) (vv x)) /\
  (forall x, List.In x (build_bond_list nx ny) ->
     eigen2 u (fun P Q r s => at_ (two x) [:: (P * p + Q)%N; (r * p + s)%N]) (eps x) (fun P Q => vv (b_s1 x) P * vv (b_s2 x) Q)).

Theorem C97_aligned one two eta eps vv e th bl dtau : exp_eigen mexp u e -> aligned_model one two eta eps vv -> Permutation bl (build_bond_list nx ny) ->
  let g := model_gates mexp p (Gate.Model tensor one (Gate.Fresh tensor two)) dtau bl (build_site_list nx ny) th in
  gates_ok u g /\ aligned u vv g (fun x => e (- dtau * local_energy one eta eps x)).
Proof using p0.
case: th => t0 h0 He [M1 M2] HP g; have Hbl x : List.In x (build_bond_list nx ny) -> List.In x bl by apply: Permutation_in; exact: Permutation_sym.
have G x : List.In x (build_bond_list nx ny) -> g_two g x = bond_gate mexp p dtau (bond_generator p one two x).
  by move=> Hx; rewrite /g /model_gates /= C02_generator_is_gate //; apply: Hbl.
split; first by split=> // x Hx; rewrite G //; have [] := gate_entry mexp p0 dtau (bond_generator p one two x) p0 p0 p0 p0.
split=> // x Hx; rewrite G //; have [y [k [Hy Hk Ex]]] := bond_in (Permutation_refl _) Hx.
apply: gate_eigen => //; apply: generator_eigen => //; last exact: M2.
- move=> h O; have [|Sh H] := M1 (b_s1 x) h _ O; first by rewrite Ex.
  split=> // Q HQ r Hr; rewrite mulrA -H // sumn_mulr; apply: eq_sumn => P HP'; exact: mulrAC.
- move=> h O; have [|Sh H] := M1 (b_s2 x) h _ O; first by rewrite Ex; apply: nbr_cell.
  split=> // r Hr Q HQ; rewrite mulrCA -H // sumn_mull; apply: eq_sumn => P HP'; by rewrite mulrA.
Qed.

Variable cx : bool.
Lemma sumn2 (F : nat -> C) : sumn 2 F = F 0%N + F 1%N.
Proof. by rewrite /sumn !big_ord_recl big_ord0 addr0. Qed.

(** C97.  All spins along the same vector, whichever it is: an eigenstate of the
    Heisenberg model. *)
Theorem C97_polarised J (v : nat -> C) : p = 2%N -> aligned_model (fun _ => None) (heisenberg cx J) (fun _ => 0) (fun _ => J / 4%:R) (fun _ => v).
Proof using Type.
move=> Ep; split=> // x _ r s; have [q [Eq _ Hq _]] := C58_heisenberg cx J; rewrite /heisenberg Eq Ep !sumn2.
have H0 (y a c : C) : y * (J / 4%:R * a) = J / 4%:R * (y * a) by rewrite mulrCA.
have two a c : (-1) * (a * c) + 2%:R * (c * a) = a * c :> C.
  by rewrite [c * a]mulrC -mulrDl -[2%:R]/(1 + 1) addrA addNr add0r mul1r.
do 2 move=> /lt2[]->; rewrite /= !Hq //= !(mulr0, mulr1, mul0r, addr0, add0r) [RHS]mulrC //; rewrite !H0 // -mulrDr [RHS]mulrC; congr (_ * _).
- by rewrite [_ * -1]mulrC [_ * 2%:R]mulrC two.
by rewrite addrC [_ * -1]mulrC [_ * 2%:R]mulrC two.
Qed.

(** the spin of each site along the x axis or against it *)
Definition along_x (sg : site -> bool) (x : site) (P : nat) : C := if P == 0%N then 1 else (-1) ^+ sg x.
(** C97.  The compass sample with couplings and a field in the x direction only. *)
Theorem C97_compass jx hx (sg : site -> bool) : p = 2%N ->
  aligned_model (fun x => Some (matrix cx (compass_one hx 0 x))) (fun x => matrix_opt cx (compass_two jx 0 x))
    (fun x => - hx * (-1) ^+ sg x) (fun x => if b_k x == 2%N then - jx * ((-1) ^+ sg (b_s1 x) * (-1) ^+ sg (b_s2 x)) else 0) (along_x sg).
Proof using Type.
move=> Ep; have sq (z : bool) : (-1) ^+ z * (-1) ^+ z = 1 :> C by case: z; rewrite ?expr1 ?expr0 ?mulrNN mulr1.
have X (z : bool) P r : (P < 2)%N -> (r < 2)%N -> letter_entry C true P r = (P != r)%:R by [].
split=> [x h Hx [<-]|x Hx].
  split; first by rewrite Ep; apply: (@shape_of C cx 1).
  move=> r; rewrite Ep => Hr; rewrite sumn2 !compass_site // !mul0r !subr0 /letter_entry /along_x.
  move: Hr => /lt2[]->; rewrite /= !(mulr0, mulr1, mul1r, addr0, add0r); first exact: mulrC.
  by rewrite -mulrA sq mulr1.
move=> r s; rewrite Ep => Hr Hs; rewrite !sumn2 !(compass_bond _ _ _ Hx) // /letter_entry /along_x oppr0.
case: ifP => _; last by rewrite !(mul0r, mulr0, addr0).
have K z : - jx * z = z * - jx by exact: mulrC.
move: Hr Hs => /lt2[]-> /lt2[]->; rewrite /= !(mulr0, mulr1, mul1r, addr0, add0r) ?mulr1.
- by rewrite mulrC.
- by rewrite mulrC -!mulrA sq mulr1.
- by rewrite mulrC -!mulrA [X in _ = _ * X]mulrCA sq mulr1.
by rewrite -mulrA mulrACA !sq !mulr1.
Qed.

(** C97.  Spins up and down in turn are no eigenstate of the Heisenberg model: neighbours
    change places. *)
Theorem C97_neel_refuted J x : p = 2%N -> J != 0 ->
  ~ exists a, eigen2 u (fun P Q r s => at_ (heisenberg cx J x) [:: (P * p + Q)%N; (r * p + s)%N]) a (fun P Q => (P == 0%N)%:R * (Q == 1%N)%:R).
Proof using Type.
move=> Ep J0 [a]; have [q [Eq _ Hq _]] := C58_heisenberg cx J; rewrite /heisenberg Eq /eigen2 Ep => /(_ 1%N 0%N isT isT).
rewrite !sumn2 /= !Hq //= !(mulr0, mulr1, mul0r, mul1r, addr0, add0r) => /eqP.
by rewrite mulf_eq0 mulf_eq0 invr_eq0 !pnatr_eq0 (negPf J0).
Qed.
End Models.

(** ** The Heisenberg model *)
Section Heisenberg.
Variable C : numClosedFieldType.
Notation tensor := (tensor C).
Variable R : Type.
Variable randn : R -> forall n q : nat, 'M[C]_(n, q) * R.
Variable trand : R -> nat -> nat -> tensor * R.
Variable lqr : qr_fun C.
Variable lsvd : thin_svd_fun C.
Variable fsvd : full_svd_fun C.
Variable leigh : eigh_fun C.
Variable lchol : chol_fun C.
Variable rtol : nat -> nat -> C.
Variable noise : C.
Variable fuel : nat.
Variable u : setup C.
Notation nx := (u_nx u).
Notation ny := (u_ny u).
Notation b := (u_bond u).
Notation p := (u_phys u).
Notation state := (Session.state C R).
Hypothesis Sq : qr_spec lqr.
Hypothesis Sf : full_svd_spec fsvd.
Hypotheses (nx1 : (1 < nx)%N) (ny1 : (1 < ny)%N) (b0 : (0 < b)%N).
Variable T : finType.
Variables (nb : nat -> T -> T) (cell : T -> site).
Hypothesis cov : covers nb nx ny cell.
Notation evolve lcut := (Session.evolve randn trand lqr lsvd fsvd leigh lchol rtol lcut noise fuel.+1 u).

(** C97.  Simple updates of the Heisenberg model leave a state with all spins along one
    vector as it is, whatever the vector, the coupling and the time step. *)
Theorem C97_heisenberg mexp e cx J v th dtau steps (s : state) : p = 2%N -> exp_eigen mexp u e -> e (- dtau * (J / 4%:R)) != 0 ->
  u_type u = "simple" -> s_init s = true -> Permutation (s_bonds s) (build_bond_list nx ny) ->
  (forall x, in_cell nx ny x -> shape (s_net s x SA) = [:: b; b; b; b; p]) ->
  nonzero u v -> directed_net u (fun _ => v) (s_net s) ->
  let g := model_gates mexp p (Gate.Model tensor (fun _ => None) (Gate.Fresh tensor (heisenberg cx J))) dtau (s_bonds s) (build_site_list nx ny) th in
  exists2 m, 0 < m & forall lcut st s', 0 < lcut <= m ->
    evolve lcut st g steps s = Some (Ok s') -> same_state u nb cell (s_net s) (s_net s').
Proof using Sq Sf nx1 ny1 b0 cov.
move=> Ep He E0 Tu I HP Hf Hv Hn g; have p0 : (0 < p)%N by rewrite Ep.
have [Hg Hal] := C97_aligned p0 th dtau He (C97_polarised cx J v Ep) HP.
apply: (C97_product randn trand lsvd leigh lchol rtol noise fuel Sq Sf nx1 ny1 b0 p0 cov _ steps Tu I Hg HP Hf Hn Hal) => // x _.
by rewrite /local_energy /= addr0.
Qed.
End Heisenberg.

(** ** A concrete case *)
Section Example.
Variable C : numClosedFieldType.
Notation tensor := (tensor C).
Notation us := (cell_setup C 2 2).
Notation evolve_tensors lcut := (@Session.evolve_tensors C unit (fun r _ _ => (0, r)) (@some_qr C) (@some_thin_svd C) (@some_full_svd C) (@some_eigh C) (@some_chol C) (fun _ _ => 0) lcut 1).
Notation nb := (tnbr (nx := 2) (ny := 2)).
Notation cell a c := (tcell (a := a) (c := c) (nx := 2) (ny := 2)).

(** all spins along the x axis *)
Definition flat_net : Mover.net tensor := fun x _ => Tensor [:: 1; 1; 1; 1; 2]%N (fun _ => 1).
Lemma shift_eigen : exp_eigen (@shift C) us (fun a => a + 2%:R^-1).
Proof. by move=> M v a E; rewrite /shift mulmxDr E -scalemxAr mulmx1 scalerDl. Qed.
Lemma flat_amp a c f : amplitude us nb (cell a c) flat_net f = 1.
Proof.
rewrite /amplitude /psi (big_pred1 [ffun _ => ord0]); first by rewrite big1.
by move=> m; apply/esym/eqP/ffunP => x; rewrite ffunE; apply/val_inj; case: (m x) => -[].
Qed.

(** any number of steps from it on a lattice of any size: the updates succeed and leave
    it as it is, though the gates exchange spins *)
Example C97_example cx th steps chi a c : (0 < a)%N -> (0 < c)%N -> exists2 m, 0 < m & forall lcut, 0 < lcut <= m ->
  exists2 s', evolve_tensors lcut us (gates_of cx th) steps (State flat_net tt (build_bond_list 2 2) chi true) = Some (Ok s') &
    same_state us nb (cell a c) flat_net (s_net s').
Proof.
move=> a0 c0; have cov := @torus_covers a c 2 2 a0 c0 isT isT.
pose s0 : Session.state C unit := State flat_net tt (build_bond_list 2 2) chi true.
have HP : Permutation (s_bonds s0) (build_bond_list 2 2) by exact: Permutation_refl.
have Hf x : in_cell 2 2 x -> shape (s_net s0 x SA) = [:: 1; 1; 1; 1; 2]%N by [].
have [Hg Hal] := @C97_aligned C (@shift C) us isT _ _ _ _ _ _ th _ (- 2%:R) shift_eigen (@C97_polarised C us cx 1 (fun _ => 1) erefl) HP.
have Hn : directed_net us (fun _ _ => 1) (s_net s0) by move=> x _; exists (fun _ => 1) => w _; rewrite /= mulr1.
have H1 (x : site) : in_cell 2 2 x -> nonzero us (fun _ => 1) by exists 0%N => //; apply: oner_neq0.
apply: (@C97_succeeds C unit (fun r _ _ => (0, r)) (@some_qr C) (@some_thin_svd C) (@some_full_svd C) (@some_eigh C) (@some_chol C) (fun _ _ => 0) 0 us (@some_qr_spec C) (@some_full_svd_spec C)
  isT isT isT isT _ _ _ cov _ H1 (torus_onto a0 c0) _ (gates_of cx th) steps s0 (fun _ => 0%N) erefl Hg HP Hf Hn Hal) => //.
- move=> x _; rewrite /local_energy /= addr0 opprK; apply: lt0r_neq0; apply: addr_gt0; last by rewrite invr_gt0 ltr0n.
  by rewrite mulr_gt0 ?ltr0n // mul1r invr_gt0 ltr0n.
by rewrite flat_amp oner_neq0.
Qed.
End Example.

Print Assumptions C97_gates.
Print Assumptions C97_simple.
Print Assumptions C97_product.
Print Assumptions C97_succeeds.
Print Assumptions C97_full.
Print Assumptions C97_aligned.
Print Assumptions C97_polarised.
Print Assumptions C97_compass.
Print Assumptions C97_heisenberg.
Print Assumptions C97_neel_refuted.
Print Assumptions C97_example.
