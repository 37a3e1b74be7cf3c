(** C93: symmetries of a model are conserved by evolutions that lose nothing; the
    symmetries of the models of the library and of the samples. *)
From Coq Require Import String Ascii Permutation.
From mathcomp Require Import all_ssreflect all_algebra.
From Verif Require Import Base Lattice LatticeFacts Mover Neel Gate GateSum P04_GateSum Tensor TN Rdm RdmFacts Fits Measure MeasureFacts FullUpdate Linalg Mat Rsvd RsvdFacts Renorm RenormFacts Spectral ProjFacts Psd Als AlsFacts EighChol UpdFacts InitFacts Dist Lambda Evolve P05_Mover MoveShape P08_Control P09_Rdm P13_Renorm P16_Als P17_Reduced Eckart P20_Simple P22_SimpleUpdate P23_Solver P24_FullUpdate P26_SiteUpdate Cutensor P27_Cutensor Session P29_Session RealNet RealUpd ProductFacts P30_Product P31_Calls P32_Basis Layer CoverFacts Torus P34_State FreeCount P36_Free P37_FreeState P38_Cutoff P39_Classical ProductState P41_FullState Pauli Samples P12_Pauli P40_Samples.
Set Implicit Arguments.
Unset Strict Implicit.
Unset Printing Implicit Defensive.
Import GRing.Theory Num.Theory.
Local Open Scope ring_scope.
Local Open Scope string_scope.

Lemma sumn_perm (C : numClosedFieldType) p (pi : nat -> nat) (F : nat -> C) : (forall P, (P < p)%N -> (pi P < p)%N) ->
  (forall P Q, (P < p)%N -> (Q < p)%N -> pi P = pi Q -> P = Q) -> sumn p F = sumn p (fun P => F (pi P)).
Proof.
move=> H I; pose h (i : 'I_p) : 'I_p := Ordinal (H i (ltn_ord i)).
have hI : injective h by move=> i j E; apply: val_inj; apply: (I i j (ltn_ord i) (ltn_ord j) (congr1 val E)).
by rewrite /sumn (reindex_inj hI).
Qed.

(** ** Symmetries of a lattice *)
Section Lattice.
Variable C : numClosedFieldType.
Notation tensor := (tensor C).
Variable u : setup C.
Notation nx := (u_nx u).
Notation ny := (u_ny u).
Notation p := (u_phys u).
Hypotheses (nx1 : (1 < nx)%N) (ny1 : (1 < ny)%N).
Variable T : finType.
Variables (nb : nat -> T -> T) (cell : T -> site).
Hypothesis cov : covers nb nx ny cell.
Notation amps := ((T -> nat) -> C).
Notation act_bond := (@P34_State.act_bond C u T nb cell).
Notation act_bonds := (@P34_State.act_bonds C u T nb cell).

(** ---- specification ---- *)
(** a product of operators, one per point of the lattice; each permutes the states of
    its point and multiplies by numbers.  Products of Pauli operators and of rotations
    around the z axis are of this kind. *)
Variables (pi : T -> nat -> nat) (d : T -> nat -> C).
Definition permutes : Prop := forall t, (forall P, (P < p)%N -> (pi t P < p)%N) /\ (forall P Q, (P < p)%N -> (Q < p)%N -> pi t P = pi t Q -> P = Q).
Definition sym (f : amps) : amps := fun s => (\prod_t d t (s t)) * f (fun t => pi t (s t)).
(** an operator on two points that commutes with it *)
Definition commutes2 (K : nat -> nat -> nat -> nat -> C) (t t' : T) : Prop := forall P Q r s, (P < p)%N -> (Q < p)%N -> (r < p)%N -> (s < p)%N ->
  d t P * d t' Q * K P Q r s = K (pi t P) (pi t' Q) (pi t r) (pi t' s) * (d t r * d t' s).
(** and on one *)
Definition commutes1 (h : nat -> nat -> C) (t : T) : Prop := forall P r, (P < p)%N -> (r < p)%N -> d t P * h P r = h (pi t P) (pi t r) * d t r.
(** the gates of all bonds commute with it, at all copies of the bond *)
Definition symmetric (g : gates C) : Prop := g_one g = None /\ forall x t, List.In x (build_bond_list nx ny) -> cell t = b_s1 x ->
  commutes2 (fun P Q r s => at_ (g_two g x) [:: P; Q; r; s]) t (nb (b_k x) t).
(** a state with the eigenvalue e *)
Definition sector (e : C) (f : amps) : Prop := forall s, config p s -> sym f s = e * f s.

(** ---- proofs ---- *)
Hypothesis Hpi : permutes.

Lemma sym_config s : config p s -> config p (fun t => pi t (s t)).
Proof using Hpi. by move=> H t; apply: (proj1 (Hpi t)). Qed.
Lemma sym_cext f : cext p f -> cext p (sym f).
Proof using Hpi.
move=> Hf s s' H E; rewrite /sym (eq_bigr (fun t => d t (s' t))) => [|t _]; last by rewrite E.
by congr (_ * _); apply: Hf; [apply: sym_config|move=> t; rewrite E].
Qed.

Lemma act2_cext K t t' (f : amps) : cext p f -> cext p (act2 p K t t' f).
Proof.
move=> Hf s s' H E; apply: eq_sumn => P HP; apply: eq_sumn => Q HQ; rewrite !E; congr (_ * _).
apply: Hf; first by do 2 apply: config_put => //.
by move=> y; rewrite /put E.
Qed.

Lemma act2_sym K t t' (f : amps) s : t' != t -> commutes2 K t t' -> cext p f -> config p s ->
  act2 p K t t' (sym f) s = sym (act2 p K t t' f) s.
Proof using Hpi.
move=> Nt HK Hf Hs; rewrite [RHS]/sym /act2.
rewrite [in RHS](@sumn_perm C p (pi t)); [|exact: (proj1 (Hpi t))|exact: (proj2 (Hpi t))].
rewrite sumn_mull; apply: eq_sumn => P HP.
rewrite [in RHS](@sumn_perm C p (pi t')); [|exact: (proj1 (Hpi t'))|exact: (proj2 (Hpi t'))].
rewrite sumn_mull; apply: eq_sumn => Q HQ.
have prodE s0 : \prod_t0 d t0 (s0 t0) = d t (s0 t) * d t' (s0 t') * \prod_(t0 | (t0 != t) && (t0 != t')) d t0 (s0 t0).
  by rewrite (bigD1 t) //= (bigD1 t') //= mulrA.
have E1 : put (put s t P) t' Q t = P by rewrite /put eqxx eq_sym (negPf Nt).
have E2 : put (put s t P) t' Q t' = Q by rewrite /put eqxx.
rewrite /sym (prodE (put (put s t P) t' Q)) (prodE s) E1 E2.
rewrite [in LHS](eq_bigr (fun t0 => d t0 (s t0))); last by move=> y /andP[/negPf A /negPf B]; rewrite /put A B.
have -> : f (fun t0 => pi t0 (put (put s t P) t' Q t0)) = f (put (put (fun t0 => pi t0 (s t0)) t (pi t P)) t' (pi t' Q)).
  apply: Hf; first by apply: sym_config; do 2 apply: config_put => //.
  by move=> y; rewrite /put; case: eqP => [->|_] //; case: eqP => [->|].
rewrite [RHS]mulrA [LHS](ACl (3*4*(1*2*5))) [RHS](ACl (3*4*(5*(1*2)))) /=; congr (_ * _).
exact: HK P Q (s t) (s t') HP HQ (Hs t) (Hs t').
Qed.

Lemma act_list_sym K k l (f : amps) s : (k < 4)%N -> (forall t, t \in l -> commutes2 K t (nb k t)) -> cext p f -> config p s ->
  let F f := foldr (fun t => act2 p K t (nb k t)) f l in cext p (F f) /\ F (sym f) s = sym (F f) s.
Proof using nx1 ny1 cov Hpi.
move=> Hk HK Hf Hs /=; elim: l HK s Hs => [|t l IH] HK s Hs //=.
have HK' y : y \in l -> commutes2 K y (nb k y) by move=> Hy; apply: HK; rewrite inE Hy orbT.
have [E _] := IH HK' s Hs.
split; first exact: act2_cext.
rewrite -act2_sym //; last 2 first.
- by apply: nb_other Hk; [exact: nx1|exact: ny1|exact: cov].
- by apply: HK; rewrite inE eqxx.
by apply: act2_ext => P Q HP HQ; apply: (proj2 (IH HK' _ _)); do 2 apply: config_put => //.
Qed.

(** C93.  Gates that commute with a symmetry of the lattice commute with it when they
    act on the amplitudes of the lattice, in every order of the bonds. *)
Theorem C93_commutes g l (f : amps) : symmetric g -> (forall x, List.In x l -> List.In x (build_bond_list nx ny)) -> cext p f ->
  cext p (act_bonds g l f) /\ forall s, config p s -> act_bonds g l (sym f) s = sym (act_bonds g l f) s.
Proof using nx1 ny1 cov Hpi.
move=> [G Hg]; elim: l f => [|x l IH] f Hl Hf //=.
have Hx := Hl x (or_introl erefl); have [y [k [Hy Hk Ex]]] := bond_in (Permutation_refl _) Hx.
have H1 s : config p s -> cext p (act_bond g x f) /\ act_bond g x (sym f) s = sym (act_bond g x f) s.
  move=> Hs; rewrite /P34_State.act_bond /act_copies /one_of G /kernel; apply: act_list_sym => //; first by rewrite Ex.
  by move=> t; rewrite mem_filter => /andP[/eqP Et _]; apply: Hg.
have Hc : cext p (act_bond g x f) by move=> s s' Hs; apply: (proj1 (H1 s Hs)).
have [A B] := IH _ (fun y Hy => Hl y (or_intror Hy)) Hc; split=> // s Hs; rewrite -B //.
rewrite -[RHS]mul1r; apply: act_bonds_ext => // s' Hs'; rewrite mul1r; exact: (proj2 (H1 s' Hs')).
Qed.

Lemma sector_act g l e d0 (f f' : amps) : symmetric g -> (forall x, List.In x l -> List.In x (build_bond_list nx ny)) -> cext p f -> sector e f ->
  (forall s, config p s -> f' s = d0 * act_bonds g l f s) -> sector e f'.
Proof using nx1 ny1 cov Hpi.
move=> Hg Hl Hf He E s Hs; have [A B] := C93_commutes Hg Hl Hf.
rewrite /sym E; last exact: sym_config.
rewrite mulrCA -/(sym _ s) -B // E // [RHS]mulrCA; congr (_ * _).
exact: act_bonds_ext Hs.
Qed.
End Lattice.

(** ** Symmetries of models *)
Section Model.
Variable C : numClosedFieldType.
Notation tensor := (tensor C).
Variable mexp : forall n, 'M[C]_n -> 'M[C]_n.
Variable u : setup C.
Notation nx := (u_nx u).
Notation ny := (u_ny u).
Notation p := (u_phys u).
Hypothesis p0 : (0 < p)%N.
Variable T : finType.
Variables (nb : nat -> T -> T) (cell : T -> site).
Hypothesis cov : covers nb nx ny cell.
Variables (pi : T -> nat -> nat) (d : T -> nat -> C).
Hypothesis Hpi : permutes u pi.
Variable one : site -> option tensor.
Variable two : bond -> tensor.
Notation gates_for th bl dtau := (model_gates mexp p (Gate.Model tensor one (Gate.Fresh tensor two)) dtau bl (build_site_list nx ny) th).

(** ---- specification ---- *)
(** the terms of the model commute with the symmetry, at all copies of the sites and
    bonds *)
Definition symmetric_model : Prop :=
  (forall t h, one (cell t) = Some h -> shape h = [:: p; p] /\ commutes1 u pi d (fun P r => at_ h [:: P; r]) t) /\
  (forall x t, List.In x (build_bond_list nx ny) -> cell t = b_s1 x -> shape (two x) = [:: (p * p)%N; (p * p)%N] /\
     commutes2 u pi d (fun P Q r s => at_ (two x) [:: (P * p + Q)%N; (r * p + s)%N]) t (nb (b_k x) t)).
(** what commutes with a matrix commutes with its exponential *)
Definition exp_commutes : Prop := forall A M : 'M[C]_(p * p), A *m M = M *m A -> A *m mexp M = mexp M *m A.

(** ---- proofs ---- *)
Lemma monomial n (f : 'I_n -> 'I_n) (D : 'I_n -> C) (M : 'M[C]_n) : injective f -> let A := \matrix_(i, j) (if i == f j then D j else 0) in
  (A *m M = M *m A) <-> (forall i j, D i * M i j = M (f i) (f j) * D j).
Proof.
move=> fI A.
have R i j : (M *m A) i j = M i (f j) * D j.
  by rewrite mxE (bigD1 (f j)) //= mxE eqxx big1 ?addr0 // => k Nk; rewrite mxE (negPf Nk) mulr0.
have L i j : (A *m M) (f i) j = D i * M i j.
  rewrite mxE (bigD1 i) //= mxE eqxx big1 ?addr0 // => k Nk; rewrite mxE (inj_eq fI) eq_sym (negPf Nk) mul0r //.
split=> [E i j|E]; first by rewrite -L -R E.
apply/matrixP => i j; have [f' K K'] := injF_bij fI.
by rewrite -(K' i) L R E.
Qed.

Section Pair.
Variables t t' : T.
Lemma pair_perm_lt (i : 'I_(p * p)) : (pi t (i %/ p) * p + pi t' (i %% p) < p * p)%N.
Proof using Hpi p0. have [A B] := div_lt i; apply: (pair_lt p0); [apply: (proj1 (Hpi t))|apply: (proj1 (Hpi t'))] => //. Qed.
Definition pair_perm (i : 'I_(p * p)) : 'I_(p * p) := Ordinal (pair_perm_lt i).
Lemma pair_inj : injective pair_perm.
Proof.
move=> i j /(congr1 val) /= /eqP; have [A B] := div_lt i; have [A' B'] := div_lt j.
rewrite (pair_eq p0) ?(proj1 (Hpi t')) // => /andP[/eqP E1 /eqP E2].
apply: val_inj; rewrite /= (divn_eq i p) (divn_eq j p).
by rewrite (proj2 (Hpi t) _ _ A A' E1) (proj2 (Hpi t') _ _ B B' E2).
Qed.

Lemma exp_commutes2 (h : tensor) dtau : exp_commutes ->
  commutes2 u pi d (fun P Q r s => at_ h [:: (P * p + Q)%N; (r * p + s)%N]) t t' ->
  commutes2 u pi d (fun P Q r s => at_ (bond_gate mexp p dtau h) [:: P; Q; r; s]) t t'.
Proof using Hpi p0.
move=> He H P Q r s HP HQ Hr Hs.
have [a1 a2] : (pi t P < p)%N /\ (pi t' Q < p)%N by split; [apply: (proj1 (Hpi t))|apply: (proj1 (Hpi t'))].
have [b1 b2] : (pi t r < p)%N /\ (pi t' s < p)%N by split; [apply: (proj1 (Hpi t))|apply: (proj1 (Hpi t'))].
rewrite !(proj2 (gate_entry mexp p0 dtau h _ _ _ _)) //.
set M := mx_of _ _ _.
pose D (i : 'I_(p * p)) := d t (i %/ p) * d t' (i %% p).
have [E _] := monomial D M pair_inj; have [E' _] := monomial D (mexp M) pair_inj.
have {}E : forall i j, D i * M i j = M (pair_perm i) (pair_perm j) * D j.
  move=> i j; rewrite !mxE /= mulrCA -[RHS]mulrA; congr (_ * _).
  have [A B] := div_lt i; have [A' B'] := div_lt j.
  by have := H _ _ _ _ A B A' B'; rewrite -!divn_eq.
have {}E' := E' (He _ _ (proj2 (monomial D M pair_inj) E)).
have I1 := pair_lt p0 HP HQ; have I2 := pair_lt p0 Hr Hs.
have := E' (Ordinal I1) (Ordinal I2); rewrite /D /= !(proj1 (pair_dv p0 _ _)) // !(proj2 (pair_dv p0 _ _)) //.
rewrite -!ent_ord /= !(proj1 (pair_dv p0 _ _)) // !(proj2 (pair_dv p0 _ _)) //.
Qed.
End Pair.

Lemma generator_commutes x t : symmetric_model -> List.In x (build_bond_list nx ny) -> cell t = b_s1 x ->
  commutes2 u pi d (fun P Q r s => at_ (bond_generator p one two x) [:: (P * p + Q)%N; (r * p + s)%N]) t (nb (b_k x) t).
Proof using Hpi p0 cov.
move=> [M1 M2] Hx Et; have [y [k [Hy Hk Ex]]] := bond_in (Permutation_refl _) Hx.
have Et' : cell (nb (b_k x) t) = b_s2 x by have [_ _ c] := cov; rewrite Ex /= c // Et Ex.
set t' := nb (b_k x) t in Et' *; have [S2 K2] := M2 x t Hx Et.
move=> P Q r s HP HQ Hr Hs; have {K2} E2 := K2 P Q r s HP HQ Hr Hs; rewrite -/t' in E2.
rewrite /bond_generator /generator.
case O1: (one (b_s1 x)) => [h1|]; case O2: (one (b_s2 x)) => [h2|] //.
have [S1 K1] := M1 t h1 (etrans (congr1 one Et) O1); have [S1' K1'] := M1 t' h2 (etrans (congr1 one Et') O2).
have [a1 a2] : (pi t P < p)%N /\ (pi t' Q < p)%N by split; [apply: (proj1 (Hpi t))|apply: (proj1 (Hpi t'))].
have [b1 b2] : (pi t r < p)%N /\ (pi t' s < p)%N by split; [apply: (proj1 (Hpi t))|apply: (proj1 (Hpi t'))].
rewrite /= /kronT /kron S1 S1' /= !(proj1 (pair_dv p0 _ _)) // !(proj2 (pair_dv p0 _ _)) //.
have E (z : T) a c : (a < p)%N -> (c < p)%N -> (pi z a == pi z c) = (a == c).
  by move=> Ha Hc; apply/eqP/eqP => [/(proj2 (Hpi z) _ _ Ha Hc) //|-> //].
rewrite mulrDr mulrDl E2 !E //; congr (_ + _).
rewrite mulrCA -[RHS]mulrA; congr (_ * _); rewrite mulrDr mulrDl; congr (_ + _).
  case: eqP => [->|_]; last by rewrite !mulr0 mul0r.
  by rewrite !mulr1 mulrAC K1 // -mulrA.
case: eqP => [->|_]; last by rewrite !mul0r mulr0.
by rewrite !mul1r -mulrA K1' // mulrCA.
Qed.

(** the gates of the model commute with it too *)
Theorem C93_gates th bl dtau : exp_commutes -> symmetric_model -> Permutation bl (build_bond_list nx ny) ->
  gates_ok u (gates_for th bl dtau) /\ symmetric u nb cell pi d (gates_for th bl dtau).
Proof using Hpi p0 cov.
case: th => t h He M HP; have Hbl x : List.In x (build_bond_list nx ny) -> List.In x bl by apply: Permutation_in; exact: Permutation_sym.
have G x : List.In x (build_bond_list nx ny) -> g_two (gates_for (t, h) bl dtau) x = bond_gate mexp p dtau (bond_generator p one two x).
  by move=> Hx; rewrite /model_gates /= C02_generator_is_gate //; apply: Hbl.
split; first by split=> // x Hx; rewrite G //; have [] := gate_entry mexp p0 dtau (bond_generator p one two x) p0 p0 p0 p0.
split=> // x y Hx Ey; rewrite G //; apply: exp_commutes2 => //; exact: generator_commutes.
Qed.
End Model.

(** ** Charges *)
Section Charge.
Variable C : numClosedFieldType.
Variable u : setup C.
Notation p := (u_phys u).
Variable T : finType.
(** the charge of each state of each point *)
Variable q : T -> nat -> nat.
(** only configurations with the total charge N occur *)
Definition charged (N : nat) (f : (T -> nat) -> C) : Prop := forall s, config p s -> f s != 0 -> (\sum_t q t (s t))%N = N.
Definition stay (t : T) (P : nat) : nat := P.
Definition weigh (t : T) (P : nat) : C := 2%:R ^+ q t P.
Lemma stay_permutes : permutes u stay. Proof. by []. Qed.
Lemma charged_sector N f : charged N f <-> sector u stay weigh (2%:R ^+ N) f.
Proof.
have E s : sym stay weigh f s = 2%:R ^+ (\sum_t q t (s t))%N * f s by rewrite /sym /weigh prodrXr.
have I : injective (GRing.exp (2%:R : C)) by apply: ieexprIn; rewrite ?ltr0n // pnatr_eq1.
split=> H s Hs; first by rewrite E; have [->|N0] := eqVneq (f s) 0; rewrite ?mulr0 // (H s Hs N0).
by move=> N0; apply: I; apply: (mulIf N0); rewrite -E H.
Qed.
End Charge.

(** ** The symmetries of the models *)
Section Models.
Variable C : numClosedFieldType.
Notation tensor := (tensor C).
Variable cx : bool.
Variable u : setup C.
Notation nx := (u_nx u).
Notation ny := (u_ny u).
Notation p := (u_phys u).
Variable T : finType.
Variables (nb : nat -> T -> T) (cell : T -> site).
Hypothesis cov : covers nb nx ny cell.

(** all spins of a site turned over: the complement of the bits of its state *)
Definition turn (t : T) (P : nat) : nat := (p.-1 - P)%N.
Definition same (t : T) (P : nat) : C := 1.
Lemma turn_permutes : (0 < p)%N -> permutes u turn.
Proof.
move=> p0 t; split=> [P HP|P Q HP HQ]; rewrite /turn; first by rewrite -[X in (_ < X)%N](prednK p0) ltnS leq_subr.
have h P' : (P' < p)%N -> (P' <= p.-1)%N by move=> H; rewrite -ltnS (prednK p0).
by move=> E; rewrite -(subKn (h _ HP)) E subKn // h.
Qed.

Definition heisenberg (J : C) (x : bond) : tensor := if heisenberg_two_site cx (Some J) is Ok q then mat q else Tensor [::] (fun _ => 0).

(** C93.  The Heisenberg model is symmetric under turning all spins over and conserves
    the number of spins that point down. *)
Theorem C93_heisenberg_turn J : p = 2%N -> symmetric_model u nb cell turn same (fun _ => None) (heisenberg J).
Proof.
move=> Ep; split=> // x t _ _; have [q [Eq Sq Hq _]] := C58_heisenberg cx J.
rewrite /heisenberg Eq Ep; split=> // P Q r s; rewrite /turn Ep.
by do 4 move=> /lt2[]->; rewrite /= ?Hq // /same ?mul1r ?mulr1.
Qed.
Theorem C93_heisenberg_charge J : p = 2%N -> symmetric_model u nb cell (@stay T) (weigh C (fun _ P => P)) (fun _ => None) (heisenberg J).
Proof.
move=> Ep; split=> // x t _ _; have [q [Eq Sq Hq _]] := C58_heisenberg cx J.
rewrite /heisenberg Eq Ep; split=> // P Q r s; rewrite /stay /weigh Ep.
by do 4 move=> /lt2[]->; rewrite /= ?Hq //= ?mulr0 ?mul0r // mulrC // ?expr0 ?mulr1 ?mul1r.
Qed.

Lemma shape_of w (e : pexpr C) : width e = Some w -> shape (matrix cx e) = [:: 2 ^ w; 2 ^ w]%N :> seq nat.
Proof. by move=> /(peval_shape cx)[q Eq Sq]; rewrite /matrix Eq. Qed.

(** diagonal bond terms that are the same when all spins are turned over *)
Lemma turn_bond (t : tensor) cc t1 t2 : (0 < p)%N ->
  (forall P Q r s, (P < p)%N -> (Q < p)%N -> (r < p)%N -> (s < p)%N -> at_ t [:: (P * p + Q)%N; (r * p + s)%N] = if (P == r) && (Q == s) then cc P Q else 0) ->
  (forall P Q, (P < p)%N -> (Q < p)%N -> cc (p.-1 - P)%N (p.-1 - Q)%N = cc P Q) ->
  commutes2 u turn same (fun P Q r s => at_ t [:: (P * p + Q)%N; (r * p + s)%N]) t1 t2.
Proof.
move=> p0 Ht Hc P Q r s HP HQ Hr Hs; have [A I] := turn_permutes p0 t1.
rewrite !Ht ?A // /same !mul1r mulr1 Hc //.
have E a c : (a < p)%N -> (c < p)%N -> (turn t1 a == turn t1 c) = (a == c) by move=> Ha Hc'; apply/eqP/eqP => [/(I _ _ Ha Hc') //|-> //].
by rewrite -!/(turn t1 _) !E.
Qed.

Variables jz hx : C.
Lemma turn_sz i : (i < 2)%N -> sz C (1 - i) = - sz C i.
Proof. by move=> /lt2[]->; rewrite /sz //= opprK. Qed.

Lemma turn_one (h : tensor) w D t : (0 < p)%N ->
  (forall P r, (P < p)%N -> (r < p)%N -> at_ h [:: P; r] = transverse hx w D P r) ->
  (forall P r, (P < p)%N -> (r < p)%N -> flips w (p.-1 - P) (p.-1 - r) = flips w P r) ->
  (forall P, (P < p)%N -> D (p.-1 - P)%N = D P) -> commutes1 u turn same (fun P r => at_ h [:: P; r]) t.
Proof.
move=> p0 Hh Hf HD P r HP Hr; have [A I] := turn_permutes p0 t.
rewrite !Hh ?A // /same mul1r mulr1 /transverse /turn Hf // HD //.
have -> // : (p.-1 - P == p.-1 - r)%N = (P == r) by apply/eqP/eqP => [/(I _ _ HP Hr) //|-> //].
Qed.

Lemma flips_turn w P r : (w < 4)%N -> (P < 2 ^ w)%N -> (r < 2 ^ w)%N -> flips w ((2 ^ w).-1 - P) ((2 ^ w).-1 - r) = flips w P r.
Proof.
case: w => [|[|[|[|]]]] // _; rewrite /flips ?big_ord_recl !big_ord0 //.
- by move=> /lt2[]-> /lt2[]->.
- by move=> /lt4[]-> /lt4[]->.
pose F P r : nat := ((P %% 2 != r %% 2) + ((P %/ 2 %% 2 != r %/ 2 %% 2) + ((P %/ 4 %% 2 != r %/ 4 %% 2) + 0)))%N.
have H : all (fun P => all (fun r => F (7 - P) (7 - r) == F P r)%N (iota 0 8)) (iota 0 8) by [].
move=> HP Hr; have H1 : P \in iota 0 8 by rewrite mem_iota.
have H2 : r \in iota 0 8 by rewrite mem_iota.
have {H} := allP (allP H P H1) r H2; rewrite /= /F => /eqP.
by rewrite -[(2 ^ 0)%N]/1%N !divn1.
Qed.

(** C93.  The Ising models of the library and of the samples, with any field, are
    symmetric under turning all spins over. *)
Theorem C93_ising_turn : p = 2%N -> symmetric_model u nb cell turn same (fun x => Some (matrix cx (square_one hx x))) (fun x => matrix_opt cx (Some (square_two jz x))).
Proof.
move=> Ep; have p0 : (0 < p)%N by rewrite Ep.
split=> [t h [<-]|x t Hx _].
  split=> [|]; first by rewrite Ep; apply: (@shape_of 1).
  apply: (@turn_one _ 1 (fun _ => 0)) => // P r; rewrite Ep; [exact: C89_square_terms|exact: (@flips_turn 1)].
split; first by rewrite Ep; apply: (@shape_of 2).
apply: (@turn_bond _ (fun P Q => - jz * sz C P * sz C Q)) => //.
  rewrite Ep => P Q r s HP HQ Hr Hs; apply: (@bond_entries C cx 2 1 (square_two jz x) (fun P Q => - jz * sz C P * sz C Q)) => // [|P' Q' HQ']; first by rewrite /= orbT.
  by rewrite (@zval_mul C _ _ 1 2).
by rewrite Ep => P Q HP HQ; rewrite !turn_sz // !mulrN mulNr opprK.
Qed.
Theorem C93_honeycomb_turn : p = 4%N -> symmetric_model u nb cell turn same (fun x => Some (matrix cx (honeycomb_one jz hx x))) (fun x => matrix_opt cx (honeycomb_two jz x)).
Proof.
move=> Ep; have p0 : (0 < p)%N by rewrite Ep.
have A P : (P < 4)%N -> hA C (3 - P) = - hA C P by move=> /lt4[]->; rewrite /hA /sz //= opprK.
have B P : (P < 4)%N -> hB C (3 - P) = - hB C P by move=> /lt4[]->; rewrite /hB /sz //= opprK.
split=> [t h [<-]|x t Hx _].
  split=> [|]; first by rewrite Ep; apply: (@shape_of 2).
  apply: (@turn_one _ 2 (fun P => - jz * (hA C P * hB C P))) => // [P r|P r|P]; rewrite Ep; [exact: C89_honeycomb_terms|exact: (@flips_turn 2)|].
  by move=> HP; rewrite A // B // mulrNN.
split; first by rewrite Ep /honeycomb_two /bond_direction; case: (bond_k Hx) => ->; apply: (@shape_of 4).
have k4 : (b_k x < 4)%N by case: (bond_k Hx) => ->.
apply: (@turn_bond _ (honeycomb_bond jz (b_k x))) => //; rewrite Ep => P Q; first by move=> r s; apply: C89_honeycomb_bonds.
by move=> HP HQ; rewrite /honeycomb_bond; case: ifP => _; rewrite !A // !B // mulrNN.
Qed.
Theorem C93_kagome_turn : p = 8%N -> symmetric_model u nb cell turn same (fun x => Some (matrix cx (kagome_one jz hx x))) (fun x => matrix_opt cx (kagome_two jz x)).
Proof.
move=> Ep; have p0 : (0 < p)%N by rewrite Ep.
have A P : (P < 8)%N -> [/\ kA C (7 - P) = - kA C P, kB C (7 - P) = - kB C P & kC C (7 - P) = - kC C P].
  by case: P => [|[|[|[|[|[|[|[|]]]]]]]] // _; rewrite /kA /kB /kC /sz /= ?opprK.
split=> [t h [<-]|x t Hx _].
  split=> [|]; first by rewrite Ep; apply: (@shape_of 3).
  apply: (@turn_one _ 3 (fun P => - jz * (kB C P * kC C P + kA C P * kB C P))) => // [P r|P r|P]; rewrite Ep; [exact: C89_kagome_terms|exact: (@flips_turn 3)|].
  by move=> /A[-> -> ->]; rewrite !mulrNN.
split; first by rewrite Ep /kagome_two /bond_direction; case: (bond_k Hx) => ->; apply: (@shape_of 6).
have k4 : (b_k x < 4)%N by case: (bond_k Hx) => ->.
apply: (@turn_bond _ (kagome_bond jz (b_k x))) => //; rewrite Ep => P Q; first by move=> r s; apply: C89_kagome_bonds.
move=> /A[A1 A2 A3] /A[B1 B2 B3]; rewrite /kagome_bond /= A1 A2 A3 B1 B2 B3 -!opprD !mulrNN //.
Qed.

(** the sign of the state of a spin, at the points of a set *)
Variable row : pred T.
Definition signs (t : T) (P : nat) : C := if row t then sz C P else 1.
Definition flip (t : T) (P : nat) : nat := if row t then (1 - P)%N else P.
Lemma flip_permutes : p = 2%N -> permutes u flip.
Proof. by move=> Ep t; rewrite Ep /flip; split=> [P|P Q] /lt2[]-> //; case: (row t) => // /lt2[]->. Qed.

Definition letter_entry (l : bool) (P r : nat) : C := if l then (P != r)%:R else if P == r then sz C P else 0.
Lemma compass_site hx' hz x P r : (P < 2)%N -> (r < 2)%N ->
  at_ (matrix cx (compass_one hx' hz x)) [:: P; r] = - hx' * letter_entry true P r - hz * letter_entry false P r.
Proof.
by do 2 move=> /lt2[]->; rewrite /= /letter_entry /sz /= ?(oppr0, mul0r, mulr0, mulr1, mul1r, add0r, addr0, mulrN1, mulN1r).
Qed.
Lemma compass_bond jx x P Q r s : List.In x (build_bond_list nx ny) -> (P < 2)%N -> (Q < 2)%N -> (r < 2)%N -> (s < 2)%N ->
  at_ (matrix_opt cx (compass_two jx jz x)) [:: (P * 2 + Q)%N; (r * 2 + s)%N] =
  if b_k x == 2%N then - jx * (letter_entry true P r * letter_entry true Q s) else - jz * (letter_entry false P r * letter_entry false Q s).
Proof.
move=> Hx; rewrite /compass_two /bond_direction; case: (bond_k Hx) => -> /=; do 4 move=> /lt2[]->;
by rewrite /letter_entry /sz /=; case: cx; rewrite /= ?(oppr0, mul0r, mulr0, mulr1, mul1r, add0r, addr0, mulrN1, mulN1r, opprK).
Qed.
Lemma compass_shape jx x : List.In x (build_bond_list nx ny) -> shape (matrix_opt cx (compass_two jx jz x)) = [:: 4; 4]%N.
Proof. by move=> Hx; rewrite /compass_two /bond_direction; case: (bond_k Hx) => ->; [apply: (@shape_of 2 (PMul (PScale false (- jx) (PL C LX)) (PL C LX)))|apply: (@shape_of 2 (PMul (PScale false (- jz) (PL C LZ)) (PL C LZ)))]. Qed.

(** C93.  The compass sample without a field in the x direction conserves the product of
    Z over every row of the lattice, and without a field in the z direction the product of
    X over every column. *)
Theorem C93_compass_rows jx hz : p = 2%N -> (forall t, row (nb 2 t) = row t) ->
  symmetric_model u nb cell (@stay T) signs (fun x => Some (matrix cx (compass_one 0 hz x))) (fun x => matrix_opt cx (compass_two jx jz x)).
Proof.
move=> Ep Hr; split=> [t h [<-]|x t Hx _].
  split=> [|P r]; first by rewrite Ep; apply: (@shape_of 1).
  rewrite Ep /stay => HP Hr'; rewrite compass_site // oppr0 mul0r add0r /letter_entry.
  by case: eqP => [->|_]; rewrite ?(mulr0, oppr0, mul0r) // mulrC.
split; first by rewrite Ep compass_shape.
move=> P Q r s; rewrite Ep /stay => HP HQ Hr' Hs; rewrite !compass_bond //; case: eqP => [->|_]; last first.
  rewrite /letter_entry; case: eqP => [->|_]; last by rewrite !(mul0r, mulr0).
  by case: eqP => [->|_]; [rewrite mulrC|rewrite !(mul0r, mulr0)].
rewrite /signs Hr /letter_entry; case: (row t); last by rewrite !mulr1 mul1r.
by move: HP HQ Hr' Hs; do 4 move=> /lt2[]->; rewrite /sz /= ?(mulr1n, mulr0n) ?(mulr0, mul0r, mulr1, mul1r, mulrN1, mulN1r, opprK, oppr0).
Qed.
Theorem C93_compass_columns jx hx' : p = 2%N -> (forall t, row (nb 1 t) = row t) ->
  symmetric_model u nb cell flip same (fun x => Some (matrix cx (compass_one hx' 0 x))) (fun x => matrix_opt cx (compass_two jx jz x)).
Proof.
move=> Ep Hr; have [fl inj] : (forall t P, (P < 2)%N -> (flip t P < 2)%N) /\ (forall t P Q, (P < 2)%N -> (Q < 2)%N -> (flip t P == flip t Q) = (P == Q)).
  have H := flip_permutes Ep; rewrite /permutes Ep in H; split=> [t P HP|t P Q HP HQ]; first exact: (proj1 (H t)).
  by apply/eqP/eqP => [/(proj2 (H t) _ _ HP HQ) //|-> //].
split=> [t h [<-]|x t Hx _].
  split=> [|P r]; first by rewrite Ep; apply: (@shape_of 1).
  by rewrite Ep => HP Hr'; rewrite !compass_site ?fl // !mul0r !subr0 /letter_entry inj // /same mul1r mulr1.
split; first by rewrite Ep compass_shape.
move=> P Q r s; rewrite Ep => HP HQ Hr' Hs; rewrite !compass_bond ?fl // /same !mul1r mulr1.
case: ifP => [_|]; first by rewrite /letter_entry !inj.
move=> k2; have k1 : b_k x = 1%N by case: (bond_k Hx) k2 => ->.
rewrite k1 /letter_entry !inj // /flip Hr; case: (row t) => //.
case: eqP => [->|_]; last by rewrite !mul0r.
case: eqP => [->|_]; last by rewrite !mulr0.
by rewrite !turn_sz // mulrNN.
Qed.
End Models.

(** ** Evolutions *)
Section Run.
Variable C : numClosedFieldType.
Notation tensor := (tensor C).
Notation net := (Mover.net tensor).
Variable R : Type.
Variable randn : R -> forall n q : nat, 'M[C]_(n, q) * R.
Variable trand : R -> nat -> nat -> tensor * R.
Variable lqr : qr_fun C.
Variable lsvd : thin_svd_fun C.
Variable fsvd : full_svd_fun C.
Variable leigh : eigh_fun C.
Variable lchol : chol_fun C.
Variable rtol : nat -> nat -> C.
Variable noise : C.
Variable fuel : nat.
Variable u : setup C.
Notation nx := (u_nx u).
Notation ny := (u_ny u).
Notation b := (u_bond u).
Notation p := (u_phys u).
Notation cfg := (u_evo u).
Notation state := (Session.state C R).
Hypothesis Sq : qr_spec lqr.
Hypothesis Sf : full_svd_spec fsvd.
Hypotheses (nx1 : (1 < nx)%N) (ny1 : (1 < ny)%N) (b0 : (0 < b)%N) (p0 : (0 < p)%N).
Variable T : finType.
Variables (nb : nat -> T -> T) (cell : T -> site).
Hypothesis cov : covers nb nx ny cell.
Notation amplitude := (P34_State.amplitude u nb cell).
Notation renormalize := (Session.renormalize randn lqr lsvd fsvd u).
Notation evolve lcut := (Session.evolve randn trand lqr lsvd fsvd leigh lchol rtol lcut noise fuel.+1 u).
Notation evolve_tensors lcut := (Session.evolve_tensors randn lqr lsvd fsvd leigh lchol rtol lcut fuel.+1 u).
Variables (pi : T -> nat -> nat) (d : T -> nat -> C).
Hypothesis Hpi : permutes u pi.

(** C93.  Simple updates with a small enough cutoff that are not asked for more than the
    bonds can carry keep a state with an eigenvalue of the symmetry in its sector, if the
    gates commute with the symmetry. *)
Theorem C93_simple e g steps (s : state) : u_type u = "simple" -> s_init s = true -> gates_ok u g -> symmetric u nb cell pi d g ->
  Permutation (s_bonds s) (build_bond_list nx ny) ->
  (forall x, in_cell nx ny x -> shape (s_net s x SA) = [:: b; b; b; b; p]) ->
  sector u pi d e (amplitude (s_net s)) ->
  exists2 m, 0 < m & forall lcut st s', 0 < lcut <= m ->
    along lqr fsvd lcut (fits u) g (schedule bond (s_bonds s) steps) (s_net s, new_lambda tensor (ones_vec u) (s_bonds s)) ->
    evolve lcut st g steps s = Some (Ok s') -> sector u pi d e (amplitude (s_net s')).
Proof using Sq Sf nx1 ny1 b0 p0 cov Hpi.
move=> Tu I Hg Hs HP Hf He.
have [m m0 Hm] := C87_small randn trand lsvd leigh lchol rtol noise fuel.+1 Sq Sf nx1 ny1 b0 p0 cov steps Tu I Hg HP Hf.
exists m => // lcut st s' Hl Ha E; have [c c0 H] := Hm lcut st s' Hl Ha E.
apply: (sector_act nx1 ny1 cov Hpi Hs _ (amplitude_cext nb cell _) He H) => x Hx.
by apply: Permutation_in HP _; apply: in_sched Hx.
Qed.

(** for the gates of a symmetric model *)
Corollary C93_model mexp one two e th dtau steps (s : state) : exp_commutes mexp u -> symmetric_model u nb cell pi d one two ->
  u_type u = "simple" -> s_init s = true -> Permutation (s_bonds s) (build_bond_list nx ny) ->
  (forall x, in_cell nx ny x -> shape (s_net s x SA) = [:: b; b; b; b; p]) ->
  sector u pi d e (amplitude (s_net s)) ->
  let g := model_gates mexp p (Gate.Model tensor one (Gate.Fresh tensor two)) dtau (s_bonds s) (build_site_list nx ny) th in
  exists2 m, 0 < m & forall lcut st s', 0 < lcut <= m ->
    along lqr fsvd lcut (fits u) g (schedule bond (s_bonds s) steps) (s_net s, new_lambda tensor (ones_vec u) (s_bonds s)) ->
    evolve lcut st g steps s = Some (Ok s') -> sector u pi d e (amplitude (s_net s')).
Proof using Sq Sf nx1 ny1 b0 p0 cov Hpi.
move=> He M Tu I HP Hf Hs g; have [G1 G2] := C93_gates p0 cov Hpi th dtau He M HP.
exact: C93_simple.
Qed.

Section Full.
Hypothesis Ss : thin_svd_spec lsvd.
Hypothesis Se : eigh_spec leigh.
Hypothesis tot : forall m (A : 'M[C]_m), leigh A.
Hypothesis Rq : real_qr lqr.
Hypothesis Rl : real_thin lsvd.
Hypothesis Rf : real_svd fsvd.
Hypothesis Re : real_eigh leigh.
Hypothesis Rr : real_rand randn.
Hypothesis Hx : exact_method leigh lchol cfg.
Hypothesis it : (0 < als_niter cfg)%N.
Hypothesis c0 : 0 < positive_approx_cutoff cfg.
Hypothesis a0 : use_gauge_fix cfg -> 0 < gauge_fix_atol cfg /\ gauge_fix_atol cfg ^+ 2 < positive_approx_cutoff cfg *+ minn (b ^ 3) (p * b).
Hypothesis Tf : u_type u = "full".
Hypothesis onto : forall s, in_cell nx ny s -> exists t, cell t = s.

(** C93.  So do full updates of real tensors with real gates. *)
Theorem C93_full e lcut c st g steps (s s' : state) : s_init s = true -> gates_ok u g -> gates_real u g -> symmetric u nb cell pi d g ->
  healthy u c s -> real_net nx ny b p (s_net s) ->
  (forall s1, renormalize s = Ok s1 -> enough_along randn lqr lsvd fsvd leigh lchol rtol fuel u (s_chi s) g (schedule bond (s_bonds s) steps) (s_net s1, s_rng s1)) ->
  ~ vanishes u (P34_State.act_bonds u nb cell g (schedule bond (s_bonds s) steps) (amplitude (s_net s))) ->
  sector u pi d e (amplitude (s_net s)) ->
  evolve lcut st g steps s = Some (Ok s') -> sector u pi d e (amplitude (s_net s')).
Proof using All.
move=> I Hg Gr Hs Hh Hn Hen Hv He E; have [_ HP _] := Hh.
have [d0 _ H] := C90_evolve Sq Ss Sf Se tot Rq Rl Rf Re Rr b0 p0 nx1 ny1 Hx it c0 a0 Tf cov onto I Hg Gr Hh Hn Hen Hv E.
apply: (sector_act nx1 ny1 cov Hpi Hs _ (amplitude_cext nb cell _) He H) => x Hx'.
by apply: Permutation_in HP _; apply: in_sched Hx'.
Qed.
End Full.

End Run.

Section Heisenberg.
Variable C : numClosedFieldType.
Notation tensor := (tensor C).
Notation net := (Mover.net tensor).
Variable R : Type.
Variable randn : R -> forall n q : nat, 'M[C]_(n, q) * R.
Variable trand : R -> nat -> nat -> tensor * R.
Variable lqr : qr_fun C.
Variable lsvd : thin_svd_fun C.
Variable fsvd : full_svd_fun C.
Variable leigh : eigh_fun C.
Variable lchol : chol_fun C.
Variable rtol : nat -> nat -> C.
Variable noise : C.
Variable fuel : nat.
Variable u : setup C.
Notation nx := (u_nx u).
Notation ny := (u_ny u).
Notation b := (u_bond u).
Notation p := (u_phys u).
Notation cfg := (u_evo u).
Notation state := (Session.state C R).
Hypothesis Sq : qr_spec lqr.
Hypothesis Sf : full_svd_spec fsvd.
Hypotheses (nx1 : (1 < nx)%N) (ny1 : (1 < ny)%N) (b0 : (0 < b)%N) (p0 : (0 < p)%N).
Variable T : finType.
Variables (nb : nat -> T -> T) (cell : T -> site).
Hypothesis cov : covers nb nx ny cell.
Notation amplitude := (P34_State.amplitude u nb cell).
Notation evolve lcut := (Session.evolve randn trand lqr lsvd fsvd leigh lchol rtol lcut noise fuel.+1 u).

(** C93.  In particular simple updates of the Heisenberg model keep the number of spins
    that point down: from the Neel state, half of them. *)
Theorem C93_heisenberg mexp cx J N th dtau steps (s : state) : p = 2%N -> exp_commutes mexp u ->
  u_type u = "simple" -> s_init s = true -> Permutation (s_bonds s) (build_bond_list nx ny) ->
  (forall x, in_cell nx ny x -> shape (s_net s x SA) = [:: b; b; b; b; p]) ->
  charged u (fun (_ : T) P => P) N (amplitude (s_net s)) ->
  let g := model_gates mexp p (Gate.Model tensor (fun _ => None) (Gate.Fresh tensor (heisenberg cx J))) dtau (s_bonds s) (build_site_list nx ny) th in
  exists2 m, 0 < m & forall lcut st s', 0 < lcut <= m ->
    along lqr fsvd lcut (fits u) g (schedule bond (s_bonds s) steps) (s_net s, new_lambda tensor (ones_vec u) (s_bonds s)) ->
    evolve lcut st g steps s = Some (Ok s') -> charged u (fun (_ : T) P => P) N (amplitude (s_net s')).
Proof using Sq Sf nx1 ny1 b0 p0 cov.
move=> Ep He Tu I HP Hf /charged_sector Hc g.
have [m m0 Hm] := C93_model randn trand lsvd leigh lchol rtol noise fuel Sq Sf nx1 ny1 b0 p0 cov (@stay_permutes C u T) th dtau steps He (C93_heisenberg_charge cx nb cell J Ep) Tu I HP Hf Hc.
by exists m => // lcut st s' Hl Ha E; apply/charged_sector; apply: Hm E.
Qed.
End Heisenberg.

(** ** A concrete case *)
Section Example.
Variable C : numClosedFieldType.
Notation tensor := (tensor C).
Notation us := (cell_setup C 2 2).
Notation evolve_tensors lcut := (@Session.evolve_tensors C unit (fun r _ _ => (0, r)) (@some_qr C) (@some_thin_svd C) (@some_full_svd C) (@some_eigh C) (@some_chol C) (fun _ _ => 0) lcut 1).
Notation nb := (tnbr (nx := 2) (ny := 2)).
Notation cell a c := (tcell (a := a) (c := c) (nx := 2) (ny := 2)).
Notation amp a c := (amplitude us nb (cell a c)).

(** spins up and down in turn *)
Definition parity (x : site) : nat := ((x.1 + x.2) %% 2)%N.
Definition neel_net : Mover.net tensor := fun x _ => Tensor [:: 1; 1; 1; 1; 2]%N (fun i => (nth 0%N i 4 == parity x)%:R).
(** a matrix function that commutes with everything its argument commutes with, and for
    which the gate of the Heisenberg model with dtau J = -2 exchanges two spins *)
Definition shift n (A : 'M[C]_n) : 'M[C]_n := A + 2%:R^-1 *: 1%:M.
Lemma shift_commutes : exp_commutes shift us.
Proof.
by move=> A M E; rewrite /shift mulmxDr mulmxDl E -scalemxAr -scalemxAl mulmx1 mul1mx.
Qed.
Definition swap (P Q r s : nat) : C := ((P == s) && (Q == r))%:R.
Definition gates_of cx th := model_gates shift 2 (Gate.Model tensor (fun _ => None) (Gate.Fresh tensor (heisenberg cx 1))) (- 2%:R) (build_bond_list 2 2) (build_site_list 2 2) th.
Arguments gates_of : simpl never.
Lemma gates_swap cx th x P Q r s : List.In x (build_bond_list 2 2) -> (P < 2)%N -> (Q < 2)%N -> (r < 2)%N -> (s < 2)%N ->
  at_ (g_two (gates_of cx th) x) [:: P; Q; r; s] = swap P Q r s.
Proof.
case: th => t h Hx HP HQ Hr Hs.
have -> : g_two (gates_of cx (t, h)) x = bond_gate shift 2 (- 2%:R) (bond_generator 2 (fun _ => None) (heisenberg cx 1) x).
  by rewrite /gates_of /model_gates; cbn [g_two]; rewrite C02_generator_is_gate.
rewrite (proj2 (@gate_entry C shift us isT _ _ _ _ _ _ HP HQ Hr Hs)).
have [q [Eq Sq Hq _]] := C58_heisenberg cx (1 : C).
rewrite /bond_generator /generator /heisenberg Eq /swap.
have n2 : 2%:R != 0 :> C by rewrite pnatr_eq0.
have n4 : 4%:R != 0 :> C by rewrite pnatr_eq0.
have H4 : 2%:R * 4%:R^-1 = 2%:R^-1 :> C by rewrite [4%:R](natrM C 2 2) invfM mulrA mulfV // mul1r.
have I1 : (P * 2 + Q < 4)%N by move: P Q HP HQ {Hx Hr Hs} => [|[|]] [|[|]].
have I2 : (r * 2 + s < 4)%N by move: r s Hr Hs {Hx HP HQ} => [|[|]] [|[|]].
rewrite -[(u_phys us * u_phys us)%N]/4%N -[u_phys us]/2%N.
have := ent_ord (shift (mx_of 4 4 (tscale (- - (2%:R : C)) (mat q)))) (Ordinal I1) (Ordinal I2); rewrite /= => ->.
rewrite !mxE /= Hq // opprK div1r mulrA H4 -mulrDr -val_eqE /=.
have K z y : 2%:R = z + y :> C -> 2%:R^-1 * (z + y) = 1 by move=> <-; rewrite mulVf.
move: P Q r s HP HQ Hr Hs {Hx I1 I2} => [|[|]] // [|[|]] // [|[|]] // [|[|]] // _ _ _ _; rewrite /= ?addr0 ?addNr ?mulr0 // ?K // ?mulVf //.
Qed.

Lemma sumn2 (F : nat -> C) : sumn 2 F = F 0%N + F 1%N.
Proof. by rewrite /sumn !big_ord_recl big_ord0 addr0. Qed.
Lemma gates_fit cx th lcut l nw : (forall x, List.In x l -> List.In x (build_bond_list 2 2)) -> along (@some_qr C) (@some_full_svd C) lcut (fits us) (gates_of cx th) l nw.
Proof.
elim: l nw => [|x l IH] nw Hl; first by []; split; last by move=> nw' _; apply: IH => y Hy; apply: Hl; right.
have Gx P Q P' Q' := @gates_swap cx th x P Q P' Q' (Hl x (or_introl erefl)).
move=> w1 w2 _ _; move: (g_two (gates_of cx th) x) Gx => g Gx; rewrite /P34_State.within.
exists (Tensor [::] (fun i => entry2 1 (b_k x) id w2 (nw.1 (b_s2 x) SA) 0 0 (nth 0%N i 2))), (Tensor [::] (fun i => entry1 1 (b_k x) id w1 (nw.1 (b_s1 x) SA) 0 0 (nth 0%N i 2))).
move=> P Q y z HP HQ /=; rewrite !ltnS !leqn0 => /eqP-> /eqP->; rewrite /two_site_gate /P16_Als.state /pair_state sumn1 /= !sumn2 !sumn1 !Gx // /swap.
by case: P HP {Gx} => [|[|]] // _; case: Q HQ => [|[|]] // _; rewrite /= ?mulr0 ?mulr1 ?addr0 ?add0r mulrC.
Qed.

(** what the gates make of a state does not vanish *)
Lemma swap_alive (T : finType) K (t t' : T) (f : (T -> nat) -> C) s : t' != t -> (forall P Q r s, (P < 2)%N -> (Q < 2)%N -> (r < 2)%N -> (s < 2)%N -> K P Q r s = swap P Q r s) ->
  cext 2 f -> config 2 s -> f s != 0 -> exists2 s', config 2 s' & act2 2 K t t' f s' != 0.
Proof.
move=> Ht HK Hf Hs Fs; pose s' := Torus.put (Torus.put s t (s t')) t' (s t).
have Hs' : config 2 s' by move=> x; rewrite /s' /Torus.put; case: ifP => // _; case: ifP.
have E1 : s' t = s t' by rewrite /s' /Torus.put eq_sym (negPf Ht) eqxx.
have E2 : s' t' = s t by rewrite /s' /Torus.put eqxx.
exists s' => //; have -> // : act2 2 K t t' f s' = f s.
rewrite /act2 E1 E2.
transitivity (sumn 2 (fun P => sumn 2 (fun Q => f (Torus.put (Torus.put s' t P) t' Q) * swap P Q (s t') (s t)))).
  by apply: eq_sumn => P HP; apply: eq_sumn => Q HQ; rewrite HK.
have -> : f s = f (Torus.put (Torus.put s' t (s t)) t' (s t')).
  by apply: Hf => // x; rewrite /s' /Torus.put; case: (x =P t') => [->|_] //; case: (x =P t) => [->|].
move: (Hs t) (Hs t'); rewrite !sumn2 /swap; case: (s t) => [|[|]] // _; case: (s t') => [|[|]] // _; by rewrite /= ?mulr0 ?mulr1 ?addr0 ?add0r.
Qed.
Lemma bonds_alive cx th a c l f : (0 < a)%N -> (0 < c)%N -> (forall x, List.In x l -> List.In x (build_bond_list 2 2)) -> cext 2 f -> (exists2 s, config 2 s & f s != 0) ->
  exists2 s, config 2 s & act_bonds us nb (cell a c) (gates_of cx th) l f s != 0.
Proof.
move=> a0 c0; have cov := @torus_covers a c 2 2 a0 c0 isT isT.
elim: l f => [|x l IH] f Hl Hf Hs; first by [].
have Hx : List.In x (build_bond_list 2 2) by apply: Hl; left.
have [y [k [Hy Hk Ex]]] := @bond_in C us _ _ (Permutation_refl (build_bond_list 2 2)) Hx.
have [F1 F2] : cext 2 (act_bond us nb (cell a c) (gates_of cx th) x f) /\ exists2 s, config 2 s & act_bond us nb (cell a c) (gates_of cx th) x f s != 0.
  rewrite /act_bond /act_copies; elim: (copies _ _) => [|t l' [G1 [s Hs' Gs]]]; first by []; split; first exact: (@act2_cext C us).
  have Ht : nb (b_k x) t != t by apply: (@nb_other C us isT isT _ _ _ cov); rewrite Ex.
  apply: (@swap_alive _ _ t (nb (b_k x) t) _ s Ht _ G1 Hs' Gs) => P Q r z HP HQ Hr Hz; rewrite /kernel; exact: gates_swap.
by apply: IH => // z Hz; apply: Hl; right.
Qed.

Lemma neel_amp a c f : amp a c neel_net f = \prod_t (f t == parity (cell a c t))%:R.
Proof.
rewrite /amplitude /psi (big_pred1 [ffun _ => ord0]) // => m; apply/esym/eqP/ffunP => x.
by rewrite ffunE; apply/val_inj; case: (m x) => -[].
Qed.

(** any number of steps of the Heisenberg model from the Neel state on a lattice of any
    size: the updates succeed and as many spins point down as in the Neel state *)
Example C93_example cx th steps chi a c : (0 < a)%N -> (0 < c)%N -> exists2 m, 0 < m & forall lcut, 0 < lcut <= m ->
  exists2 s', evolve_tensors lcut us (gates_of cx th) steps (State neel_net tt (build_bond_list 2 2) chi true) = Some (Ok s') &
    charged us (fun _ P => P) (\sum_t parity (cell a c t)) (amp a c (s_net s')) /\ exists2 f, config 2 f & amp a c (s_net s') f != 0.
Proof.
move=> a0 c0; have cov := @torus_covers a c 2 2 a0 c0 isT isT.
pose s0 : Session.state C unit := State neel_net tt (build_bond_list 2 2) chi true.
have HP : Permutation (s_bonds s0) (build_bond_list 2 2) by exact: Permutation_refl.
have Hf x : in_cell 2 2 x -> shape (s_net s0 x SA) = [:: 1; 1; 1; 1; 2]%N by [].
have [Hg Hsy] := @C93_gates C shift us isT _ _ _ cov _ _ (@stay_permutes C us _) (fun _ => None) (heisenberg cx 1) th (build_bond_list 2 2) (- 2%:R) shift_commutes (@C93_heisenberg_charge C cx us _ nb (cell a c) 1 erefl) HP.
have Hn : cext 2 (amp a c (s_net s0)) by exact: (@amplitude_cext C us).
have Hl x : List.In x (schedule bond (s_bonds s0) steps) -> List.In x (build_bond_list 2 2) by exact: in_sched.
have [|f Hcf N] := @bonds_alive cx th a c _ _ a0 c0 Hl Hn.
  exists (fun t => parity (cell a c t)); first by move=> t; rewrite /parity ltn_mod.
  by rewrite neel_amp; apply/prodf_neq0 => t _; rewrite eqxx oner_eq0.
have [m m0 Hm] := @C87_succeeds C unit (fun r _ _ => (0, r)) (@some_qr C) (@some_thin_svd C) (@some_full_svd C) (@some_eigh C) (@some_chol C) (fun _ _ => 0) 1 us (@some_qr_spec C) (@some_full_svd_spec C)
  isT isT isT isT _ _ _ cov (torus_onto a0 c0) (gates_of cx th) steps s0 f erefl Hg HP Hf Hcf N.
exists m => // lcut Hlc; have [s' Es [d d0 Hd]] := Hm lcut Hlc (@gates_fit cx th lcut _ _ Hl).
exists s' => //; split; last by exists f => //; rewrite Hd // mulf_neq0 // lt0r_neq0.
apply/charged_sector; apply: (@sector_act C us isT isT _ _ _ cov _ _ (@stay_permutes C us _) _ _ _ d _ _ Hsy Hl Hn _ Hd).
apply/charged_sector => t Ht; rewrite neel_amp => /prodf_neq0 H; apply: eq_bigr => x _.
by have := H x isT; case: (t x =P parity _) => // _; rewrite /= mulr0n eqxx.
Qed.
End Example.

Print Assumptions C93_commutes.
Print Assumptions C93_gates.
Print Assumptions C93_heisenberg_turn.
Print Assumptions C93_heisenberg_charge.
Print Assumptions C93_ising_turn.
Print Assumptions C93_honeycomb_turn.
Print Assumptions C93_kagome_turn.
Print Assumptions C93_compass_rows.
Print Assumptions C93_compass_columns.
Print Assumptions C93_simple.
Print Assumptions C93_model.
Print Assumptions C93_full.
Print Assumptions C93_heisenberg.
Print Assumptions C93_example.
