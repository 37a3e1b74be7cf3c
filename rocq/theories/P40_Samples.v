(** C89: the Ising models of the library and of the samples, on the square, honeycomb
    and kagome lattices, are evolved exactly without a field. *)
From Coq Require Import String Ascii Permutation.
From mathcomp Require Import all_ssreflect all_algebra.
From Verif Require Import Base Lattice LatticeFacts Mover Neel Gate GateSum P04_GateSum Tensor TN Rdm RdmFacts Fits Measure MeasureFacts FullUpdate Linalg Mat Rsvd RsvdFacts Renorm RenormFacts Spectral ProjFacts Psd Als AlsFacts EighChol UpdFacts InitFacts Dist Lambda Evolve P05_Mover MoveShape P08_Control P09_Rdm P13_Renorm P16_Als P17_Reduced Eckart P20_Simple P22_SimpleUpdate P26_SiteUpdate Session P29_Session P30_Product P31_Calls P32_Basis Layer CoverFacts Torus P34_State FreeCount P36_Free P37_FreeState P38_Cutoff P39_Classical Pauli Samples.
Set Implicit Arguments.
Unset Strict Implicit.
Unset Printing Implicit Defensive.
Import GRing.Theory Num.Theory.
Local Open Scope ring_scope.
Local Open Scope string_scope.

(** ** Operators made of Z and I are diagonal *)
Section Expr.
Variable C : numClosedFieldType.
Notation tensor := (tensor C).

(** the number of spins of an expression, if all sums fit *)
Fixpoint width (e : pexpr C) : option nat :=
  match e with
  | PL _ => Some 1%N
  | PMul a b => match width a, width b with Some m, Some n => Some (m + n)%N | _, _ => None end
  | PAdd a b | PSub a b => match width a, width b with Some m, Some n => if m == n then Some m else None | _, _ => None end
  | PNeg a | PScale _ _ a => width a
  | PDiv _ a c => if c == 0 then None else width a
  end.
(** no other letters than Z and I, except in terms multiplied by zero *)
Fixpoint only_z (e : pexpr C) : bool :=
  match e with
  | PL LZ | PL LI => true
  | PL _ => false
  | PMul a b | PAdd a b | PSub a b => only_z a && only_z b
  | PNeg a | PDiv _ a _ => only_z a
  | PScale _ c a => (c == 0) || only_z a
  end.
(** the sign of a spin *)
Definition sz (i : nat) : C := if i == 0%N then 1 else -1.
Definition wid (e : pexpr C) : nat := odflt 0%N (width e).
(** the value of the operator at a configuration of its spins, the first spin being the
    most significant bit *)
Fixpoint zval (e : pexpr C) (i : nat) : C :=
  match e with
  | PL LZ => sz i
  | PL _ => 1
  | PMul a b => zval a (i %/ 2 ^ wid b) * zval b (i %% 2 ^ wid b)
  | PAdd a b => zval a i + zval b i
  | PSub a b => zval a i - zval b i
  | PNeg a => - zval a i
  | PScale _ c a => c * zval a i
  | PDiv _ a c => zval a i / c
  end.

Fixpoint no_y (s : string) : bool := match s with EmptyString => true | String c s' => ~~ Ascii.eqb c "Y" && no_y s' end.

Lemma peval_shape cx e n : width e = Some n -> exists2 q, peval cx e = Ok q & shape (mat q) = [:: 2 ^ n; 2 ^ n]%N.
Proof.
elim: e n => [l|a IHa b IHb|a IHa b IHb|a IHa b IHb|a IHa|cc c a IHa|cc a IHa c] n /=.
- by move=> [<-]; eexists; [reflexivity|case: l => //=; case: cx].
- case Ea: (width a) => [m|] //; case Eb: (width b) => [k|] // [<-].
  have [q -> Sq] := IHa _ Ea; have [r -> Sr] := IHb _ Eb; rewrite /= /pmul /kron Sq Sr /=.
  by eexists; [reflexivity|rewrite /= !expnD].
- case Ea: (width a) => [m|] //; case Eb: (width b) => [k|] //; case: eqP => // E [<-]; subst k.
  have [q -> Sq] := IHa _ Ea; have [r -> Sr] := IHb _ Eb; rewrite /= /padd /tadd Sq Sr eqxx /=.
  by eexists; [reflexivity|].
- case Ea: (width a) => [m|] //; case Eb: (width b) => [k|] //; case: eqP => // E [<-]; subst k.
  have [q -> Sq] := IHa _ Ea; have [r -> Sr] := IHb _ Eb; rewrite /= /psub /tadd Sq /= Sr eqxx /=.
  by eexists; [reflexivity|].
- by move=> /IHa[q -> Sq] /=; eexists; [reflexivity|].
- by move=> /IHa[q -> Sq] /=; eexists; [reflexivity|].
case: ifP => // c0 /IHa[q -> Sq] /=; rewrite /pdiv /tdiv c0 /=; by eexists; [reflexivity|].
Qed.

Fixpoint without_y (e : pexpr C) : bool :=
  match e with
  | PL LY => false
  | PL _ => true
  | PMul a b | PAdd a b | PSub a b => without_y a && without_y b
  | PNeg a | PDiv _ a _ | PScale _ _ a => without_y a
  end.
Lemma count_app s t : count_y (s ++ t) = (count_y s + count_y t)%N.
Proof. by elim: s => //= a s ->; rewrite addnA. Qed.
Lemma key_count cx e q : without_y e -> peval cx e = Ok q -> count_y (key q) = 0%N.
Proof.
elim: e q => [l|a IHa b IHb|a IHa b IHb|a IHa b IHb|a IHa|cc c a IHa|cc a IHa c] q /=.
- by case: l => //= _ [<-].
- case/andP=> /IHa{IHa}; case: (peval cx a) => // qa /(_ _ erefl) Ha /IHb{IHb}; case: (peval cx b) => // qb /(_ _ erefl) Hb.
  by rewrite /= /pmul; case: (kron _ _) => //= t [<-] /=; rewrite count_app Ha Hb.
- case/andP=> /IHa{IHa}; case: (peval cx a) => // qa /(_ _ erefl) Ha /IHb{IHb}; case: (peval cx b) => // qb /(_ _ erefl) Hb.
  by rewrite /= /padd; case: (tadd _ _) => //= t [<-] /=; rewrite count_app Ha Hb.
- case/andP=> /IHa{IHa}; case: (peval cx a) => // qa /(_ _ erefl) Ha /IHb{IHb}; case: (peval cx b) => // qb /(_ _ erefl) Hb.
  by rewrite /= /psub; case: (tadd _ _) => //= t [<-] /=; rewrite count_app Ha Hb.
- by move=> /IHa{IHa}; case: (peval cx a) => // qa /(_ _ erefl) Ha /= [<-].
- by move=> /IHa{IHa}; case: (peval cx a) => // qa /(_ _ erefl) Ha /= [<-].
by move=> /IHa{IHa}; case: (peval cx a) => // qa /(_ _ erefl) Ha /=; rewrite /pdiv; case: (tdiv _ _) => //= t [<-].
Qed.

(** operators made of Z and I are diagonal *)
Lemma peval_diag cx e n q : only_z e -> without_y e -> width e = Some n -> peval cx e = Ok q ->
  forall i j, (i < 2 ^ n)%N -> (j < 2 ^ n)%N -> at_ (mat q) [:: i; j] = if i == j then zval e i else 0.
Proof.
elim: e n q => [l|a IHa b IHb|a IHa b IHb|a IHa b IHb|a IHa|cc c a IHa|cc a IHa c] n q /=.
- by case: l => //= _ _ [<-] [<-] /= [|[|]] // [|[|]].
- case/andP=> Za Zb /andP[Ya Yb]; case Ea: (width a) => [m|] //; case Eb: (width b) => [k|] // [<-].
  have [qa Pa Sa] := peval_shape cx Ea; have [qb Pb Sb] := peval_shape cx Eb.
  rewrite Pa Pb /= /pmul /kron Sa Sb /= => -[<-] i j Hi Hj /=.
  rewrite (key_count Ya Pa) andbF; have -> : (if ~~ cplx qa then 1 else 1) = 1 :> C by case: ifP.
  rewrite mul1r /wid Eb /=.
  have k0 : (0 < 2 ^ k)%N by rewrite expn_gt0.
  rewrite (IHa _ _ Za Ya Ea Pa) ?ltn_divLR -?expnD // (IHb _ _ Zb Yb Eb Pb) ?ltn_mod //.
  have [->|N] := eqVneq i j; first by rewrite !eqxx.
  case: eqP => [A|_]; last by rewrite mul0r.
  case: eqP => [B|_]; last by rewrite mulr0.
  by case/eqP: N; rewrite (divn_eq i (2 ^ k)) (divn_eq j (2 ^ k)) A B.
- case/andP=> Za Zb /andP[Ya Yb]; case Ea: (width a) => [m|] //; case Eb: (width b) => [k|] //; case: eqP => // E [<-]; subst k.
  have [qa Pa Sa] := peval_shape cx Ea; have [qb Pb Sb] := peval_shape cx Eb.
  rewrite Pa Pb /= /padd /tadd Sa Sb eqxx /= => -[<-] i j Hi Hj /=.
  by rewrite (IHa _ _ Za Ya Ea Pa) // (IHb _ _ Zb Yb Eb Pb) //; case: eqP => // _; rewrite addr0.
- case/andP=> Za Zb /andP[Ya Yb]; case Ea: (width a) => [m|] //; case Eb: (width b) => [k|] //; case: eqP => // E [<-]; subst k.
  have [qa Pa Sa] := peval_shape cx Ea; have [qb Pb Sb] := peval_shape cx Eb.
  rewrite Pa Pb /= /psub /tadd Sa /= Sb eqxx /= => -[<-] i j Hi Hj /=.
  by rewrite (IHa _ _ Za Ya Ea Pa) // (IHb _ _ Zb Yb Eb Pb) //; case: eqP => // _; rewrite mulN1r ?subr0.
- move=> Za Ya Ea; have [qa Pa Sa] := peval_shape cx Ea; rewrite Pa /= => -[<-] i j Hi Hj /=.
  by rewrite (IHa _ _ Za Ya Ea Pa) //; case: eqP => // _; rewrite mulN1r ?oppr0.
- case: eqP => [->|_] /= Za Ya Ea; have [qa Pa Sa] := peval_shape cx Ea; rewrite Pa /= => -[<-] i j Hi Hj /=.
    by rewrite !mul0r; case: ifP.
  by rewrite (IHa _ _ Za Ya Ea Pa) //; case: eqP => // _; rewrite mulr0.
case: ifP => // c0 Za Ya Ea; have [qa Pa Sa] := peval_shape cx Ea; rewrite Pa /= /pdiv /tdiv c0 /= => -[<-] i j Hi Hj /=.
by rewrite (IHa _ _ Za Ya Ea Pa) //; case: eqP => // _; rewrite ?mul0r ?mulr0 // mulrC.
Qed.
End Expr.

(** ** Models given by expressions *)
Section Spins.
Variable C : numClosedFieldType.
Notation tensor := (tensor C).
Variable cx : bool.
Variable u : setup C.
Notation nx := (u_nx u).
Notation ny := (u_ny u).
Notation b := (u_bond u).
Notation p := (u_phys u).
Variable one : site -> pexpr C.
Variable two : bond -> option (pexpr C).
Notation one' := (fun x => Some (matrix cx (one x))).
Notation two' := (fun x => matrix_opt cx (two x)).
(** the terms of the model are sums of products of Z and I at w spins per site *)
Definition spin_model (w : nat) : Prop :=
  (forall x, [/\ only_z (one x), without_y (one x) & width (one x) = Some w]) /\
  (forall x, List.In x (build_bond_list nx ny) -> exists2 e, two x = Some e & [/\ only_z e, without_y e & width e = Some (w + w)%N]).

Lemma spin_classical w : spin_model w -> p = (2 ^ w)%N ->
  [/\ classical_model u one' two',
      forall x P, (P < p)%N -> field one' x P = zval (one x) P
    & forall x e P Q, List.In x (build_bond_list nx ny) -> two x = Some e -> (P < p)%N -> (Q < p)%N -> coupling u two' x P Q = zval e (P * p + Q)].
Proof.
move=> [H1 H2] Ep.
have A x : shape (matrix cx (one x)) = [:: p; p] /\ forall P r, (P < p)%N -> (r < p)%N -> at_ (matrix cx (one x)) [:: P; r] = if P == r then zval (one x) P else 0.
  have [Z Y W] := H1 x; have [q Q S] := peval_shape cx W; rewrite /matrix Q S Ep; split=> // P r HP Hr.
  exact: (peval_diag Z Y W Q HP Hr).
have B x e : List.In x (build_bond_list nx ny) -> two x = Some e ->
    shape (matrix_opt cx (two x)) = [:: (p * p)%N; (p * p)%N] /\ forall P r, (P < p * p)%N -> (r < p * p)%N -> at_ (matrix_opt cx (two x)) [:: P; r] = if P == r then zval e P else 0.
  move=> Hx E; have [e' E' [Z Y W]] := H2 x Hx; move: E' Z Y W; rewrite E => -[<-] Z Y W {e'}.
  have [q Q S] := peval_shape cx W; rewrite /= /matrix Q S Ep -expnD; split=> // P r HP Hr.
  exact: (peval_diag Z Y W Q HP Hr).
split.
- split=> [x h [<-]|x Hx].
    by have [S D] := A x; split=> // P r HP Hr /negPf N; rewrite D // N.
  have [e E _] := H2 x Hx; have [S D] := B x e Hx E; split=> // i j Hi Hj /negPf N; by rewrite D // N.
- by move=> x P HP; rewrite /field (proj2 (A x)) // eqxx.
move=> x e P Q Hx E HP HQ; rewrite /coupling (proj2 (B x e Hx E)) ?eqxx //; by apply: pair_lt => //; rewrite Ep expn_gt0.
Qed.
End Spins.

(** ** Exact evolution *)
Section Exact.
Variable C : numClosedFieldType.
Notation tensor := (tensor C).
Variable R : Type.
Variable randn : R -> forall n q : nat, 'M[C]_(n, q) * R.
Variable trand : R -> nat -> nat -> tensor * R.
Variable lqr : qr_fun C.
Variable lsvd : thin_svd_fun C.
Variable fsvd : full_svd_fun C.
Variable leigh : eigh_fun C.
Variable lchol : chol_fun C.
Variable rtol : nat -> nat -> C.
Variable noise : C.
Variable fuel : nat.
Variable mexp : forall n, 'M[C]_n -> 'M[C]_n.
Variable cx : bool.
Variable u : setup C.
Notation nx := (u_nx u).
Notation ny := (u_ny u).
Notation b := (u_bond u).
Notation p := (u_phys u).
Notation state := (Session.state C R).
Hypothesis Sq : qr_spec lqr.
Hypothesis Sf : full_svd_spec fsvd.
Hypotheses (nx1 : (1 < nx)%N) (ny1 : (1 < ny)%N) (b1 : (1 < b)%N).
Variable T : finType.
Variables (nb : nat -> T -> T) (cell : T -> site).
Hypothesis cov : covers nb nx ny cell.
Hypothesis onto : forall x, in_cell nx ny x -> exists t, cell t = x.
Notation evolve lcut := (Session.evolve randn trand lqr lsvd fsvd leigh lchol rtol lcut noise fuel u).
Notation evolve_tensors lcut := (Session.evolve_tensors randn lqr lsvd fsvd leigh lchol rtol lcut fuel u).
Notation amplitude := (@P34_State.amplitude C u T nb cell).
Variable jz : C.

(** ---- specification ---- *)
(** a model with these terms is evolved exactly with the energy E: whatever the time
    step, a simple update with a small enough cutoff multiplies every amplitude by the
    exponential of the energy, up to one positive factor, and it does not fail if there
    is a configuration with an amplitude that is not zero *)
Definition evolved_exactly (one : site -> pexpr C) (two : bond -> option (pexpr C)) (lab : site -> nat -> nat -> nat) (E : (T -> nat) -> C) : Prop :=
  forall S e th dtau steps (s : state), exp_diag mexp u e -> exponential S e -> S (dtau * jz / 4%:R) -> S (- (dtau * jz / 4%:R)) ->
  u_type u = "simple" -> s_init s = true -> Permutation (s_bonds s) (build_bond_list nx ny) ->
  (forall x, in_cell nx ny x -> shape (s_net s x SA) = [:: b; b; b; b; p]) -> classical u lab (s_net s) ->
  let g := model_gates mexp p (Gate.Model tensor (fun x => Some (matrix cx (one x))) (Gate.Fresh tensor (fun x => matrix_opt cx (two x)))) dtau (s_bonds s) (build_site_list nx ny) th in
  let exact (s' : state) := exists2 d, 0 < d & forall f, config p f ->
    amplitude (s_net s') f = d * (e (- (dtau * steps%:R) * E f) * amplitude (s_net s) f) in
  (exists2 m, 0 < m & forall lcut st s', 0 < lcut <= m -> evolve lcut st g steps s = Some (Ok s') -> exact s') /\
  (forall f, config p f -> amplitude (s_net s) f != 0 -> exists2 m, 0 < m & forall lcut, 0 < lcut <= m -> exists2 s', evolve_tensors lcut g steps s = Some (Ok s') & exact s').

(** the energies of the Ising models: -jz times the sum over the bonds of the lattice of
    the products of the spins at its ends *)
Definition square_energy (f : T -> nat) : C := - jz * \sum_t sz C (f t) * (sz C (f (nb 2 t)) + sz C (f (nb 1 t))).
(** honeycomb: a site has a spin A and a spin B; A has three neighbours B *)
Definition hA (P : nat) : C := sz C (P %/ 2).
Definition hB (P : nat) : C := sz C (P %% 2).
Definition honeycomb_energy (f : T -> nat) : C := - jz * \sum_t hA (f t) * (hB (f t) + hB (f (nb 0 t)) + hB (f (nb 1 t))).
(** kagome: a site has spins A, B, C; the bonds form triangles that share corners *)
Definition kA (P : nat) : C := sz C (P %/ 4).
Definition kB (P : nat) : C := sz C ((P %/ 2) %% 2).
Definition kC (P : nat) : C := sz C (P %% 2).
Definition triangle (x y z : C) : C := x * y + y * z + z * x.
Definition kagome_energy (f : T -> nat) : C := - jz * \sum_t
  (triangle (kC (f t)) (kA (f (nb 2 t))) (kB (f (nb 2 t))) + triangle (kA (f t)) (kB (f (nb 1 t))) (kC (f (nb 1 t)))).
(** what the legs of a site may see *)
Definition honeycomb_lab (x : site) (d P : nat) : nat := if (d < 2)%N then (P %/ 2)%N else (P %% 2)%N.
Definition kagome_lab (x : site) (d P : nat) : nat := if d == 2%N then (P %% 2)%N else if d == 1%N then (P %/ 4)%N else P.

(** ---- proofs ---- *)
Definition multiple (v : C) : Prop := exists k : int, v = k%:~R * jz.
Lemma mult_sz i v : multiple v -> multiple (sz C i * v).
Proof. by case=> k ->; rewrite /sz; case: ifP => _; [exists k; rewrite mul1r|exists (- k); rewrite mulN1r mulrNz mulNr]. Qed.
Lemma mult_opp v : multiple v -> multiple (- v).
Proof. by case=> k ->; exists (- k); rewrite mulrNz mulNr. Qed.
Lemma mult_add v v' : multiple v -> multiple v' -> multiple (v + v').
Proof. by move=> [k ->] [k' ->]; exists (k + k'); rewrite intrD mulrDl. Qed.
Lemma mult_jz : multiple jz. Proof. by exists 1; rewrite mul1r. Qed.
Lemma mult_0 : multiple 0. Proof. by exists 0; rewrite mul0r. Qed.

(** the Ising model with the energy E, whose legs see the labels lab *)
Definition ising_terms (one : site -> pexpr C) (two : bond -> option (pexpr C)) (lab : site -> nat -> nat -> nat) (E : (T -> nat) -> C) (w : nat) : Prop :=
  [/\ spin_model u one two w /\ p = (2 ^ w)%N,
      narrow_model u (fun x => matrix_opt cx (two x)) lab,
      forall x P, (P < p)%N -> multiple (zval (one x) P),
      forall x e P Q, List.In x (build_bond_list nx ny) -> two x = Some e -> (P < p)%N -> (Q < p)%N -> multiple (zval e (P * p + Q))
    & forall f, config p f -> energy u (fun x => Some (matrix cx (one x))) (fun x => matrix_opt cx (two x)) nb cell f = E f].

Lemma ising_ready one two lab E w S e dtau : ising_terms one two lab E w -> exponential S e -> S (dtau * jz / 4%:R) -> S (- (dtau * jz / 4%:R)) ->
  let one' := fun x => Some (matrix cx (one x)) in let two' := fun x => matrix_opt cx (two x) in
  [/\ classical_model u one' two', exists S' : C -> Prop, [/\ exponential S' e, all_in u one' two' S' dtau & forall x, S' x -> S x]
    & forall f, config p f -> e (- dtau * E f) != 0].
Proof using nx1 ny1 cov.
move=> [[HM Ep] Hnr M1 M2 HE] Hexp Sp Sn one' two'.
have [Mc Hfield Hcoup] := spin_classical cx HM Ep.
have [S0 e0 SD eD] := Hexp.
pose S' x := S x /\ S (- x).
have Hexp' : exponential S' e.
  split=> //; first by split; rewrite ?oppr0.
    by move=> a c [A A'] [B B']; split; [apply: SD|rewrite opprD; apply: SD].
  by move=> a c [A _] [B _]; apply: eD.
have [S0' _ SD' _] := Hexp'.
have Sopp x : S' x -> S' (- x) by move=> [A B]; split=> //; rewrite opprK.
have Sk (k : int) : S' (k%:~R * (dtau * jz / 4%:R)).
  have Snat (n : nat) : S' (n%:R * (dtau * jz / 4%:R)).
    elim: n => [|n IH]; first by rewrite mul0r.
    by rewrite -addn1 natrD mulrDl mul1r; apply: SD'.
  case: k => n; first exact: Snat.
  by rewrite NegzE mulrNz mulNr; apply: Sopp; apply: Snat.
have Sm v : multiple v -> S' (- dtau * v) /\ S' (- dtau * (v / 4%:R)).
  move=> [k ->]; split.
    have -> : - dtau * (k%:~R * jz) = (k * - 4%:R)%:~R * (dtau * jz / 4%:R); last exact: Sk.
    rewrite intrM mulrNz mulrN !mulNr; congr (- _).
    rewrite -mulrA [4%:~R * _]mulrCA [dtau * _]mulrCA; congr (_ * _).
    by rewrite (_ : 4%:~R = 4%:R :> C) ?mulfV ?mulr1 ?pnatr_eq0 // -natz.
  have -> : - dtau * (k%:~R * jz / 4%:R) = (- k)%:~R * (dtau * jz / 4%:R); last exact: Sk.
  by rewrite mulrNz !mulNr -!mulrA mulrCA.
have HS : all_in u (fun x => Some (matrix cx (one x))) (fun x => matrix_opt cx (two x)) S' dtau.
  split=> [x P Q Hx HP' HQ|x P Hx HP'].
    have [_ H2] := HM; have [ex Ex _] := H2 x Hx; rewrite (Hcoup _ _ _ _ Hx Ex) //.
    by apply: (proj1 (Sm _ _)); apply: M2 Ex _ _.
  by rewrite Hfield //; apply: (proj2 (Sm _ _)); apply: M1.
have N0 f : config p f -> e (- dtau * E f) != 0.
  move=> Hf; rewrite -HE // -[dtau]mulr1 -[1]/(1%:R) -(energy_weight nx1 ny1 cov 1 Hexp' HS Hf) expr1 /lattice_weight.
  have [_ Hcl Hn] := cov.
  have Nz x P Q : List.In x (build_bond_list nx ny) -> (P < p)%N -> (Q < p)%N -> e (- dtau * shared u (fun x => Some (matrix cx (one x))) (fun x => matrix_opt cx (two x)) x P Q) != 0.
    move=> Hx HP' HQ; have [[A B] _] := shared_parts Hexp' HS Hx HP' HQ.
    apply/eqP => X; have := eD _ _ A B; rewrite addrN e0 X mul0r => /eqP; by rewrite oner_eq0.
  apply/prodf_neq0 => t _; apply: mulf_neq0; apply: Nz => //; apply/in_bond_list; exists (cell t); split; try exact: Hcl; by [left|right].
split=> //; exists S'; split=> // x [] //.
Qed.

Lemma evolved_by one two lab E w : ising_terms one two lab E w -> evolved_exactly one two lab E.
Proof using Sq Sf nx1 ny1 b1 cov onto.
move=> Hi; have [[HM Ep] Hnr M1 M2 HE] := Hi; move=> S e th dtau steps s He Hexp Sp Sn Tu Hini HP Hs Hc g exact.
have [Mc [S' [Hexp' HS _]] N0] := ising_ready Hi Hexp Sp Sn.
have b0 : (0 < b)%N by apply: ltnW.
have p0 : (0 < p)%N by rewrite Ep expn_gt0.
have [m1 m10 H1] := C88_energy randn trand lsvd leigh lchol rtol noise fuel Sq Sf nx1 ny1 b0 p0 cov Mc th steps He Hexp' HS Hnr Tu Hini HP Hs Hc.
split.
  exists m1 => // lcut st s' Hl Es; have [d d0 Hd] := H1 lcut st s' Hl Es; exists d => // f Hf; by rewrite -HE //; apply: Hd.
move=> f Hf Af.
have E0 : e (- dtau * energy u (fun x => Some (matrix cx (one x))) (fun x => matrix_opt cx (two x)) nb cell f) != 0 by rewrite HE //; apply: N0.
have [m m0 H] := C88_energy_succeeds randn lsvd leigh lchol rtol fuel Sq Sf nx1 ny1 b0 p0 cov Mc onto th steps He Hexp' HS Hnr Tu HP Hs Hc Hf E0 Af.
exists m => // lcut Hl; have [s' Es [d d0 Hd]] := H lcut Hl; exists s' => //; exists d => // f' Hf'; by rewrite -HE //; apply: Hd.
Qed.

Lemma all_quarters (one : site -> option tensor) x : (forall y, has one y = true) -> quarters u one x = 4%N.
Proof using nx1 ny1.
move=> H; rewrite /quarters (gtn_eqF nx1) (gtn_eqF ny1) !subn0 (eq_bigr (fun=> 1%N)) ?sum_nat_const ?card_ord //.
by move=> d _; rewrite H.
Qed.
Lemma energy_spin one two f w : spin_model u one two w -> p = (2 ^ w)%N -> config p f ->
  energy u (fun x => Some (matrix cx (one x))) (fun x => matrix_opt cx (two x)) nb cell f =
  \sum_t (zval (odflt (PL C LI) (two (bond_at u 2 (cell t)))) (f t * p + f (nb 2 t)) + zval (odflt (PL C LI) (two (bond_at u 1 (cell t)))) (f t * p + f (nb 1 t)) + zval (one (cell t)) (f t)).
Proof using nx1 ny1 cov.
move=> HM Ep Hf; have [Mc Hfield Hcoup] := spin_classical cx HM Ep; have [_ Hcl Hn] := cov; have [_ H2] := HM.
have I k t : (k == 1)%N || (k == 2)%N -> List.In (bond_at u k (cell t)) (build_bond_list nx ny).
  by move=> Hk; apply/in_bond_list; exists (cell t); split; [exact: Hcl|case/orP: Hk => /eqP->; [right|left]].
apply: eq_bigr => t _; rewrite all_quarters // mulfV ?pnatr_eq0 // mul1r Hfield //; congr (_ + _ + _).
  by have [e E _] := H2 _ (I 2%N t isT); rewrite (Hcoup _ _ _ _ (I 2%N t isT) E) // E.
by have [e E _] := H2 _ (I 1%N t isT); rewrite (Hcoup _ _ _ _ (I 1%N t isT) E) // E.
Qed.
Lemma bond_k x : List.In x (build_bond_list nx ny) -> b_k x = 2%N \/ b_k x = 1%N.
Proof. by move=> /in_bond_list[y [_ [->|->]]]; [left|right]. Qed.
Lemma at_pair q P Q : (Q < q)%N -> (((P * q + Q) %/ q) = P)%N /\ (((P * q + Q) %% q) = Q)%N.
Proof. by move=> HQ; have q0 : (0 < q)%N by [apply: leq_trans HQ]; rewrite divnMDl // divn_small // addn0 modnMDl modn_small. Qed.

Lemma zval_mul a a' w q P Q : width a' = Some w -> q = (2 ^ w)%N -> (Q < q)%N -> zval (PMul a a') (P * q + Q) = zval a P * zval a' Q :> C.
Proof. by move=> E Eq HQ; rewrite [LHS]/= /wid E [odflt _ _]/= -Eq; have [-> ->] := at_pair P HQ. Qed.

Lemma square_terms : p = 2%N -> ising_terms (square_one 0) (fun x => Some (square_two jz x)) plain square_energy 1.
Proof using nx1 ny1 b1 cov.
move=> Ep.
have HM : spin_model u (square_one 0) (fun x => Some (square_two jz x)) 1.
  by split=> [x|x _]; [split; rewrite //= oppr0 eqxx|exists (square_two jz x); [|split; rewrite //= ?orbT]].
have V P Q x : (Q < 2)%N -> zval (square_two jz x) (P * p + Q) = - jz * sz C P * sz C Q.
  by move=> HQ; rewrite /= /wid /= Ep; have [-> ->] := at_pair P HQ.
split; first by [].
- move=> x Hx; split; last by left=> P; rewrite Ep => HP; apply: leq_trans HP b1.
  by exists (coupling u (fun x => matrix_opt cx (Some (square_two jz x))) x).
- by move=> x P _; rewrite /= oppr0 mul0r; exact: mult_0.
- move=> x e P Q _ [<-] _; rewrite Ep -Ep => HQ; rewrite V -?Ep // mulrAC mulrC.
  by rewrite [- jz * _]mulrC; do 2 apply: mult_sz; apply: mult_opp; exact: mult_jz.
move=> f Hf; rewrite (energy_spin HM) // /square_energy mulr_sumr; apply: eq_bigr => t _.
have Hf' t' : (f t' < 2)%N by rewrite -Ep.
rewrite (V (f t) (f (nb 2 t)) (bond_at u 2 (cell t))) // (V (f t) (f (nb 1 t)) (bond_at u 1 (cell t))) //=.
by rewrite oppr0 mul0r addr0 -mulrDr mulrA.
Qed.
(** C89.  The Ising model of the library without a field is the Ising model of the
    square lattice and is evolved exactly. *)
Theorem C89_square : p = 2%N -> evolved_exactly (square_one 0) (fun x => Some (square_two jz x)) plain square_energy.
Proof using Sq Sf nx1 ny1 b1 cov onto. by move=> Ep; apply: evolved_by (square_terms Ep). Qed.

Lemma honeycomb_terms : p = 4%N -> ising_terms (honeycomb_one jz 0) (honeycomb_two jz) honeycomb_lab honeycomb_energy 2.
Proof using nx1 ny1 b1 cov.
move=> Ep.
have HM : spin_model u (honeycomb_one jz 0) (honeycomb_two jz) 2.
  split=> [x|x /bond_k Hk]; first by split; rewrite //= eqxx orbT.
  by rewrite /honeycomb_two /bond_direction; case: Hk => ->; (eexists; [reflexivity|split; rewrite //= ?orbT]).
have V1 x P : zval (honeycomb_one jz 0 x) P = - jz * (hA P * hB P) by rewrite /= /wid /= mul0r subr0 mulrA.
have V2 x e P Q : b_k x = 2%N -> honeycomb_two jz x = Some e -> (Q < p)%N -> zval e (P * p + Q) = - jz * (hB P * hA Q).
  rewrite /honeycomb_two /bond_direction => -> [<-] HQ; rewrite (@zval_mul _ _ 2) //.
  by rewrite /= /wid /= mul1r mulr1 mulrA.
have V3 x e P Q : b_k x = 1%N -> honeycomb_two jz x = Some e -> (Q < p)%N -> zval e (P * p + Q) = - jz * (hA P * hB Q).
  rewrite /honeycomb_two /bond_direction => -> [<-] HQ; rewrite (@zval_mul _ _ 2) //.
  by rewrite /= /wid /= mul1r mulr1 mulrA.
have [_ _ Hcoup] := spin_classical cx HM Ep; have [_ H2] := HM.
have Mjz P Q : multiple (- jz * (sz C P * sz C Q)).
  by rewrite mulrC -mulrA; do 2 apply: mult_sz; apply: mult_opp; exact: mult_jz.
split; first by [].
- move=> x Hx; have [e E _] := H2 x Hx; have := bond_k Hx; move=> [K|K]; split.
  + exists (fun l m => - jz * (sz C l * sz C m)) => P Q HP HQ; by rewrite (Hcoup _ _ _ _ Hx E) // (V2 _ _ _ _ K E) // K.
  + left=> P HP; rewrite K /honeycomb_lab /=; apply: leq_trans b1; exact: ltn_pmod.
  + exists (fun l m => - jz * (sz C l * sz C m)) => P Q HP HQ; by rewrite (Hcoup _ _ _ _ Hx E) // (V3 _ _ _ _ K E) // K.
  + left=> P HP; rewrite K /honeycomb_lab /=; apply: leq_trans b1; by rewrite ltn_divLR // -[(2 * 2)%N]/4%N -Ep.
- by move=> x P _; rewrite V1; exact: Mjz.
- move=> x e P Q Hx E HP HQ; case: (bond_k Hx) => K; rewrite ?(V2 _ _ _ _ K E) ?(V3 _ _ _ _ K E) //; exact: Mjz.
move=> f Hf; rewrite (energy_spin HM) // /honeycomb_energy.
have [HPr Hcl Hn] := cov.
rewrite [LHS](eq_bigr (fun t => - jz * (hB (f t) * hA (f (nb 2 t))) + - jz * (hA (f t) * (hB (f (nb 1 t)) + hB (f t))))) => [|t _].
  rewrite big_split /=.
  rewrite -!mulr_sumr -mulrDr; congr (_ * _).
  rewrite (reindex (nb 0)) /=; last by apply: onW_bij; apply: (paired_bij cov).
  rewrite -big_split; apply: eq_bigr => t _ /=.
  have -> : nb 2 (nb 0 t) = t by exact: (HPr 0%N t isT).
  by rewrite mulrC -mulrDr; congr (_ * _); move: (hB _) (hB _) (hB _) => x y z; rewrite addrA [in RHS]addrC [in RHS]addrCA addrC [z + y]addrC.
rewrite (V2 (bond_at u 2 (cell t)) _ _ _ erefl erefl) // (V3 (bond_at u 1 (cell t)) _ _ _ erefl erefl) // V1.
by rewrite mulrDr mulrDr addrA.
Qed.
(** C89.  The honeycomb sample without a field is the Ising model of the honeycomb
    lattice and is evolved exactly. *)
Theorem C89_honeycomb : p = 4%N -> evolved_exactly (honeycomb_one jz 0) (honeycomb_two jz) honeycomb_lab honeycomb_energy.
Proof using Sq Sf nx1 ny1 b1 cov onto. by move=> Ep; apply: evolved_by (honeycomb_terms Ep). Qed.

Lemma zval_sub a a' i : zval (PSub a a') i = zval a i - zval a' i :> C. Proof. by []. Qed.
Lemma kagome_terms : p = 8%N -> ising_terms (kagome_one jz 0) (kagome_two jz) kagome_lab kagome_energy 3.
Proof using nx1 ny1 b1 cov.
move=> Ep.
have HM : spin_model u (kagome_one jz 0) (kagome_two jz) 3.
  split=> [x|x /bond_k Hk]; first by split; rewrite //= eqxx orbT.
  by rewrite /kagome_two /bond_direction; case: Hk => ->; (eexists; [reflexivity|split; rewrite //= ?orbT]).
have W P : (P %/ 2 %/ 2 = P %/ 4)%N by rewrite -divnMA.
have V1 x P : zval (kagome_one jz 0 x) P = - jz * (kB P * kC P + kA P * kB P).
  by rewrite /= /wid /= !expn1 mul0r subr0 !mul1r !mulr1 W.
have V2 x e P Q : b_k x = 2%N -> kagome_two jz x = Some e -> (Q < p)%N -> zval e (P * p + Q) = - jz * (kC P * (kA Q + kB Q)).
  rewrite /kagome_two /bond_direction => -> [<-] HQ; rewrite zval_sub !(@zval_mul _ _ 3) //.
  by rewrite /= /wid /= !expn1 W !mul1r !mulr1 !mulNr -opprD -!mulrA -!mulrDr.
have V3 x e P Q : b_k x = 1%N -> kagome_two jz x = Some e -> (Q < p)%N -> zval e (P * p + Q) = - jz * (kA P * (kB Q + kC Q)).
  rewrite /kagome_two /bond_direction => -> [<-] HQ; rewrite zval_sub !(@zval_mul _ _ 3) //.
  by rewrite /= /wid /= !expn1 W !mul1r !mulr1 !mulNr -opprD -!mulrA -!mulrDr.
have [_ _ Hcoup] := spin_classical cx HM Ep; have [_ H2] := HM.
have Mjz P Q : multiple (- jz * (sz C P * sz C Q)).
  by rewrite mulrC -mulrA; do 2 apply: mult_sz; apply: mult_opp; exact: mult_jz.
split; first by [].
- move=> x Hx; have [e E _] := H2 x Hx; have := bond_k Hx; move=> [K|K]; split.
  + exists (fun l m => - jz * (sz C l * (kA m + kB m))) => P Q HP HQ; by rewrite (Hcoup _ _ _ _ Hx E) // (V2 _ _ _ _ K E) // K.
  + left=> P HP; rewrite K /kagome_lab /=; apply: leq_trans b1; exact: ltn_pmod.
  + exists (fun l m => - jz * (sz C l * (kB m + kC m))) => P Q HP HQ; by rewrite (Hcoup _ _ _ _ Hx E) // (V3 _ _ _ _ K E) // K.
  + left=> P HP; rewrite K /kagome_lab /=; apply: leq_trans b1; by rewrite ltn_divLR // -[(2 * 4)%N]/8%N -Ep.
- by move=> x P _; rewrite V1 mulrDr; apply: mult_add; exact: Mjz.
- by move=> x e P Q Hx E HP HQ; case: (bond_k Hx) => K; rewrite ?(V2 _ _ _ _ K E) ?(V3 _ _ _ _ K E) // !mulrDr; apply: mult_add; exact: Mjz.
move=> f Hf; rewrite (energy_spin HM) // /kagome_energy.
have [HPr Hcl Hn] := cov.
have X k (F : T -> C) : (k < 4)%N -> \sum_t F t = \sum_t F (nb k t).
  by move=> Hk; rewrite (reindex (nb k)) //; apply: onW_bij; apply: (paired_bij cov).
rewrite [LHS](eq_bigr (fun t => - jz * (kC (f t) * (kA (f (nb 2 t)) + kB (f (nb 2 t)))) + - jz * (kA (f t) * (kB (f (nb 1 t)) + kC (f (nb 1 t)))) + - jz * (kB (f t) * kC (f t) + kA (f t) * kB (f t)))) => [|t _].
  rewrite !big_split /= -!mulr_sumr -!mulrDr; congr (_ * _).
  rewrite big_split /= (X 1%N (fun t => kB (f t) * kC (f t))) // (X 2%N (fun t => kA (f t) * kB (f t))) // -!big_split /=.
  apply: eq_bigr => t _; rewrite /triangle !mulrDr [kC (f t) * kB _]mulrC [kA (f t) * kC _]mulrC.
  by rewrite [LHS](AC ((2*2)*2) ((1*6*2)*(3*5*4)))%AC.
rewrite (V2 (bond_at u 2 (cell t)) _ _ _ erefl erefl) // (V3 (bond_at u 1 (cell t)) _ _ _ erefl erefl) // V1 //.
Qed.
(** C89.  The kagome sample without a field is the Ising model of the kagome lattice and
    is evolved exactly. *)
Theorem C89_kagome : p = 8%N -> evolved_exactly (kagome_one jz 0) (kagome_two jz) kagome_lab kagome_energy.
Proof using Sq Sf nx1 ny1 b1 cov onto. by move=> Ep; apply: evolved_by (kagome_terms Ep). Qed.
End Exact.
(** ** The terms, with a field *)
Section Terms.
Variable C : numClosedFieldType.
Notation tensor := (tensor C).
Variables (cx : bool) (jz hx : C).
(** the number of spins that differ *)
Definition flips (w : nat) (P r : nat) : nat := \sum_(i < w) (((P %/ 2 ^ i) %% 2 != (r %/ 2 ^ i) %% 2)%N : nat).
(** the entries of -jz * D - hx * (sum of the spin flips) *)
Definition transverse (w : nat) (D : nat -> C) (P r : nat) : C :=
  if P == r then D P else if flips w P r == 1%N then - hx else 0.

Ltac entry := rewrite /transverse /flips ?big_ord_recl ?big_ord0 /= /kron /tadd /= ?(mul0r, mulr0, mul1r, mulr1, add0r, addr0, oppr0, mulN1r, mulrN1, opprK, subrr).

(** C89.  With a field, the one-site terms flip each spin of the site. *)
Theorem C89_honeycomb_terms x P r : (P < 4)%N -> (r < 4)%N ->
  at_ (matrix cx (honeycomb_one jz hx x)) [:: P; r] = transverse 2 (fun P => - jz * (hA C P * hB C P)) P r.
Proof.
case: cx; (case: P => [|[|[|[|]]]] // _; case: r => [|[|[|[|]]]] // _; rewrite /matrix /=; by entry).
Qed.
Theorem C89_square_terms x P r : (P < 2)%N -> (r < 2)%N ->
  at_ (matrix cx (square_one hx x)) [:: P; r] = transverse 1 (fun _ => 0) P r.
Proof.
case: cx; (case: P => [|[|]] // _; case: r => [|[|]] // _; rewrite /matrix /=; by entry).
Qed.
Theorem C89_kagome_terms x P r : (P < 8)%N -> (r < 8)%N ->
  at_ (matrix cx (kagome_one jz hx x)) [:: P; r] = transverse 3 (fun P => - jz * (kB C P * kC C P + kA C P * kB C P)) P r.
Proof.
case: cx; (case: P => [|[|[|[|[|[|[|[|]]]]]]]] // _; case: r => [|[|[|[|[|[|[|[|]]]]]]]] // _; rewrite /matrix /=; by entry).
Qed.

(** the energy of a bond in each direction *)
Definition honeycomb_bond (k P Q : nat) : C := - jz * (if (k < 2)%N then hA C P * hB C Q else hB C P * hA C Q).
Definition kagome_bond (k P Q : nat) : C := - jz * nth 0 [:: (kA C P + kB C P) * kC C Q; kA C P * (kB C Q + kC C Q); kC C P * (kA C Q + kB C Q); (kB C P + kC C P) * kA C Q] k.

Lemma bond_entries p w e cc : p = (2 ^ w)%N -> only_z e -> without_y e -> width e = Some (w + w)%N ->
  (forall P Q, (Q < p)%N -> zval e (P * p + Q) = cc P Q) ->
  forall P Q r s, (P < p)%N -> (Q < p)%N -> (r < p)%N -> (s < p)%N ->
  at_ (matrix_opt cx (Some e)) [:: (P * p + Q)%N; (r * p + s)%N] = if (P == r) && (Q == s) then cc P Q else 0 :> C.
Proof.
move=> Ep Z Y W V P Q r s HP HQ Hr Hs; have [q E S] := peval_shape cx W; rewrite /= /matrix E.
have p0 : (0 < p)%N by apply: leq_trans HP.
have L i j : (i < p)%N -> (j < p)%N -> (i * p + j < 2 ^ (w + w))%N.
  by move=> Hi Hj; rewrite expnD -Ep; apply: (@leq_trans (i.+1 * p)); rewrite ?leq_pmul2r // mulSn addnC ltn_add2r.
rewrite (peval_diag Z Y W E) ?L // V //; case: eqP => [X|N].
  have [A B] := at_pair P HQ; have [A' B'] := at_pair r Hs.
  have -> : P = r by rewrite -A -[RHS]A' X.
  have -> : Q = s by rewrite -B -[RHS]B' X.
  by rewrite !eqxx.
by case: ifP => // /andP[/eqP A /eqP B]; case: N; rewrite A B.
Qed.

(** C89.  The two-site terms of the samples for every direction of a bond. *)
Theorem C89_honeycomb_bonds x P Q r s : (b_k x < 4)%N -> (P < 4)%N -> (Q < 4)%N -> (r < 4)%N -> (s < 4)%N ->
  at_ (matrix_opt cx (honeycomb_two jz x)) [:: (P * 4 + Q)%N; (r * 4 + s)%N] = if (P == r) && (Q == s) then honeycomb_bond (b_k x) P Q else 0.
Proof.
rewrite /honeycomb_two /bond_direction; move: (b_k x) => k.
case: k => [|[|[|[|]]]] // _; (apply: (@bond_entries 4 2); [by []|by rewrite /= ?orbT|by []|by []|move=> P' Q' HQ; rewrite (@zval_mul _ _ _ 2) //]);
  by rewrite /honeycomb_bond /= /wid /= ?mul1r ?mulr1 mulrA.
Qed.
Theorem C89_kagome_bonds x P Q r s : (b_k x < 4)%N -> (P < 8)%N -> (Q < 8)%N -> (r < 8)%N -> (s < 8)%N ->
  at_ (matrix_opt cx (kagome_two jz x)) [:: (P * 8 + Q)%N; (r * 8 + s)%N] = if (P == r) && (Q == s) then kagome_bond (b_k x) P Q else 0.
Proof.
have W i : (i %/ 2 %/ 2 = i %/ 4)%N by rewrite -divnMA.
rewrite /kagome_two /bond_direction; move: (b_k x) => k.
case: k => [|[|[|[|]]]] // _; (apply: (@bond_entries 8 3); [by []|by rewrite /= ?orbT|by []|by []|move=> P' Q' HQ; rewrite zval_sub !(@zval_mul _ _ _ 3) //]);
  by rewrite /kagome_bond /= /wid /= !expn1 ?W ?mul1r ?mulr1 !mulNr -opprD -!mulrA -!mulrDr ?mulrDl ?mulrDr.
Qed.
(** C89.  A bond read from its other end has the same term. *)
Theorem C89_reversed s1 s2 k P Q r s : (k < 4)%N ->
  ((P < 4)%N -> (Q < 4)%N -> (r < 4)%N -> (s < 4)%N ->
   at_ (matrix_opt cx (honeycomb_two jz (Bond s1 s2 k))) [:: (P * 4 + Q)%N; (r * 4 + s)%N] = at_ (matrix_opt cx (honeycomb_two jz (Bond s2 s1 ((k + 2) %% 4)))) [:: (Q * 4 + P)%N; (s * 4 + r)%N]) /\
  ((P < 8)%N -> (Q < 8)%N -> (r < 8)%N -> (s < 8)%N ->
   at_ (matrix_opt cx (kagome_two jz (Bond s1 s2 k))) [:: (P * 8 + Q)%N; (r * 8 + s)%N] = at_ (matrix_opt cx (kagome_two jz (Bond s2 s1 ((k + 2) %% 4)))) [:: (Q * 8 + P)%N; (s * 8 + r)%N]).
Proof.
move=> Hk; split=> HP HQ Hr Hs; rewrite ?C89_honeycomb_bonds ?C89_kagome_bonds ?ltn_mod // [(Q == s) && _]andbC; case: ifP => // _ /=.
  by case: k Hk => [|[|[|[|]]]] // _; rewrite /honeycomb_bond /=; congr (_ * _); rewrite mulrC.
by case: k Hk => [|[|[|[|]]]] // _; rewrite /kagome_bond /=; congr (_ * _); rewrite mulrC.
Qed.
End Terms.

(** ** A concrete case *)
Section Example.
Variable C : numClosedFieldType.
Notation tensor := (tensor C).
(** a function that gives the integer of an integer, such as floor *)
Variable fl : C -> int.
Hypothesis fl_int : forall k : int, fl k%:~R = k.
Variable w : C.
Hypothesis w0 : w != 0.
Definition power (x : C) : C := w ^ fl x.
Definition power_mx n (A : 'M[C]_n) : 'M[C]_n := \matrix_(i, j) if i == j then power (A i i) else 0.
Definition honey_setup : setup C := Setup 2 2 2 4 Full 3 (PConfig "full-rank" 0 2 2 3) "simple" (EConfig "pinv" 1 1 10 true 1 0).
Notation evolve_tensors lcut := (@Session.evolve_tensors C unit (fun r _ _ => (0, r)) (@some_qr C) (@some_thin_svd C) (@some_full_svd C) (@some_eigh C) (@some_chol C) (fun _ _ => 0) lcut 1 honey_setup).
Notation nb := (tnbr (nx := 2) (ny := 2)).
Notation cell a c := (tcell (a := a) (c := c) (nx := 2) (ny := 2)).
Notation amp a c := (amplitude honey_setup nb (cell a c)).
Definition honey_net : Mover.net tensor := fun _ _ => Tensor [:: 2; 2; 2; 2; 4]%N (fun _ => 1).
Notation uniform chi := (State honey_net tt (build_bond_list 2 2) chi true : Session.state C unit).

(** from the uniform state on a torus of any size, the honeycomb sample with jz = 1 and
    time step 4 (in units in which the exponential of one is w^-1) prefers the states with
    all spins alike to the states with A up and B down *)
Example C89_honeycomb_example cx a c steps chi th : (0 < a)%N -> (0 < c)%N -> exists2 m, 0 < m & forall lcut, 0 < lcut <= m ->
  exists2 s', evolve_tensors lcut (model_gates power_mx 4 (Gate.Model tensor (fun x => Some (matrix cx (honeycomb_one 1 0 x))) (Gate.Fresh tensor (fun x => matrix_opt cx (honeycomb_two 1 x)))) 4%:R (build_bond_list 2 2) (build_site_list 2 2) th) steps (uniform chi) = Some (Ok s') &
    exists2 d, 0 < d & let n := (steps * (12 * (a * 2 * (c * 2))))%N in
      [/\ amp a c (s_net s') (fun _ => 0%N) = d * w ^+ n, amp a c (s_net s') (fun _ => 3%N) = d * w ^+ n & amp a c (s_net s') (fun _ => 1%N) = d / w ^+ n].
Proof.
have intz_nat (n : nat) : (n%:R : int)%:~R = n%:R :> C by rewrite natz.
move=> a0 c0; have cov := @torus_covers a c 2 2 a0 c0 isT isT.
pose s0 : Session.state C unit := uniform chi.
have He : exp_diag power_mx honey_setup power by move=> A _ i j; rewrite mxE.
pose S (x : C) := exists k : int, x = k%:~R.
have HE : exponential S power.
  split; [by exists 0|by rewrite /power -[0]/(0%:~R) fl_int expr0z| |].
    by move=> _ _ [k ->] [l ->]; exists (k + l); rewrite intrD.
  by move=> _ _ [k ->] [l ->]; rewrite /power -intrD !fl_int exprzDr // unitfE.
have C1 : 4%:R * 1 / 4%:R = 1 :> C by rewrite mulr1 mulfV // pnatr_eq0.
have S1 : S (4%:R * 1 / 4%:R) by exists 1; rewrite C1.
have S2 : S (- (4%:R * 1 / 4%:R)) by exists (-1); rewrite C1.
have Hf x : in_cell 2 2 x -> shape (s_net s0 x SA) = [:: 2; 2; 2; 2; 4]%N by [].
have Hc : classical honey_setup honeycomb_lab honey_net by move=> x _; exists (fun _ => 1), (fun _ _ _ => 1) => v _; rewrite big1 ?mulr1.
have [N N0 HN] : exists2 d, 0 < d & forall f, amp a c honey_net f = d.
  exists (#|{ffun ('I_(a * 2) * 'I_(c * 2)) * bool -> 'I_2}|%:R).
    rewrite ltr0n; apply/card_gt0P; by exists [ffun _ => ord0].
  move=> f; rewrite /amplitude /psi -sum1_card natr_sum; apply: eq_bigr => m _; by rewrite big1.
have [_ H] := @C89_honeycomb C unit (fun r _ _ => (0, r)) (fun r _ _ => (Tensor [::] (fun _ => 0), r)) (@some_qr C) (@some_thin_svd C) (@some_full_svd C) (@some_eigh C) (@some_chol C) (fun _ _ => 0) 0 1 power_mx cx honey_setup (@some_qr_spec C) (@some_full_svd_spec C)
  isT isT isT _ nb (cell a c) cov (torus_onto a0 c0) 1 erefl S power th 4%:R steps s0 He HE S1 S2 erefl erefl (Permutation_refl _) Hf Hc.
have A0 : amp a c (s_net s0) (fun _ => 0%N) != 0 by rewrite HN lt0r_neq0.
have [m m0 Hm] := H (fun _ => 0%N) (fun _ => isT) A0; exists m => // lcut Hl.
have [s' Es [d d0 Hd]] := Hm lcut Hl; exists s' => //; exists (d * N); first exact: mulr_gt0.
move=> n.
have X (P : nat) (k : int) : (P < 4)%N -> hA C P * (hB C P + hB C P + hB C P) = (k * 3%:R)%:~R -> amp a c (s_net s') (fun _ => P) = d * N * w ^ (k * n%:R).
  move=> HP Hk; rewrite Hd // HN -mulrA [N * _]mulrC; congr (_ * (_ * _)); rewrite /power /honeycomb_energy; congr (w ^ _).
  rewrite sumr_const Hk card_prod !card_ord mulN1r mulrNN -[RHS]fl_int; congr fl.
  rewrite [RHS]intrM intz_nat intrM intz_nat -[k%:~R * 3%:R *+ _]mulr_natl [LHS](AC (2*(1*2)) (4*(2*(1*5*3))))%AC /=.
  by rewrite -!natrM.
have E3 : 3%:R = 1 + 1 + 1 :> C by rewrite -[1]/(1%:R) -!natrD.
split.
- by rewrite (@X _ 1) // ?mul1r ?natz // /hA /hB /sz /= !mul1r intz_nat.
- by rewrite (@X _ 1) // ?mul1r ?natz // /hA /hB /sz /= -!opprD mulrNN mul1r ?intz_nat.
by rewrite (@X _ (-1)) // ?mulN1r ?natz ?exprN ?exprnN // /hA /hB /sz /= mul1r -!opprD mulrNz; congr (- _).
Qed.
End Example.

Print Assumptions C89_square.
Print Assumptions C89_honeycomb.
Print Assumptions C89_kagome.
Print Assumptions C89_honeycomb_terms.
Print Assumptions C89_square_terms.
Print Assumptions C89_kagome_terms.
Print Assumptions C89_honeycomb_bonds.
Print Assumptions C89_kagome_bonds.
Print Assumptions C89_reversed.
Print Assumptions C89_honeycomb_example.
