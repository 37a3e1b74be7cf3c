(** C98: what the models report about spins that are not entangled. *)
From Coq Require Import String Ascii Permutation.
From mathcomp Require Import all_ssreflect all_algebra.
From Verif Require Import Base Lattice LatticeFacts Neel Mover Tensor TN Rdm RdmFacts Fits EinsumLin P09_Rdm Measure MeasureFacts P11_Measure Linalg Rsvd Renorm Als Session P29_Session Ring ProductFacts P30_Product Pauli P12_Pauli Samples P40_Samples Observables P47_Range.
Set Implicit Arguments.
Unset Strict Implicit.
Unset Printing Implicit Defensive.
Import GRing.Theory Num.Theory Order.POrderTheory.
Local Open Scope ring_scope.
Local Open Scope string_scope.

(** ---- specification ---- *)
Section Spec.
Variable C : numClosedFieldType.
(** a spin is its two amplitudes *)
Notation spin := (nat -> C).
Definition length2 (w : spin) : C := `|w 0%N| ^+ 2 + `|w 1%N| ^+ 2.
(** its components *)
Definition bloch (l : letter) (w : spin) : C :=
  match l with
  | LX => ((w 0%N)^* * w 1%N + (w 1%N)^* * w 0%N) / length2 w
  | LY => 'i * ((w 0%N)^* * w 1%N - (w 1%N)^* * w 0%N) / length2 w
  | LZ => (`|w 0%N| ^+ 2 - `|w 1%N| ^+ 2) / length2 w
  | LI => 1
  end.
(** the state of spins next to each other, the last one changing fastest *)
Fixpoint joint (ws : seq spin) : spin :=
  if ws is w :: ws' then fun i => w (i %/ 2 ^ size ws')%N * joint ws' (i %% 2 ^ size ws')%N else fun _ => 1.

(** how many spins an expression is about, and its value for given spins: a letter stands
    for a component, and operators on different spins do not know of each other *)
Fixpoint spins_of (e : pexpr C) : nat :=
  match e with
  | PL _ => 1
  | PMul a b => (spins_of a + spins_of b)%N
  | PAdd a _ | PSub a _ | PNeg a | PScale _ _ a | PDiv _ a _ => spins_of a
  end.
Fixpoint mean (e : pexpr C) (ws : seq spin) : C :=
  match e with
  | PL l => bloch l (nth (fun _ => 0) ws 0)
  | PMul a b => mean a (take (spins_of a) ws) * mean b (drop (spins_of a) ws)
  | PAdd a b => mean a ws + mean b ws
  | PSub a b => mean a ws - mean b ws
  | PNeg a => - mean a ws
  | PScale _ c a => c * mean a ws
  | PDiv _ a c => mean a ws / c
  end.
End Spec.

(** ---- proofs ---- *)
Section Mean.
Variable C : numClosedFieldType.
Notation spin := (nat -> C).
Notation tensor := (tensor C).

Definition quad (n : nat) (V : nat -> C) (M : nat -> nat -> C) : C := \sum_(i < n) \sum_(j < n) (V i)^* * M j i * V j.

Lemma quad_ext n V V' M M' : (forall i, (i < n)%N -> V i = V' i) -> (forall i j, (i < n)%N -> (j < n)%N -> M i j = M' i j) -> quad n V M = quad n V' M'.
Proof. by move=> E F; apply: eq_bigr => i _; apply: eq_bigr => j _; rewrite !E ?F. Qed.
Lemma quad_scale n V M c : quad n V (fun i j => c * M i j) = c * quad n V M.
Proof. by rewrite /quad mulr_sumr; apply: eq_bigr => i _; rewrite mulr_sumr; apply: eq_bigr => j _; rewrite -mulrA mulrCA !mulrA; congr (_ * _); rewrite mulrAC [c * _]mulrC. Qed.
Lemma quad_add n V M M' : quad n V (fun i j => M i j + M' i j) = quad n V M + quad n V M'.
Proof. by rewrite /quad -big_split; apply: eq_bigr => i _; rewrite -big_split; apply: eq_bigr => j _ /=; rewrite mulrDr mulrDl. Qed.
Lemma quad_kron m n V V' A B : quad (m * n) (fun k => V (k %/ n)%N * V' (k %% n)%N) (mkron n A B) = quad m V A * quad n V' B.
Proof.
rewrite /quad /mkron.
rewrite (sum_split m n (fun i i' => \sum_(j < m * n) (V i * V' i')^* * (A (j %/ n)%N i * B (j %% n)%N i') * (V (j %/ n)%N * V' (j %% n)%N))).
rewrite mulr_suml; apply: eq_bigr => i _; rewrite mulr_sumr; apply: eq_bigr => i' _.
rewrite (sum_split m n (fun j j' => (V i * V' i')^* * (A j i * B j' i') * (V j * V' j'))).
rewrite mulr_suml; apply: eq_bigr => j _; rewrite mulr_sumr; apply: eq_bigr => j' _.
by rewrite rmorphM /= [X in X * (V j * _)]mulrACA [LHS]mulrACA.
Qed.

Lemma pow2_gt0 n : (0 < 2 ^ n)%N. Proof. by rewrite expn_gt0. Qed.
Lemma joint_cat (ws ws' : seq spin) i : (i < 2 ^ (size ws + size ws'))%N ->
  joint (ws ++ ws')%SEQ i = joint ws (i %/ 2 ^ size ws')%N * joint ws' (i %% 2 ^ size ws')%N.
Proof.
elim: ws i => [|w ws IH] i /= Hi; first by rewrite mul1r modn_small.
rewrite size_cat expnD IH; last by rewrite expnD ltn_mod muln_gt0 !pow2_gt0.
rewrite -mulrA; congr (w _ * (joint ws _ * joint ws' _)).
- by rewrite mulnC divnMA.
- by rewrite modn_divl.
by rewrite modn_dvdm // dvdn_mull.
Qed.

Lemma sum2 (F : nat -> C) : \sum_(i < 2) F i = F 0%N + F 1%N.
Proof. by rewrite !big_ord_recl big_ord0 addr0. Qed.

Lemma joint_norm (ws : seq spin) : \sum_(q < 2 ^ size ws) `|joint ws q| ^+ 2 = \prod_(w <- ws) length2 w.
Proof.
elim: ws => [|w ws IH]; first by rewrite big_nil big_ord1 normr1 expr1n.
rewrite big_cons -IH /= expnS (sum_split 2 (2 ^ size ws) (fun a b => `|w a * joint ws b| ^+ 2)) /length2.
rewrite (sum2 (fun a => \sum_(b < 2 ^ size ws) `|w a * joint ws b| ^+ 2)) mulrDl !mulr_sumr.
by congr (_ + _); apply: eq_bigr => b _; rewrite normrM exprMn.
Qed.

Lemma quad_letter cx l (w : spin) : cx || without_y (PL C l) -> length2 w != 0 -> quad 2 w (entry (mat (make_letter C cx l))) = bloch l w * length2 w.
Proof.
move=> Hy L; rewrite /quad !big_ord_recl !big_ord0 /= /entry; case: l Hy => /= Hy; rewrite ?orbF in Hy; rewrite ?Hy /= !(mulr0, mulr1, mul0r, mul1r, mulrN1, addr0, add0r).
- by rewrite mulfVK.
- by rewrite mulfVK // mulrBr mulrN mulNr; congr (_ - _); rewrite -mulrA mulrCA.
- by rewrite mulfVK // mulNr -!normCKC.
by rewrite /length2 -!normCKC.
Qed.

Lemma bloch_real l (w : spin) : bloch l w \is Num.real.
Proof.
have L : (length2 w)^-1 \is Num.real by rewrite rpredV rpredD // rpredX // normr_real.
case: l => /=; last exact: rpred1.
- rewrite rpredM // CrealE rmorphD !rmorphM /= !conjCK addrC; apply/eqP; by rewrite [w 1%N * _]mulrC [w 0%N * _]mulrC.
- rewrite rpredM // CrealE rmorphM rmorphB !rmorphM /= !conjCK conjCi mulNr -mulrN opprB; apply/eqP; by rewrite [w 1%N * _]mulrC [w 0%N * _]mulrC.
by rewrite rpredM // rpredB // rpredX // normr_real.
Qed.

(** numbers in the expression are real *)
Fixpoint real_numbers (e : pexpr C) : bool :=
  match e with
  | PL _ => true
  | PMul a b | PAdd a b | PSub a b => real_numbers a && real_numbers b
  | PNeg a => real_numbers a
  | PScale _ c a => (c \is Num.real) && real_numbers a
  | PDiv _ a c => (c \is Num.real) && real_numbers a
  end.
Lemma mean_real e (ws : seq spin) : real_numbers e -> mean e ws \is Num.real.
Proof.
elim: e ws => [l|a IHa b IHb|a IHa b IHb|a IHa b IHb|a IHa|cc c a IHa|cc a IHa c] ws /=.
- by move=> _; apply: bloch_real.
- by case/andP=> Ha Hb; rewrite rpredM ?IHa ?IHb.
- by case/andP=> Ha Hb; rewrite rpredD ?IHa ?IHb.
- by case/andP=> Ha Hb; rewrite rpredB ?IHa ?IHb.
- by move=> Ha; rewrite rpredN IHa.
- by case/andP=> Hc Ha; rewrite rpredM ?IHa.
by case/andP=> Hc Ha; rewrite rpredM ?rpredV ?IHa.
Qed.

Lemma complex_key (e : pexpr C) q : peval true e = Ok q -> cplx q.
Proof.
elim: e q => [l|a IHa b IHb|a IHa b IHb|a IHa b IHb|a IHa|cc c a IHa|cc a IHa c] q /=.
- by case=> <-.
- case Ea: (peval true a) => [x|] //=; case Eb: (peval true b) => [y|] //=.
  by rewrite /pmul; case: (kron _ _) => //= t [<-] /=; rewrite (IHa _ Ea).
- case Ea: (peval true a) => [x|] //=; case Eb: (peval true b) => [y|] //=.
  by rewrite /padd; case: (tadd _ _) => //= t [<-] /=; rewrite (IHa _ Ea).
- case Ea: (peval true a) => [x|] //=; case Eb: (peval true b) => [y|] //=.
  by rewrite /psub; case: (tadd _ _) => //= t [<-] /=; rewrite (IHa _ Ea).
- by case Ea: (peval true a) => [x|] //= [<-]; rewrite /= (IHa _ Ea).
- by case Ea: (peval true a) => [x|] //= [<-]; rewrite /= (IHa _ Ea) orbT.
by case Ea: (peval true a) => [x|] //=; rewrite /pdiv; case: (tdiv _ _) => //= t [<-] /=; rewrite (IHa _ Ea) orbT.
Qed.

(** no signs from the real form of Y *)
Definition plain (cx : bool) (e : pexpr C) : bool := cx || without_y e.

Lemma mean_quad cx (e : pexpr C) q : plain cx e -> peval cx e = Ok q -> shape (mat q) = [:: 2 ^ spins_of e; 2 ^ spins_of e]%N /\
  forall ws : seq spin, size ws = spins_of e -> (forall w, List.In w ws -> length2 w != 0) ->
  quad (2 ^ spins_of e) (joint ws) (entry (mat q)) = mean e ws * \prod_(w <- ws) length2 w.
Proof.
have inl (ws : seq spin) n w : List.In w (take n ws) -> List.In w ws by rewrite -{2}(cat_take_drop n ws) => H; apply: List.in_or_app; left.
have inr (ws : seq spin) n w : List.In w (drop n ws) -> List.In w ws by rewrite -{2}(cat_take_drop n ws) => H; apply: List.in_or_app; right.
have expI m n : (2 ^ m = 2 ^ n -> m = n)%N by move/eqP; rewrite eqn_exp2l // => /eqP.
elim: e q => [l|a IHa b IHb|a IHa b IHb|a IHa b IHb|a IHa|cc c a IHa|cc a IHa c] q /= Hp.
- case=> <-; split; first by case: l {Hp}; case: cx.
  move=> [|w [|]] // _ /(_ w (or_introl erefl)) L; rewrite expn1 big_seq1 -(@quad_letter cx l w Hp L) /=.
  by apply: quad_ext => // i Hi; rewrite divn1 mulr1.
- have [Ha Hb] : plain cx a /\ plain cx b by move: Hp; rewrite /plain; case: (cx) => //= /andP.
  case Ea: (peval cx a) => [x|] //=; case Eb: (peval cx b) => [y|] //=.
  have [Sx Mx] := IHa _ Ha Ea; have [Sy My] := IHb _ Hb Eb.
  rewrite /pmul /kron Sx Sy /=.
  set ph := (if ~~ cplx x then _ else _); have -> : ph = 1.
    rewrite /ph; case: ifP => // Hx; move: Hp Ea Hx; rewrite /plain; case: (cx) => /= [_ /complex_key->//|/andP[Ya Yb] Ka _].
    by rewrite (key_count Ya Ka) andbF.
  case=> <- /=; split; first by rewrite !expnD.
  move=> ws Sw Lw; have St : size (take (spins_of a) ws) = spins_of a by rewrite size_takel // Sw leq_addr.
  have Sd : size (drop (spins_of a) ws) = spins_of b by rewrite size_drop Sw addKn.
  have Ma := Mx _ St (fun w Hw => Lw w (inl _ _ _ Hw)); have Mb := My _ Sd (fun w Hw => Lw w (inr _ _ _ Hw)).
  have -> : \prod_(w <- ws) length2 w = \prod_(w <- take (spins_of a) ws) length2 w * \prod_(w <- drop (spins_of a) ws) length2 w.
    by rewrite -big_cat cat_take_drop.
  rewrite [RHS]mulrACA -Ma -Mb.
  rewrite -quad_kron expnD; apply: quad_ext => [i Hi|i j Hi Hj]; last by rewrite /entry /mkron /= mul1r.
  by rewrite -{1}(cat_take_drop (spins_of a) ws) joint_cat ?Sd // St expnD.
- have [Ha Hb] : plain cx a /\ plain cx b by move: Hp; rewrite /plain; case: (cx) => //= /andP.
  case Ea: (peval cx a) => [x|] //=; case Eb: (peval cx b) => [y|] //=.
  have [Sx Mx] := IHa _ Ha Ea; have [Sy My] := IHb _ Hb Eb.
  rewrite /padd /tadd Sx Sy; case: eqP => //= -[/expI E _] [<-] /=; split; first by rewrite ?Sx.
  by move=> ws Sw Lw; rewrite mulrDl -Mx // -My -?E // -quad_add.
- have [Ha Hb] : plain cx a /\ plain cx b by move: Hp; rewrite /plain; case: (cx) => //= /andP.
  case Ea: (peval cx a) => [x|] //=; case Eb: (peval cx b) => [y|] //=.
  have [Sx Mx] := IHa _ Ha Ea; have [Sy My] := IHb _ Hb Eb.
  rewrite /psub /tadd /= Sx Sy; case: eqP => //= -[/expI E _] [<-] /=; split; first by rewrite ?Sx.
  by move=> ws Sw Lw; rewrite mulrBl -Mx // -My -?E // -[- quad _ _ _]mulN1r -quad_scale -quad_add.
- case Ea: (peval cx a) => [x|] //= [<-] /=; have [Sx Mx] := IHa _ Hp Ea; split=> // ws Sw Lw.
  by rewrite mulNr -Mx // -[- quad _ _ _]mulN1r -quad_scale.
- case Ea: (peval cx a) => [x|] //= [<-] /=; have [Sx Mx] := IHa _ Hp Ea; split=> // ws Sw Lw.
  by rewrite -mulrA -Mx // -quad_scale.
case Ea: (peval cx a) => [x|] //=; rewrite /pdiv /tdiv; case: eqP => //= c0 [<-] /=; have [Sx Mx] := IHa _ Hp Ea; split=> // ws Sw Lw.
by rewrite mulrAC -Mx // [RHS]mulrC -quad_scale.
Qed.

(** C98.  An expectation value in a state of spins that are not entangled is what the
    components of the spins say. *)
Lemma mean_exp cx (e : pexpr C) q n (ws : seq spin) V : plain cx e -> peval cx e = Ok q -> shape (mat q) = [:: n; n] -> size ws = spins_of e ->
  (forall w, List.In w ws -> length2 w != 0) -> (forall i, (i < n)%N -> V i = joint ws i) ->
  exp1 n (pure1 n V) (mat q) = 'Re (mean e ws).
Proof.
move=> Hp Eq Sq Sw Lw HV; have [Sq' H] := mean_quad Hp Eq; have En : n = (2 ^ spins_of e)%N by move: Sq; rewrite Sq' => -[].
rewrite /exp1 /tr1 /= norm_sum.
have -> : \sum_(q0 < n) `|V q0| ^+ 2 = \prod_(w <- ws) length2 w.
  by rewrite -joint_norm Sw -En; apply: eq_bigr => i _; rewrite HV.
have -> : \sum_(P < n) \sum_(p < n) (V P)^* * V p * at_ (mat q) [:: nat_of_ord p; nat_of_ord P] = quad n (joint ws) (entry (mat q)).
  by apply: eq_bigr => i _; apply: eq_bigr => j _; rewrite !HV // mulrAC.
rewrite En H //; set L := \prod_(w <- ws) _.
have LR : L \is Num.real by apply: rpred_prod => w _; rewrite rpredD // rpredX // normr_real.
have L0 : L != 0.
  by rewrite /L; elim: (ws) Lw => [|w l IH] Hl; rewrite ?big_nil ?oner_eq0 // big_cons mulf_neq0 ?IH ?Hl //; [left|move=> w' Hw'; apply: Hl; right].
by rewrite [mean e ws * L]mulrC ReMl // mulrAC mulfV // mul1r.
Qed.
End Mean.

(** ---- measurements ---- *)
Section Product.
Variable C : numClosedFieldType.
Notation spin := (nat -> C).
Notation tensor := (tensor C).
Variables nx ny : nat.
Hypotheses (nx0 : (0 < nx)%N) (ny0 : (0 < ny)%N).
Variable cx : bool.
Notation sites := (build_site_list nx ny).
Notation bonds := (build_bond_list nx ny).

(** the matrix of the expression is the one its letters stand for; the real form of Y
    does not get in the way *)
Definition faithful (n : nat) (e : pexpr C) : Prop := exists q cx' q',
  [/\ peval cx e = Ok q, peval cx' e = Ok q', plain cx' e, shape (mat q') = [:: n; n] &
      forall i j, (i < n)%N -> (j < n)%N -> at_ (mat q) [:: i; j] = at_ (mat q') [:: i; j]].
Lemma plain_faithful n e : plain cx e -> shaped cx n e -> faithful n e.
Proof using Type. by move=> Hp [q E S]; exists q, cx, q. Qed.

Variable r : recipe C.
Notation p := (r_dim r).
Definition faithful_recipe : Prop :=
  [/\ forall s e, in_cell nx ny s -> r_site r s = Some e -> faithful p e,
      forall s X e, in_cell nx ny s -> List.In (X, e) (r_one r s) -> faithful p e,
      forall b e, List.In b bonds -> r_bond r b = Some e -> faithful (p * p) e &
      forall b X e, List.In b bonds -> List.In (X, e) (r_two r b) -> faithful (p * p) e].

(** the spins of the sites, all of which exist, and the state they make up *)
Variable spins : site -> seq spin.
Definition has_spins (v : site -> nat -> C) : Prop := forall s, in_cell nx ny s ->
  [/\ p = (2 ^ size (spins s))%N, forall w, List.In w (spins s) -> length2 w != 0 & forall i, (i < p)%N -> v s i = joint (spins s) i].

Notation mean1 s e := ('Re (mean e (spins s))).
Notation mean2 s t e := ('Re (mean e (spins s ++ spins t)%SEQ)).
(** the right and the upper neighbour *)
Definition right (s : site) : site := b_s2 (hbond nx s).
Definition above (s : site) : site := b_s2 (vbond ny s).
Arguments right : simpl never.
Arguments above : simpl never.
(** the reported values are averages of what the spins say *)
Definition values (d : dict C) : Prop :=
  [/\ dget "Energy" d = Some ((\sum_(s <- sites) (opt0 (fun e => mean1 s e) (r_site r s) + opt0 (fun e => mean2 s (right s) e) (r_bond r (hbond nx s))
        + opt0 (fun e => mean2 s (above s) e) (r_bond r (vbond ny s)))) / (nx * ny)%:R),
      forall X, inks X (keys (r_one r (0, 0)%N)) -> dget X d = Some ((\sum_(s <- sites) opt0 (fun e => mean1 s e) (dget X (r_one r s))) / (nx * ny)%:R) &
      forall X b0, List.In b0 bonds -> inks X (keys (r_two r b0)) ->
        dget X d = Some ((\sum_(s <- sites) (opt0 (fun e => mean2 s (right s) e) (dget X (r_two r (hbond nx s)))
          + opt0 (fun e => mean2 s (above s) e) (dget X (r_two r (vbond ny s))))) / (2 * (nx * ny))%:R)].

Lemma exp_faithful n e (ws : seq spin) V : faithful n e -> n = (2 ^ size ws)%N -> (forall w, List.In w ws -> length2 w != 0) ->
  (forall i, (i < n)%N -> V i = joint ws i) -> exp1 n (pure1 n V) (matrix cx e) = 'Re (mean e ws).
Proof using Type.
case=> q [cx' [q' [E E' Hp Sq H]]] En Lw HV; rewrite /matrix E.
have Sw : size ws = spins_of e.
  by have [S _] := mean_quad Hp E'; move: Sq; rewrite S => -[/eqP]; rewrite En eqn_exp2l // => /eqP.
rewrite -(mean_exp Hp E' Sq Sw Lw HV) /exp1; congr ('Re _ / _).
by apply: eq_bigr => i _; apply: eq_bigr => j _; rewrite H.
Qed.

Lemma bond_ends b : List.In b bonds -> in_cell nx ny (b_s1 b) /\ in_cell nx ny (b_s2 b).
Proof using nx0 ny0.
by case/in_bond_list=> s [Hs [->|->]]; split=> //=; [apply: (@nbr_cell nx ny 2 s Hs)|apply: (@nbr_cell nx ny 1 s Hs)].
Qed.

(** the two-site density matrix of a product state *)
Definition pure2 (n : nat) (v w : nat -> C) : tensor :=
  Tensor [:: n; n; n; n] (fun idx => match idx with [:: i; i'; j; j'] => (v i * w i')^* * (v j * w j') | _ => 0 end).

Lemma values_from (f1 : site -> pexpr C -> C) (f2 : bond -> pexpr C -> C) d : faithful_recipe ->
  (forall s e, in_cell nx ny s -> faithful p e -> f1 s e = mean1 s e) ->
  (forall b e, List.In b bonds -> faithful (p * p) e -> f2 b e = mean2 (b_s1 b) (b_s2 b) e) ->
  dget "Energy" d = Some ((\sum_(s <- sites) opt0 (f1 s) (r_site r s) + \sum_(b <- bonds) opt0 (f2 b) (r_bond r b)) / (nx * ny)%:R) ->
  (forall X, inks X (keys (r_one r (0, 0)%N)) -> dget X d = Some ((\sum_(s <- sites) opt0 (f1 s) (dget X (r_one r s))) / (nx * ny)%:R)) ->
  (forall X b0, List.In b0 bonds -> inks X (keys (r_two r b0)) ->
    dget X d = Some ((\sum_(b <- bonds) opt0 (f2 b) (dget X (r_two r b))) / (2 * (nx * ny))%:R)) ->
  values d.
Proof using nx0 ny0.
case=> F1 F2 F3 F4 H1 H2 E1 E2 E3.
have Hb s : in_cell nx ny s -> List.In (hbond nx s) bonds /\ List.In (vbond ny s) bonds.
  by move=> Hs; split; apply/in_bond_list; exists s; split=> //; [left|right].
split.
- rewrite E1 sum_bonds -big_split; congr (Some (_ / _)); apply: eq_big_In => s /in_site_list Hs /=; have [Bh Bv] := Hb s Hs.
  rewrite -addrA; congr (_ + (_ + _)).
  + by case E: (r_site r s) => [e|] //=; apply: H1 => //; apply: F1 E.
  + by case E: (r_bond r _) => [e|] //=; apply: (H2 (hbond nx s)) => //; apply: F3 E.
  by case E: (r_bond r _) => [e|] //=; apply: (H2 (vbond ny s)) => //; apply: F3 E.
- move=> X HX; rewrite E2 //; congr (Some (_ / _)); apply: eq_big_In => s /in_site_list Hs.
  by case E: (dget X _) => [e|] //=; apply: H1 => //; apply: F2 (dget_In E).
- move=> X b0 Hb0 HX; rewrite (E3 X b0) // sum_bonds; congr (Some (_ / _)); apply: eq_big_In => s /in_site_list Hs; have [Bh Bv] := Hb s Hs.
  congr (_ + _).
  + by case E: (dget X _) => [e|] //=; apply: (H2 (hbond nx s)) => //; apply: F4 (dget_In E).
  by case E: (dget X _) => [e|] //=; apply: (H2 (vbond ny s)) => //; apply: F4 (dget_In E).
Qed.

Variable v : site -> nat -> C.
Hypothesis Hv : has_spins v.
Lemma site_mean s e : in_cell nx ny s -> faithful p e -> exp1 p (pure1 p (v s)) (matrix cx e) = mean1 s e.
Proof using Hv. by move=> Hs He; have [Ep L H] := Hv Hs; apply: exp_faithful. Qed.
Lemma pair_mean s t e : in_cell nx ny s -> in_cell nx ny t -> faithful (p * p) e ->
  exp1 (p * p) (pure1 (p * p) (fun k => v s (k %/ p)%N * v t (k %% p)%N)) (matrix cx e) = mean2 s t e.
Proof using Hv.
move=> Hs Ht He; have [Ep L H] := Hv Hs; have [Ep' L' H'] := Hv Ht; apply: exp_faithful => //.
- by rewrite size_cat expnD -Ep -Ep'.
- by move=> w /(@List.in_app_or _ _ _ w) [/L|/L'].
move=> i Hi; have [A B] := divmod_lt Hi; rewrite H // H' // joint_cat; last by rewrite expnD -Ep -Ep'.
by rewrite -Ep'.
Qed.

(** C98.  Density matrices of a product state: the call of measure returns what the
    spins say. *)
Theorem C98_measure rdm1 rdm2 bl : well_formed nx ny cx r -> faithful_recipe -> Permutation bl bonds ->
  (forall s, in_cell nx ny s -> rdm1 s = Ok (pure1 p (v s))) ->
  (forall b, List.In b bonds -> rdm2 b = Ok (pure2 p (v (b_s1 b)) (v (b_s2 b)))) ->
  exists2 d, measure (as_model cx r) rdm1 rdm2 sites bl = Ok d & values d.
Proof using nx0 ny0 Hv.
move=> W F HP R1 R2.
have pos s : in_cell nx ny s -> \sum_(q < p) `|v s q| ^+ 2 != 0.
  move=> Hs; have [Ep L H] := Hv Hs.
  have -> : \sum_(q < p) `|v s q| ^+ 2 = \prod_(w <- spins s) length2 w.
    by rewrite -joint_norm -Ep; apply: eq_bigr => i _; rewrite H.
  by elim: (spins s) L => [|w l IH] Hl; rewrite ?big_nil ?oner_eq0 // big_cons mulf_neq0 ?IH ?Hl //; [left|move=> w' Hw'; apply: Hl; right].
have T2 (b : bond) : 'Re (tr2 p (pure2 p (v (b_s1 b)) (v (b_s2 b)))) = (\sum_(q < p) `|v (b_s1 b) q| ^+ 2) * \sum_(q < p) `|v (b_s2 b) q| ^+ 2.
  have -> : tr2 p (pure2 p (v (b_s1 b)) (v (b_s2 b))) = (\sum_(q < p) `|v (b_s1 b) q| ^+ 2) * \sum_(q < p) `|v (b_s2 b) q| ^+ 2.
    rewrite mulr_suml; apply: eq_bigr => i _; rewrite mulr_sumr; apply: eq_bigr => j _; by rewrite /= -normCKC normrM exprMn.
  by apply/Creal_ReP; rewrite rpredM //; apply: sum_real => q _; rewrite rpredX ?normr_real.
have Av : available nx ny p rdm1 rdm2.
  split=> [s Hs|b Hb]; first by exists (pure1 p (v s)); split; [exact: R1|by []|rewrite /tr1 /= norm_sum; apply: pos].
  have [H1 H2] := bond_ends Hb; exists (pure2 p (v (b_s1 b)) (v (b_s2 b))); split; [exact: R2|by []|by rewrite T2 mulf_neq0 ?pos].
have [d [E E1 E2 E3]] := measured nx0 ny0 W Av HP; exists d => //.
apply: (values_from F) E1 E2 E3 => [s e Hs He|b e Hb He]; first by rewrite /value1 /rho1 R1 // site_mean.
have [H1 H2] := bond_ends Hb; rewrite -pair_mean // /value2 /rho2 R2 // exp2_flat; by [].
Qed.

(** the same from the values of C76 *)
Theorem C98_product d : faithful_recipe -> well_formed nx ny cx r -> product_values nx ny p (as_model cx r) v d -> values d.
Proof using nx0 ny0 Hv.
move=> F W [E1 E2 E3 _].
apply: (@values_from (fun s e => pexp1 p v s (matrix cx e)) (fun b e => pexp2 p v (b_s1 b) (b_s2 b) (matrix cx e)) d F).
- by move=> s e Hs He; rewrite pexp1_pure site_mean.
- by move=> b e Hb He; have [H1 H2] := bond_ends Hb; rewrite pexp2_pure pair_mean.
- rewrite E1; congr (Some ((_ + _) / _)).
    by apply: eq_bigr => s _ /=; case: (r_site r s).
  by apply: eq_big_In => b Hb /=; case: W => _ /(_ b Hb) [[e -> _] _].
- move=> X HX; rewrite E2 /= ?keys_taken //; congr (Some (_ / _)).
  by apply: eq_bigr => s _; rewrite /named dget_taken; case: dget.
- move=> X b Hb HX; rewrite (E3 X b) /= ?keys_taken //; congr (Some (_ / _)).
  by apply: eq_bigr => b' _; rewrite /named dget_taken; case: dget.
Qed.
End Product.

(** ---- the models of the library and of the samples ---- *)
Section Models.
Variable C : numClosedFieldType.
Notation spin := (nat -> C).
Variables nx ny : nat.
Hypotheses (nx0 : (0 < nx)%N) (ny0 : (0 < ny)%N).
Variable cx : bool.
Notation sites := (build_site_list nx ny).
Notation bonds := (build_bond_list nx ny).
Notation right := (right nx).
Notation above := (above ny).
(** the average over the sites *)
Notation average F := ((\sum_(s <- sites) F s) / (nx * ny)%:R).

Lemma without_faithful (r : recipe C) : well_formed nx ny cx r ->
  (forall s e, r_site r s = Some e -> without_y e) -> (forall s X e, List.In (X, e) (r_one r s) -> without_y e) ->
  (forall b e, List.In b bonds -> r_bond r b = Some e -> without_y e) -> (forall b X e, List.In b bonds -> List.In (X, e) (r_two r b) -> without_y e) ->
  faithful_recipe nx ny cx r.
Proof using Type.
move=> [W1 W2 _ _ _] H1 H2 H3 H4; split.
- by move=> s e Hs E; apply: plain_faithful; [rewrite /plain (H1 s e E) orbT|have [A _] := W1 s Hs; apply: A].
- by move=> s X e Hs E; apply: plain_faithful; [rewrite /plain (H2 s X e E) orbT|have [_ [A _]] := W1 s Hs; apply: A E].
- move=> b e Hb E; apply: plain_faithful; [by rewrite /plain (H3 b e Hb E) orbT|have [[e' E' A] _] := W2 b Hb]; by move: E; rewrite E' => -[<-].
by move=> b X e Hb E; apply: plain_faithful; [rewrite /plain (H4 b X e Hb E) orbT|have [_ [A _]] := W2 b Hb; apply: A E].
Qed.
Ltac listed := move=> /= H; repeat match goal with
  | H : _ \/ _ |- _ => case: H => H
  | H : (_, _) = (_, _) |- _ => by case: H => _ <-
  | H : False |- _ => by case: H end.
Ltac bonds := by move=> ? ? /in_bond_list[? [_ [->|->]]] [<-].

Lemma plain_ising (jz hx : C) : faithful_recipe nx ny cx (ising_recipe jz hx).
Proof using Type. by apply: without_faithful; [apply: well_ising|move=> s e [<-]|move=> s X e; listed|bonds|]. Qed.
Lemma plain_compass (jx jz hx hz : C) : faithful_recipe nx ny cx (compass_recipe jx jz hx hz).
Proof using Type.
apply: without_faithful; [apply: well_compass|by move=> s e [<-]|move=> s X e; listed|bonds|].
by move=> b X e /in_bond_list[? [_ [->|->]]]; listed.
Qed.
Lemma plain_honeycomb (jz hx : C) : faithful_recipe nx ny cx (honeycomb_recipe jz hx).
Proof using Type. by apply: without_faithful; [apply: well_honeycomb|move=> s e [<-]|move=> s X e; listed|bonds|]. Qed.
Lemma plain_kagome (jz hx : C) : faithful_recipe nx ny cx (kagome_recipe jz hx).
Proof using Type. by apply: without_faithful; [apply: well_kagome|move=> s e [<-]|move=> s X e; listed|bonds|]. Qed.
(** the real form of the Heisenberg terms has the right signs *)
Lemma plain_heisenberg (J : C) : faithful_recipe nx ny cx (heisenberg_recipe J).
Proof using Type.
split=> //= [s X e Hs|b e _ [<-]].
- have [W _ _ _ _] := well_heisenberg nx ny cx J.
  move=> H; have [_ [A _]] := W s Hs.
  apply: plain_faithful (A _ _ H); move: H; rewrite /plain /staggered_observables /=; case: ifP => _ /=; by case=> [[_ <-]|[[_ <-]|[]]]; rewrite orbT.
have [q [Eq _ Hq _]] := C58_heisenberg cx J; have [q' [Eq' Sq' Hq' _]] := C58_heisenberg true J.
by exists q, true, q'; split=> // i j Hi Hj; rewrite Hq ?Hq'.
Qed.

Arguments bloch : simpl never.
Ltac real := repeat first [exact: bloch_real|exact: realn|assumption|rewrite rpredN|apply: rpredB|apply: rpredD|apply: rpredM|rewrite rpredV].
Ltac unre := do ?(rewrite (Creal_ReP _ _); last by real).

(** one spin per site *)
Section One.
Variable w : site -> spin.
Notation B l s := (bloch l (w s)).
Notation alone := (fun s => [:: w s]).

(** C98.  The Ising model, also sample 03. *)
Theorem C98_ising jz hx d : jz \is Num.real -> hx \is Num.real -> values nx ny (ising_recipe jz hx) alone d ->
  [/\ dget "sx" d = Some (average (fun s => B LX s)), dget "sz" d = Some (average (fun s => B LZ s)) &
      dget "Energy" d = Some (average (fun s => - hx * B LX s - jz * B LZ s * (B LZ (right s) + B LZ (above s))))].
Proof using Type.
move=> Rj Rh [E1 E2 _]; split.
- rewrite E2 //; congr (Some (_ / _)); apply: eq_bigr => s _ /=; by unre.
- rewrite E2 //; congr (Some (_ / _)); apply: eq_bigr => s _ /=; by unre.
rewrite E1; congr (Some (_ / _)); apply: eq_bigr => s _ /=; unre.
by rewrite mulrDr opprD addrA !mulNr.
Qed.

(** C98.  The Heisenberg model: sx and sz are the staggered magnetisations. *)
Theorem C98_heisenberg J d : J \is Num.real -> values nx ny (heisenberg_recipe J) alone d ->
  [/\ dget "sx" d = Some (average (fun s => (-1) ^+ (s.1 + s.2)%N * B LX s)), dget "sz" d = Some (average (fun s => (-1) ^+ (s.1 + s.2)%N * B LZ s)) &
      dget "Energy" d = Some (average (fun s => J / 4%:R * (\sum_(l <- [:: LX; LY; LZ]) B l s * B l (right s) + \sum_(l <- [:: LX; LY; LZ]) B l s * B l (above s))))].
Proof using Type.
move=> RJ [E1 E2 _].
have par n : negb (Nat.eqb (Nat.modulo n 2) 0) = odd n.
  have E : n = (2 * Nat.div n 2 + Nat.modulo n 2)%N by exact: mod2_div.
  rewrite [in RHS]E oddD oddM; by case: (mod2 n) => ->.
split.
- rewrite E2 //; congr (Some (_ / _)); apply: eq_bigr => s _; rewrite -signr_odd -par /= /staggered_observables /observables_negated; case: negb => /=; unre; by rewrite ?expr1 ?mulN1r ?mul1r.
- rewrite E2 //; congr (Some (_ / _)); apply: eq_bigr => s _; rewrite -signr_odd -par /= /staggered_observables /observables_negated; case: negb => /=; unre; by rewrite ?expr1 ?mulN1r ?mul1r.
rewrite E1; congr (Some (_ / _)); apply: eq_bigr => s _; rewrite !big_cons !big_nil /=; unre.
by rewrite add0r !addr0 !addrA [4%:R^-1 * J]mulrC -mulrDr !addrA.
Qed.

(** C98.  The compass sample: phi compares the two directions, chi changes sign when the
    ends of the bond are exchanged. *)
Theorem C98_compass jx jz hx hz d : jx \is Num.real -> jz \is Num.real -> hx \is Num.real -> hz \is Num.real ->
  values nx ny (compass_recipe jx jz hx hz) alone d ->
  [/\ dget "sx" d = Some (average (fun s => B LX s)), dget "sz" d = Some (average (fun s => B LZ s)),
      dget "phi" d = Some (average (fun s => B LX s * B LX (right s) - B LZ s * B LZ (above s)) / 2%:R),
      dget "chi" d = Some (average (fun s => (B LX s * B LZ (right s) - B LZ s * B LX (right s)) + (B LX s * B LZ (above s) - B LZ s * B LX (above s))) / 2%:R) &
      dget "Energy" d = Some (average (fun s => - hx * B LX s - hz * B LZ s - jx * (B LX s * B LX (right s)) - jz * (B LZ s * B LZ (above s))))].
Proof using nx0 ny0.
move=> Rjx Rjz Rhx Rhz [E1 E2 E3].
have two x : x / (2 * (nx * ny))%:R = x / (nx * ny)%:R / 2%:R :> C by rewrite natrM invfM mulrA mulrAC.
split.
- rewrite E2 //; congr (Some (_ / _)); apply: eq_bigr => s _ /=; by unre.
- rewrite E2 //; congr (Some (_ / _)); apply: eq_bigr => s _ /=; by unre.
- rewrite (E3 _ _ (b00 nx0 ny0)) // two; congr (Some (_ / _ / _)); apply: eq_bigr => s _ /=; unre; by rewrite mulNr.
- rewrite (E3 _ _ (b00 nx0 ny0)) // two; congr (Some (_ / _ / _)); apply: eq_bigr => s _ /=; by unre.
rewrite E1; congr (Some (_ / _)); apply: eq_bigr => s _ /=; unre.
by rewrite !mulNr !mulrA.
Qed.
End One.
Lemma blochI (w : spin) : bloch LI w = 1. Proof. by []. Qed.

(** C98.  Sample 05: the spins A and B of a site. *)
Theorem C98_honeycomb (wA wB : site -> spin) jz hx d : jz \is Num.real -> hx \is Num.real -> values nx ny (honeycomb_recipe jz hx) (fun s => [:: wA s; wB s]) d ->
  [/\ dget "mag_x(A)" d = Some (average (fun s => bloch LX (wA s))) /\ dget "mag_x(B)" d = Some (average (fun s => bloch LX (wB s))),
      dget "mag_z(A)" d = Some (average (fun s => bloch LZ (wA s))) /\ dget "mag_z(B)" d = Some (average (fun s => bloch LZ (wB s))),
      dget "mag_x" d = Some (average (fun s => bloch LX (wA s) + bloch LX (wB s))),
      dget "mag_z" d = Some (average (fun s => bloch LZ (wA s) + bloch LZ (wB s))) &
      dget "Energy" d = Some (average (fun s => - hx * (bloch LX (wA s) + bloch LX (wB s))
        - jz * (bloch LZ (wA s) * bloch LZ (wB s) + bloch LZ (wB s) * bloch LZ (wA (right s)) + bloch LZ (wA s) * bloch LZ (wB (above s)))))].
Proof using Type.
move=> Rj Rh [E1 E2 _]; split; try split.
1-6: by rewrite E2 //; congr (Some (_ / _)); apply: eq_bigr => s _ /=; unre; rewrite !blochI !(mul1r, mulr1).
rewrite E1; congr (Some (_ / _)); apply: eq_bigr => s _ /=; unre; rewrite !blochI !(mul1r, mulr1).
by rewrite !mulrDr !mulNr !opprD !addrA !mulrA [LHS](ACl (2*3*1*4*5)).
Qed.

(** C98.  Sample 06: the spins A, B and C of a site. *)
Theorem C98_kagome (w0 w1 w2 : site -> spin) jz hx d : jz \is Num.real -> hx \is Num.real -> values nx ny (kagome_recipe jz hx) (fun s => [:: w0 s; w1 s; w2 s]) d ->
  let z0 s := bloch LZ (w0 s) in let z1 s := bloch LZ (w1 s) in let z2 s := bloch LZ (w2 s) in
  [/\ dget "mag_x(A)" d = Some (average (fun s => bloch LX (w0 s))) /\ dget "mag_z(A)" d = Some (average z0),
      dget "mag_x(B)" d = Some (average (fun s => bloch LX (w1 s))) /\ dget "mag_z(B)" d = Some (average z1),
      dget "mag_x(C)" d = Some (average (fun s => bloch LX (w2 s))) /\ dget "mag_z(C)" d = Some (average z2),
      dget "mx" d = Some (average (fun s => (bloch LX (w0 s) + bloch LX (w1 s) + bloch LX (w2 s)) / 3%:R)) /\
      dget "mz" d = Some (average (fun s => (z0 s + z1 s + z2 s) / 3%:R)) &
      dget "Energy" d = Some (average (fun s => - hx * (bloch LX (w0 s) + bloch LX (w1 s) + bloch LX (w2 s))
        - jz * (z1 s * z2 s + z0 s * z1 s + z2 s * z0 (right s) + z2 s * z1 (right s) + z0 s * z1 (above s) + z0 s * z2 (above s))))].
Proof using Type.
move=> Rj Rh [E1 E2 _] z0 z1 z2; split; try split.
1-8: by rewrite E2 //; congr (Some (_ / _)); apply: eq_bigr => s _ /=; unre; rewrite !blochI !(mul1r, mulr1).
rewrite E1; congr (Some (_ / _)); apply: eq_bigr => s _ /=; unre; rewrite !blochI !(mul1r, mulr1) -/(z0 _) -/(z1 _) -/(z2 _).
move: (bloch LX (w0 s) + _ + _) => m; rewrite !mulNr -!mulrA -/(z0 (right s)) -/(z1 (right s)) -/(z1 (above s)) -/(z2 (above s)).
by rewrite !mulrDr !opprD !addrA [LHS](ACl (3*1*2*4*5*6*7)).
Qed.
End Models.

(** ---- sessions with bond dimension 1 ---- *)
Section Sessions.
Variable C : numClosedFieldType.
Notation tensor := (tensor C).
Variable R : Type.
Variable randn : R -> forall n q : nat, 'M[C]_(n, q) * R.
Variable trand : R -> nat -> nat -> tensor * R.
Variable lqr : qr_fun C.
Variable lsvd : thin_svd_fun C.
Variable fsvd : full_svd_fun C.
Variable leigh : eigh_fun C.
Variable lchol : chol_fun C.
Variable rtol : nat -> nat -> C.
Variables lcut noise : C.
Variable fuel : nat.
Variable empty : nat -> tensor.
Variable u : setup C.
Notation nx := (u_nx u).
Notation ny := (u_ny u).
Notation p := (u_phys u).
Hypothesis Sq : qr_spec lqr.
Hypothesis Ss : thin_svd_spec lsvd.
Hypothesis Sf : full_svd_spec fsvd.
Hypothesis Se : eigh_spec leigh.
Hypothesis tot : forall m (A : 'M[C]_m), leigh A.
Hypothesis Srand : forall r, shape (trand r 1%N p).1 = [:: 1; 1; 1; 1; p]%N.
Hypothesis Hm : als_method (u_evo u) = "cholesky" \/ als_method (u_evo u) = "pinv".
Hypothesis c0 : 0 <= positive_approx_cutoff (u_evo u).
Hypothesis a0 : use_gauge_fix (u_evo u) -> 0 < gauge_fix_atol (u_evo u).
Hypothesis l0 : 0 < lcut.
Hypotheses (nx0 : (0 < nx)%N) (ny0 : (0 < ny)%N) (p0 : (0 < p)%N) (b1 : u_bond u = 1%N).
Hypothesis Hp : u_ptype u = Half \/ svd_type (u_ctm u) = "full-rank".
Notation run := (Session.session randn trand lqr lsvd fsvd leigh lchol rtol lcut noise fuel.+1 empty u).

(** a measurement that gave a result has not met a zero vector *)
Lemma measured_spans m v (n : Mover.net tensor) (bl : seq bond) e d : ring_ok nx ny p n -> tracks nx ny p v n -> Permutation bl (build_bond_list nx ny) ->
  measure m (build_site_rdm n) (build_bond_rdm e n) (build_site_list nx ny) bl = Ok d -> forall x, in_cell nx ny x -> vec2 p v x != 0.
Proof using Type.
move=> Hn Ht HP.
rewrite (@measure_scaled C m (build_site_rdm (prod_net p v)) _ (build_bond_rdm e (prod_net p v))); first last.
- by move=> b Hb; have [s [k [Hs Hk ->]]] := bond_in HP Hb; apply: bond_same.
- by move=> s /in_site_list Hs; apply: (site_same Hn Ht Hs).
by move=> E; apply: measured_alive HP E.
Qed.

Lemma session_spans c (cs : seq (call C)) m (s s' : Session.state C R) out : alone u s -> (forall x, List.In x cs -> call_ok u c x) ->
  run (rcons cs (Session.Measure m)) s = Some (Ok (s', out)) -> forall x, in_cell nx ny x -> vec2 p (own (s_net s')) x != 0.
Proof using Sq Ss Sf Se tot Srand Hm c0 a0 l0 nx0 ny0 p0 b1 Hp.
elim: cs s out => [|x cs IH] s out As Hc /=.
  rewrite /Session.measured; case E: measure => [d|] //= -[<- _].
  by have [H1 H2 _] := As; apply: (measured_spans H1 _ H2 E); apply: tracks_own.
case E1: Session.perform => [[[s1 o1]|e]|] //; case E2: Session.session => [[[s2 o2]|e]|] // -[Es _]; subst s2.
by apply: IH E2; [apply: (alone_perform Sq Ss Sf Se tot Srand Hm c0 a0 l0 p0 b1 Hp As (Hc x (or_introl erefl)) E1)|move=> y Hy; apply: Hc; right].
Qed.

(** C98.  With bond dimension 1, after every session: the values are those of the spins
    in the tensors of the network (none of them zero, since there is a result). *)
Theorem C98_session c cx (r : recipe C) spins (cs : seq (call C)) (s s' : Session.state C R) out : alone u s ->
  (forall x, List.In x cs -> call_ok u c x) -> r_dim r = p -> well_formed nx ny cx r -> faithful_recipe nx ny cx r ->
  (forall x, in_cell nx ny x -> p = (2 ^ size (spins x))%N /\ forall i, (i < p)%N -> own (s_net s') x i = joint (spins x) i) ->
  run (rcons cs (Session.Measure (as_model cx r))) s = Some (Ok (s', out)) ->
  (forall x w, in_cell nx ny x -> List.In w (spins x) -> length2 w != 0) /\ exists out' d, out = rcons out' d /\ values nx ny r spins d.
Proof using Sq Ss Sf Se tot Srand Hm c0 a0 l0 nx0 ny0 p0 b1 Hp.
move=> As Hc Hd W F Hs E; have [M N] := well_model nx0 ny0 Hd W.
have L x w : in_cell nx ny x -> List.In w (spins x) -> length2 w != 0.
  move=> Hx Hw; have := session_spans As Hc E Hx; have [Ep Ej] := Hs x Hx.
  rewrite /vec2 (eq_bigr (fun q : 'I_p => `|joint (spins x) q| ^+ 2)); last by move=> q _; rewrite Ej.
  rewrite [in X in (X -> _)]Ep joint_norm; elim: (spins x) Hw => [|w' ws IH] //=.
  rewrite big_cons mulf_eq0 negb_or => Hw /andP[L1 L2]; case: Hw => [<-|Hw]; [exact: L1|exact: IH Hw L2].
split=> //; have [out' [d [-> H]]] := C76_mean_field Sq Ss Sf Se tot Srand Hm c0 a0 l0 nx0 ny0 p0 b1 Hp As Hc M N E.
have Hv : has_spins nx ny r spins (own (s_net s')).
  by move=> x Hx; have [Ep Ej] := Hs x Hx; split; rewrite ?Hd // => w; apply: L.
by exists out', d; split=> //; apply: (C98_product nx0 ny0 Hv F W); rewrite Hd.
Qed.

(** a tensor with two physical states is one spin *)
Lemma one_spin (v : site -> nat -> C) x : p = 2%N -> p = (2 ^ size [:: v x])%N /\ forall i, (i < p)%N -> v x i = joint [:: v x] i.
Proof using Type. by move=> ->; split=> // i _; rewrite /= divn1 mulr1. Qed.

(** C98.  So with the Heisenberg model, whatever was done before: *)
Theorem C98_heisenberg_session c cx J (cs : seq (call C)) (s s' : Session.state C R) out : p = 2%N -> J \is Num.real -> alone u s ->
  (forall x, List.In x cs -> call_ok u c x) ->
  run (rcons cs (Session.Measure (as_model cx (heisenberg_recipe J)))) s = Some (Ok (s', out)) ->
  let average F := (\sum_(x <- build_site_list nx ny) F x) / (nx * ny)%:R in let B l x := bloch l (own (s_net s') x) in
  exists out' d, out = rcons out' d /\
    [/\ dget "sx" d = Some (average (fun x => (-1) ^+ (x.1 + x.2)%N * B LX x)), dget "sz" d = Some (average (fun x => (-1) ^+ (x.1 + x.2)%N * B LZ x)) &
        dget "Energy" d = Some (average (fun x => J / 4%:R * (\sum_(l <- [:: LX; LY; LZ]) B l x * B l (right nx x) + \sum_(l <- [:: LX; LY; LZ]) B l x * B l (above ny x))))].
Proof using Sq Ss Sf Se tot Srand Hm c0 a0 l0 nx0 ny0 p0 b1 Hp.
move=> Ep RJ As Hc E av B.
have [|x _|_ [out' [d [-> H]]]] := C98_session (spins := fun x => [:: own (s_net s') x]) As Hc _ (well_heisenberg nx ny cx J) (plain_heisenberg nx ny cx J) _ E.
- by rewrite Ep.
- exact: one_spin.
by exists out', d; split=> //; apply: C98_heisenberg RJ H.
Qed.
End Sessions.

(** ---- a concrete case ---- *)
Section Example.
Variable C : numClosedFieldType.
Variables nx ny : nat.
Hypotheses (nx0 : (0 < nx)%N) (ny0 : (0 < ny)%N).

(** spins up and down in turn *)
Definition turns (s : site) (P : nat) : C := (P == odd (s.1 + s.2) :> nat)%:R.
Lemma turns_length s : length2 (turns s) = 1.
Proof using Type. by rewrite /length2 /turns; case: odd; rewrite /= ?normr0 ?normr1 ?expr0n ?expr1n ?add0r ?addr0. Qed.

(** the Heisenberg model reports the full staggered magnetisation *)
Example C98_turns cx J : J \is Num.real -> exists2 d, measure (as_model cx (heisenberg_recipe J)) (fun s => Ok (pure1 2 (turns s))) (fun b => Ok (pure2 2 (turns (b_s1 b)) (turns (b_s2 b))))
    (build_site_list nx ny) (build_bond_list nx ny) = Ok d & dget "sz" d = Some 1 /\ dget "sx" d = Some 0.
Proof using nx0 ny0.
move=> RJ.
have Hs : has_spins nx ny (heisenberg_recipe J) (fun s => [:: turns s]) turns.
  by move=> s _; split=> // [w [<-|[]]|i _]; rewrite ?turns_length ?oner_eq0 //= divn1 mulr1.
pose r1 (s : site) := Ok (pure1 2 (turns s)); pose r2 b := Ok (pure2 2 (turns (b_s1 b)) (turns (b_s2 b))).
have [d E V] := @C98_measure C nx ny nx0 ny0 cx _ _ _ Hs r1 r2 _ (well_heisenberg nx ny cx J) (plain_heisenberg nx ny cx J) (Permutation_refl _) (fun _ _ => erefl) (fun _ _ => erefl).
exists d; first exact: E.
have [-> -> _] := C98_heisenberg RJ V.
have n0 : (nx * ny)%:R != 0 :> C by rewrite pnatr_eq0 muln_eq0 negb_or -!lt0n nx0.
split; congr Some.
  rewrite (eq_bigr (fun _ => 1)); last first.
    by move=> s _; rewrite /bloch turns_length divr1 -signr_odd /turns; case: odd; rewrite /= ?expr1 ?expr0 ?normr0 ?normr1 ?expr0n ?expr1n /= ?subr0 ?sub0r ?mulrN1 ?opprK ?mulr1.
  have N : size (build_site_list nx ny) = (nx * ny)%N by exact: length_site_list.
  by rewrite big_const_seq count_predT iter_addr_0 N mulfV.
by rewrite big1 ?mul0r // => s _; rewrite /bloch /turns; case: odd; rewrite /= ?conjC0 ?conjC1 ?mul0r ?mulr0 ?addr0 ?mul0r ?mulr0.
Qed.
End Example.

Print Assumptions C98_measure.
Print Assumptions C98_product.
Print Assumptions C98_ising.
Print Assumptions C98_heisenberg.
Print Assumptions C98_compass.
Print Assumptions C98_honeycomb.
Print Assumptions C98_kagome.
Print Assumptions C98_session.
Print Assumptions C98_heisenberg_session.
Print Assumptions C98_turns.
