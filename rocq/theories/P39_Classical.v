(** C88: classical models, whose terms are all diagonal, are evolved exactly by simple
    updates from states of copy form. *)
From Coq Require Import String Ascii Permutation.
From mathcomp Require Import all_ssreflect all_algebra.
From Verif Require Import Base Lattice LatticeFacts Mover Gate GateSum P04_GateSum Tensor TN Rdm RdmFacts Fits Measure MeasureFacts FullUpdate Linalg Mat Rsvd RsvdFacts Renorm RenormFacts Spectral ProjFacts Psd Als AlsFacts EighChol UpdFacts InitFacts Dist Lambda Evolve P05_Mover MoveShape P08_Control P09_Rdm P13_Renorm P16_Als P17_Reduced Eckart P20_Simple P22_SimpleUpdate P26_SiteUpdate Session P29_Session P30_Product P31_Calls P32_Basis Layer CoverFacts Torus P34_State FreeCount P36_Free P37_FreeState P38_Cutoff.
Set Implicit Arguments.
Unset Strict Implicit.
Unset Printing Implicit Defensive.
Import GRing.Theory Num.Theory.
Local Open Scope ring_scope.
Local Open Scope string_scope.

(** ** One bond *)
Section Bond.
Variable C : numClosedFieldType.
Notation tensor := (tensor C).
Variable lqr : qr_fun C.
Variable fsvd : full_svd_fun C.
Hypothesis Sq : qr_spec lqr.
Hypothesis Sf : full_svd_spec fsvd.

(** every leg sees the physical state only through a label: for each physical state
    the tensor is a number times a product of one vector per leg.  Product states, the
    GHZ state and thermal states of classical models have tensors of this form. *)
Definition copy_form b p (lab : nat -> nat -> nat) (a : tensor) : Prop := exists (c : nat -> C) (F : nat -> nat -> nat -> C),
  forall v, in_range [:: b; b; b; b; p] v -> at_ a v = c (nth 0%N v 4) * \prod_(d < 4) F d (nth 0%N v d) (lab d (nth 0%N v 4)).
(** the gate multiplies each state of the pair by a number *)
Definition diagonal_gate p (gate : tensor) (h : nat -> nat -> C) : Prop := forall P Q r s, (P < p)%N -> (Q < p)%N -> (r < p)%N -> (s < p)%N ->
  at_ gate [:: P; Q; r; s] = if (P == r) && (Q == s) then h P Q else 0.

(** a number for each state of the pair that depends on both states only through
    their labels, but for factors for each of them *)
Definition through p (h : nat -> nat -> C) (lab1 lab2 : nat -> nat) : Prop := exists (al be : nat -> C) (hh : nat -> nat -> C),
  forall P Q, (P < p)%N -> (Q < p)%N -> h P Q = al P * be Q * hh (lab1 P) (lab2 Q).
(** at most b labels *)
Definition few b p (lab : nat -> nat) : Prop := forall P, (P < p)%N -> (lab P < b)%N.

Definition outer1 (F : nat -> nat -> nat -> C) b k y P := \prod_(d < 4 | d != k :> nat) F d (nth 0%N (leg1 k 0 (unravel [:: b; b; b] y) 0) d) P.
Definition outer2 (F : nat -> nat -> nat -> C) b k x Q := \prod_(d < 4 | d != ((k + 2) %% 4)%N :> nat) F d (nth 0%N (leg2 k 0 (unravel [:: b; b; b] x) 0) d) Q.

Lemma leg1_d k u o P d : (k < 4)%N -> (d < 4)%N -> d != k -> nth 0%N (leg1 k u o P) d = nth 0%N (leg1 k 0 o 0) d.
Proof. by case: k => [|[|[|[|]]]] // _; case: d => [|[|[|[|]]]]. Qed.
Lemma leg2_d k u o P d : (k < 4)%N -> (d < 4)%N -> d != ((k + 2) %% 4)%N -> nth 0%N (leg2 k u o P) d = nth 0%N (leg2 k 0 o 0) d.
Proof. by case: k => [|[|[|[|]]]] // _; case: d => [|[|[|[|]]]]. Qed.
Lemma leg1_4 b k u y P : (k < 4)%N -> (y < b ^ 3)%N -> nth 0%N (leg1 k u (unravel [:: b; b; b] y) P) 4 = P.
Proof. by move=> Hk Hy; have [r [d' [w [-> _]]]] := unravel3_lt Hy; case: k Hk => [|[|[|[|]]]]. Qed.
Lemma leg2_4 b k u y P : (k < 4)%N -> (y < b ^ 3)%N -> nth 0%N (leg2 k u (unravel [:: b; b; b] y) P) 4 = P.
Proof. by move=> Hk Hy; have [r [d' [w [-> _]]]] := unravel3_lt Hy; case: k Hk => [|[|[|[|]]]]. Qed.

Lemma prod1 (F : nat -> nat -> nat -> C) b k u y P : (k < 4)%N -> (y < b ^ 3)%N ->
  let v := leg1 k u (unravel [:: b; b; b] y) P in \prod_(d < 4) F d (nth 0%N v d) (nth 0%N v 4) = F k u P * outer1 F b k y P.
Proof.
move=> Hk Hy /=; rewrite (bigD1 (Ordinal Hk)) //= leg1_4 // leg1_k //; congr (_ * _).
by apply: eq_big => d; [rewrite -val_eqE|rewrite -val_eqE /= => Nd; rewrite leg1_d].
Qed.
Lemma prod2 (F : nat -> nat -> nat -> C) b k u y P : (k < 4)%N -> (y < b ^ 3)%N ->
  let v := leg2 k u (unravel [:: b; b; b] y) P in \prod_(d < 4) F d (nth 0%N v d) (nth 0%N v 4) = F ((k + 2) %% 4)%N u P * outer2 F b k y P.
Proof.
move=> Hk Hy /=; have Hk2 : ((k + 2) %% 4 < 4)%N by rewrite ltn_mod.
rewrite (bigD1 (Ordinal Hk2)) //= leg2_4 // leg2_k //; congr (_ * _).
by apply: eq_big => d; [rewrite -val_eqE|rewrite -val_eqE /= => Nd; rewrite leg2_d].
Qed.

(** the form of a tensor on the legs of a bond *)
Definition form1 b p (lab : nat -> nat -> nat) (a : tensor) (c : nat -> C) (F : nat -> nat -> nat -> C) : Prop := forall v, in_range [:: b; b; b; b; p] v -> at_ a v = c (nth 0%N v 4) * \prod_(d < 4) F d (nth 0%N v d) (lab d (nth 0%N v 4)).
Definition out1 (lab : nat -> nat -> nat) (c : nat -> C) (F : nat -> nat -> nat -> C) b k y P := c P * outer1 (fun d i P => F d i (lab d P)) b k y P.
Definition out2 (lab : nat -> nat -> nat) (c : nat -> C) (F : nat -> nat -> nat -> C) b k y P := c P * outer2 (fun d i P => F d i (lab d P)) b k y P.

Lemma form_leg1 b p lab (a : tensor) c F k u y P : form1 b p lab a c F -> (k < 4)%N -> (u < b)%N -> (y < b ^ 3)%N -> (P < p)%N ->
  at_ a (leg1 k u (unravel [:: b; b; b] y) P) = F k u (lab k P) * out1 lab c F b k y P.
Proof.
move=> H Hk Hu Hy HP; rewrite H ?leg1_range //= (prod1 (fun d i P => F d i (lab d P))) // leg1_4 // /out1; exact: mulrCA.
Qed.
Lemma form_leg2 b p lab (a : tensor) c F k u y P : form1 b p lab a c F -> (k < 4)%N -> (u < b)%N -> (y < b ^ 3)%N -> (P < p)%N ->
  at_ a (leg2 k u (unravel [:: b; b; b] y) P) = F ((k + 2) %% 4)%N u (lab ((k + 2) %% 4)%N P) * out2 lab c F b k y P.
Proof.
move=> H Hk Hu Hy HP; rewrite H ?leg2_range //= (prod2 (fun d i P => F d i (lab d P))) // leg2_4 // /out2; exact: mulrCA.
Qed.

(** what the gate makes of the pair *)
Lemma copy_goal b p k w1 w2 (a1 a2 gate : tensor) h lab1 lab2 al be hh c1 c2 (F1 F2 : nat -> nat -> nat -> C) : (k < 4)%N -> diagonal_gate p gate h ->
  (forall P Q, (P < p)%N -> (Q < p)%N -> h P Q = al P * be Q * hh (lab1 k P) (lab2 ((k + 2) %% 4)%N Q)) ->
  form1 b p lab1 a1 c1 F1 -> form1 b p lab2 a2 c2 F2 ->
  forall P Q y x, (P < p)%N -> (Q < p)%N -> (y < b ^ 3)%N -> (x < b ^ 3)%N ->
    two_site_gate p gate (pair_state b k id w1 w2 a1 a2) P Q y x =
    wgt1 b k w1 id y * (al P * out1 lab1 c1 F1 b k y P) * (wgt2 b k w2 id x * (be Q * out2 lab2 c2 F2 b k x Q)) *
    (hh (lab1 k P) (lab2 ((k + 2) %% 4)%N Q) * sumn b (fun v => F1 k v (lab1 k P) * F2 ((k + 2) %% 4)%N v (lab2 ((k + 2) %% 4)%N Q))).
Proof.
move=> Hk Hg Hh H1 H2 P Q y x HP HQ Hy Hx; rewrite /two_site_gate /sumn (bigD1 (Ordinal HP)) //= (bigD1 (Ordinal HQ)) //= Hg // !eqxx /=.
rewrite [X in _ + X + _]big1 => [|Q' NQ]; last first.
  by rewrite Hg // eqxx /= -[Q]/(val (Ordinal HQ)) val_eqE (negPf NQ) mulr0.
rewrite [X in _ + X]big1 => [|P' NP]; last first.
  by rewrite big1 // => Q' _; rewrite Hg // -[P]/(val (Ordinal HP)) val_eqE (negPf NP) mulr0.
rewrite !addr0 pair_joined // /joined.
have -> : sumn b (fun v => at_ a1 (leg1 k v (unravel [:: b; b; b] y) P) * at_ a2 (leg2 k v (unravel [:: b; b; b] x) Q)) =
    out1 lab1 c1 F1 b k y P * out2 lab2 c2 F2 b k x Q * sumn b (fun v => F1 k v (lab1 k P) * F2 ((k + 2) %% 4)%N v (lab2 ((k + 2) %% 4)%N Q)).
  rewrite sumn_mull; apply: eq_sumn => v Hv; rewrite (form_leg1 H1) // (form_leg2 H2) //.
  by rewrite mulrACA mulrC.
rewrite Hh // /sumn; move: (\sum_(i < b) _) => W; move: (wgt1 _ _ _ _ _) (wgt2 _ _ _ _ _) (out1 _ _ _ _ _ _ _) (out2 _ _ _ _ _ _ _) (hh _ _) => A B O O' H.
by rewrite [LHS](AC ((1*1)*((1*1)*1)*((1*1)*1)) ((1*(6*3))*(2*(7*4))*(8*5)))%AC.
Qed.

Lemma copy_within b p k w1 w2 (a1 a2 gate : tensor) h lab1 lab2 : (k < 4)%N -> diagonal_gate p gate h -> through p h (lab1 k) (lab2 ((k + 2) %% 4)%N) ->
  few b p (lab1 k) \/ few b p (lab2 ((k + 2) %% 4)%N) -> copy_form b p lab1 a1 -> copy_form b p lab2 a2 ->
  within b p (two_site_gate p gate (pair_state b k id w1 w2 a1 a2)).
Proof.
move=> Hk Hg [al [be [hh Hh]]] Hb [c1 [F1 H1]] [c2 [F2 H2]].
pose M l m := hh l m * sumn b (fun v => F1 k v l * F2 ((k + 2) %% 4)%N v m).
pose A y P := wgt1 b k w1 id y * (al P * out1 lab1 c1 F1 b k y P).
pose B x Q := wgt2 b k w2 id x * (be Q * out2 lab2 c2 F2 b k x Q).
have G := @copy_goal b p k w1 w2 a1 a2 gate h lab1 lab2 al be hh c1 c2 F1 F2 Hk Hg Hh H1 H2.
case: Hb => Hb.
  exists (Tensor [:: b ^ 3; b; p]%N (fun i => if nth 0%N i 1 == lab1 k (nth 0%N i 2) then A (nth 0%N i 0) (nth 0%N i 2) else 0)).
  exists (Tensor [:: b ^ 3; b; p]%N (fun i => B (nth 0%N i 0) (nth 0%N i 2) * M (nth 0%N i 1) (lab2 ((k + 2) %% 4)%N (nth 0%N i 2)))).
  move=> P Q y x HP HQ Hy Hx; rewrite G // -/(M _ _) -/(A y P) -/(B x Q) /P16_Als.state /=; move: (M) => m.
  rewrite /sumn (bigD1 (Ordinal (Hb _ HP))) //= eqxx big1 ?addr0 ?mulrA // => v Nv.
  by rewrite -[lab1 k P]/(val (Ordinal (Hb _ HP))) val_eqE (negPf Nv) mul0r.
exists (Tensor [:: b ^ 3; b; p]%N (fun i => A (nth 0%N i 0) (nth 0%N i 2) * M (lab1 k (nth 0%N i 2)) (nth 0%N i 1))).
exists (Tensor [:: b ^ 3; b; p]%N (fun i => if nth 0%N i 1 == lab2 ((k + 2) %% 4)%N (nth 0%N i 2) then B (nth 0%N i 0) (nth 0%N i 2) else 0)).
move=> P Q y x HP HQ Hy Hx; rewrite G // -/(M _ _) -/(A y P) -/(B x Q) /P16_Als.state /=; move: (M) => m.
rewrite /sumn (bigD1 (Ordinal (Hb _ HQ))) //= eqxx big1 ?addr0 => [|v Nv]; first exact: mulrAC.
by rewrite -[lab2 _ Q]/(val (Ordinal (Hb _ HQ))) val_eqE (negPf Nv) mulr0.
Qed.

(** a ratio of weights leg by leg *)
Definition ratio (l : C) (w : nat -> tensor) d i := at_ (w d) [:: i] / clamp l (at_ (w d) [:: i]).

Lemma copy_update lcut b p k w1 w2 (a1 a2 gate a1' a2' lam : tensor) h lab1 lab2 : 0 < lcut ->
  (k < 4)%N -> (0 < p)%N -> matching (fun _ => b) p w1 a1 -> matching (fun _ => b) p w2 a2 -> shape gate = [:: p; p; p; p] ->
  diagonal_gate p gate h -> through p h (lab1 k) (lab2 ((k + 2) %% 4)%N) ->
  few b p (lab1 k) \/ few b p (lab2 ((k + 2) %% 4)%N) -> copy_form b p lab1 a1 -> copy_form b p lab2 a2 ->
  simple_bond_update lqr fsvd lcut w1 w2 k a1 a2 gate None = Ok (a1', a2', lam) -> copy_form b p lab1 a1' /\ copy_form b p lab2 a2'.
Proof using Sq Sf.
move=> l0 Hk p0 M1 M2 Sg Hg Hh Hb K1 K2 E; have Hw := @copy_within b p k w1 w2 a1 a2 gate h lab1 lab2 Hk Hg Hh Hb K1 K2.
have [z1 [z2 [X1 X2 _]]] := update_span Sq Sf l0 Hk p0 M1 M2 Sg Hw E.
have [al [be [hh Hhh]]] := Hh; have [c1 [F1 H1]] := K1; have [c2 [F2 H2]] := K2; have G := @copy_goal b p k w1 w2 a1 a2 gate h lab1 lab2 al be hh c1 c2 F1 F2 Hk Hg Hhh H1 H2.
pose M l m := hh l m * sumn b (fun v => F1 k v l * F2 ((k + 2) %% 4)%N v m).
have Hk2 : ((k + 2) %% 4 < 4)%N by rewrite ltn_mod.
split.
  pose Y u l := sumn (b ^ 3) (fun x => sumn p (fun Q => wgt2 b k w2 id x * (be Q * out2 lab2 c2 F2 b k x Q) * M l (lab2 ((k + 2) %% 4)%N Q) * z1 u x Q)).
  pose F' d i l := if d == k then Y i l else ratio lcut w1 d i * F1 d i l.
  exists (fun P => al P * c1 P), F' => v Hv.
  have [u [y [P [Hu Hy HP ->]]]] := leg1_onto Hk Hv; rewrite (prod1 (fun d i P => F' d i (lab1 d P))) // leg1_4 // {1}/F' eqxx.
  have W0 := wgt1_clamp b k w1 y l0.
  apply: (mulfI W0); rewrite -entry1E // X1 //.
  have -> : outer1 (fun d i P => F' d i (lab1 d P)) b k y P = wgt1 b k w1 id y / wgt1 b k w1 (clamp lcut) y * outer1 (fun d i P => F1 d i (lab1 d P)) b k y P.
    by rewrite /outer1 /wgt1 /wprod -prodfV -!big_split /=; apply: eq_bigr => d Nd; rewrite /F' (negPf Nd).
  set V := wgt1 b k w1 (clamp lcut) y in W0 *; set W := wgt1 b k w1 id y; set O := outer1 _ _ _ _ _.
  rewrite [RHS](AC (1*((1*1)*(1*((1*1)*1)))) ((1*6)*(5*(2*(3*7))*4)))%AC /= mulfV // mul1r.
  rewrite /Y !sumn_mull; apply: eq_sumn => x Hx; rewrite !sumn_mull; apply: eq_sumn => Q HQ.
  by rewrite G // -/(M _ _) /out1 -/O -/W !mulrA.
pose Y u m := sumn (b ^ 3) (fun y => sumn p (fun P => wgt1 b k w1 id y * (al P * out1 lab1 c1 F1 b k y P) * M (lab1 k P) m * z2 u y P)).
pose F' d i l := if d == ((k + 2) %% 4)%N then Y i l else ratio lcut w2 d i * F2 d i l.
exists (fun P => be P * c2 P), F' => v Hv.
have [u [x [Q [Hu Hx HQ ->]]]] := leg2_onto Hk Hv; rewrite (prod2 (fun d i P => F' d i (lab2 d P))) // leg2_4 // {1}/F' eqxx.
have W0 := wgt2_clamp b k w2 x l0.
apply: (mulfI W0); rewrite -entry2E // X2 //.
have -> : outer2 (fun d i P => F' d i (lab2 d P)) b k x Q = wgt2 b k w2 id x / wgt2 b k w2 (clamp lcut) x * outer2 (fun d i P => F2 d i (lab2 d P)) b k x Q.
  by rewrite /outer2 /wgt2 /wprod -prodfV -!big_split /=; apply: eq_bigr => d Nd; rewrite /F' (negPf Nd).
set V := wgt2 b k w2 (clamp lcut) x in W0 *; set W := wgt2 b k w2 id x; set O := outer2 _ _ _ _ _.
rewrite [RHS](AC (1*((1*1)*(1*((1*1)*1)))) ((1*6)*(5*(2*(3*7))*4)))%AC /= mulfV // mul1r.
rewrite /Y !sumn_mull; apply: eq_sumn => y Hy; rewrite !sumn_mull; apply: eq_sumn => P HP.
by rewrite G // -/(M _ _) /out2 -/O -/W [_ * (W * _)]mulrC !mulrA.
Qed.
End Bond.

(** ** Diagonal operators on a lattice *)
Lemma prod_perm (C : comRingType) (I : Type) (F : I -> C) l l' : Permutation l l' -> \prod_(x <- l) F x = \prod_(x <- l') F x.
Proof.
elim=> [|x a c _ IH|x y a|a c d _ -> _ -> //] //; first by rewrite !big_cons IH.
by rewrite !big_cons mulrCA.
Qed.

Lemma prod_schedule (C : comRingType) (F : bond -> C) bl steps : \prod_(x <- schedule bond bl steps) F x = (\prod_(x <- bl) F x) ^+ steps.
Proof.
elim: steps => [|n IH]; first by rewrite expr0 /schedule /= big_nil.
rewrite schedule_S big_cat /= IH exprSr; congr (_ * _).
by rewrite /step_bonds; case: Nat.even => //; apply: prod_perm; apply: Permutation_sym; apply: Permutation_rev.
Qed.

Lemma NoDup_uniq (I : eqType) (l : seq I) : List.NoDup l -> uniq l.
Proof.
elim=> [|x a N _ IH] //=; rewrite IH andbT; apply/negP => X; apply: N.
by elim: a X {IH} => [|y a IH] //; rewrite in_cons => /orP[/eqP->|/IH]; [left|right].
Qed.

Section Lattice.
Variable C : numClosedFieldType.
Notation tensor := (tensor C).
Variable u : setup C.
Notation nx := (u_nx u).
Notation ny := (u_ny u).
Notation p := (u_phys u).
Hypotheses (nx1 : (1 < nx)%N) (ny1 : (1 < ny)%N).
Variable T : finType.
Variables (nb : nat -> T -> T) (cell : T -> site).
Hypothesis cov : covers nb nx ny cell.
Notation act_bond := (@P34_State.act_bond C u T nb cell).
Notation act_bonds := (@P34_State.act_bonds C u T nb cell).

(** the bond from a site to the right or downwards *)
Definition bond_at k (x : site) := Bond x (nbr nx ny k x) k.
(** the product over all bonds of the lattice of a number for the states at its ends *)
Definition lattice_weight (h : bond -> nat -> nat -> C) (f : T -> nat) : C :=
  \prod_t (h (bond_at 2 (cell t)) (f t) (f (nb 2 t)) * h (bond_at 1 (cell t)) (f t) (f (nb 1 t))).
(** all gates are diagonal *)
Definition diagonal_gates (h : bond -> nat -> nat -> C) (g : gates C) : Prop :=
  g_one g = None /\ forall x, List.In x (build_bond_list nx ny) -> diagonal_gate p (g_two g x) (h x).

Definition bond_weight (h : bond -> nat -> nat -> C) (f : T -> nat) x := \prod_(t | cell t == b_s1 x) h x (f t) (f (nb (b_k x) t)).

Lemma act2_diag K (h : nat -> nat -> C) t t' (f : (T -> nat) -> C) s : t' != t ->
  (forall P Q r s, (P < p)%N -> (Q < p)%N -> (r < p)%N -> (s < p)%N -> K P Q r s = if (P == r) && (Q == s) then h P Q else 0) ->
  cext p f -> config p s -> act2 p K t t' f s = h (s t) (s t') * f s.
Proof.
move=> Nt HK Hf Hs; rewrite /act2 /sumn (bigD1 (Ordinal (Hs t))) //= (bigD1 (Ordinal (Hs t'))) //= HK // !eqxx /=.
rewrite big1 => [|Q NQ]; last by rewrite HK // eqxx /= -[s t']/(val (Ordinal (Hs t'))) val_eqE (negPf NQ) mulr0.
rewrite big1 => [|P NP]; last by rewrite big1 // => Q _; rewrite HK // -[s t]/(val (Ordinal (Hs t))) val_eqE (negPf NP) mulr0.
rewrite !addr0 mulrC; congr (_ * _); apply: Hf; first by do 2 apply: config_put => //.
by move=> t0; rewrite /put; case: eqP => [->|_] //; case: eqP => [->|].
Qed.

Lemma act_bond_diag h g x f s : diagonal_gates h g -> List.In x (build_bond_list nx ny) -> cext p f -> config p s ->
  act_bond g x f s = bond_weight h s x * f s.
Proof using nx1 ny1 cov.
move=> [G Hg] Hx Hf; have [y [k [Hy Hk Ex]]] := bond_in (Permutation_refl _) Hx.
rewrite /act_bond /act_copies /one_of G /bond_weight /kernel -big_filter -/(copies cell _).
have -> : [seq t <- index_enum T | cell t == b_s1 x] = copies cell (b_s1 x) by rewrite /copies enumT.
have Ek : b_k x = k by rewrite Ex.
elim: (copies _ _) s => [|t l IH] s Hs /=; first by rewrite big_nil mul1r.
rewrite big_cons -mulrA -IH //.
rewrite (@act2_diag _ (h x)) //.
- by rewrite Ek; apply: nb_other Hk; [exact: nx1|exact: ny1|exact: cov].
- by move=> P Q r s' HP HQ Hr Hs'; apply: Hg.
move=> s1 s2 H1 E; have H2 : config p s2 by move=> t'; rewrite -E.
rewrite !IH // (Hf _ _ H1 E); congr (_ * _); by apply: eq_bigr => t' _; rewrite !E.
Qed.

Lemma act_bonds_diag h g l f s : diagonal_gates h g -> (forall x, List.In x l -> List.In x (build_bond_list nx ny)) -> cext p f -> config p s ->
  act_bonds g l f s = (\prod_(x <- l) bond_weight h s x) * f s.
Proof using nx1 ny1 cov.
move=> Hg; elim: l f s => [|x l IH] f s Hl Hf Hs /=; first by rewrite big_nil mul1r.
have Hx : List.In x (build_bond_list nx ny) by apply: Hl; left.
rewrite -/(act_bonds g l _) IH //; first by rewrite (act_bond_diag Hg) // big_cons mulrA [in RHS](mulrC (bond_weight _ _ _)).
  by move=> y Hy; apply: Hl; right.
move=> s1 s2 H1 E; have H2 : config p s2 by move=> t'; rewrite -E.
rewrite !(act_bond_diag Hg) // (Hf _ _ H1 E); congr (_ * _); by apply: eq_bigr => t' _; rewrite !E.
Qed.

Lemma prod_sites l (F : site -> T -> C) : Permutation l (build_site_list nx ny) -> \prod_(x <- l) \prod_(t | cell t == x) F x t = \prod_t F (cell t) t.
Proof using cov.
move=> HP; rewrite (prod_perm _ HP) (exchange_big_dep xpredT) //=; apply: eq_bigr => t _.
rewrite (@eq_bigl _ _ _ _ _ _ (pred1 (cell t))) => [|x]; last by rewrite /= eq_sym.
rewrite -big_filter filter_pred1_uniq ?big_seq1 //; first exact: NoDup_uniq (NoDup_site_list _ _).
have : List.In (cell t) (build_site_list nx ny) by apply/in_site_list; case: cov.
by elim: (build_site_list _ _) => [|x l' IH] //= [->|/IH]; rewrite in_cons ?eqxx // => ->; rewrite orbT.
Qed.

Lemma weight_bonds h bl f : Permutation bl (build_bond_list nx ny) -> \prod_(x <- bl) bond_weight h f x = lattice_weight h f.
Proof using cov.
move=> HP; rewrite (prod_perm _ HP) /build_bond_list big_cat /= horizontal_map vertical_map /lattice_weight big_split /=; congr (_ * _).
  rewrite -[List.map _ _]/(map (hbond nx) (build_site_list nx ny)) big_map.
  by rewrite -(prod_sites (fun x t => h (bond_at 2 x) (f t) (f (nb 2 t))) (Permutation_refl _)).
rewrite -[List.map _ _]/(map (vbond ny) (site_list_yx nx ny)) big_map.
by rewrite -(prod_sites (fun x t => h (bond_at 1 x) (f t) (f (nb 1 t))) (site_list_yx_perm _ _)).
Qed.

Lemma act_schedule_diag h g bl steps f s : diagonal_gates h g -> Permutation bl (build_bond_list nx ny) -> cext p f -> config p s ->
  act_bonds g (schedule bond bl steps) f s = lattice_weight h s ^+ steps * f s.
Proof using nx1 ny1 cov.
move=> Hg HP Hf Hs; rewrite (act_bonds_diag Hg) ?prod_schedule ?(weight_bonds _ _ HP) //.
by move=> x Hx; apply: Permutation_in HP _; apply: in_sched Hx.
Qed.
End Lattice.

(** ** Evolutions *)
Section Run.
Variable C : numClosedFieldType.
Notation tensor := (tensor C).
Notation net := (Mover.net tensor).
Variable R : Type.
Variable randn : R -> forall n q : nat, 'M[C]_(n, q) * R.
Variable trand : R -> nat -> nat -> tensor * R.
Variable lqr : qr_fun C.
Variable lsvd : thin_svd_fun C.
Variable fsvd : full_svd_fun C.
Variable leigh : eigh_fun C.
Variable lchol : chol_fun C.
Variable rtol : nat -> nat -> C.
Variable noise : C.
Variable fuel : nat.
Variable u : setup C.
Notation nx := (u_nx u).
Notation ny := (u_ny u).
Notation b := (u_bond u).
Notation p := (u_phys u).
Notation state := (Session.state C R).
Hypothesis Sq : qr_spec lqr.
Hypothesis Sf : full_svd_spec fsvd.
Hypotheses (nx1 : (1 < nx)%N) (ny1 : (1 < ny)%N) (b0 : (0 < b)%N) (p0 : (0 < p)%N).
Notation ones := (ones_vec u).
Notation step lcut := (simple_step lqr fsvd lcut).
Notation along lcut := (@P34_State.along C lqr fsvd lcut).
Notation tidy := (@P34_State.tidy C u).
Notation evolve lcut := (Session.evolve randn trand lqr lsvd fsvd leigh lchol rtol lcut noise fuel u).
Notation evolve_tensors lcut := (Session.evolve_tensors randn lqr lsvd fsvd leigh lchol rtol lcut fuel u).
Notation start s := (s_net s, new_lambda tensor ones (s_bonds s)).

(** the label of a physical state of a site that a leg sees *)
Variable lab : site -> nat -> nat -> nat.
(** all tensors are of copy form *)
Definition classical (n : net) : Prop := forall x, in_cell nx ny x -> copy_form b p (lab x) (n x SA).
(** the numbers of every bond depend on the labels at its ends, up to factors for each
    end, and at one of the ends there are no more labels than bond states *)
Definition narrow (h : bond -> nat -> nat -> C) : Prop := forall x, List.In x (build_bond_list nx ny) ->
  through p (h x) (lab (b_s1 x) (b_k x)) (lab (b_s2 x) ((b_k x + 2) %% 4)%N) /\
  (few b p (lab (b_s1 x) (b_k x)) \/ few b p (lab (b_s2 x) ((b_k x + 2) %% 4)%N)).

Lemma classical_step lcut h g x bl nw nw' : 0 < lcut -> gates_ok u g -> diagonal_gates u h g -> narrow h -> Permutation bl (build_bond_list nx ny) -> List.In x bl -> tidy bl nw ->
  classical nw.1 -> fits u g x nw /\ (step lcut g x nw = Ok nw' -> classical nw'.1).
Proof using Sq Sf nx1 ny1 p0.
case: nw => n w l0 Hg [G Hd] Hnr HP Hx [Hf [hs Ew [Hh Hn]]] Hc.
have [s [k [Hs Hk Ex]]] := bond_in HP Hx.
have Hx' := Permutation_in _ HP Hx.
have Sg : shape (g_two g x) = [:: p; p; p; p] by apply: (proj1 Hg).
have {}Hd := Hd x Hx'; have {Hnr} [Hth Hfw] := Hnr x Hx'.
have Hs2 : in_cell nx ny (nbr nx ny k s) by apply: nbr_cell.
rewrite /= in Ew; subst x w; rewrite /simple_step /fits [(n, _).1]/= [(n, _).2]/= [b_s1 _]/= [b_s2 _]/= [b_k _]/=.
have [w1 E1 W1] := weights_ok HP Hs Hh; have [w2 E2 W2] := weights_ok HP Hs2 Hh.
rewrite E1 E2 [bind (Ok w1) _]/bind [bind (Ok w2) _]/bind.
have SA1 := Hf s Hs; have SA2 := Hf _ Hs2; rewrite [(n, _).1]/= in SA1 SA2 Hc.
have M1 : matching (fun _ => b) p w1 (n s SA) by [].
have M2 : matching (fun _ => b) p w2 (n (nbr nx ny k s) SA) by [].
split=> [v1 v2 _ _|]; first exact: (@copy_within C b p k v1 v2 _ _ _ _ (lab s) (lab (nbr nx ny k s)) Hk Hd Hth Hfw (Hc _ Hs) (Hc _ Hs2)).
rewrite /one_of G; case Eu: simple_bond_update => [[[a1 a2] la]|] //= [<-] y Hy /=.
have [K1 K2] := @copy_update C lqr fsvd Sq Sf lcut b p k w1 w2 _ _ _ _ _ _ _ (lab s) (lab (nbr nx ny k s)) l0 Hk p0 M1 M2 Sg Hd Hth Hfw (Hc _ Hs) (Hc _ Hs2) Eu.
rewrite /write_pair /upd /=; case: (site_eq_dec y (nbr nx ny k s)) => [Ey|Ny] /=.
  by rewrite Ey.
by case: (site_eq_dec y s) => [->|Ny'] //=; apply: Hc.
Qed.

Variable T : finType.
Variables (nb : nat -> T -> T) (cell : T -> site).
Hypothesis cov : covers nb nx ny cell.
Notation amplitude := (@P34_State.amplitude C u T nb cell).
Notation lattice_weight := (@lattice_weight C u T nb cell).

Lemma along_classical lcut h g bl l nw : 0 < lcut -> gates_ok u g -> diagonal_gates u h g -> narrow h -> Permutation bl (build_bond_list nx ny) -> (forall x, List.In x l -> List.In x bl) -> tidy bl nw ->
  classical nw.1 -> along lcut (fits u) g l nw.
Proof using Sq Sf nx1 ny1 b0 p0 cov.
move=> l0 Hg Hd Hnr HP; elim: l nw => [|x l IH] nw Hl Ht Hc //=; have Hx := Hl x (or_introl erefl).
have [F _] := classical_step nw l0 Hg Hd Hnr HP Hx Ht Hc; split=> // nw' E; apply: IH => [y Hy||].
- by apply: Hl; right.
- by have [] := C83_step Sq Sf l0 nx1 ny1 b0 p0 cov Hg HP Hx Ht E.
by have [_ K] := classical_step nw' l0 Hg Hd Hnr HP Hx Ht Hc; apply: K.
Qed.

Lemma run_classical lcut h g bl l nw nw' : 0 < lcut -> gates_ok u g -> diagonal_gates u h g -> narrow h -> Permutation bl (build_bond_list nx ny) -> (forall x, List.In x l -> List.In x bl) -> tidy bl nw ->
  classical nw.1 ->
  run_updates bond (option (res (net * lam tensor))) unit (guard (fun x y => Some (step lcut g x y))) (Some (Ok nw)) l = Some (Ok nw') -> classical nw'.1.
Proof using Sq Sf nx1 ny1 b0 p0 cov.
move=> l0 Hg Hd Hnr HP; elim: l nw => [|x l IH] nw Hl Ht Hc /=; first by move=> [<-].
have Hx := Hl x (or_introl erefl).
case E: (step lcut g x nw) => [nw1|e]; last first.
  by rewrite /run_updates /=; elim: l {IH Hl} => //= y l IH.
have [_ K] := classical_step nw1 l0 Hg Hd Hnr HP Hx Ht Hc.
move=> E'; apply: (IH nw1) => [y Hy|||]; [by apply: Hl; right| |exact: K|exact: E'].
by have [] := C83_step Sq Sf l0 nx1 ny1 b0 p0 cov Hg HP Hx Ht E.
Qed.

(** C88.  An evolution with diagonal gates keeps tensors of copy form in copy form,
    with any cutoff. *)
Theorem C88_stays lcut st h g steps (s s' : state) : 0 < lcut -> u_type u = "simple" -> s_init s = true -> gates_ok u g -> diagonal_gates u h g -> narrow h ->
  Permutation (s_bonds s) (build_bond_list nx ny) ->
  (forall x, in_cell nx ny x -> shape (s_net s x SA) = [:: b; b; b; b; p]) -> classical (s_net s) ->
  evolve lcut st g steps s = Some (Ok s') -> classical (s_net s').
Proof using Sq Sf nx1 ny1 b0 p0 cov.
move=> l0 Tu I Hg Hd Hnr HP Hf Hc; rewrite /Session.evolve I /=; case E1: Session.renormalize => [s1|] //=.
have [A1 B1] := renorm_alike E1.
rewrite /Session.evolve_tensors Tu /= /evolve_run evolve_state evolve_bonds B1.
case E2: (run_updates _ _ _ _ _ _) => [[[n2 w2]|]|] //= [E3]; have [A3 B3] := renorm_alike E3.
have K : classical n2.
  apply: (run_classical l0 Hg Hd Hnr HP (fun x => @in_sched x _ steps) _ _ E2).
    by split=> [x Hx|] /=; [rewrite A1; apply: Hf|exists [::] => //; split].
  by move=> x Hx /=; rewrite A1; apply: Hc.
by move=> x Hx; rewrite A3; apply: K.
Qed.

(** C88.  With at least as many bond states as labels, diagonal gates and tensors of
    copy form, an evolution multiplies the amplitude of every configuration
    of the whole lattice by the weight of the configuration, once per step, up to one
    positive factor: the order of the bonds does not matter and nothing is cut. *)
Theorem C88_diagonal h g steps (s : state) : u_type u = "simple" -> s_init s = true -> gates_ok u g -> diagonal_gates u h g -> narrow h ->
  Permutation (s_bonds s) (build_bond_list nx ny) ->
  (forall x, in_cell nx ny x -> shape (s_net s x SA) = [:: b; b; b; b; p]) -> classical (s_net s) ->
  exists2 m, 0 < m & forall lcut st s', 0 < lcut <= m -> evolve lcut st g steps s = Some (Ok s') ->
    exists2 d, 0 < d & forall f, config p f ->
      amplitude (s_net s') f = d * (lattice_weight h f ^+ steps * amplitude (s_net s) f).
Proof using Sq Sf nx1 ny1 b0 p0 cov.
move=> Tu I Hg Hd Hnr HP Hf Hc; have [m m0 Hm] := C87_small randn trand lsvd leigh lchol rtol noise fuel Sq Sf nx1 ny1 b0 p0 cov steps Tu I Hg HP Hf.
exists m => // lcut st s' Hl E; have l0 : 0 < lcut by case/andP: Hl.
have Ha := along_classical l0 Hg Hd Hnr HP (fun x => @in_sched x _ steps) (tidy_start Hf) Hc.
have [d d0 Hdd] := Hm lcut st s' Hl Ha E; exists d => // f Hcf; rewrite Hdd //; congr (_ * _).
by apply: act_schedule_diag => //; apply: amplitude_cext.
Qed.

Hypothesis onto : forall x, in_cell nx ny x -> exists t, cell t = x.

(** C88.  The updates do not fail, if the weight and the amplitude of some
    configuration are not zero. *)
Theorem C88_succeeds h g steps (s : state) f : u_type u = "simple" -> gates_ok u g -> diagonal_gates u h g -> narrow h ->
  Permutation (s_bonds s) (build_bond_list nx ny) ->
  (forall x, in_cell nx ny x -> shape (s_net s x SA) = [:: b; b; b; b; p]) -> classical (s_net s) ->
  config p f -> lattice_weight h f != 0 -> amplitude (s_net s) f != 0 ->
  exists2 m, 0 < m & forall lcut, 0 < lcut <= m ->
    exists2 s', evolve_tensors lcut g steps s = Some (Ok s') & exists2 d, 0 < d & forall f, config p f ->
      amplitude (s_net s') f = d * (lattice_weight h f ^+ steps * amplitude (s_net s) f).
Proof using Sq Sf nx1 ny1 b0 p0 cov onto.
move=> Tu Hg Hd Hnr HP Hf Hc Hcf W A.
have AE f' : config p f' -> act_bonds u nb cell g (schedule bond (s_bonds s) steps) (amplitude (s_net s)) f' = lattice_weight h f' ^+ steps * amplitude (s_net s) f'.
  by move=> Hf'; apply: act_schedule_diag => //; apply: amplitude_cext.
have N : act_bonds u nb cell g (schedule bond (s_bonds s) steps) (amplitude (s_net s)) f != 0.
  by rewrite AE // mulf_neq0 // expf_neq0.
have [m m0 Hm] := C87_succeeds randn lsvd leigh lchol rtol fuel Sq Sf nx1 ny1 b0 p0 cov onto Tu Hg HP Hf Hcf N.
exists m => // lcut Hl; have l0 : 0 < lcut by case/andP: Hl.
have [s' E [d d0 Hdd]] := Hm lcut Hl (along_classical l0 Hg Hd Hnr HP (fun x => @in_sched x _ steps) (tidy_start Hf) Hc).
by exists s' => //; exists d => // f' Hf'; rewrite Hdd // AE.
Qed.
End Run.

(** without labels: as many bond states as physical states suffice *)
Definition plain (x : site) (d P : nat) : nat := P.
Lemma narrow_plain (C : numClosedFieldType) (u : setup C) h : (u_phys u <= u_bond u)%N -> narrow u plain h.
Proof.
move=> pb x _; split; last by left=> P HP; apply: leq_trans HP pb.
by exists (fun _ => 1), (fun _ => 1), (h x) => P Q _ _; rewrite !mul1r.
Qed.

(** ** Models *)
Section Model.
Variable C : numClosedFieldType.
Notation tensor := (tensor C).
Variable R : Type.
Variable randn : R -> forall n q : nat, 'M[C]_(n, q) * R.
Variable trand : R -> nat -> nat -> tensor * R.
Variable lqr : qr_fun C.
Variable lsvd : thin_svd_fun C.
Variable fsvd : full_svd_fun C.
Variable leigh : eigh_fun C.
Variable lchol : chol_fun C.
Variable rtol : nat -> nat -> C.
Variable noise : C.
Variable fuel : nat.
Variable mexp : forall n, 'M[C]_n -> 'M[C]_n.
Variable u : setup C.
Notation nx := (u_nx u).
Notation ny := (u_ny u).
Notation b := (u_bond u).
Notation p := (u_phys u).
Notation state := (Session.state C R).
Variable one : site -> option tensor.
Variable two : bond -> tensor.
Hypothesis Sq : qr_spec lqr.
Hypothesis Sf : full_svd_spec fsvd.
Hypotheses (nx1 : (1 < nx)%N) (ny1 : (1 < ny)%N) (b0 : (0 < b)%N) (p0 : (0 < p)%N).
Variable T : finType.
Variables (nb : nat -> T -> T) (cell : T -> site).
Hypothesis cov : covers nb nx ny cell.
Notation evolve lcut := (Session.evolve randn trand lqr lsvd fsvd leigh lchol rtol lcut noise fuel u).
Notation evolve_tensors lcut := (Session.evolve_tensors randn lqr lsvd fsvd leigh lchol rtol lcut fuel u).
Notation amplitude := (@P34_State.amplitude C u T nb cell).
Notation gates_for th bl dtau := (model_gates mexp p (Gate.Model tensor one (Gate.Fresh tensor two)) dtau bl (build_site_list nx ny) th).

(** ---- specification ---- *)
(** all terms of the model are diagonal *)
Definition classical_model : Prop :=
  (forall x h, one x = Some h -> shape h = [:: p; p] /\ forall P r, (P < p)%N -> (r < p)%N -> P != r -> at_ h [:: P; r] = 0) /\
  (forall x, List.In x (build_bond_list nx ny) -> shape (two x) = [:: (p * p)%N; (p * p)%N] /\ forall i j, (i < p * p)%N -> (j < p * p)%N -> i != j -> at_ (two x) [:: i; j] = 0).
(** the energy of a state of a site, and of the states of the ends of a bond *)
Definition field (x : site) (P : nat) : C := if one x is Some h then at_ h [:: P; P] else 0.
Definition coupling (x : bond) (P Q : nat) : C := at_ (two x) [:: (P * p + Q)%N; (P * p + Q)%N].
(** the energy of a configuration of the lattice; the field at a site counts with a
    quarter for each neighbour that has a field *)
Definition energy (f : T -> nat) : C := \sum_t
  (coupling (bond_at u 2 (cell t)) (f t) (f (nb 2 t)) + coupling (bond_at u 1 (cell t)) (f t) (f (nb 1 t)) +
   (quarters u one (cell t))%:R / 4%:R * field (cell t) (f t)).
(** the energy of a bond with its part of the fields *)
Definition shared (x : bond) (P Q : nat) : C :=
  coupling x P Q + (if has one (b_s1 x) && has one (b_s2 x) then (field (b_s1 x) P + field (b_s2 x) Q) / 4%:R else 0).
(** the exponential of a diagonal matrix *)
Definition exp_diag (e : C -> C) : Prop := forall M : 'M[C]_(p * p), (forall i j, i != j -> M i j = 0) -> forall i j, mexp M i j = if i == j then e (M i i) else 0.
(** e turns sums of numbers of S into products *)
Definition exponential (S : C -> Prop) (e : C -> C) : Prop :=
  [/\ S 0, e 0 = 1, forall a c, S a -> S c -> S (a + c) & forall a c, S a -> S c -> e (a + c) = e a * e c].

(** the coupling of every bond depends on the labels at its ends, and at one of the ends
    there are no more labels than bond states *)
Variable lab : site -> nat -> nat -> nat.
Definition narrow_model : Prop := forall x, List.In x (build_bond_list nx ny) ->
  (exists cc, forall P Q, (P < p)%N -> (Q < p)%N -> coupling x P Q = cc (lab (b_s1 x) (b_k x) P) (lab (b_s2 x) ((b_k x + 2) %% 4)%N Q)) /\
  (few b p (lab (b_s1 x) (b_k x)) \/ few b p (lab (b_s2 x) ((b_k x + 2) %% 4)%N)).
(** the numbers that are exponentiated *)
Definition all_in (S : C -> Prop) (dtau : C) : Prop :=
  (forall x P Q, List.In x (build_bond_list nx ny) -> (P < p)%N -> (Q < p)%N -> S (- dtau * coupling x P Q)) /\
  (forall x P, in_cell nx ny x -> (P < p)%N -> S (- dtau * (field x P / 4%:R))).

Hypothesis M : classical_model.

(** ---- the gates ---- *)
Lemma pair_lt P Q : (P < p)%N -> (Q < p)%N -> (P * p + Q < p * p)%N.
Proof. by move=> HP HQ; apply: (@leq_trans (P.+1 * p)); rewrite ?leq_pmul2r // mulSn addnC ltn_add2r. Qed.
Lemma pair_dv P Q : (Q < p)%N -> (((P * p + Q) %/ p) = P)%N /\ (((P * p + Q) %% p) = Q)%N.
Proof. by move=> HQ; rewrite divnMDl // divn_small // addn0 modnMDl modn_small. Qed.
Lemma pair_eq P Q r s : (Q < p)%N -> (s < p)%N -> (P * p + Q == r * p + s)%N = (P == r) && (Q == s).
Proof.
move=> HQ Hs; apply/eqP/andP => [X|[/eqP-> /eqP->] //]; split; apply/eqP.
  by rewrite -(proj1 (pair_dv P HQ)) X (proj1 (pair_dv r Hs)).
by rewrite -(proj2 (pair_dv P HQ)) X (proj2 (pair_dv r Hs)).
Qed.

Lemma gate_entry dtau (t : tensor) P Q r s : (P < p)%N -> (Q < p)%N -> (r < p)%N -> (s < p)%N ->
  shape (bond_gate mexp p dtau t) = [:: p; p; p; p] /\
  at_ (bond_gate mexp p dtau t) [:: P; Q; r; s] = ent (mexp (mx_of (p * p) (p * p) (tscale (- dtau) t))) (P * p + Q) (r * p + s).
Proof.
move=> HP HQ Hr Hs; rewrite /bond_gate /reshape /calculate_gate; move: (mexp _) => X.
have -> : numel [:: p; p; p; p] == numel (shape (of_mx X)) by rewrite /numel /= !muln1 -!mulnA.
have E : unravel [:: (p * p)%N; (p * p)%N] (ravel [:: p; p; p; p] [:: P; Q; r; s]) = [:: (P * p + Q)%N; (r * p + s)%N].
{ have -> : ravel [:: p; p; p; p] [:: P; Q; r; s] = ravel [:: (p * p)%N; (p * p)%N] [:: (P * p + Q)%N; (r * p + s)%N].
    by rewrite /ravel /numel /= !muln1 !addn0 mulnDl !addnA !mulnA.
  by rewrite ravelK //= !pair_lt. }
split=> //.
by rewrite -[at_ _ _]/(at_ (of_mx X) (unravel [:: (p * p)%N; (p * p)%N] (ravel [:: p; p; p; p] [:: P; Q; r; s]))) E.
Qed.

Lemma gen_entry x P Q r s : List.In x (build_bond_list nx ny) -> (P < p)%N -> (Q < p)%N -> (r < p)%N -> (s < p)%N ->
  at_ (bond_generator p one two x) [:: (P * p + Q)%N; (r * p + s)%N] = if (P == r) && (Q == s) then shared x P Q else 0.
Proof using M p0.
case: M => M1 M2 Hx HP HQ Hr Hs; have [_ Z] := M2 x Hx.
have T2 : at_ (two x) [:: (P * p + Q)%N; (r * p + s)%N] = if (P == r) && (Q == s) then coupling x P Q else 0.
  case: ifP => [/andP[/eqP<- /eqP<-] //|/negbT N]; apply: Z; rewrite ?pair_lt // pair_eq //.
rewrite /shared /bond_generator /generator /has /field.
case E1: (one (b_s1 x)) => [h1|]; case E2: (one (b_s2 x)) => [h2|]; rewrite ?andbF ?addr0 ?T2 //=.
have [S1 D1] := M1 _ _ E1; have [S2 D2] := M1 _ _ E2.
rewrite T2 /kronT /kron S1 S2 /= !(proj1 (pair_dv _ _)) ?(proj2 (pair_dv _ _)) //.
have [EP|NP] := eqVneq P r; have [EQ|NQ] := eqVneq Q s.
- by subst; rewrite mulr1 mul1r mulrC.
- by rewrite (D2 _ _ HQ Hs NQ) !mulr0 !add0r ?mulr0.
- by rewrite (D1 _ _ HP Hr NP) !mul0r !add0r ?mulr0.
by rewrite !mulr0 !mul0r !add0r ?mulr0.
Qed.

Lemma classical_gates e th bl dtau : exp_diag e -> Permutation bl (build_bond_list nx ny) ->
  gates_ok u (gates_for th bl dtau) /\ diagonal_gates u (fun x P Q => e (- dtau * shared x P Q)) (gates_for th bl dtau).
Proof using M p0.
case: th => t h He HP; have Hbl x : List.In x (build_bond_list nx ny) -> List.In x bl by apply: Permutation_in; exact: Permutation_sym.
have G x : List.In x (build_bond_list nx ny) -> g_two (gates_for (t, h) bl dtau) x = bond_gate mexp p dtau (bond_generator p one two x).
  by move=> Hx; rewrite /model_gates /= C02_generator_is_gate //; apply: Hbl.
split; first by split=> // x Hx; rewrite G //; have [] := gate_entry dtau (bond_generator p one two x) p0 p0 p0 p0.
split=> // x Hx P Q r s HP' HQ Hr Hs; rewrite G // (proj2 (gate_entry _ _ HP' HQ Hr Hs)).
have I1 := pair_lt HP' HQ; have I2 := pair_lt Hr Hs.
rewrite -[(P * p + Q)%N]/(nat_of_ord (Ordinal I1)) -[(r * p + s)%N]/(nat_of_ord (Ordinal I2)) ent_ord He.
  rewrite -val_eqE /= pair_eq //; case: ifP => // _; congr e; rewrite mxE /=; congr (_ * _).
  by rewrite gen_entry // !eqxx.
move=> i j Nij; rewrite mxE /=.
have [i1 i2] := div_lt i; have [j1 j2] := div_lt j.
rewrite [nat_of_ord i](divn_eq i p) [nat_of_ord j](divn_eq j p) gen_entry //; case: ifP => [/andP[/eqP A /eqP B]|]; last by rewrite mulr0.
by case/eqP: Nij; apply: val_inj; rewrite /= (divn_eq i p) (divn_eq j p) A B.
Qed.

(** ---- the energy ---- *)
Lemma paired_bij k : (k < 4)%N -> bijective (nb k).
Proof using cov.
move=> Hk; case: cov => HP _ _; exists (nb ((k + 2) %% 4)) => t; first exact: HP.
have k4 : ((k + 2) %% 4 < 4)%N by rewrite ltn_mod.
by have := HP ((k + 2) %% 4)%N t k4; rewrite modnDml -addnA -[(2 + 2)%N]/4%N modnDr modn_small.
Qed.

Lemma shared_energy f : \sum_t (shared (bond_at u 2 (cell t)) (f t) (f (nb 2 t)) + shared (bond_at u 1 (cell t)) (f t) (f (nb 1 t))) = energy f.
Proof using nx1 ny1 cov.
have [HP Hc Hn] := cov.
pose F t := field (cell t) (f t) / 4%:R.
have B k t : (k < 4)%N -> shared (bond_at u k (cell t)) (f t) (f (nb k t)) =
    coupling (bond_at u k (cell t)) (f t) (f (nb k t)) + ((has one (cell (nb k t)))%:R * F t + (has one (cell t))%:R * F (nb k t)).
  move=> Hk; rewrite /shared /= -Hn // /F /field /has; congr (_ + _).
  by case: (one (cell t)) => [h1|]; case: (one (cell (nb k t))) => [h2|] /=; rewrite ?mul1r ?mul0r ?mulr0 ?addr0 ?add0r // mulrDl.
have X k : (k < 4)%N -> \sum_t (has one (cell t))%:R * F (nb k t) = \sum_t (has one (cell (nb ((k + 2) %% 4)%N t)))%:R * F t.
  move=> Hk; rewrite [RHS](reindex (nb k)) /=; last by apply: onW_bij; apply: paired_bij.
  by apply: eq_bigr => t _; rewrite HP.
rewrite (eq_bigr _ (fun t _ => congr2 _ (B 2%N t isT) (B 1%N t isT))) !big_split /= !X // /energy !big_split /=.
rewrite addrACA; congr (_ + _); rewrite -!big_split; apply: eq_bigr => t _ /=.
have -> : quarters u one (cell t) = (\sum_(d < 4) has one (cell (nb d t)))%N.
  rewrite /quarters (gtn_eqF nx1) (gtn_eqF ny1) !subn0; apply: eq_bigr => d _; by rewrite Hn.
rewrite -!mulrDl -mulrA [4%:R^-1 * _]mulrC -/(F t) -!natrD; congr (_%:R * _).
pose h d : nat := has one (cell (nb d t)); rewrite !big_ord_recl big_ord0.
have E : (h 2 + h 0 + (h 1 + h 3) = h 0 + (h 1 + (h 2 + (h 3 + 0))))%N by rewrite addn0 !addnA (addnC (h 2%N)) (addnAC (h 0%N)).
exact: E.
Qed.

Lemma exp_sum S e (I : Type) (l : seq I) (F : I -> C) : exponential S e -> (forall i, S (F i)) -> S (\sum_(i <- l) F i) /\ e (\sum_(i <- l) F i) = \prod_(i <- l) e (F i).
Proof.
move=> [S0 e0 SD eD] HF; elim: l => [|i l [IH1 IH2]]; first by rewrite !big_nil.
by rewrite !big_cons; split; [apply: SD|rewrite eD // IH2].
Qed.
Lemma exp_pow S e a n : exponential S e -> S a -> e (n%:R * a) = e a ^+ n.
Proof.
move=> E Sa; have [S0 e0 SD eD] := E.
have [A B] : S (n%:R * a) /\ e (n%:R * a) = e a ^+ n; last by [].
elim: n => [|n [IH1 IH2]]; first by rewrite mul0r.
by rewrite -add1n natrD mulrDl mul1r exprD expr1; split; [apply: SD|rewrite eD // IH2].
Qed.

(** the parts of the energy of a bond *)
Definition part (y : bool) (x : site) (P : nat) : C := if y then field x P / 4%:R else 0.
Lemma shared_parts S e dtau x P Q : exponential S e -> all_in S dtau -> List.In x (build_bond_list nx ny) -> (P < p)%N -> (Q < p)%N ->
  let y := has one (b_s1 x) && has one (b_s2 x) in
  S (- dtau * shared x P Q) /\ e (- dtau * shared x P Q) = e (- dtau * part y (b_s1 x) P) * e (- dtau * part y (b_s2 x) Q) * e (- dtau * coupling x P Q).
Proof.
move=> [S0 e0 SD eD] [Sc Sg] Hx HP HQ y; have [I1 [I2 _]] := bond_list_adjacent _ _ _ Hx.
have Sp z (R' : nat) : in_cell nx ny z -> (R' < p)%N -> S (- dtau * part y z R').
  by move=> Hz HR; rewrite /part; case: y => //; [apply: Sg|rewrite mulr0].
have -> : - dtau * shared x P Q = - dtau * coupling x P Q + (- dtau * part y (b_s1 x) P + - dtau * part y (b_s2 x) Q).
  rewrite -!mulrDr /shared /part -/y; congr (_ * (_ + _)); case: y {Sp}; rewrite ?addr0 //; exact: mulrDl.
have S12 : S (- dtau * part y (b_s1 x) P + - dtau * part y (b_s2 x) Q) by apply: SD; apply: Sp.
split; first by apply: SD => //; apply: Sc.
by rewrite !eD ?[e (_ * coupling _ _ _) * _]mulrC //; try exact: Sp; apply: Sc.
Qed.

Lemma narrow_weights S e dtau : exponential S e -> all_in S dtau -> narrow_model -> narrow u lab (fun x P Q => e (- dtau * shared x P Q)).
Proof.
move=> HE HS Hn x Hx; have [[cc Hc] Hf] := Hn x Hx; split=> //.
pose y := has one (b_s1 x) && has one (b_s2 x).
exists (fun P => e (- dtau * part y (b_s1 x) P)), (fun Q => e (- dtau * part y (b_s2 x) Q)), (fun l m => e (- dtau * cc l m)) => P Q HP HQ.
by rewrite -Hc //; have [_] := shared_parts HE HS Hx HP HQ.
Qed.

Lemma energy_weight S e dtau steps f : exponential S e -> all_in S dtau -> config p f ->
  lattice_weight u nb cell (fun x P Q => e (- dtau * shared x P Q)) f ^+ steps = e (- (dtau * steps%:R) * energy f).
Proof using nx1 ny1 cov.
move=> E HS Hf; have HE0 := E; have [S0 e0 SD eD] := E; have [HP Hc Hn] := cov.
have Sk k t : (k == 1)%N || (k == 2)%N -> S (- dtau * shared (bond_at u k (cell t)) (f t) (f (nb k t))).
  move=> Hk; apply: (proj1 (shared_parts HE0 HS _ _ _)) => //; apply/in_bond_list; exists (cell t); split; first exact: Hc.
  by case/orP: Hk => /eqP->; [right|left].
rewrite /lattice_weight.
pose F t := - dtau * shared (bond_at u 2 (cell t)) (f t) (f (nb 2 t)) + - dtau * shared (bond_at u 1 (cell t)) (f t) (f (nb 1 t)).
have SF t : S (F t) by apply: SD; apply: Sk.
rewrite (eq_bigr (fun t => e (F t))) => [|t _]; last by rewrite eD //; apply: Sk.
have [S1 <-] := exp_sum (index_enum T) E SF.
rewrite -(exp_pow steps E S1); congr e.
rewrite -shared_energy (eq_bigr (fun t => - dtau * (shared (bond_at u 2 (cell t)) (f t) (f (nb 2 t)) + shared (bond_at u 1 (cell t)) (f t) (f (nb 1 t))))).
  by rewrite -mulr_sumr mulrA mulrN [steps%:R * _]mulrC.
by move=> t _; rewrite mulrDr.
Qed.

(** C88.  Simple updates evolve a model with diagonal terms exactly: whatever the time
    step, the amplitude of every configuration is multiplied by the exponential of its
    energy times the total imaginary time, up to one positive factor. *)
Theorem C88_energy S e th dtau steps (s : state) : exp_diag e -> exponential S e ->
  all_in S dtau -> narrow_model ->
  u_type u = "simple" -> s_init s = true ->
  Permutation (s_bonds s) (build_bond_list nx ny) ->
  (forall x, in_cell nx ny x -> shape (s_net s x SA) = [:: b; b; b; b; p]) -> classical u lab (s_net s) ->
  exists2 m, 0 < m & forall lcut st s', 0 < lcut <= m -> evolve lcut st (gates_for th (s_bonds s) dtau) steps s = Some (Ok s') ->
    exists2 d, 0 < d & forall f, config p f ->
      amplitude (s_net s') f = d * (e (- (dtau * steps%:R) * energy f) * amplitude (s_net s) f).
Proof using Sq Sf nx1 ny1 b0 p0 cov M.
move=> He HE HS Hn Tu I HP Hf Hc; have [Hg Hd] := classical_gates th dtau He HP; have Hnr := narrow_weights HE HS Hn.
have [m m0 Hm] := C88_diagonal randn trand lsvd leigh lchol rtol noise fuel Sq Sf nx1 ny1 b0 p0 cov steps Tu I Hg Hd Hnr HP Hf Hc.
exists m => // lcut st s' Hl E; have [d d0 Hdd] := Hm lcut st s' Hl E; exists d => // f Hcf.
by rewrite Hdd // (energy_weight _ HE).
Qed.

Hypothesis onto : forall x, in_cell nx ny x -> exists t, cell t = x.

(** C88.  The updates of the model do not fail, if the exponential does not kill some
    configuration that occurs. *)
Theorem C88_energy_succeeds S e th dtau steps (s : state) f : exp_diag e -> exponential S e ->
  all_in S dtau -> narrow_model ->
  u_type u = "simple" ->
  Permutation (s_bonds s) (build_bond_list nx ny) ->
  (forall x, in_cell nx ny x -> shape (s_net s x SA) = [:: b; b; b; b; p]) -> classical u lab (s_net s) ->
  config p f -> e (- dtau * energy f) != 0 -> amplitude (s_net s) f != 0 ->
  exists2 m, 0 < m & forall lcut, 0 < lcut <= m ->
    exists2 s', evolve_tensors lcut (gates_for th (s_bonds s) dtau) steps s = Some (Ok s') & exists2 d, 0 < d & forall f, config p f ->
      amplitude (s_net s') f = d * (e (- (dtau * steps%:R) * energy f) * amplitude (s_net s) f).
Proof using Sq Sf nx1 ny1 b0 p0 cov M onto.
move=> He HE HS Hn Tu HP Hf Hc Hcf e0 A; have [Hg Hd] := classical_gates th dtau He HP; have Hnr := narrow_weights HE HS Hn.
have W : lattice_weight u nb cell (fun x P Q => e (- dtau * shared x P Q)) f != 0.
  by rewrite -[lattice_weight _ _ _ _ _]expr1 (energy_weight 1 HE) // mulr1.
have [m m0 Hm] := C88_succeeds randn lsvd leigh lchol rtol fuel Sq Sf nx1 ny1 b0 p0 cov onto steps Tu Hg Hd Hnr HP Hf Hc Hcf W A.
exists m => // lcut Hl; have [s' E [d d0 Hdd]] := Hm lcut Hl; exists s' => //; exists d => // f' Hf'.
by rewrite Hdd // (energy_weight _ HE).
Qed.
End Model.

(** ** Concrete cases *)
Section Example.
Variable C : numClosedFieldType.
Notation tensor := (tensor C).
Notation u2 := (plain_setup C 2 "simple").
Notation evolve_tensors lcut := (@Session.evolve_tensors C unit (fun r _ _ => (0, r)) (@some_qr C) (@some_thin_svd C) (@some_full_svd C) (@some_eigh C) (@some_chol C) (fun _ _ => 0) lcut 1).
Notation nb := (tnbr (nx := 2) (ny := 2)).
Notation cell a c := (tcell (a := a) (c := c) (nx := 2) (ny := 2)).
Notation amp a c := (amplitude u2 nb (cell a c)).

(** all configurations alike *)
Definition uniform_net : Mover.net tensor := fun _ _ => Tensor [:: 2; 2; 2; 2; 2]%N (fun _ => 1).
Notation uniform chi := (State uniform_net tt (build_bond_list 2 2) chi true : Session.state C unit).
Lemma uniform_classical lab : classical u2 lab uniform_net.
Proof. by move=> x _; exists (fun _ => 1), (fun _ _ _ => 1) => v _; rewrite big1 ?mulr1. Qed.
Lemma uniform_amp a c : exists2 d, 0 < d & forall f, amp a c uniform_net f = d.
Proof.
exists (#|{ffun ('I_(a * 2) * 'I_(c * 2)) * bool -> 'I_2}|%:R).
  rewrite ltr0n; apply/card_gt0P; by exists [ffun _ => ord0].
move=> f; rewrite /amplitude /psi -sum1_card natr_sum; apply: eq_bigr => m _; by rewrite big1.
Qed.
Lemma torus_onto a c : (0 < a)%N -> (0 < c)%N -> forall x, in_cell 2 2 x -> exists t, cell a c t = x.
Proof.
move=> a0 c0 [x y] [/ltP /= Hx /ltP Hy].
have Lx : (x < a * 2)%N by apply: leq_trans Hx _; rewrite leq_pmull.
have Ly : (y < c * 2)%N by apply: leq_trans Hy _; rewrite leq_pmull.
exists (Ordinal Lx, Ordinal Ly); rewrite /tcell /tsite /under /=.
by case: x Hx {Lx} => [|[|]] //; case: y Hy {Ly} => [|[|]].
Qed.

(** the gate of the Ising interaction: one number for equal spins, another one for
    different spins *)
Definition ising (w w' : C) : gates C := Gates (fun _ => Tensor [:: 2; 2; 2; 2]%N (fun i =>
  if (nth 0%N i 0 == nth 0%N i 2) && (nth 0%N i 1 == nth 0%N i 3) then (if nth 0%N i 0 == nth 0%N i 1 then w else w') else 0)) None.

(** from the uniform state, simple updates make the thermal state of the Ising model
    on a lattice of any size *)
Example C88_ising w w' a c steps chi : w != 0 -> (0 < a)%N -> (0 < c)%N -> exists2 m, 0 < m & forall lcut, 0 < lcut <= m ->
  exists2 s', evolve_tensors lcut u2 (ising w w') steps (uniform chi) = Some (Ok s') &
    exists2 d, 0 < d & forall f, config 2 f ->
      amp a c (s_net s') f = d * (\prod_t ((if f t == f (nb 2 t) then w else w') * (if f t == f (nb 1 t) then w else w'))) ^+ steps.
Proof.
move=> w0 a0 c0; have cov := @torus_covers a c 2 2 a0 c0 isT isT.
pose h (x : bond) P Q := if (P == Q :> nat) then w else w'.
have Hg : gates_ok u2 (ising w w') by split.
have Hd : diagonal_gates u2 h (ising w w') by split=> // x _ P Q r s _ _ _ _; rewrite /= /h; case: ifP.
pose s0 : Session.state C unit := uniform chi.
have HP : Permutation (s_bonds s0) (build_bond_list 2 2) by exact: Permutation_refl.
have Hf x : in_cell 2 2 x -> shape (s_net s0 x SA) = [:: 2; 2; 2; 2; 2]%N by [].
have [N N0 HN] := uniform_amp a c.
have W : lattice_weight u2 nb (cell a c) h (fun _ => 0%N) != 0 by apply/prodf_neq0 => t _; rewrite /h /= mulf_neq0.
have A : amp a c (s_net s0) (fun _ => 0%N) != 0 by rewrite HN lt0r_neq0.
have [m m0 Hm] := @C88_succeeds C unit (fun r _ _ => (0, r)) (@some_qr C) (@some_thin_svd C) (@some_full_svd C) (@some_eigh C) (@some_chol C) (fun _ _ => 0) 1 u2 (@some_qr_spec C) (@some_full_svd_spec C)
  isT isT isT isT plain _ _ _ cov (torus_onto a0 c0) h (ising w w') steps s0 (fun _ => 0%N) erefl Hg Hd (@narrow_plain C u2 h isT) HP Hf (@uniform_classical plain) (fun _ => isT) W A.
exists m => // lcut Hl; have [s' Es [d d0 Hdd]] := Hm lcut Hl; exists s' => //; exists (d * N); first exact: mulr_gt0.
by move=> f Hcf; rewrite Hdd // HN -mulrA; congr (_ * _); rewrite mulrC.
Qed.

(** a model: energy one for different neighbours.  Any function of the energies is the
    exponential of some matrix function; the one that is zero except at zero, where it
    is one, turns sums of non-negative numbers into products: it is the limit of
    infinite time *)
Definition frozen (x : C) : C := (x == 0)%:R.
Definition freeze n (A : 'M[C]_n) : 'M[C]_n := \matrix_(i, j) if i == j then frozen (A i i) else 0.
Definition walls : tensor := Tensor [:: 4; 4]%N (fun i => if nth 0%N i 0 == nth 0%N i 1 then (if (nth 0%N i 0 == 1%N) || (nth 0%N i 0 == 2%N) then 1 else 0) else 0).

Example C88_freeze a c steps chi th : (0 < a)%N -> (0 < c)%N -> (0 < steps)%N -> exists2 m, 0 < m & forall lcut, 0 < lcut <= m ->
  exists2 s', evolve_tensors lcut u2 (model_gates freeze 2 (Gate.Model tensor (fun _ => None) (Gate.Fresh tensor (fun _ => walls))) (-1) (build_bond_list 2 2) (build_site_list 2 2) th) steps (uniform chi) = Some (Ok s') &
    exists2 d, 0 < d & forall f, config 2 f ->
      amp a c (s_net s') f = d * [forall t, (f t == f (nb 2 t)) && (f t == f (nb 1 t))]%:R.
Proof.
move=> a0 c0 n0; have cov := @torus_covers a c 2 2 a0 c0 isT isT.
pose s0 : Session.state C unit := uniform chi.
have HP : Permutation (s_bonds s0) (build_bond_list 2 2) by exact: Permutation_refl.
have Hf x : in_cell 2 2 x -> shape (s_net s0 x SA) = [:: 2; 2; 2; 2; 2]%N by [].
have [N N0 HN] := uniform_amp a c.
have M : classical_model u2 (fun _ => None) (fun _ => walls).
  by split=> // x _; split=> // i j _ _ /negPf /= ->.
have He : @exp_diag C freeze u2 frozen.
  by move=> A _ i j; rewrite mxE.
have HE : exponential (fun x : C => 0 <= x) frozen.
  split; rewrite /frozen ?eqxx //; first exact: addr_ge0.
  by move=> x y Hx Hy; rewrite paddr_eq0 // -natrM mulnb.
have EC P Q : (P < 2)%N -> (Q < 2)%N -> coupling u2 (fun _ => walls) (Bond (0, 0)%N (0, 0)%N 0) P Q = (P != Q)%:R.
  by case: P => [|[|]] // _; case: Q => [|[|]] // _; rewrite /coupling /= ?eqxx.
have EC' x P Q : (P < 2)%N -> (Q < 2)%N -> coupling u2 (fun _ => walls) x P Q = (P != Q)%:R by exact: EC.
have HS : all_in u2 (fun _ => None) (fun _ => walls) (fun x : C => 0 <= x) (-1).
  by split=> [x P Q _ HP' HQ|x P _ _]; rewrite opprK mul1r ?EC' ?ler0n // /field mul0r.
have Hnr : narrow_model u2 (fun _ => walls) plain.
  by move=> x _; split; [exists (coupling u2 (fun _ => walls) x)|left].
have En f : config 2 f -> energy u2 (fun _ => None) (fun _ => walls) nb (cell a c) f = (\sum_t ((f t != f (nb 2 t)) + (f t != f (nb 1 t))))%:R.
  move=> Hcf; rewrite /energy natr_sum; apply: eq_bigr => t _; rewrite /field mulr0 addr0 natrD.
  by rewrite !EC'.
have A : amp a c (s_net s0) (fun _ => 0%N) != 0 by rewrite HN lt0r_neq0.
have E0 : frozen (- (-1) * energy u2 (fun _ => None) (fun _ => walls) nb (cell a c) (fun _ => 0%N)) != 0.
  by rewrite En // big1 // mulr0 /frozen eqxx oner_eq0.
have [m m0 Hm] := @C88_energy_succeeds C unit (fun r _ _ => (0, r)) (@some_qr C) (@some_thin_svd C) (@some_full_svd C) (@some_eigh C) (@some_chol C) (fun _ _ => 0) 1 freeze u2 (fun _ => None) (fun _ => walls) (@some_qr_spec C) (@some_full_svd_spec C)
  isT isT isT isT _ _ _ cov plain M (torus_onto a0 c0) _ frozen th (-1) steps s0 (fun _ => 0%N) He HE HS Hnr erefl HP Hf (@uniform_classical plain) (fun _ => isT) E0 A.
exists m => // lcut Hl; have [s' Es [d d0 Hdd]] := Hm lcut Hl; exists s' => //; exists (d * N); first exact: mulr_gt0.
move=> f Hcf; rewrite Hdd // HN -mulrA [N * _]mulrC; congr (_ * (_ * _)).
rewrite En // /frozen mulN1r opprK -natrM pnatr_eq0 muln_eq0 (gtn_eqF n0) /=; congr (_%:R); congr nat_of_bool.
rewrite sum_nat_eq0; apply: eq_forallb => t; rewrite addn_eq0.
by case: (f t == f (nb 2 t)); case: (f t == f (nb 1 t)).
Qed.
End Example.

Print Assumptions C88_stays.
Print Assumptions C88_diagonal.
Print Assumptions C88_succeeds.
Print Assumptions C88_energy.
Print Assumptions C88_energy_succeeds.
Print Assumptions C88_ising.
Print Assumptions C88_freeze.
