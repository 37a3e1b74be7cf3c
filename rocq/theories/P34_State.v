(** Property C83: simple updates that lose nothing act on the whole state. *)
From Coq Require Import String Ascii Permutation.
From mathcomp Require Import all_ssreflect all_algebra.
From Verif Require Import Base Lattice LatticeFacts Mover Tensor TN Rdm RdmFacts Fits Measure MeasureFacts FullUpdate Linalg Mat Rsvd RsvdFacts Renorm RenormFacts Spectral ProjFacts Psd Als AlsFacts EighChol UpdFacts InitFacts Dist Lambda Evolve P05_Mover MoveShape P08_Control P09_Rdm P13_Renorm P16_Als P17_Reduced Eckart P20_Simple P22_SimpleUpdate P26_SiteUpdate Session P29_Session P30_Product P31_Calls P32_Basis CoverFacts Torus.
Set Implicit Arguments.
Unset Strict Implicit.
Unset Printing Implicit Defensive.
Import GRing.Theory Num.Theory.
Local Open Scope ring_scope.
Local Open Scope string_scope.

(** ** One bond *)
Section Bond.
Variable C : numClosedFieldType.
Notation tensor := (tensor C).
Notation pair := (nat -> nat -> nat -> nat -> C).
Variable lqr : qr_fun C.
Variable fsvd : full_svd_fun C.
Hypothesis Sq : qr_spec lqr.
Hypothesis Sf : full_svd_spec fsvd.
Variable lcut : C.
Hypothesis l0 : 0 < lcut.

(** the operator a bond update puts on two physical legs: the bond gate, then the
    one-site gates if they are separate *)
Definition kernel p (gate : tensor) (one : option (tensor * tensor)) (P Q r s : nat) : C :=
  match one with
  | None => at_ gate [:: P; Q; r; s]
  | Some (g1, g2) => sumn p (fun P' => sumn p (fun Q' => at_ gate [:: P; Q; P'; Q'] * (at_ g1 [:: P'; r] * at_ g2 [:: Q'; s])))
  end.

(** no weight on an outer leg is below the cutoff, except for bond states that do
    not occur in the tensor *)
Definition harmless b (ex : nat) (w : nat -> tensor) (a : tensor) : Prop := forall d i, (d < 4)%N -> d != ex -> (i < b)%N ->
  lcut <= at_ (w d) [:: i] \/ forall v, in_range (shape a) v -> nth 0%N v d = i -> at_ a v = 0.
(** b bond states suffice for a state of two sites *)
Definition within b p (f : pair) : Prop := exists b1 b2 : tensor,
  forall P Q y x, (P < p)%N -> (Q < p)%N -> (y < b ^ 3)%N -> (x < b ^ 3)%N -> f P Q y x = P16_Als.state b b1 b2 P Q y x.

Definition wgt1 b k (w : nat -> tensor) (f : C -> C) y := wprod k w f (leg1 k 0 (unravel [:: b; b; b] y) 0).
Definition wgt2 b k (w : nat -> tensor) (f : C -> C) x := wprod ((k + 2) %% 4) w f (leg2 k 0 (unravel [:: b; b; b] x) 0).

Lemma wprod_leg1 k w f v o P : (k < 4)%N -> wprod k w f (leg1 k v o P) = wprod k w f (leg1 k 0 o 0) :> C.
Proof.
move=> Hk; apply: eq_bigr => d; case: d => d Hd /= Nd; congr (f (at_ _ [:: _])).
by case: k Hk Nd => [|[|[|[|]]]] // _; case: d Hd => [|[|[|[|]]]].
Qed.
Lemma wprod_leg2 k w f v o P : (k < 4)%N -> wprod ((k + 2) %% 4) w f (leg2 k v o P) = wprod ((k + 2) %% 4) w f (leg2 k 0 o 0) :> C.
Proof.
move=> Hk; apply: eq_bigr => d; case: d => d Hd /= Nd; congr (f (at_ _ [:: _])).
by case: k Hk Nd => [|[|[|[|]]]] // _; case: d Hd => [|[|[|[|]]]].
Qed.

Lemma pair_joined b k f w1 w2 (a1 a2 : tensor) P Q y x : (k < 4)%N ->
  pair_state b k f w1 w2 a1 a2 P Q y x = wgt1 b k w1 f y * wgt2 b k w2 f x * joined b k a1 a2 P Q y x.
Proof.
move=> Hk; rewrite /pair_state /joined sumn_mull; apply: eq_sumn => v _; rewrite /entry1 /entry2 wprod_leg1 // wprod_leg2 //.
by rewrite -/(wgt1 _ _ _ _ _) -/(wgt2 _ _ _ _ _) mulrACA.
Qed.

Lemma clamp_ge x : lcut <= x -> clamp lcut x = x.
Proof. by rewrite /clamp /maxC => H; case: ifP => // H'; apply/eqP; rewrite Order.POrderTheory.eq_le H H'. Qed.

Lemma leg1_range b p k v y P : (k < 4)%N -> (v < b)%N -> (y < b ^ 3)%N -> (P < p)%N -> in_range [:: b; b; b; b; p] (leg1 k v (unravel [:: b; b; b] y) P).
Proof.
move=> Hk Hv Hy HP; have [r [d' [u [-> [o0 o1 o2]]]]] := unravel3_lt Hy.
by case: k Hk => [|[|[|[|]]]] // _; rewrite /leg1 /= ?Hv ?o0 ?o1 ?o2 ?HP.
Qed.
Lemma leg2_range b p k v y P : (k < 4)%N -> (v < b)%N -> (y < b ^ 3)%N -> (P < p)%N -> in_range [:: b; b; b; b; p] (leg2 k v (unravel [:: b; b; b] y) P).
Proof.
move=> Hk Hv Hy HP; have [r [d' [u [-> [o0 o1 o2]]]]] := unravel3_lt Hy.
by case: k Hk => [|[|[|[|]]]] // _; rewrite /leg2 /= ?Hv ?o0 ?o1 ?o2 ?HP.
Qed.

Lemma harmless_entry b p ex w (a : tensor) v : shape a = [:: b; b; b; b; p] -> harmless b ex w a -> in_range (shape a) v ->
  wprod ex w id v * at_ a v = wprod ex w (clamp lcut) v * at_ a v.
Proof.
move=> Sa H Hv.
have Hi d : (d < 4)%N -> (nth 0%N v d < b)%N by move: Hv; rewrite Sa; case: v {H} => [|v0 [|v1 [|v2 [|v3 v]]]] //=; rewrite ?andbF // => /and5P[? ? ? ? _]; case: d => [|[|[|[|]]]].
case: (boolP [forall d : 'I_4, (d != ex :> nat) ==> (lcut <= at_ (w d) [:: nth 0%N v d])]).
  move/forallP => A; congr (_ * _); apply: eq_bigr => d Hd; rewrite clamp_ge //.
  by have := A d; rewrite Hd.
case/forallPn => d; rewrite negb_imply => /andP[Nd Ld].
case: (H d (nth 0%N v d) (ltn_ord d) Nd (Hi d (ltn_ord d))) => [L|->//]; first by rewrite L in Ld.
by rewrite !mulr0.
Qed.

Lemma update_joined b p k w1 w2 (a1 a2 gate : tensor) one a1' a2' lam :
  (k < 4)%N -> (0 < p)%N -> matching (fun _ => b) p w1 a1 -> matching (fun _ => b) p w2 a2 -> shape gate = [:: p; p; p; p] ->
  (if one is Some (g1, g2) then shape g1 = [:: p; p] /\ shape g2 = [:: p; p] else True) ->
  harmless b k w1 a1 -> harmless b ((k + 2) %% 4) w2 a2 ->
  within b p (two_site_gate p gate (pair_state b k id w1 w2 a1 a2)) ->
  simple_bond_update lqr fsvd lcut w1 w2 k a1 a2 gate one = Ok (a1', a2', lam) ->
  exists2 c, 0 < c & forall r s y x, (r < p)%N -> (s < p)%N -> (y < b ^ 3)%N -> (x < b ^ 3)%N ->
    joined b k a1' a2' r s y x = c * sumn p (fun P => sumn p (fun Q => joined b k a1 a2 P Q y x * kernel p gate one P Q r s)).
Proof using Sq Sf l0.
move=> Hk p0 M1 M2 Sg So H1 H2 [b1 [b2 Eg]] E; set goal := two_site_gate _ _ _ in Eg.
have [t [Ct H]] := C65_simple_update Sq Sf Hk p0 l0 M1 M2 Sg So; rewrite -/goal in Ct.
have Z : size2 (b ^ 3) p (fun r s y x => goal r s y x - t r s y x) <= 0.
  apply: (Order.POrderTheory.le_trans (Ct b1 b2)).
  rewrite (size2_ext (g := fun _ _ _ _ => 0)) => [|r s y x *]; last by rewrite Eg // subrr.
  by rewrite /size2 /sumn big1 // => i _; rewrite big1 // => j _; rewrite big1 // => l _; rewrite big1 // => l' _; rewrite normr0 expr0n.
have {}Z r s y x : (r < p)%N -> (s < p)%N -> (y < b ^ 3)%N -> (x < b ^ 3)%N -> t r s y x = goal r s y x.
  by move=> Hr Hs Hy Hx; have /eqP := size2_eq0 Z Hr Hs Hy Hx; rewrite subr_eq0 => /eqP.
case: H => [[_]|[d1 [d2 [lam' [c [E' _ [cp _ Es] _ _]]]]]]; first by rewrite E.
move: E'; rewrite E => -[E1 E2 _]; subst d1 d2; exists c => // r s y x Hr Hs Hy Hx.
have := Es r s y x Hr Hs Hy Hx; rewrite pair_joined //.
have W1 : wgt1 b k w1 (clamp lcut) y != 0.
  apply/eqP => W0; have := wprod_clamp k w1 (leg1 k 0 (unravel [:: b; b; b] y) 0) l0.
  by rewrite -/(wgt1 b k w1 (clamp lcut) y) W0 mul0r => /eqP; rewrite eq_sym oner_eq0.
have W2 : wgt2 b k w2 (clamp lcut) x != 0.
  apply/eqP => W0; have := wprod_clamp ((k + 2) %% 4) w2 (leg2 k 0 (unravel [:: b; b; b] x) 0) l0.
  by rewrite -/(wgt2 b k w2 (clamp lcut) x) W0 mul0r => /eqP; rewrite eq_sym oner_eq0.
set W := wgt1 _ _ _ _ _ * wgt2 _ _ _ _ _; have W0 : W != 0 by rewrite mulf_neq0.
have PJ P Q : (P < p)%N -> (Q < p)%N -> pair_state b k id w1 w2 a1 a2 P Q y x = W * joined b k a1 a2 P Q y x.
  move=> HP HQ; rewrite pair_joined // /joined !sumn_mull; apply: eq_sumn => v Hv.
  have [Sa1 _] := M1; have [Sa2 _] := M2.
  rewrite mulrACA /wgt1 /wgt2 -(wprod_leg1 _ _ v (unravel [:: b; b; b] y) P) // -(wprod_leg2 _ _ v (unravel [:: b; b; b] x) Q) //.
  rewrite (harmless_entry Sa1 H1) ?Sa1 ?leg1_range // (harmless_entry Sa2 H2) ?Sa2 ?leg2_range //.
  by rewrite wprod_leg1 // wprod_leg2 // mulrACA -/(wgt1 _ _ _ _ _) -/(wgt2 _ _ _ _ _).
have -> : one_site_gates p one t r s y x = W * sumn p (fun P => sumn p (fun Q => joined b k a1 a2 P Q y x * kernel p gate one P Q r s)).
  have G P' Q' : (P' < p)%N -> (Q' < p)%N -> t P' Q' y x = sumn p (fun P => sumn p (fun Q => W * joined b k a1 a2 P Q y x * at_ gate [:: P; Q; P'; Q'])).
    move=> HP' HQ'; rewrite Z // /goal /two_site_gate; apply: eq_sumn => P HP; apply: eq_sumn => Q HQ.
    by rewrite PJ.
  rewrite sumn_mull; case: one {So E Es} => [[g1 g2]|] /=; last first.
    by rewrite G //; apply: eq_sumn => P _; rewrite sumn_mull; apply: eq_sumn => Q _; rewrite mulrA.
  transitivity (sumn p (fun P' => sumn p (fun Q' => sumn p (fun P => sumn p (fun Q =>
      W * joined b k a1 a2 P Q y x * at_ gate [:: P; Q; P'; Q'] * (at_ g1 [:: P'; r] * at_ g2 [:: Q'; s])))))).
    apply: eq_sumn => P' HP'; apply: eq_sumn => Q' HQ'; rewrite G // sumn_mulr; apply: eq_sumn => P _.
    by rewrite sumn_mulr.
  rewrite (eq_sumn (G := fun P' => sumn p (fun P => sumn p (fun Q => sumn p (fun Q' =>
      W * joined b k a1 a2 P Q y x * at_ gate [:: P; Q; P'; Q'] * (at_ g1 [:: P'; r] * at_ g2 [:: Q'; s])))))); last first.
    by move=> P' _; rewrite sumnC; apply: eq_sumn => P _; rewrite sumnC.
  rewrite sumnC; apply: eq_sumn => P _; rewrite sumn_mull sumnC; apply: eq_sumn => Q _.
  rewrite mulrA sumn_mull; apply: eq_sumn => P' _; rewrite sumn_mull; apply: eq_sumn => Q' _.
  by rewrite !mulrA.
by rewrite mulrCA => /(mulfI W0).
Qed.

(** a gate that acts on the two sites separately needs no more bond states *)
Definition product_gate p (gate : tensor) : Prop := exists h1 h2 : nat -> nat -> C,
  forall P Q r s, (P < p)%N -> (Q < p)%N -> (r < p)%N -> (s < p)%N -> at_ gate [:: P; Q; r; s] = h1 P r * h2 Q s.

Lemma product_within b p k f w1 w2 (a1 a2 gate : tensor) : product_gate p gate ->
  within b p (two_site_gate p gate (pair_state b k f w1 w2 a1 a2)).
Proof.
move=> [h1 [h2 Hg]].
exists (Tensor [:: b ^ 3; b; p]%N (fun i => sumn p (fun P => entry1 b k f w1 a1 (nth 0%N i 1) (nth 0%N i 0) P * h1 P (nth 0%N i 2)))).
exists (Tensor [:: b ^ 3; b; p]%N (fun i => sumn p (fun Q => entry2 b k f w2 a2 (nth 0%N i 1) (nth 0%N i 0) Q * h2 Q (nth 0%N i 2)))).
move=> r s y x Hr Hs Hy Hx; rewrite /two_site_gate /P16_Als.state /=.
transitivity (sumn p (fun P => sumn p (fun Q => sumn b (fun v => entry1 b k f w1 a1 v y P * h1 P r * (entry2 b k f w2 a2 v x Q * h2 Q s))))).
  apply: eq_sumn => P HP; apply: eq_sumn => Q HQ; rewrite Hg // /pair_state sumn_mulr; apply: eq_sumn => v _.
  by rewrite mulrACA.
rewrite (eq_sumn (G := fun P => sumn b (fun v => sumn p (fun Q => entry1 b k f w1 a1 v y P * h1 P r * (entry2 b k f w2 a2 v x Q * h2 Q s))))); last first.
  by move=> P _; rewrite sumnC.
rewrite sumnC; apply: eq_sumn => v _; rewrite sumn_mulr; apply: eq_sumn => P _.
by rewrite sumn_mull.
Qed.
End Bond.

(** ** Every finite periodic lattice of unit cells *)
Section Torus.
Variables (a c nx ny : nat).
Hypotheses (a0 : (0 < a)%N) (c0 : (0 < c)%N) (nx0 : (0 < nx)%N) (ny0 : (0 < ny)%N).
Definition torus : finType := [finType of 'I_(a * nx) * 'I_(c * ny)].
Definition tsite (t : torus) : site := (nat_of_ord t.1, nat_of_ord t.2).
Definition tnbr (k : nat) (t : torus) : torus :=
  let s := nbr (a * nx) (c * ny) k (tsite t) in (insubd t.1 s.1, insubd t.2 s.2).
Definition tcell (t : torus) : site := under nx ny (tsite t).

Lemma tsite_in t : in_cell (a * nx) (c * ny) (tsite t).
Proof. by split; apply/ltP; apply: ltn_ord. Qed.
Lemma tsite_nbr k t : tsite (tnbr k t) = nbr (a * nx) (c * ny) k (tsite t).
Proof.
rewrite /tnbr {1}/tsite /=; have [/ltP H1 /ltP H2] := @nbr_cell _ _ k _ (tsite_in t).
by rewrite !val_insubd H1 H2; case: (nbr _ _ _ _).
Qed.
Lemma tsite_inj : injective tsite.
Proof. by move=> [i j] [i' j'] [E1 E2]; congr pair; apply: ord_inj. Qed.

Lemma torus_covers : covers tnbr nx ny tcell.
Proof using a0 c0 nx0 ny0.
split=> [k t Hk|t|k t Hk].
- by apply: tsite_inj; rewrite !tsite_nbr nbr_inv //; apply: tsite_in.
- by apply: under_in; apply/ltP.
- by rewrite /tcell tsite_nbr under_nbr //; apply/ltP.
Qed.
End Torus.

(** ** Evolutions *)
Section Run.
Variable C : numClosedFieldType.
Notation tensor := (tensor C).
Notation net := (Mover.net tensor).
Variable R : Type.
Variable randn : R -> forall n q : nat, 'M[C]_(n, q) * R.
Variable trand : R -> nat -> nat -> tensor * R.
Variable lqr : qr_fun C.
Variable lsvd : thin_svd_fun C.
Variable fsvd : full_svd_fun C.
Variable leigh : eigh_fun C.
Variable lchol : chol_fun C.
Variable rtol : nat -> nat -> C.
Variables (lcut noise : C).
Variable fuel : nat.
Variable u : setup C.
Notation nx := (u_nx u).
Notation ny := (u_ny u).
Notation b := (u_bond u).
Notation p := (u_phys u).
Notation state := (Session.state C R).
Hypothesis Sq : qr_spec lqr.
Hypothesis Ss : thin_svd_spec lsvd.
Hypothesis Sf : full_svd_spec fsvd.
Hypothesis l0 : 0 < lcut.
Hypotheses (nx1 : (1 < nx)%N) (ny1 : (1 < ny)%N) (b0 : (0 < b)%N) (p0 : (0 < p)%N).

(** the lattice the state is looked at on *)
Variable T : finType.
Variables (nb : nat -> T -> T) (cell : T -> site).
Hypothesis cov : covers nb nx ny cell.

Definition sites (n : net) : site -> tensor := fun s => n s SA.
(** the amplitudes of the state a network describes *)
Definition amplitude (n : net) : (T -> nat) -> C := psi nb b (sites n \o cell).
(** the gates of one bond at all its copies, and of a list of bonds *)
Definition act_bond (g : gates C) (x : bond) (f : (T -> nat) -> C) : (T -> nat) -> C :=
  act_copies nb cell p (kernel p (g_two g x) (one_of g x)) (b_k x) (b_s1 x) f.
Definition act_bonds (g : gates C) (bl : seq bond) (f : (T -> nat) -> C) : (T -> nat) -> C :=
  foldl (fun f x => act_bond g x f) f bl.

(** before the update of a bond: no weight below the cutoff matters, and b bond
    states suffice for what the gate makes of the pair *)
Definition weights_fine (g : gates C) (x : bond) (nw : net * lam tensor) : Prop := forall w1 w2,
  all_weights nw.2 (b_s1 x) = Ok w1 -> all_weights nw.2 (b_s2 x) = Ok w2 ->
  harmless lcut b (b_k x) w1 (nw.1 (b_s1 x) SA) /\ harmless lcut b ((b_k x + 2) %% 4) w2 (nw.1 (b_s2 x) SA).
Definition lossless (g : gates C) (x : bond) (nw : net * lam tensor) : Prop := weights_fine g x nw /\ forall w1 w2,
  all_weights nw.2 (b_s1 x) = Ok w1 -> all_weights nw.2 (b_s2 x) = Ok w2 ->
  within b p (two_site_gate p (g_two g x) (pair_state b (b_k x) id w1 w2 (nw.1 (b_s1 x) SA) (nw.1 (b_s2 x) SA))).

(** a condition holds before every update of a list of bonds *)
Fixpoint along (P : gates C -> bond -> net * lam tensor -> Prop) (g : gates C) (bl : seq bond) (nw : net * lam tensor) : Prop :=
  match bl with
  | [::] => True
  | x :: bl => P g x nw /\ forall nw', simple_step lqr fsvd lcut g x nw = Ok nw' -> along P g bl nw'
  end.

Notation ones := (ones_vec u).
Definition tidy (bl : seq bond) (nw : net * lam tensor) : Prop :=
  (forall s, in_cell nx ny s -> shape (nw.1 s SA) = [:: b; b; b; b; p]) /\
  exists2 h, nw.2 = run_sets tensor h (new_lambda tensor ones bl) & vectors u h /\
    forall e, List.In e h -> (forall i, (i < b)%N -> 0 <= at_ e.2 [:: i]) /\ sumn b (fun i => at_ e.2 [:: i] ^+ 4) = 1.

(** C83.  One step: a simple update of one bond *)
Theorem C83_step g x nw bl nw' : gates_ok u g -> Permutation bl (build_bond_list nx ny) -> List.In x bl -> tidy bl nw ->
  simple_step lqr fsvd lcut g x nw = Ok nw' ->
  tidy bl nw' /\ (lossless g x nw ->
    exists2 d, 0 < d & forall s, config p s -> amplitude nw'.1 s = d * act_bond g x (amplitude nw.1) s).
Proof using Sq Sf l0 nx1 ny1 b0 p0 cov.
case: nw => n w Hg HP Hx [Hf [h Ew [Hh Hn]]] E.
have [s [k [Hs Hk Ex]]] := bond_in HP Hx.
have Sg : shape (g_two g x) = [:: p; p; p; p] by apply: (proj1 Hg); apply: Permutation_in HP Hx.
have Hs2 : in_cell nx ny (nbr nx ny k s) by apply: nbr_cell.
have N : nbr nx ny k s <> s by apply: nbr_other => //; apply/ltP.
rewrite /= in Ew; subst x w; move: E; rewrite /simple_step [(n, _).1]/= [(n, _).2]/= [b_s1 _]/= [b_s2 _]/= [b_k _]/=.
have [w1 E1 W1] := weights_ok HP Hs Hh; have [w2 E2 W2] := weights_ok HP Hs2 Hh.
rewrite E1 E2 [bind (Ok w1) _]/bind [bind (Ok w2) _]/bind.
have SA1 := Hf s Hs; have SA2 := Hf _ Hs2; rewrite [(n, _).1]/= in SA1 SA2.
have M1 : matching (fun _ => b) p w1 (n s SA) by [].
have M2 : matching (fun _ => b) p w2 (n (nbr nx ny k s) SA) by [].
have So := one_fits k Hg Hs.
have [t [_ H]] := C65_simple_update Sq Sf Hk p0 l0 M1 M2 Sg So.
case: H => [[_ ->] //|[a1 [a2 [lam [c' [Eu [S1 S2 Sl] _ _ [Pl _ Nl]]]]]]]; rewrite Eu /= => -[<-] /=; split.
  split=> /=.
    move=> y Hy; rewrite /write_pair /upd /=.
    by case: site_eq_dec => ? /=; rewrite ?S2 //; case: site_eq_dec => ? /=; rewrite ?S1 //; apply: Hf.
  exists (cat h [:: (Bond s (nbr nx ny k s) k, lam)]); first by rewrite /run_sets List.fold_left_app.
  by split=> e He; case: (List.in_app_or _ _ _ He) => [|[<-|[]]] //; [apply: Hh|apply: Hn].
move=> [/(_ w1 w2 E1 E2) [/= H1 H2] /(_ w1 w2 E1 E2) /= Hw].
have [d d0 Hd] := update_joined Sq Sf l0 Hk p0 M1 M2 Sg So H1 H2 Hw Eu.
exists (d ^+ size (copies cell s)); first by rewrite exprn_gt0.
have [K _ _] := cov.
set n' := write_pair _ _ _ _.
have Ea : sites n' s = a1.
  by rewrite /sites /n' /write_pair /upd /=; case: site_eq_dec => [E|_]; [case: N|case: site_eq_dec].
have Eb : sites n' (nbr nx ny k s) = a2 by rewrite /sites /n' /write_pair /upd /=; case: site_eq_dec.
apply: (psi_bond K cov Hk b0 Hs N) => [r q y x Hr Hq Hy Hx'|y N1 N2]; first by rewrite Ea Eb Hd.
by rewrite /sites /n' /write_pair /upd /=; case: site_eq_dec => [E|_]; [case: N2|case: site_eq_dec].
Qed.

Lemma act_bond_ext g x f f' : (forall s, config p s -> f s = f' s) -> forall s, config p s -> act_bond g x f s = act_bond g x f' s.
Proof. exact: act_list_ext. Qed.
Lemma act_bonds_ext g bl f f' d : (forall s, config p s -> f s = d * f' s) -> forall s, config p s -> act_bonds g bl f s = d * act_bonds g bl f' s.
Proof.
elim: bl f f' => [|x bl IH] f f' H s Hs //=; first exact: H.
apply: IH => // s' Hs'; rewrite (act_bond_ext g x H Hs'); exact: act_list_scale.
Qed.

Lemma runE g bl l nw nw' : gates_ok u g -> Permutation bl (build_bond_list nx ny) -> (forall x, List.In x l -> List.In x bl) -> tidy bl nw ->
  along lossless g l nw ->
  run_updates bond (option (res (net * lam tensor))) unit (guard (fun x y => Some (simple_step lqr fsvd lcut g x y))) (Some (Ok nw)) l = Some (Ok nw') ->
  exists2 d, 0 < d & forall s, config p s -> amplitude nw'.1 s = d * act_bonds g l (amplitude nw.1) s.
Proof using Sq Sf l0 nx1 ny1 b0 p0 cov.
move=> Hg HP; elim: l nw => [|x l IH] nw Hl Ht /=.
  by move=> _ [<-]; exists 1; [apply: ltr01|move=> s _; rewrite mul1r].
move=> [L1 L2] E; case E1: (simple_step lqr fsvd lcut g x nw) => [nw1|e]; last first.
  by exfalso; move: E; rewrite /run_updates /= E1; elim: l {IH Hl L2} => //= y l IH.
have [Ht1 H1] := C83_step Hg HP (Hl x (or_introl erefl)) Ht E1.
have [d1 d10 Hd1] := H1 L1.
have {IH} [|d d0 Hd] := IH nw1 (fun y Hy => Hl y (or_intror Hy)) Ht1 (L2 _ E1); first by move: E; rewrite /run_updates /= E1.
exists (d * d1); first exact: mulr_gt0.
move=> s Hs; rewrite Hd // -mulrA; congr (_ * _).
exact: act_bonds_ext Hd1 _ Hs.
Qed.

(** only the site tensors of a network matter to simple updates *)
Definition alike (n n' : net) : Prop := forall x, n x SA = n' x SA.
Lemma step_alike g x n n' w : alike n n' ->
  match simple_step lqr fsvd lcut g x (n, w), simple_step lqr fsvd lcut g x (n', w) with
  | Ok nw, Ok nw' => alike nw.1 nw'.1 /\ nw.2 = nw'.2
  | Err e, Err e' => e = e'
  | _, _ => False
  end.
Proof.
move=> H; rewrite /simple_step /= !H; case: (all_weights _ (b_s1 x)) => [w1|e] //=; case: (all_weights _ (b_s2 x)) => [w2|e] //=.
case: simple_bond_update => [[[a1 a2] la]|e] //=; split=> // y; rewrite /write_pair /upd.
by case: site_eq_dec => // ?; case: site_eq_dec => //= ?; rewrite H.
Qed.
Lemma along_alike g l n n' w : alike n n' -> along lossless g l (n, w) -> along lossless g l (n', w).
Proof.
elim: l n n' w => [|x l IH] n n' w H //= [[L1 L2] L3]; split.
  split=> w1 w2 E1 E2; have := L1 w1 w2 E1 E2; have := L2 w1 w2 E1 E2; rewrite /= !H //.
move=> [m' v'] E; have := step_alike g x w H; rewrite E; case E1: simple_step => [[m v]|] //= [A B].
by subst v'; apply: IH A _; apply: L3.
Qed.
Lemma amplitude_alike n n' s : alike n n' -> amplitude n s = amplitude n' s.
Proof. by move=> H; apply: psi_ext => // t; rewrite /= /sites H. Qed.

Notation renormalize := (Session.renormalize randn lqr lsvd fsvd u).
Notation evolve := (Session.evolve randn trand lqr lsvd fsvd leigh lchol rtol lcut noise fuel u).
Lemma renorm_alike (s s' : state) : renormalize s = Ok s' -> alike (s_net s') (s_net s) /\ s_bonds s' = s_bonds s.
Proof.
rewrite /Session.renormalize; case E: run_ctmrg => [[n r]|] //= [<-] /=; split=> // x.
exact: (P32_Basis.renorm_keeps E x).
Qed.

(** C83.  An evolution by simple updates that lose nothing multiplies the amplitudes
    of the whole state, on every finite periodic lattice that covers the unit cell,
    by the gates of the schedule, one bond after the other at all its copies, up to
    a positive factor. *)
Theorem C83_evolve st g steps (s s' : state) : u_type u = "simple" -> s_init s = true -> gates_ok u g ->
  Permutation (s_bonds s) (build_bond_list nx ny) ->
  (forall x, in_cell nx ny x -> shape (s_net s x SA) = [:: b; b; b; b; p]) ->
  along lossless g (schedule bond (s_bonds s) steps) (s_net s, new_lambda tensor ones (s_bonds s)) ->
  evolve st g steps s = Some (Ok s') ->
  exists2 d, 0 < d & forall f, config p f ->
    amplitude (s_net s') f = d * act_bonds g (schedule bond (s_bonds s) steps) (amplitude (s_net s)) f.
Proof using Sq Sf l0 nx1 ny1 b0 p0 cov.
move=> Et Ei Hg HP Hf Hl; rewrite /Session.evolve Ei /=; case E1: Session.renormalize => [s1|] //=.
have [A1 B1] := renorm_alike E1.
rewrite /evolve_tensors Et /= /evolve_run evolve_state evolve_bonds B1.
case E2: (run_updates _ _ _ _ _ _) => [[[n2 w2]|]|] //= [E3]; have [A3 B3] := renorm_alike E3.
have A1' : alike (s_net s) (s_net s1) by move=> x; rewrite A1.
have [|d d0 Hd] := runE Hg HP (fun x => @in_sched x _ _) _ (along_alike A1' Hl) E2.
  by split=> [x Hx|] /=; [rewrite A1; apply: Hf|exists [::] => //; split].
exists d => // f Hc; rewrite (amplitude_alike f A3) Hd // -[in RHS](mul1r (act_bonds _ _ _ _)) mul1r.
have := @act_bonds_ext g (schedule bond (s_bonds s) steps) (amplitude (s_net s1)) (amplitude (s_net s)) 1 _ f Hc.
by rewrite mul1r => -> // f' _; rewrite mul1r; apply: amplitude_alike.
Qed.

Definition product_gates (g : gates C) : Prop := forall x, List.In x (build_bond_list nx ny) -> product_gate p (g_two g x).
Lemma product_along g l bl nw : product_gates g -> Permutation bl (build_bond_list nx ny) -> (forall x, List.In x l -> List.In x bl) ->
  along weights_fine g l nw -> along lossless g l nw.
Proof.
move=> Hg HP; elim: l nw => [|x l IH] nw Hl //= [H1 H2]; split; last by move=> nw' /H2; apply: IH => y Hy; apply: Hl; right.
split=> // w1 w2 _ _; apply: product_within; apply: Hg; apply: Permutation_in HP _; apply: Hl; by left.
Qed.

(** gates that act on the two sites separately lose nothing, whatever the bond
    dimension, as long as no weight is cut *)
Corollary C83_product st g steps (s s' : state) : u_type u = "simple" -> s_init s = true -> gates_ok u g -> product_gates g ->
  Permutation (s_bonds s) (build_bond_list nx ny) ->
  (forall x, in_cell nx ny x -> shape (s_net s x SA) = [:: b; b; b; b; p]) ->
  along weights_fine g (schedule bond (s_bonds s) steps) (s_net s, new_lambda tensor ones (s_bonds s)) ->
  evolve st g steps s = Some (Ok s') ->
  exists2 d, 0 < d & forall f, config p f ->
    amplitude (s_net s') f = d * act_bonds g (schedule bond (s_bonds s) steps) (amplitude (s_net s)) f.
Proof using Sq Sf l0 nx1 ny1 b0 p0 cov.
move=> Et Ei Hg Hp HP Hf Hl; apply: C83_evolve => //.
by apply: product_along Hp HP _ Hl => x; apply: in_sched.
Qed.

(** with bond dimension 1 all weights are 1 *)
Lemma one_along g l bl nw : b = 1%N -> lcut <= 1 -> gates_ok u g -> Permutation bl (build_bond_list nx ny) -> (forall x, List.In x l -> List.In x bl) ->
  tidy bl nw -> along weights_fine g l nw.
Proof using Sq Sf l0 nx1 ny1 b0 p0 cov.
move=> b1 l1 Hg HP; elim: l nw => [|x l IH] nw Hl Ht //=; split; last first.
  move=> nw' E; apply: IH; first by move=> y Hy; apply: Hl; right.
  by have [] := C83_step Hg HP (Hl x (or_introl erefl)) Ht E.
have [s [k [Hs Hk Ex]]] := bond_in HP (Hl x (or_introl erefl)).
have Hs2 : in_cell nx ny (nbr nx ny k s) by apply: nbr_cell.
have [_ [h Ew [Hh Hn]]] := Ht.
have G y : at_ (weight_of tensor ones h y) [:: 0%N] = 1.
  rewrite /weight_of; case E: (last_set _ h y) => [v|] //.
  elim: h {Hh Ew} Hn E => [|[z w] h IHh] Hn //=; case E: (last_set _ h y) => [v'|].
    by move=> Ev; apply: IHh; [move=> e He; apply: Hn; right|rewrite E].
  case: bond_eq_dec => // _ [<-]; have [] := Hn (z, w) (or_introl erefl); rewrite b1 /= => /(_ 0%N isT) P0.
  by rewrite /sumn big_ord1 => /eqP; rewrite pexpr_eq1 // => /eqP.
have W y w d : in_cell nx ny y -> (d < 4)%N -> all_weights (run_sets tensor h (new_lambda tensor ones bl)) y = Ok w -> at_ (w d) [:: 0%N] = 1.
  move=> Hy Hd.
  have L e : (e < 4)%N -> exists2 v, get_weight tensor (run_sets tensor h (new_lambda tensor ones bl)) y e = Ok v & at_ v [:: 0%N] = 1.
    move=> /ltP He; have [z [_ [_ [_ E]]]] := @C52_lookup tensor ones nx ny bl h y e HP Hy He.
    by exists (weight_of tensor ones h z).
  have [v0 E0 H0] := L 0%N isT; have [v1 E1 H1] := L 1%N isT; have [v2 E2 H2] := L 2%N isT; have [v3 E3 H3] := L 3%N isT.
  by rewrite /all_weights E0 /= E1 /= E2 /= E3 /= => -[<-]; case: d Hd => [|[|[|[|]]]].
move=> w1 w2; rewrite Ew Ex /= => E1 E2; split=> d i Hd _; rewrite b1 ltnS leqn0 => /eqP ->; left.
  by rewrite (W _ _ _ Hs Hd E1).
by rewrite (W _ _ _ Hs2 Hd E2).
Qed.

Corollary C83_bond_one st g steps (s s' : state) : b = 1%N -> lcut <= 1 -> u_type u = "simple" -> s_init s = true -> gates_ok u g -> product_gates g ->
  Permutation (s_bonds s) (build_bond_list nx ny) ->
  (forall x, in_cell nx ny x -> shape (s_net s x SA) = [:: b; b; b; b; p]) ->
  evolve st g steps s = Some (Ok s') ->
  exists2 d, 0 < d & forall f, config p f ->
    amplitude (s_net s') f = d * act_bonds g (schedule bond (s_bonds s) steps) (amplitude (s_net s)) f.
Proof using Sq Sf l0 nx1 ny1 b0 p0 cov.
move=> b1 l1 Et Ei Hg Hp HP Hf; apply: C83_product => //.
apply: (one_along b1 l1 Hg HP (fun x => @in_sched x _ _)).
by split=> //; exists [::] => //; split.
Qed.
End Run.

(** ** Concrete cases *)
Section Examples.
Variable C : numClosedFieldType.
Notation tensor := (tensor C).
Notation u1 := (plain_setup C 1 "simple").
Notation u2 := (plain_setup C 2 "simple").
Notation session := (@Session.session C unit (fun r _ _ => (0, r)) (@zeros_rand C) (@some_qr C) (@some_thin_svd C) (@some_full_svd C) (@some_eigh C) (@some_chol C) (fun _ _ => 0) 1 0 1 (fun _ => Tensor [::] (fun _ => 0))).
Notation evolve := (@Session.evolve C unit (fun r _ _ => (0, r)) (@zeros_rand C) (@some_qr C) (@some_thin_svd C) (@some_full_svd C) (@some_eigh C) (@some_chol C) (fun _ _ => 0) 1 0 1).
Notation construct := (@Session.construct C unit (@zeros_rand C) 0).

(** a session whose second evolution acts, on every lattice of unit cells, by the
    gates of its schedule *)
Example C83_session : exists2 s, construct u1 (@blank C) tt 3 = Ok s & exists s1 s2,
  [/\ session u1 [:: kick C 1] s = Some (Ok (s1, [::])), evolve u1 (fun _ => [:: 1; 0]) (shears C) 2 s1 = Some (Ok s2) &
   forall a c, (0 < a)%N -> (0 < c)%N -> exists2 d, 0 < d & forall f, config 2 f ->
     amplitude u1 (tnbr (nx := 2) (ny := 2)) (tcell (a := a) (c := c) (nx := 2) (ny := 2)) (s_net s2) f =
     d * act_bonds u1 (tnbr (nx := 2) (ny := 2)) (tcell (nx := 2) (ny := 2)) (shears C) (schedule bond (s_bonds s1) 2)
           (amplitude u1 (tnbr (nx := 2) (ny := 2)) (tcell (nx := 2) (ny := 2)) (s_net s1)) f].
Proof.
have [|s Es [s2 [o2 E2]]] := @common_runs C [:: kick C 1; kick C 2]; first by apply: listed; repeat (constructor; try by constructor).
exists s => //.
move: E2; rewrite (C78_compose _ _ _ _ _ _ _ _ _ _ _ _ _ [:: kick C 1]); case E1: (session u1 [:: kick C 1] s) => [[[s1 o1]|]|] //.
rewrite [session u1 [:: kick C 2] s1]/=; case E2: (evolve u1 _ _ _ s1) => [[s3|]|] //= _.
have O1 : o1 = [::].
  by move: E1; rewrite /=; case: (Session.evolve _ _ _ _ _ _ _ _ _ _ _ _ _ _ _ _) => [[s4|]|] //= [_ <-].
exists s1, s3; split=> //; first by rewrite -O1.
have I1 : s_init s1.
  move: E1; rewrite /=; case Ev: (Session.evolve _ _ _ _ _ _ _ _ _ _ _ _ _ _ _ _) => [[s4|]|] //= [<- _].
  by have [_ ->] := evolve_chi Ev.
have [Hf HP] : (forall x, in_cell 2 2 x -> shape (s_net s1 x SA) = [:: 1; 1; 1; 1; 2]%N) /\ Permutation (s_bonds s1) (build_bond_list 2 2).
  have [|] := @C74_construct C unit (@zeros_rand C) 0 u1 _ isT isT (@blank C) tt 3 (fun _ _ => Order.POrderTheory.lexx 0) (Order.POrderTheory.lexx 0) isT; first by [].
  move=> s0 []; rewrite Es => -[Es0]; subst s0 => Hs _ _.
  have tot m (A : 'M[C]_m) : @some_eigh C m A by [].
  have Hm : als_method (u_evo u1) = "cholesky" \/ als_method (u_evo u1) = "pinv" by right.
  have Ht : u_type u1 = "full" \/ u_type u1 = "simple" by right.
  have Srand r : shape (@zeros_rand C r (u_bond u1) (u_phys u1)).1 = [:: 1; 1; 1; 1; 2]%N by [].
  have Hk x : List.In x [:: kick C 1] -> call_ok u1 3 x by case=> [<-|[]]; split=> //; split.
  have := @C74_session C unit (fun r _ _ => (0, r)) (@zeros_rand C) _ _ _ _ (@some_chol C) (fun _ _ => 0) 1 0 0 (fun _ => Tensor [::] (fun _ => 0)) u1
    (@some_qr_spec C) (@some_thin_svd_spec C) (@some_full_svd_spec C) (@some_eigh_spec C) tot Srand Hm Ht (Order.POrderTheory.lexx 0) (fun _ => ltr01) ltr01 isT isT isT isT
    3 [:: kick C 1] s Hs isT Hk.
  by rewrite E1 => -[[[chi Hn _] HP _] _ _]; split=> // x Hx; have [-> _] := Hn x Hx.
move=> a c a0 c0.
have Hg : gates_ok u1 (shears C) by split.
have Hp : product_gates u1 (shears C) by move=> x _; exists (@shear C), (@unit2 C).
apply: (C83_bond_one (u := u1) (@some_qr_spec C) (@some_full_svd_spec C) ltr01 isT isT isT isT
  (@torus_covers a c 2 2 a0 c0 isT isT) erefl (Order.POrderTheory.lexx 1) erefl I1 Hg Hp HP Hf E2).
Qed.

(** the GHZ state: its tensors describe the state in which all spins agree *)
Lemma ghz_psi (T : finType) (nb : nat -> T -> T) (f : T -> nat) : paired nb -> config 2 f ->
  psi nb 2 (fun _ => ghz C) f = [forall t, (f t == f (nb 1%N t)) && (f t == f (nb 2%N t))]%:R.
Proof.
move=> K Hf.
have E (m : {ffun T * bool -> 'I_2}) t : entry nb (fun _ => ghz C) m f t = (all (fun k => m (line nb t k) == f t :> nat) [:: 0; 1; 2; 3]%N)%:R.
  by rewrite /entry /=.
have Z (m : {ffun T * bool -> 'I_2}) t k : (k < 4)%N -> m (line nb t k) != f t :> nat -> \prod_t entry nb (fun _ => ghz C) m f t = 0.
  move=> Hk N; rewrite (bigD1 t) //= E; suff -> : all (fun k => m (line nb t k) == f t :> nat) [:: 0; 1; 2; 3]%N = false by rewrite mul0r.
  apply/negP => /allP A; move/negP: N; apply; apply: A; by case: k Hk => [|[|[|[|]]]].
case: forallP => [A|A] /=; last first.
  rewrite /psi big1 // => m _.
  have [t] : exists t, ~~ ((f t == f (nb 1%N t)) && (f t == f (nb 2%N t))) by apply/existsP; rewrite -negb_forall; apply/negP => /forallP.
  rewrite negb_and => /orP[] N.
    case: (eqVneq (m (line nb t 1) : nat) (f t)) => [E1|]; last exact: Z.
    by apply: (Z m (nb 1%N t) 3%N) => //; rewrite (line_nb K t (isT : (1 < 4)%N)) E1.
  case: (eqVneq (m (line nb t 2) : nat) (f t)) => [E1|]; last exact: Z.
  by apply: (Z m (nb 2%N t) 0%N) => //; rewrite (line_nb K t (isT : (2 < 4)%N)) E1.
pose m0 : {ffun T * bool -> 'I_2} := [ffun e => inord (f e.1)].
rewrite /psi (bigD1 m0) //= [X in _ + X]big1 => [|m N].
  rewrite addr0 big1 // => t _; rewrite E.
  suff -> : all (fun k => m0 (line nb t k) == f t :> nat) [:: 0; 1; 2; 3]%N by [].
  have B1 : f (nb 3%N t) = f t by have /andP[/eqP -> _] := A (nb 3%N t); rewrite (K 3%N t isT).
  have B2 : f (nb 0%N t) = f t by have /andP[_ /eqP ->] := A (nb 0%N t); rewrite (K 0%N t isT).
  by rewrite /= !ffunE /= !inordK ?Hf // B1 B2 eqxx.
have [[t v] Nt] : exists e, m e != m0 e by apply/existsP; rewrite -negb_forall; apply: contra N => /forallP H; apply/eqP/ffunP => e; apply/eqP.
have M : m (t, v) != f t :> nat by apply: contra Nt => /eqP Em; apply/eqP/val_inj; rewrite /= Em ffunE inordK.
by case: v M {Nt} => M; [apply: (Z m t 1%N)|apply: (Z m t 2%N)].
Qed.

(** controlled not: flips the second spin if the first is down.  It is no product
    of two one-site gates, yet two bond states suffice *)
Definition cnot : tensor := Tensor [:: 2; 2; 2; 2]%N (fun i =>
  ((nth 0%N i 0 == nth 0%N i 2) && (nth 0%N i 3 == (if nth 0%N i 0 == 0%N then nth 0%N i 1 else 1 - nth 0%N i 1)%N))%:R).
Definition cnots : gates C := Gates (fun _ => cnot) None.
Definition bond0 : bond := Bond (0, 0)%N (1, 0)%N 2.

Lemma cnot_entangles : ~ product_gate 2 cnot.
Proof.
move=> [h1 [h2 H]].
have Ha := H 0%N 0%N 0%N 0%N isT isT isT isT; have Hb := H 1%N 0%N 1%N 1%N isT isT isT isT; have Hc := H 1%N 0%N 1%N 0%N isT isT isT isT.
rewrite /= in Ha Hb Hc; move/eqP: Hc; rewrite eq_sym mulf_eq0 => /orP[] /eqP Z.
  by move/eqP: Hb; rewrite Z mul0r oner_eq0.
by move/eqP: Ha; rewrite Z mulr0 oner_eq0.
Qed.

Lemma fresh_weights x w : in_cell 2 2 x -> all_weights (new_lambda tensor (ones_vec u2) (build_bond_list 2 2)) x = Ok w -> forall d, (d < 4)%N -> w d = ones_vec u2.
Proof.
move=> Hx.
have L d : (d < 4)%N -> get_weight tensor (new_lambda tensor (ones_vec u2) (build_bond_list 2 2)) x d = Ok (ones_vec u2).
  move=> /ltP Hd; have [y [_ [_ [_ E]]]] := @C52_lookup tensor (ones_vec u2) 2 2 (build_bond_list 2 2) [::] x d (Permutation_refl _) Hx Hd.
  by rewrite -[new_lambda _ _ _]/(run_sets tensor [::] (new_lambda tensor (ones_vec u2) (build_bond_list 2 2))) E.
by rewrite /all_weights !L //= => -[<-]; case=> [|[|[|[|]]]].
Qed.

Let agree v (y P : nat) : C := ((y == 7 * v)%N && (P == v))%:R.
Lemma ghz_goal w1 w2 r s y x : (forall d, (d < 4)%N -> w1 d = ones_vec u2) -> (forall d, (d < 4)%N -> w2 d = ones_vec u2) ->
  (r < 2)%N -> (s < 2)%N -> (y < 8)%N -> (x < 8)%N ->
  two_site_gate 2 cnot (pair_state 2 2 id w1 w2 (ghz C) (ghz C)) r s y x = sumn 2 (fun v => agree v y r * ((x == 7 * v)%N && (s == 0%N))%:R).
Proof.
move=> W1 W2 Hr Hs Hy Hx.
have P1 v z P : (v < 2)%N -> (z < 8)%N -> (P < 2)%N -> entry1 2 2 id w1 (ghz C) v z P = agree v z P.
  move=> Hv Hz HP; rewrite /entry1 /wprod big1 => [|d _]; last by rewrite W1.
  rewrite mul1r /agree; congr (nat_of_bool _)%:R.
  by case: P HP => [|[|]] // _; case: v Hv => [|[|]] // _; case: z Hz => [|[|[|[|[|[|[|[|]]]]]]]].
have P2 v z P : (v < 2)%N -> (z < 8)%N -> (P < 2)%N -> entry2 2 2 id w2 (ghz C) v z P = agree v z P.
  move=> Hv Hz HP; rewrite /entry2 /wprod big1 => [|d _]; last by rewrite W2.
  rewrite mul1r /agree; congr (nat_of_bool _)%:R.
  by case: P HP => [|[|]] // _; case: v Hv => [|[|]] // _; case: z Hz => [|[|[|[|[|[|[|[|]]]]]]]].
rewrite /two_site_gate /pair_state /sumn !big_ord_recl !big_ord0 !addr0 !P1 ?P2 //= /agree.
rewrite !(andbF, andbT, mulr0, mul0r, addr0, add0r).
by case: r Hr => [|[|]] // _; case: s Hs => [|[|]] // _; rewrite /= !(andbF, andbT, mulr0, mul0r, addr0, add0r, mulr1).
Qed.

Example C83_ghz : exists nw', simple_step (@some_qr C) (@some_full_svd C) 1 cnots bond0 (ghz_net C, new_lambda tensor (ones_vec u2) (build_bond_list 2 2)) = Ok nw' /\
  forall a c, (0 < a)%N -> (0 < c)%N -> exists2 d, 0 < d & forall f, config 2 f ->
     amplitude u2 (tnbr (nx := 2) (ny := 2)) (tcell (a := a) (c := c) (nx := 2) (ny := 2)) nw'.1 f =
     d * act_bond u2 (tnbr (nx := 2) (ny := 2)) (tcell (nx := 2) (ny := 2)) cnots bond0
       (fun f => [forall t, (f t == f (tnbr (nx := 2) (ny := 2) 1 t)) && (f t == f (tnbr (nx := 2) (ny := 2) 2 t))]%:R) f.
Proof.
have H0 : in_cell 2 2 (0, 0)%N by split; apply/ltP.
have H1 : in_cell 2 2 (1, 0)%N by split; apply/ltP.
have V0 : vectors u2 [::] by [].
have Hg : gates_ok u2 cnots by split.
have [w1 E1 S1] := weights_ok (u := u2) (Permutation_refl (build_bond_list 2 2)) H0 V0.
have [w2 E2 S2] := weights_ok (u := u2) (Permutation_refl (build_bond_list 2 2)) H1 V0.
have W1 := fresh_weights H0 E1; have W2 := fresh_weights H1 E2.
pose b1 : tensor := Tensor [:: 8; 2; 2]%N (fun i => agree (nth 0%N i 1) (nth 0%N i 0) (nth 0%N i 2)).
pose b2 : tensor := Tensor [:: 8; 2; 2]%N (fun i => ((nth 0%N i 0 == 7 * nth 0%N i 1)%N && (nth 0%N i 2 == 0%N))%:R).
have Eg P Q y x : (P < 2)%N -> (Q < 2)%N -> (y < 8)%N -> (x < 8)%N ->
    two_site_gate 2 cnot (pair_state 2 2 id w1 w2 (ghz C) (ghz C)) P Q y x = P16_Als.state 2 b1 b2 P Q y x by move=> *; rewrite ghz_goal.
have M1 : matching (fun _ => 2%N) 2 w1 (ghz C) by [].
have M2 : matching (fun _ => 2%N) 2 w2 (ghz C) by [].
have Nz : size2 (2 ^ 3) 2 (two_site_gate 2 cnot (pair_state 2 2 id w1 w2 (ghz C) (ghz C))) != 0.
  apply/eqP => Z; have H : size2 8 2 (two_site_gate 2 cnot (pair_state 2 2 id w1 w2 (ghz C) (ghz C))) <= 0 by rewrite Z.
  have := size2_eq0 H (r := 0%N) (s := 0%N) (y := 0%N) (x := 0%N) isT isT isT isT; rewrite ghz_goal // /sumn !big_ord_recl big_ord0 /agree /=.
  by rewrite mulr1 mul0r !addr0 => /eqP; rewrite oner_eq0.
have [a1 [a2 [la [d [E _ _ _]]]]] := C65_exact (one := None) (@some_qr_spec C) (@some_full_svd_spec C) (isT : (2 < 4)%N) (isT : (0 < 2)%N) ltr01 M1 M2
  (erefl : shape cnot = [:: 2; 2; 2; 2]%N) I Eg Nz.
have Es : simple_step (@some_qr C) (@some_full_svd C) 1 cnots bond0 (ghz_net C, new_lambda tensor (ones_vec u2) (build_bond_list 2 2)) =
    Ok (write_pair bond0 a1 a2 (ghz_net C), set_weight _ bond0 la (new_lambda tensor (ones_vec u2) (build_bond_list 2 2))).
  rewrite /simple_step [(_, _).2]/= [b_s1 bond0]/= [b_s2 bond0]/= E1 E2 /=.
  by rewrite E.
eexists; split; first exact: Es.
move=> a c a0 c0.
have cov := @torus_covers a c 2 2 a0 c0 isT isT; have [K _ _] := cov.
have Ht : tidy u2 (build_bond_list 2 2) (ghz_net C, new_lambda tensor (ones_vec u2) (build_bond_list 2 2)).
  by split=> //; exists [::] => //; split.
have Hb : List.In bond0 (build_bond_list 2 2) by left.
have [_ []] := C83_step (u := u2) (@some_qr_spec C) (@some_full_svd_spec C) ltr01 isT isT isT isT cov Hg (Permutation_refl _) Hb Ht Es.
  have Hh w e : (forall d, (d < 4)%N -> w d = ones_vec u2) -> harmless 1 2 e w (ghz C) by move=> W q i Hq _ _; left; rewrite W.
  split=> v1 v2 /= F1 F2; rewrite /bond0 /= in F1 F2; have Z1 := fresh_weights H0 F1; have Z2 := fresh_weights H1 F2.
    by split; apply: Hh.
  by exists b1, b2 => P Q y x *; rewrite ghz_goal.
move=> q q0 Hq; exists q => // f Hf; rewrite Hq //; congr (_ * _).
apply: act_bond_ext => // h Hh; rewrite -ghz_psi //.
Qed.
End Examples.

Print Assumptions C83_step.
Print Assumptions C83_evolve.
Print Assumptions C83_product.
Print Assumptions C83_bond_one.
Print Assumptions torus_covers.
Print Assumptions C83_session.
Print Assumptions C83_ghz.
