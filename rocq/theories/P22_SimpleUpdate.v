(** C65: a simple update of a bond, from the site tensors and weights to the new
    site tensors and the new weight (acetn/evolution/simple_update.py). *)
From Coq Require Import String Ascii.
From mathcomp Require Import all_ssreflect all_algebra.
From Verif Require Import Base Lattice Mover Tensor TN Rdm RdmFacts FullUpdate Linalg Mat Rsvd RsvdFacts Renorm RenormFacts Spectral ProjFacts Psd Als AlsFacts EighChol UpdFacts P09_Rdm P16_Als P17_Reduced Eckart P20_Simple.
Set Implicit Arguments.
Unset Strict Implicit.
Unset Printing Implicit Defensive.
Import GRing.Theory Num.Theory.
Local Open Scope ring_scope.
Local Open Scope string_scope.

Section Lift.
Variable C : numClosedFieldType.
Notation tensor := (tensor C).
Notation pair := (nat -> nat -> nat -> nat -> C).

(** a pair state on reduced legs seen through two site factors *)
Definition qat b (q : tensor) (y z : nat) : C := at_ q (rcons (unravel [:: b; b; b] y) z).
Definition lift b n (q1 q2 : tensor) (f : pair) : pair := fun P Q y x =>
  sumn n (fun z => sumn n (fun z' => qat b q1 y z * qat b q2 x z' * f P Q z z')).

Definition slice n (f : pair) (P Q : nat) : 'M[C]_n := \matrix_(i, j) f P Q i j.
Definition qmat b n (q : tensor) : 'M[C]_(b ^ 3, n) := \matrix_(i, j) at_ q (rcons (unravel [:: b; b; b] i) j).

Lemma size2_slice n p (f : pair) : size2 n p f = sumn p (fun P => sumn p (fun Q => fro (slice n f P Q))).
Proof.
rewrite /size2 /sumn exchange_big; apply: eq_bigr => P _ /=.
transitivity (\sum_(i < n) \sum_(k < p) \sum_(j < n) `|f P k i j| ^+ 2).
  by apply: eq_bigr => i _; rewrite exchange_big.
rewrite exchange_big; apply: eq_bigr => Q _; rewrite froE.
by apply: eq_bigr => i _; apply: eq_bigr => j _; rewrite mxE.
Qed.

Lemma slice_lift b n q1 q2 f P Q : slice (b ^ 3) (lift b n q1 q2 f) P Q = qmat b n q1 *m slice n f P Q *m (qmat b n q2)^T.
Proof.
apply/matrixP => i j; rewrite !mxE /lift /sumn exchange_big; apply: eq_bigr => z' _ /=.
by rewrite !mxE mulr_suml; apply: eq_bigr => z _; rewrite !mxE mulrAC.
Qed.

Lemma qmat_iso b n q : isometric b n q -> adj (qmat b n q) *m qmat b n q = 1%:M.
Proof.
move=> H; apply/matrixP => i j; rewrite mxE [RHS]mxE -(inj_eq val_inj) -(H _ _ (ltn_ord i) (ltn_ord j)).
pose F (v : seq nat) := (at_ q (rcons v i))^* * at_ q (rcons v j).
transitivity (\sum_(k < b ^ 3) F (unravel [:: b; b; b] k)).
  by apply: eq_bigr => k _; rewrite adjE !mxE.
rewrite -(@sum_unravel C [:: b; b; b]); last by rewrite /= muln1 !expnS expn0 muln1.
by rewrite indices_cons; apply: eq_sumn => i0 _; rewrite indices_cons; apply: eq_sumn => i1 _; rewrite indices_cons; apply: eq_sumn => i2 _; rewrite big_seq1.
Qed.

Lemma isoT m k (Q : 'M[C]_(m, k)) : adj Q *m Q = 1%:M -> Q^T *m adj (Q^T) = 1%:M.
Proof.
move=> H; have := congr1 trmx H; rewrite trmx_mul trmx1 => E; rewrite -[RHS]E; congr (_ *m _).
by apply/matrixP => i j; rewrite !(adjE, mxE).
Qed.

Lemma size2_lift b n p q1 q2 f : isometric b n q1 -> isometric b n q2 -> size2 (b ^ 3) p (lift b n q1 q2 f) = size2 n p f.
Proof.
move=> /qmat_iso I1 /qmat_iso I2; rewrite !size2_slice; apply: eq_sumn => P _; apply: eq_sumn => Q _.
by rewrite slice_lift fro_isor ?fro_isol //; apply: isoT.
Qed.

Lemma size2_sub_lift b n p q1 q2 f t : isometric b n q1 -> isometric b n q2 ->
  size2 (b ^ 3) p (fun r s y x => lift b n q1 q2 f r s y x - lift b n q1 q2 t r s y x) = size2 n p (fun r s y x => f r s y x - t r s y x).
Proof.
move=> I1 I2; rewrite -(size2_lift p _ I1 I2) !size2_slice; apply: eq_sumn => P _; apply: eq_sumn => Q _; congr (fro _).
apply/matrixP => i j; rewrite !mxE /lift -sumrB; apply: eq_bigr => z _; rewrite -sumrB; apply: eq_bigr => z' _.
by rewrite mulrBr.
Qed.

Lemma fro_proj2 m k (A B : 'M[C]_(m, k)) (X : 'M[C]_m) : adj A *m A = 1%:M -> adj B *m B = 1%:M ->
  fro (adj A *m X *m adj (B^T)) <= fro X.
Proof.
move=> IA IB; apply: (@Order.POrderTheory.le_trans _ _ (fro (adj A *m X))); last exact: fro_proj_le.
have fT m' k' (M : 'M[C]_(m', k')) : fro M^T = fro M.
  by rewrite !froE exchange_big; apply: eq_bigr => i _; apply: eq_bigr => j _; rewrite mxE.
rewrite -fT -[X in _ <= X]fT trmx_mul.
have -> : (adj B^T)^T = adj B by apply/matrixP => i j; rewrite !(adjE, mxE).
exact: fro_proj_le.
Qed.

Lemma closest_lift b n D p q1 q2 (f t : pair) : isometric b n q1 -> isometric b n q2 ->
  closest n D p f t -> closest (b ^ 3) D p (lift b n q1 q2 f) (lift b n q1 q2 t).
Proof.
move=> I1 I2 H b1 b2; rewrite size2_sub_lift //.
pose red q (c : tensor) : tensor := Tensor [::] (fun i => \sum_(y < b ^ 3) (at_ q (rcons (unravel [:: b; b; b] y) (nth 0%N i 0)))^* * at_ c [:: (y : nat); nth 0 i 1; nth 0 i 2]%N).
apply: (Order.POrderTheory.le_trans (H (red q1 b1) (red q2 b2))).
rewrite !size2_slice; apply: ler_sum => P _; apply: ler_sum => Q _.
set X := slice (b ^ 3) _ _ _; have J1 := qmat_iso I1; have J2 := qmat_iso I2.
have <- : adj (qmat b n q1) *m X *m adj (qmat b n q2)^T = slice n (fun r s y x => f r s y x - state D (red q1 b1) (red q2 b2) r s y x) P Q.
  have -> : X = qmat b n q1 *m slice n f P Q *m (qmat b n q2)^T - slice (b ^ 3) (state D b1 b2) P Q.
    by rewrite -slice_lift; apply/matrixP => i j; rewrite !mxE.
  rewrite mulmxBr mulmxBl !mulmxA J1 mul1mx -[_ *m _^T *m _]mulmxA isoT // mulmx1.
  apply/matrixP => i j; rewrite !mxE; congr (_ - _).
  rewrite /state /sumn.
  transitivity (\sum_(u < D) \sum_(x < b ^ 3) \sum_(y < b ^ 3) (adj (qmat b n q1) i y * at_ b1 [:: y : nat; u : nat; P : nat]) * (adj (qmat b n q2)^T x j * at_ b2 [:: x : nat; u : nat; Q : nat])).
    transitivity (\sum_(x < b ^ 3) \sum_(u < D) \sum_(y < b ^ 3) (adj (qmat b n q1) i y * at_ b1 [:: y : nat; u : nat; P : nat]) * (adj (qmat b n q2)^T x j * at_ b2 [:: x : nat; u : nat; Q : nat])); last by rewrite exchange_big.
    apply: eq_bigr => x _; rewrite mxE mulr_suml exchange_big; apply: eq_bigr => y _ /=.
    rewrite [slice _ _ _ _ _ _]mxE /state /sumn mulr_sumr mulr_suml; apply: eq_bigr => u _.
    by rewrite mulrA -!mulrA; congr (_ * _); congr (_ * _); rewrite mulrC.
  apply: eq_bigr => u _; rewrite /= mulr_sumr; apply: eq_bigr => x _.
  by rewrite mulr_suml; apply: eq_bigr => y _; rewrite !(adjE, mxE).
exact: fro_proj2.
Qed.
End Lift.

Section C65.
Variable C : numClosedFieldType.
Notation tensor := (tensor C).
Notation pair := (nat -> nat -> nat -> nat -> C).
Variable lqr : qr_fun C.
Variable fsvd : full_svd_fun C.
Hypothesis Sq : qr_spec lqr.
Hypothesis Sf : full_svd_spec fsvd.
Variable lcut : C.

(** index of an entry of the first and of the second site tensor of a bond in
    direction k: v on the bond, the three outer legs from the list o *)
Definition leg1 (k v : nat) (o : seq nat) (P : nat) : seq nat :=
  rcons (rotr k [:: v; nth 0 o 2; nth 0 o 0; nth 0 o 1]%N) P.
Definition leg2 (k v : nat) (o : seq nat) (Q : nat) : seq nat :=
  rcons (rotr k [:: nth 0 o 1; nth 0 o 2; v; nth 0 o 0]%N) Q.

(** entries of the site tensors, the outer legs multiplied with f of their
    weights; y numbers the combinations of the outer legs *)
Definition entry1 b k (f : C -> C) (w : nat -> tensor) (a : tensor) (v y P : nat) : C :=
  let i := leg1 k v (unravel [:: b; b; b] y) P in wprod k w f i * at_ a i.
Definition entry2 b k (f : C -> C) (w : nat -> tensor) (a : tensor) (v x Q : nat) : C :=
  let i := leg2 k v (unravel [:: b; b; b] x) Q in wprod ((k + 2) %% 4) w f i * at_ a i.
(** the state of the two sites: contraction over their bond *)
Definition pair_state b k (f : C -> C) (w1 w2 : nat -> tensor) (a1 a2 : tensor) : pair := fun P Q y x =>
  sumn b (fun v => entry1 b k f w1 a1 v y P * entry2 b k f w2 a2 v x Q).
(** overlaps of the parts of a site tensor that belong to two bond states *)
Definition overlap b p (e : nat -> nat -> nat -> C) (u v : nat) : C :=
  sumn (b ^ 3) (fun y => sumn p (fun P => (e u y P)^* * e v y P)).
(** operators on the physical legs *)
Definition two_site_gate p (gate : tensor) (f : pair) : pair := fun r s y x =>
  sumn p (fun P => sumn p (fun Q => f P Q y x * at_ gate [:: P; Q; r; s])).
Definition one_site_gates p (one : option (tensor * tensor)) (f : pair) : pair :=
  match one with
  | None => f
  | Some (g1, g2) => fun r s y x => sumn p (fun P => sumn p (fun Q => f P Q y x * (at_ g1 [:: P; r] * at_ g2 [:: Q; s])))
  end.

(** the pair of rotated tensors *)
Definition rent1 b (A : tensor) (v y P : nat) : C :=
  let o := unravel [:: b; b; b] y in at_ A [:: v; nth 0 o 2; nth 0 o 0; nth 0 o 1; P]%N.
Definition rent2 b (A : tensor) (v x Q : nat) : C :=
  let o := unravel [:: b; b; b] x in at_ A [:: nth 0 o 1; nth 0 o 2; v; nth 0 o 0; Q]%N.
Definition rot_state b (A1 A2 : tensor) : pair := fun P Q y x => sumn b (fun v => rent1 b A1 v y P * rent2 b A2 v x Q).

Lemma U3 b z : unravel [:: b; b; b] z = [:: nth 0 (unravel [:: b; b; b] z) 0; nth 0 (unravel [:: b; b; b] z) 1; nth 0 (unravel [:: b; b; b] z) 2]%N.
Proof. by []. Qed.

Lemma recomposeE b n p (q1 r1 q2 r2 : tensor) : shape q1 = [:: b; b; b; n] -> shape q2 = [:: b; b; b; n] ->
  shape r1 = [:: n; b; p] -> shape r2 = [:: n; b; p] ->
  exists b1 b2, [/\ recompose_site_tensors q1 r1 q2 r2 = Ok (b1, b2), shape b1 = [:: b; b; b; b; p], shape b2 = [:: b; b; b; b; p],
    forall v y P, rent1 b b1 v y P = sumn n (fun z => qat b q1 y z * at_ r1 [:: z; v; P]) &
    forall v y P, rent2 b b2 v y P = sumn n (fun z => qat b q2 y z * at_ r2 [:: z; v; P])].
Proof.
move=> Q1 Q2 R1 R2; rewrite /recompose_site_tensors.
have [b1 [-> B1 EB1]] : exists t, [/\ einsum "rdux,xlp->lurdp" [:: q1; r1] = Ok t, shape t = [:: b; b; b; b; p] &
    forall l u r d P, at_ t [:: l; u; r; d; P] = sumn n (fun x => at_ q1 [:: r; d; u; x] * at_ r1 [:: x; l; P])].
  by rewrite /einsum /= Q1 R1 /= /dims_ok /= !eqxx /=; eexists; split.
have [b2 [-> B2 EB2]] : exists t, [/\ einsum "dlux,xrp->lurdp" [:: q2; r2] = Ok t, shape t = [:: b; b; b; b; p] &
    forall l u r d P, at_ t [:: l; u; r; d; P] = sumn n (fun x => at_ q2 [:: d; l; u; x] * at_ r2 [:: x; r; P])].
  by rewrite /einsum /= Q2 R2 /= /dims_ok /= !eqxx /=; eexists; split.
exists b1, b2; split=> // v y P; rewrite /rent1 /rent2 ?EB1 ?EB2; apply: eq_sumn => z _; by rewrite /qat U3.
Qed.

Lemma rot_lift b n (q1 r1 q2 r2 X1 X2 : tensor) : 
  (forall v y P, rent1 b X1 v y P = sumn n (fun z => qat b q1 y z * at_ r1 [:: z; v; P])) ->
  (forall v y P, rent2 b X2 v y P = sumn n (fun z => qat b q2 y z * at_ r2 [:: z; v; P])) ->
  forall P Q y x, rot_state b X1 X2 P Q y x = lift b n q1 q2 (state b r1 r2) P Q y x.
Proof.
move=> E1 E2 P Q y x; rewrite /rot_state /lift /state.
transitivity (sumn n (fun z => sumn n (fun z' => sumn b (fun v => qat b q1 y z * qat b q2 x z' * (at_ r1 [:: z; v; P] * at_ r2 [:: z'; v; Q]))))).
  rewrite /sumn; under [RHS]eq_bigr do rewrite exchange_big.
  rewrite exchange_big; apply: eq_bigr => v _ /=; rewrite E1 E2 /sumn mulr_suml; apply: eq_bigr => z _.
  by rewrite mulr_sumr; apply: eq_bigr => z' _; rewrite mulrACA.
by apply: eq_sumn => z _; apply: eq_sumn => z' _; rewrite sumn_mull.
Qed.

Lemma overlap_iso b n p (q r : tensor) (e : nat -> nat -> nat -> C) : isometric b n q ->
  (forall v y P, e v y P = sumn n (fun z => qat b q y z * at_ r [:: z; v; P])) ->
  forall u v, overlap b p e u v = gram n p r u v.
Proof.
move=> /qmat_iso I E u v; rewrite /overlap /gram /sumn exchange_big [RHS]exchange_big; apply: eq_bigr => P _ /=.
pose c w : 'cV[C]_n := \col_z at_ r [:: (z : nat); w; (P : nat)].
have H w (y : 'I_(b ^ 3)) : e w y P = (qmat b n q *m c w) y 0.
  by rewrite E mxE; apply: eq_bigr => z _; rewrite !mxE.
transitivity ((adj (qmat b n q *m c u) *m (qmat b n q *m c v)) 0 0).
  by rewrite mxE; apply: eq_bigr => y _; rewrite adjE !H.
rewrite adjM mulmxA -(mulmxA (adj (c u))) I mulmx1 mxE; apply: eq_bigr => z _; by rewrite adjE !mxE.
Qed.

Lemma unravel3_lt b y : (y < b ^ 3)%N -> exists r d u, unravel [:: b; b; b] y = [:: r; d; u] /\ [/\ (r < b)%N, (d < b)%N & (u < b)%N].
Proof.
move=> Hy; have : in_range [:: b; b; b] (unravel [:: b; b; b] y).
  by apply: unravel_range; rewrite /= muln1; move: Hy; rewrite !expnS expn0 muln1.
case: (unravel _ _) => [|r [|d [|u [|? ?]]]] //=; rewrite ?andbF // => /and4P[? ? ? _]; by exists r, d, u.
Qed.

Lemma rot_state_teq b p (A1 A2 B1 B2 : tensor) P Q y x : shape A1 = [:: b; b; b; b; p] -> shape A2 = [:: b; b; b; b; p] -> teq B1 A1 -> teq B2 A2 ->
  (P < p)%N -> (Q < p)%N -> (y < b ^ 3)%N -> (x < b ^ 3)%N -> rot_state b A1 A2 P Q y x = rot_state b B1 B2 P Q y x.
Proof.
move=> S1 S2 [T1 E1] [T2 E2] HP HQ Hy Hx; rewrite /rot_state /rent1 /rent2.
have [r [d [u [-> [Hr Hd Hu]]]]] := unravel3_lt Hy; have [r' [d' [u' [-> [Hr' Hd' Hu']]]]] := unravel3_lt Hx.
by apply: eq_sumn => v Hv; rewrite /= E1 ?E2 // ?T1 ?T2 ?S1 ?S2 /= ?Hv ?Hr ?Hd ?Hu ?HP ?Hr' ?Hd' ?Hu' ?HQ.
Qed.

Lemma state_congr n p (f g : pair) b q1 q2 : (forall P Q y x, (P < p)%N -> (Q < p)%N -> (y < n)%N -> (x < n)%N -> f P Q y x = g P Q y x) ->
  forall P Q y x, (P < p)%N -> (Q < p)%N -> lift b n q1 q2 f P Q y x = lift b n q1 q2 g P Q y x.
Proof. by move=> E P Q y x HP HQ; apply: eq_sumn => z Hz; apply: eq_sumn => z' Hz'; rewrite E. Qed.

Lemma gate_lift b n p q1 q2 gate f P Q y x :
  two_site_gate p gate (lift b n q1 q2 f) P Q y x = lift b n q1 q2 (two_site_gate p gate f) P Q y x.
Proof.
rewrite /two_site_gate /lift.
transitivity (sumn p (fun P0 => sumn p (fun Q0 => sumn n (fun z => sumn n (fun z' =>
  qat b q1 y z * qat b q2 x z' * (f P0 Q0 z z' * at_ gate [:: P0; Q0; P; Q])))))).
  apply: eq_sumn => P0 _; apply: eq_sumn => Q0 _; rewrite sumn_mulr; apply: eq_sumn => z _.
  by rewrite sumn_mulr; apply: eq_sumn => z' _; rewrite !mulrA.
rewrite /sumn; under eq_bigr do rewrite exchange_big; rewrite exchange_big; apply: eq_bigr => z _ /=.
under eq_bigr do rewrite exchange_big; rewrite exchange_big; apply: eq_bigr => z' _ /=.
by rewrite mulr_sumr; apply: eq_bigr => P0 _; rewrite mulr_sumr; apply: eq_bigr => Q0 _.
Qed.

Lemma permE k (t : tensor) l u r d P : (k < 4)%N -> at_ (bond_permute k t) [:: l; u; r; d; P] = at_ t (rcons (rotr k [:: l; u; r; d]) P).
Proof. by case: k => [|[|[|[|k]]]]. Qed.
Lemma permE' k (t : tensor) l u r d P : (k < 4)%N -> at_ (bond_permute (4 - k) t) (rcons (rotr k [:: l; u; r; d]) P) = at_ t [:: l; u; r; d; P].
Proof. by case: k => [|[|[|[|k]]]]. Qed.
Lemma perm_shape k b p (t : tensor) : shape t = [:: b; b; b; b; p] -> shape (bond_permute k t) = [:: b; b; b; b; p].
Proof.
move=> S; rewrite /bond_permute /permute /= S /=.
have H i : nth 0%N [:: b; b; b; b; p] ((i + k) %% 4) = b.
  by have := ltn_pmod (i + k)%N (isT : (0 < 4)%N); case: (_ %% _)%N => [|[|[|[|?]]]].
by rewrite !H.
Qed.
Lemma rot_legs k l u r d P : legs (rcons (rotr k [:: l; u; r; d]) P).
Proof.
have : size (rotr k [:: l; u; r; d]) = 4%N by rewrite size_rotr.
by case: (rotr _ _) => [|? [|? [|? [|? [|? ?]]]]] //= _; rewrite /legs; do 5!eexists.
Qed.

Definition clamp (x : C) : C := maxC x lcut.
Lemma clamp_neq0 x : 0 < lcut -> clamp x != 0.
Proof.
move=> c0; rewrite /clamp /maxC; case: ifP => H; first by rewrite Order.POrderTheory.gt_eqF.
by apply: contraFneq H => ->; apply: Order.POrderTheory.ltW.
Qed.

Lemma wprod_clamp ex w i : 0 < lcut -> wprod ex w clamp i * wprod ex w (fun x => (maxC x lcut)^-1) i = 1.
Proof.
move=> c0; rewrite -big_split big1 // => d _; apply: (@mulfV C); exact: clamp_neq0.
Qed.

Lemma pair_absorb b k w1 w2 (a1 a2 t1 t2 : tensor) P Q y x : (k < 4)%N ->
  (forall i, legs i -> at_ t1 i = wprod k w1 id i * at_ a1 i) -> (forall i, legs i -> at_ t2 i = wprod ((k + 2) %% 4) w2 id i * at_ a2 i) ->
  rot_state b (bond_permute k t1) (bond_permute k t2) P Q y x = pair_state b k id w1 w2 a1 a2 P Q y x.
Proof.
move=> Hk E1 E2; apply: eq_sumn => v _; rewrite /rent1 /rent2 /entry1 /entry2 !permE // /leg1 /leg2 E1 ?E2 //; exact: rot_legs.
Qed.

Lemma entry1_strip b k w (X s : tensor) v y P : (k < 4)%N -> 0 < lcut ->
  (forall i, legs i -> at_ s i = wprod k w (fun x => (maxC x lcut)^-1) i * at_ (bond_permute (4 - k) X) i) ->
  entry1 b k clamp w s v y P = rent1 b X v y P.
Proof.
move=> Hk c0 E; rewrite /entry1 /rent1 E /leg1; last exact: rot_legs.
by rewrite !permE' // mulrA (wprod_clamp _ _ _ c0) mul1r.
Qed.
Lemma entry2_strip b k w (X s : tensor) v y P : (k < 4)%N -> 0 < lcut ->
  (forall i, legs i -> at_ s i = wprod ((k + 2) %% 4) w (fun x => (maxC x lcut)^-1) i * at_ (bond_permute (4 - k) X) i) ->
  entry2 b k clamp w s v y P = rent2 b X v y P.
Proof.
move=> Hk c0 E; rewrite /entry2 /rent2 E /leg2; last exact: rot_legs.
by rewrite !permE' // mulrA (wprod_clamp _ _ _ c0) mul1r.
Qed.

Lemma one_site_shape p b (g a : tensor) : shape g = [:: p; p] -> shape a = [:: b; b; b; b; p] ->
  exists t, [/\ einsum "pq,lurdp->lurdq" [:: g; a] = Ok t, shape t = [:: b; b; b; b; p] &
    forall l u r d Q, at_ t [:: l; u; r; d; Q] = sumn p (fun P => at_ g [:: P; Q] * at_ a [:: l; u; r; d; P])].
Proof. by move=> Sg Sa; rewrite /einsum /= Sg Sa /= /dims_ok /= !eqxx /=; eexists; split. Qed.

Lemma wprod_phys ex w (f : C -> C) s P P' : (4 <= size s)%N -> wprod ex w f (rcons s P) = wprod ex w f (rcons s P').
Proof.
move=> Hs; apply: eq_bigr => d _; rewrite !nth_rcons.
by rewrite (leq_trans (ltn_ord d) Hs).
Qed.

Lemma rotr_legs k l u r d : exists l' u' r' d', rotr k [:: l; u; r; d] = [:: l'; u'; r'; d'] :> seq nat.
Proof.
have : size (rotr k [:: l; u; r; d]) = 4%N by rewrite size_rotr.
by case: (rotr _ _) => [|? [|? [|? [|? [|? ?]]]]] //= _; do 4!eexists.
Qed.

Lemma entry1_gate p b k f w (g a t : tensor) : (forall l u r d Q, at_ t [:: l; u; r; d; Q] = sumn p (fun P => at_ g [:: P; Q] * at_ a [:: l; u; r; d; P])) ->
  forall v y Q, entry1 b k f w t v y Q = sumn p (fun P => at_ g [:: P; Q] * entry1 b k f w a v y P).
Proof.
move=> E v y Q; rewrite /entry1 /leg1; set s := rotr _ _.
have [l [u [r [d Es]]]] : exists l' u' r' d', s = [:: l'; u'; r'; d'] by apply: rotr_legs.
have Hs : (4 <= size s)%N by rewrite Es.
rewrite {2}Es /= E sumn_mull; apply: eq_sumn => P _; rewrite (wprod_phys _ _ _ Q P Hs) mulrCA Es //.
Qed.
Lemma entry2_gate p b k f w (g a t : tensor) : (forall l u r d Q, at_ t [:: l; u; r; d; Q] = sumn p (fun P => at_ g [:: P; Q] * at_ a [:: l; u; r; d; P])) ->
  forall v y Q, entry2 b k f w t v y Q = sumn p (fun P => at_ g [:: P; Q] * entry2 b k f w a v y P).
Proof.
move=> E v y Q; rewrite /entry2 /leg2; set s := rotr _ _.
have [l [u [r [d Es]]]] : exists l' u' r' d', s = [:: l'; u'; r'; d'] by apply: rotr_legs.
have Hs : (4 <= size s)%N by rewrite Es.
rewrite {2}Es /= E sumn_mull; apply: eq_sumn => P _; rewrite (wprod_phys _ _ _ Q P Hs) mulrCA Es //.
Qed.

Lemma pair_gates p b k f w1 w2 (g1 g2 a1 a2 t1 t2 : tensor) :
  (forall l u r d Q, at_ t1 [:: l; u; r; d; Q] = sumn p (fun P => at_ g1 [:: P; Q] * at_ a1 [:: l; u; r; d; P])) ->
  (forall l u r d Q, at_ t2 [:: l; u; r; d; Q] = sumn p (fun P => at_ g2 [:: P; Q] * at_ a2 [:: l; u; r; d; P])) ->
  forall r s y x, pair_state b k f w1 w2 t1 t2 r s y x = one_site_gates p (Some (g1, g2)) (pair_state b k f w1 w2 a1 a2) r s y x.
Proof.
move=> E1 E2 r s y x; rewrite /pair_state /=.
transitivity (sumn b (fun v => sumn p (fun P => sumn p (fun Q => entry1 b k f w1 a1 v y P * entry2 b k f w2 a2 v x Q * (at_ g1 [:: P; r] * at_ g2 [:: Q; s]))))).
  apply: eq_sumn => v _; rewrite (entry1_gate _ _ _ _ E1) (entry2_gate _ _ _ _ E2) sumn_mulr; apply: eq_sumn => P _.
  by rewrite sumn_mull; apply: eq_sumn => Q _; rewrite mulrACA mulrC.
rewrite /sumn exchange_big; apply: eq_bigr => P _; rewrite exchange_big; apply: eq_bigr => Q _ /=; by rewrite mulr_suml.
Qed.

Lemma closest_ext n D p (f g t : pair) : (forall r s y x, (r < p)%N -> (s < p)%N -> (y < n)%N -> (x < n)%N -> f r s y x = g r s y x) ->
  closest n D p g t -> closest n D p f t.
Proof.
move=> E H b1 b2.
have S (h : pair) : size2 n p (fun r s y x => f r s y x - h r s y x) = size2 n p (fun r s y x => g r s y x - h r s y x).
  by apply: eq_sumn => y Hy; apply: eq_sumn => r Hr; apply: eq_sumn => x Hx; apply: eq_sumn => s Hs; rewrite E.
by rewrite !S.
Qed.

(** C65: one simple update of a bond.  Unless the best approximation of the
    gate-applied weighted pair state with b bond states vanishes (then it divides
    by zero), the new site tensors together with the clamped outer weights
    describe that approximation, normalised, with the one-site gates applied on
    top; shapes are kept; the parts of each new site tensor that belong to
    different bond states are orthogonal with squared lengths given by the new
    weight; the new weights are ordered and their fourth powers sum to one. *)
Theorem C65_simple_update b p k w1 w2 (a1 a2 gate : tensor) one :
  (k < 4)%N -> (0 < p)%N -> 0 < lcut -> matching (fun _ => b) p w1 a1 -> matching (fun _ => b) p w2 a2 -> shape gate = [:: p; p; p; p] ->
  (if one is Some (g1, g2) then shape g1 = [:: p; p] /\ shape g2 = [:: p; p] else True) ->
  let run := simple_bond_update lqr fsvd lcut w1 w2 k a1 a2 gate one in
  exists t, closest (b ^ 3) b p (two_site_gate p gate (pair_state b k id w1 w2 a1 a2)) t /\
   ((size2 (b ^ 3) p t = 0 /\ run = Err ZeroNorm) \/
    exists a1' a2' lam c, [/\ run = Ok (a1', a2', lam),
      [/\ shape a1' = shape a1, shape a2' = shape a2 & shape lam = [:: b]],
      [/\ 0 < c, c ^+ 2 * size2 (b ^ 3) p t = 1 &
        forall P Q y x, (P < p)%N -> (Q < p)%N -> (y < b ^ 3)%N -> (x < b ^ 3)%N ->
          pair_state b k clamp w1 w2 a1' a2' P Q y x = c * one_site_gates p one t P Q y x],
      one = None -> forall u v, (u < b)%N -> (v < b)%N ->
        overlap b p (entry1 b k clamp w1 a1') u v = at_ lam [:: u] ^+ 2 *+ (u == v) /\
        overlap b p (entry2 b k clamp w2 a2') u v = at_ lam [:: u] ^+ 2 *+ (u == v) &
      [/\ forall u, (u < b)%N -> 0 <= at_ lam [:: u], forall u v, (u <= v)%N -> (v < b)%N -> at_ lam [:: v] <= at_ lam [:: u] &
          sumn b (fun u => at_ lam [:: u] ^+ 4) = 1]]).
Proof using Sq Sf.
move=> Hk p0 c0 M1 M2 Sg So; rewrite /simple_bond_update.
have [t1 -> [T1 E1]] := absorbE k M1; have [t2 -> [T2 E2]] := absorbE ((k + 2) %% 4)%N M2.
rewrite [bind (Ok t1) _]/bind [bind (Ok t2) _]/bind.
have S1 : shape a1 = [:: b; b; b; b; p] by case: M1.
have S2 : shape a2 = [:: b; b; b; b; p] by case: M2.
have A1 : shape (bond_permute k t1) = [:: b; b; b; b; p] by apply: perm_shape; rewrite T1.
have A2 : shape (bond_permute k t2) = [:: b; b; b; b; p] by apply: perm_shape; rewrite T2.
have [q1 [r1 [q2 [r2 [-> [[Q1 Q2] [R1 R2] [I1 I2] [c1 [c2 [Ec Ec1 Ec2]]]]]]]]] := C47_lossless Sq A1 A2.
have [n En] : exists n, n = minn (b ^ 3) (p * b) by eexists.
rewrite -En in Q1 Q2 R1 R2 I1 I2 *; rewrite [bind (Ok (q1, r1, q2, r2)) _]/bind.
have Hb : (b <= n * p)%N.
  apply: (@leq_trans n); last by rewrite leq_pmulr.
  by rewrite En leq_min leq_pmull // andbT; case: (b) => // b'; rewrite !expnS expn0 muln1 leq_pmulr // muln_gt0.
have Est P Q y x : (P < p)%N -> (Q < p)%N -> (y < b ^ 3)%N -> (x < b ^ 3)%N ->
    pair_state b k id w1 w2 a1 a2 P Q y x = lift b n q1 q2 (state b r1 r2) P Q y x.
  move=> HP HQ Hy Hx; rewrite -(pair_absorb b P Q y x Hk E1 E2) (rot_state_teq A1 A2 Ec1 Ec2) //.
  have [b1 [b2 [Eb _ _ X1 X2]]] := recomposeE Q1 Q2 R1 R2; move: Eb; rewrite Ec => -[-> ->].
  exact: rot_lift.
have [t0 [Ct H]] := C51_truncation Sf R1 R2 Sg Hb.
exists (lift b n q1 q2 t0); split.
  have := closest_lift I1 I2 Ct; apply: closest_ext => r s y x Hr Hs Hy Hx.
  by rewrite -gate_lift; apply: eq_sumn => P HP; apply: eq_sumn => Q HQ; rewrite Est.
rewrite size2_lift //; case: H => [[Z ->]|[b1 [b2 [lam [c [-> [B1 B2 L] [cp cs Eb] G W]]]]]].
  by left; split.
right; rewrite [bind (Ok (b1, b2, lam)) _]/bind.
have [X1 [X2 [-> SX1 SX2 EX1 EX2]]] := recomposeE Q1 Q2 B1 B2; rewrite [bind (Ok (X1, X2)) _]/bind.
have N1 : matching (fun _ => b) p w1 (bond_permute (4 - k) X1) by case: M1 => _ Sw; split=> //; apply: perm_shape.
have N2 : matching (fun _ => b) p w2 (bond_permute (4 - k) X2) by case: M2 => _ Sw; split=> //; apply: perm_shape.
have [s1 -> [T1' F1]] := stripE lcut k N1; have [s2 -> [T2' F2]] := stripE lcut ((k + 2) %% 4)%N N2.
rewrite [bind (Ok s1) _]/bind [bind (Ok s2) _]/bind.
have SS1 : shape s1 = [:: b; b; b; b; p] by rewrite T1'; case: N1.
have SS2 : shape s2 = [:: b; b; b; b; p] by rewrite T2'; case: N2.
have Z1 v y P := entry1_strip b v y P Hk c0 F1; have Z2 v y P := entry2_strip b v y P Hk c0 F2.
have Ep P Q y x : (P < p)%N -> (Q < p)%N -> (y < b ^ 3)%N -> (x < b ^ 3)%N ->
    pair_state b k clamp w1 w2 s1 s2 P Q y x = c * lift b n q1 q2 t0 P Q y x.
  move=> HP HQ Hy Hx; transitivity (rot_state b X1 X2 P Q y x); first by apply: eq_sumn => v _; rewrite Z1 Z2.
  rewrite (rot_lift EX1 EX2) (state_congr b q1 q2 Eb) // /lift sumn_mull; apply: eq_sumn => z _.
  by rewrite sumn_mull; apply: eq_sumn => z' _; rewrite mulrCA.
case: one So => [[g1 g2]|] So; last first.
  exists s1, s2, lam, c; split=> //; first by rewrite S1 S2 SS1 SS2.
  move=> _ u v Hu Hv; have [G1 G2] := G u v Hu Hv.
  by split; [rewrite -G1 -(overlap_iso p I1 EX1)|rewrite -G2 -(overlap_iso p I2 EX2)]; apply: eq_sumn => y _; apply: eq_sumn => P _; rewrite ?Z1 ?Z2.
case: So => So1 So2; have [u1 [-> U1 EU1]] := one_site_shape So1 SS1; rewrite [bind (Ok u1) _]/bind.
have [u2 [-> U2 EU2]] := one_site_shape So2 SS2; rewrite [bind (Ok u2) _]/bind.
exists u1, u2, lam, c; split=> //; first by rewrite S1 S2 U1 U2.
split=> // P Q y x HP HQ Hy Hx; rewrite (pair_gates _ _ _ _ _ EU1 EU2) /= sumn_mull; apply: eq_sumn => P' HP'.
by rewrite sumn_mull; apply: eq_sumn => Q' HQ'; rewrite Ep // -(mulrA c).
Qed.

Lemma size2_ext n p (f g : pair) : (forall r s y x, (r < p)%N -> (s < p)%N -> (y < n)%N -> (x < n)%N -> f r s y x = g r s y x) -> size2 n p f = size2 n p g.
Proof. by move=> E; apply: eq_sumn => y Hy; apply: eq_sumn => r Hr; apply: eq_sumn => x Hx; apply: eq_sumn => s Hs; rewrite E. Qed.

(** If the gate-applied state can be written with b bond states, nothing is lost. *)
Corollary C65_exact b p k w1 w2 (a1 a2 gate b1 b2 : tensor) one :
  (k < 4)%N -> (0 < p)%N -> 0 < lcut -> matching (fun _ => b) p w1 a1 -> matching (fun _ => b) p w2 a2 -> shape gate = [:: p; p; p; p] ->
  (if one is Some (g1, g2) then shape g1 = [:: p; p] /\ shape g2 = [:: p; p] else True) ->
  let goal := two_site_gate p gate (pair_state b k id w1 w2 a1 a2) in
  (forall P Q y x, (P < p)%N -> (Q < p)%N -> (y < b ^ 3)%N -> (x < b ^ 3)%N -> goal P Q y x = state b b1 b2 P Q y x) ->
  size2 (b ^ 3) p goal != 0 ->
  exists a1' a2' lam c, [/\ simple_bond_update lqr fsvd lcut w1 w2 k a1 a2 gate one = Ok (a1', a2', lam), 0 < c, c ^+ 2 * size2 (b ^ 3) p goal = 1 &
    forall P Q y x, (P < p)%N -> (Q < p)%N -> (y < b ^ 3)%N -> (x < b ^ 3)%N ->
      pair_state b k clamp w1 w2 a1' a2' P Q y x = c * one_site_gates p one goal P Q y x].
Proof using Sq Sf.
move=> Hk p0 c0 M1 M2 Sg So goal Eg Nz.
have [t [Ct H]] := C65_simple_update Hk p0 c0 M1 M2 Sg So; rewrite -/goal in Ct.
have Z : size2 (b ^ 3) p (fun r s y x => goal r s y x - t r s y x) <= 0.
  apply: (Order.POrderTheory.le_trans (Ct b1 b2)).
  rewrite (size2_ext (g := fun _ _ _ _ => 0)) => [|r s y x *]; last by rewrite Eg // subrr.
  by rewrite /size2 /sumn big1 // => i _; rewrite big1 // => j _; rewrite big1 // => l _; rewrite big1 // => l' _; rewrite normr0 expr0n.
have {}Z r s y x : (r < p)%N -> (s < p)%N -> (y < b ^ 3)%N -> (x < b ^ 3)%N -> t r s y x = goal r s y x.
  by move=> Hr Hs Hy Hx; have /eqP := size2_eq0 Z Hr Hs Hy Hx; rewrite subr_eq0 => /eqP.
case: H => [[S0 _]|[d1 [d2 [lam [c [E _ [cp c1 Es] _ _]]]]]].
  by rewrite -(size2_ext Z) S0 eqxx in Nz.
exists d1, d2, lam, c; split=> //; first by rewrite -(size2_ext Z).
move=> P Q y x HP HQ Hy Hx; rewrite Es //; congr (_ * _); case: one So {E Es} => [[g1 g2]|] _ /=; last exact: Z.
by apply: eq_sumn => P' HP'; apply: eq_sumn => Q' HQ'; rewrite Z.
Qed.

(** The weights in front of the outer legs are not below the cutoff. *)
Definition above b (ex : nat) (w : nat -> tensor) := forall d i, (d < 4)%N -> d != ex -> (i < b)%N -> lcut <= at_ (w d) [:: i].

Lemma wprod_above b ex w i : above b ex w -> (forall d, (d < 4)%N -> d != ex -> (nth 0%N i d < b)%N) -> wprod ex w clamp i = wprod ex w id i.
Proof.
move=> A I; apply: eq_bigr => d Hd; have := A d _ (ltn_ord d) Hd (I d (ltn_ord d) Hd); rewrite /clamp /maxC => H.
by case: ifP => // H'; apply/eqP; rewrite Order.POrderTheory.eq_le H H'.
Qed.

Lemma pair_above b k w1 w2 (a1 a2 : tensor) P Q y x : (k < 4)%N -> above b k w1 -> above b ((k + 2) %% 4) w2 -> (y < b ^ 3)%N -> (x < b ^ 3)%N ->
  pair_state b k clamp w1 w2 a1 a2 P Q y x = pair_state b k id w1 w2 a1 a2 P Q y x.
Proof.
move=> Hk A1 A2 Hy Hx; apply: eq_sumn => v _; congr (_ * _).
- rewrite /entry1 (wprod_above A1) // => d Hd Nd; have [r [d' [u [-> [o0 o1 o2]]]]] := unravel3_lt Hy.
  by clear A1 A2; move: k Hk d Hd Nd => [|[|[|[|//]]]] _ [|[|[|[|//]]]] _; rewrite /leg1.
- rewrite /entry2 (wprod_above A2) // => d Hd Nd; have [r [d' [u [-> [o0 o1 o2]]]]] := unravel3_lt Hx.
  by clear A1 A2; move: k Hk d Hd Nd => [|[|[|[|//]]]] _ [|[|[|[|//]]]] _; rewrite /leg2.
Qed.

(** The identity gate leaves the weighted state of the pair as it is, up to the
    normalisation, in the clamped weights, *)
Corollary C65_identity b p k w1 w2 (a1 a2 gate : tensor) :
  (k < 4)%N -> (0 < p)%N -> 0 < lcut -> matching (fun _ => b) p w1 a1 -> matching (fun _ => b) p w2 a2 -> shape gate = [:: p; p; p; p] ->
  identity_gate p gate -> size2 (b ^ 3) p (pair_state b k id w1 w2 a1 a2) != 0 ->
  exists a1' a2' lam c, [/\ simple_bond_update lqr fsvd lcut w1 w2 k a1 a2 gate None = Ok (a1', a2', lam), 0 < c,
    c ^+ 2 * size2 (b ^ 3) p (pair_state b k id w1 w2 a1 a2) = 1 &
    forall P Q y x, (P < p)%N -> (Q < p)%N -> (y < b ^ 3)%N -> (x < b ^ 3)%N ->
      pair_state b k clamp w1 w2 a1' a2' P Q y x = c * pair_state b k id w1 w2 a1 a2 P Q y x].
Proof using Sq Sf.
move=> Hk p0 c0 M1 M2 Sg Hi Nz.
pose e1 : tensor := Tensor [::] (fun i => entry1 b k id w1 a1 (nth 0%N i 1) (nth 0%N i 0) (nth 0%N i 2)).
pose e2 : tensor := Tensor [::] (fun i => entry2 b k id w2 a2 (nth 0%N i 1) (nth 0%N i 0) (nth 0%N i 2)).
have Eg r s y x : (r < p)%N -> (s < p)%N -> (y < b ^ 3)%N -> (x < b ^ 3)%N ->
    two_site_gate p gate (pair_state b k id w1 w2 a1 a2) r s y x = pair_state b k id w1 w2 a1 a2 r s y x.
  move=> Hr Hs Hy Hx; rewrite /two_site_gate.
  set st := pair_state b k id w1 w2 a1 a2.
  transitivity (sumn p (fun P => sumn p (fun Q => st P Q y x *+ (Q == s)) *+ (P == r))).
    apply: eq_sumn => P HP; case: eqVneq => [EP|NP]; last first.
      by rewrite mulr0n /sumn big1 // => Q _; rewrite Hi // (negbTE NP) mulr0.
    by rewrite mulr1n; apply: eq_sumn => Q HQ; rewrite Hi // EP eqxx /= mulr_natr.
  by rewrite (sumn_delta (fun P => sumn p (fun Q => st P Q y x *+ (Q == s)))) // (sumn_delta (fun Q => st r Q y x)).
rewrite -(size2_ext Eg) in Nz.
have [|a1' [a2' [lam [c [E cp c1 Es]]]]] := @C65_exact b p k w1 w2 a1 a2 gate e1 e2 None Hk p0 c0 M1 M2 Sg I _ Nz.
  by move=> P Q y x *; rewrite Eg.
exists a1', a2', lam, c; rewrite -(size2_ext Eg); split=> // P Q y x *.
by rewrite Es //= Eg.
Qed.

(** and in the weights themselves as long as none is below the cutoff. *)
Corollary C65_unchanged b p k w1 w2 (a1 a2 gate : tensor) :
  (k < 4)%N -> (0 < p)%N -> 0 < lcut -> matching (fun _ => b) p w1 a1 -> matching (fun _ => b) p w2 a2 -> shape gate = [:: p; p; p; p] ->
  identity_gate p gate -> above b k w1 -> above b ((k + 2) %% 4) w2 -> size2 (b ^ 3) p (pair_state b k id w1 w2 a1 a2) != 0 ->
  exists a1' a2' lam c, [/\ simple_bond_update lqr fsvd lcut w1 w2 k a1 a2 gate None = Ok (a1', a2', lam), 0 < c,
    c ^+ 2 * size2 (b ^ 3) p (pair_state b k id w1 w2 a1 a2) = 1 &
    forall P Q y x, (P < p)%N -> (Q < p)%N -> (y < b ^ 3)%N -> (x < b ^ 3)%N ->
      pair_state b k id w1 w2 a1' a2' P Q y x = c * pair_state b k id w1 w2 a1 a2 P Q y x].
Proof using Sq Sf.
move=> Hk p0 c0 M1 M2 Sg Hi W1 W2 Nz.
have [a1' [a2' [lam [c [E cp c1 Es]]]]] := C65_identity Hk p0 c0 M1 M2 Sg Hi Nz.
by exists a1', a2', lam, c; split=> // P Q y x *; rewrite -pair_above // Es.
Qed.
End C65.

Section Examples.
Variable C : numClosedFieldType.
Notation tensor := (tensor C).
Let w (d : nat) : tensor := Tensor [:: 2%N] (fun i => if nth 0%N i 0 == 0%N then 1 else 10%:R^-1).
Let a : tensor := Tensor [:: 2; 2; 2; 2; 2]%N (fun _ => 1).
Let g : tensor := Tensor [:: 2; 2; 2; 2]%N (fun i => ((nth 0 i 0 == nth 0 i 2)%N && (nth 0 i 1 == nth 0 i 3)%N)%:R).
Let M : matching (fun _ => 2%N) 2%N w a.
Proof. by split. Qed.
Let I2 : identity_gate 2%N g.
Proof. by []. Qed.
Let w0 d i : w d = w 0%N /\ 0 < at_ (w d) i.
Proof. by split=> //=; case: ifP => _; rewrite ?ltr01 // invr_gt0 ltr0n. Qed.
Let Nz k : size2 8 2 (pair_state 2%N k id w w a a) != 0.
Proof.
apply/eqP => Z; have H : size2 8 2 (pair_state 2%N k id w w a a) <= 0 by rewrite Z.
have := size2_eq0 H (r := 0%N) (s := 0%N) (y := 0%N) (x := 0%N) isT isT isT isT; rewrite /pair_state /sumn !big_ord_recl big_ord0 addr0.
have W ex i : 0 < wprod ex w id i by apply: prodr_gt0 => d _; have [_] := w0 d [:: nth 0%N i d].
move/eqP; rewrite /entry1 /entry2 !mulr1 Order.POrderTheory.gt_eqF // addr_gt0 // mulr_gt0 //.
Qed.

(** bond dimension 2, weights 1 and 1/10, cutoff 1/100: the identity gate keeps
    the weighted state; with cutoff 1/2 it does not *)
Example C65_example k : (k < 4)%N -> exists a1 a2 lam c,
  [/\ simple_bond_update (@some_qr C) (@some_full_svd C) (100%:R^-1) w w k a a g None = Ok (a1, a2, lam), 0 < c &
   forall P Q y x, (P < 2)%N -> (Q < 2)%N -> (y < 8)%N -> (x < 8)%N -> pair_state 2%N k id w w a1 a2 P Q y x = c * pair_state 2%N k id w w a a P Q y x].
Proof.
move=> Hk; have c0 : 0 < 100%:R^-1 :> C by rewrite invr_gt0 ltr0n.
have A ex : above (100%:R^-1) 2%N ex w.
  by move=> d [|i] _ _ _ /=; [rewrite invf_le1 ?ler1n ?ltr0n|rewrite lef_pinv ?posrE ?ltr0n // ler_nat].
have [a1 [a2 [lam [c [E cp _ Es]]]]] := C65_unchanged (@some_qr_spec C) (@some_full_svd_spec C) Hk (isT : (0 < 2)%N) c0 M M (erefl : shape g = [:: 2; 2; 2; 2]%N) I2 (A k) (A _) (Nz k).
by exists a1, a2, lam, c.
Qed.
Example C65_small_weight_refuted : ~ exists a1 a2 lam c,
  [/\ simple_bond_update (@some_qr C) (@some_full_svd C) (2%:R^-1) w w 0%N a a g None = Ok (a1, a2, lam), 0 < c &
   forall P Q y x, (P < 2)%N -> (Q < 2)%N -> (y < 8)%N -> (x < 8)%N -> pair_state 2%N 0%N id w w a1 a2 P Q y x = c * pair_state 2%N 0%N id w w a a P Q y x].
Proof.
case=> a1 [a2 [lam [c [E cp Es]]]].
have c0 : 0 < 2%:R^-1 :> C by rewrite invr_gt0 ltr0n.
have [b1 [b2 [lam' [c' [E' cp' _ Es']]]]] := C65_identity (@some_qr_spec C) (@some_full_svd_spec C) (isT : (0 < 4)%N) (isT : (0 < 2)%N) c0 M M (erefl : shape g = [:: 2; 2; 2; 2]%N) I2 (Nz 0).
move: E'; rewrite E => -[? ? ?]; subst b1 b2 lam'; clear E.
have W f v y : wprod 0%N w f (leg1 0%N v y 0%N) = f (at_ (w 0) [:: nth 0 y 2])%N * (f (at_ (w 0) [:: nth 0 y 0])%N * f (at_ (w 0) [:: nth 0 y 1])%N).
  by rewrite /wprod big_mkcond !big_ord_recl big_ord0 /= mul1r mulr1.
have U : unravel [:: 2; 2; 2]%N 7 = [:: 1; 1; 1]%N by vm_compute.
have U0 : unravel [:: 2; 2; 2]%N 0 = [:: 0; 0; 0]%N by vm_compute.
pose cl x := clamp (2%:R^-1 : C) x.
have C1 : cl 1 = 1.
  rewrite /cl /clamp /maxC; case: ifP => // H; apply/eqP; rewrite Order.POrderTheory.eq_le H andbT.
  by rewrite invf_le1 ?ltr0n // ler1n.
have C10 : cl 10%:R^-1 = 2%:R^-1 by rewrite /cl /clamp /maxC lef_pinv ?posrE ?ltr0n // ler_nat.
have V f v (t : tensor) : f 1 = 1 -> entry2 2%N 0%N f w t v 0%N 0%N = at_ t (leg2 0%N v [:: 0; 0; 0]%N 0%N).
  by move=> F1; rewrite /entry2 U0 /wprod big_mkcond !big_ord_recl big_ord0 /= !F1 !mul1r.
pose S (t1 t2 : tensor) o := sumn 2 (fun v => at_ t1 (leg1 0%N v o 0%N) * at_ t2 (leg2 0%N v [:: 0; 0; 0]%N 0%N)).
have P0 f t1 t2 : f 1 = 1 -> pair_state 2%N 0%N f w w t1 t2 0%N 0%N 0%N 0%N = S t1 t2 [:: 0; 0; 0]%N.
  by move=> F1; apply: eq_sumn => v _; rewrite V // /entry1 U0 W /= !F1 !mul1r.
have P7 f t1 t2 : f 1 = 1 -> pair_state 2%N 0%N f w w t1 t2 0%N 0%N 7%N 0%N = f 10%:R^-1 ^+ 3 * S t1 t2 [:: 1; 1; 1]%N.
  by move=> F1; rewrite /S sumn_mull; apply: eq_sumn => v _; rewrite V // /entry1 U W /= !exprS expr0 mulr1 !mulrA.
have Sa o : S a a o = 2%:R by rewrite /S /sumn !big_ord_recl big_ord0 /= !mulr1 addr0.
have := Es 0%N 0%N 0%N 0%N isT isT isT isT; rewrite !P0 // Sa => H0.
have := Es' 0%N 0%N 0%N 0%N isT isT isT isT; rewrite !P0 // Sa H0 => H1.
have {H1} Ec : c = c' by apply: (mulIf _ H1); rewrite pnatr_eq0.
have := Es 0%N 0%N 7%N 0%N isT isT isT isT; rewrite !P7 // Sa => H2.
have := Es' 0%N 0%N 7%N 0%N isT isT isT isT; rewrite !P7 // Sa -Ec -H2 -/(cl _) C10 => H3.
have N0 : S a1 a2 [:: 1; 1; 1]%N != 0.
  apply/eqP => Z; move/eqP: H2; rewrite Z mulr0 eq_sym !mulf_eq0 ?expf_eq0 !invr_eq0 !pnatr_eq0 /= !orbF => /eqP c00.
  by rewrite c00 Order.POrderTheory.ltxx in cp.
have {H3} := mulIf N0 H3; rewrite !exprVn => /invr_inj /eqP; rewrite -!natrX eqr_nat.
by rewrite !expnS expn0.
Qed.
End Examples.

Print Assumptions C65_simple_update.
Print Assumptions C65_exact.
Print Assumptions C65_identity.
Print Assumptions C65_unchanged.
