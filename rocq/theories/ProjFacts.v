(** What the projectors are, as matrices. *)
From Coq Require Import String Ascii.
From mathcomp Require Import all_ssreflect all_algebra.
From Verif Require Import Base Lattice LatticeFacts Mover Tensor TN Rdm RdmFacts Fits Linalg Mat Rsvd RsvdFacts Renorm RenormFacts.
Set Implicit Arguments.
Unset Strict Implicit.
Unset Printing Implicit Defensive.
Import GRing.Theory Num.Theory.
Local Open Scope ring_scope.
Local Open Scope string_scope.

(** the computation ends in a result with property P, or divides by zero, which
    implies E *)
Definition okE (E : Prop) {A} (m : res A) (P : A -> Prop) : Prop :=
  match m with Ok a => P a | Err e => e = ZeroNorm /\ E end.

Lemma okE_bind E A B (m : res A) (f : A -> res B) P Q :
  okE E m P -> (forall a, P a -> okE E (f a) Q) -> okE E (bind m f) Q.
Proof. by case: m => [a|e] //= Ha; apply. Qed.

Lemma okE_imp E A (m : res A) (P Q : A -> Prop) : okE E m P -> (forall a, P a -> Q a) -> okE E m Q.
Proof. by case: m => [a|e] //= H; apply. Qed.

Section Proj.
Variable C : numClosedFieldType.
Notation tensor := (tensor C).
Notation cj := (map_mx (fun x : C => x^* )).

Lemma okE_tdiv (E : Prop) (t : tensor) : (absmax t = 0 -> E) ->
  okE E (tdiv t (absmax t)) (fun t' => (0 < numel (shape t))%N /\ exists2 a : C, 0 < a & t' = tscale a t).
Proof.
move=> H; rewrite /tdiv; case: eqP => [/H //|/eqP N] /=; split; first exact: absmax_numel.
by exists (absmax t)^-1 => //; rewrite invr_gt0 lt0r N absmax_ge0.
Qed.

(** one quarter of the environment: site tensor, its conjugate, corner, two edges *)
Definition quarter_flat (q : quarter tensor) : res tensor :=
  einsum "ab,bcuU,ealL,lurdp,LURDp->crRedD" [:: q_c _ q; q_e2 _ q; q_e1 _ q; q_a _ q; conj (q_a _ q)].

(** its matrix: rows are the legs crR, columns the legs edD *)
Notation qmat c e D t := (mat (c * D * D)%N (e * D * D)%N [:: c; D; D] [:: e; D; D] t).

Lemma numel3 a b c : (a * b * c)%N = numel [:: a; b; c].
Proof. by rewrite /= muln1 mulnA. Qed.

Lemma quarterE q D p c e (E : Prop) : qfit D p q c e ->
  exists f, [/\ quarter_flat q = Ok f, shape f = [:: c; D; D; e; D; D] &
    ((qmat c e D f = 0 -> E) ->
    okE E (make_quarter_tensor q) (fun Qd => [/\ Qd.2 = [:: c; D; D; e; D; D],
       shape Qd.1 = [:: c * D * D; e * D * D]%N, (0 < c * D * D)%N /\ (0 < e * D * D)%N &
       exists2 a, 0 < a & mx_of (c * D * D) (e * D * D) Qd.1 = a *: qmat c e D f]))].
Proof.
case=> a [b [Hc H2 H1 Ha]]; rewrite /quarter_flat /make_quarter_tensor.
set ak := q_a _ q in Ha *; set ck := q_c _ q in Hc *; set e1 := q_e1 _ q in H1 *; set e2 := q_e2 _ q in H2 *.
tn_setup [:: a; b; c; e; D; p] [:: ck; e2; e1; ak].
tn_einsum; exists t; split; [by []|by tn_shape|].
repeat tn_einsum.
match goal with |- context [reshape ?x _] =>
  (have T : teq x t by tn_teq); (have Hs : shape x = [:: c; D; D; e; D; D] by tn_shape) end.
move=> HE; rewrite Hs /=.
have [t' [-> Ht' Mt']] := @reshape2 _ [:: c; D; D] [:: e; D; D] _ _ _ Hs (numel3 _ _ _) (numel3 _ _ _).
have Mt : mx_of (c * D * D) (e * D * D) t' = qmat c e D t.
  by rewrite Mt'; apply: mat_teq => //; rewrite numel3.
have Z : absmax t' = 0 -> E.
  move=> Z; apply: HE; rewrite -Mt; apply/matrixP => i j; rewrite !mxE.
  by apply: (absmax_eq0 Z); rewrite Ht' /= !ltn_ord.
have := okE_tdiv Z; case: (tdiv _ _) => [Qn|e0] //= [Hn [al Hal ->]]; split=> //; last by exists al => //; rewrite mx_tscale Mt.
by move: Hn; rewrite Ht' /= muln1 muln_gt0 => /andP[].
Qed.

(** the two contractions that give the projectors *)
Lemma proj1E (R1 U : tensor) x e D z : shape R1 = [:: x; e; D; D] -> shape U = [:: x; z] ->
  exists P, [/\ einsum "xedD,xz->edDz" [:: R1; conj U] = Ok P, shape P = [:: e; D; D; z] &
    mat (e * D * D)%N z [:: e; D; D] [:: z] P =
    (mat x (e * D * D)%N [:: x] [:: e; D; D] R1)^T *m cj (mx_of x z U)].
Proof.
move=> H1 HU; rewrite /einsum /= H1 HU /= /dims_ok /= !eqxx /=; eexists; split=> //.
apply/matrixP => i j; rewrite !mxE /=; apply: eq_bigr => k _.
by rewrite !mxE /factor /= !divn1.
Qed.

Lemma proj2E (R2 V : tensor) c y D z : shape R2 = [:: c; D; D; y] -> shape V = [:: y; z] ->
  exists P, [/\ einsum "cuUy,yz->cuUz" [:: R2; V] = Ok P, shape P = [:: c; D; D; z] &
    mat (c * D * D)%N z [:: c; D; D] [:: z] P =
    mat (c * D * D)%N y [:: c; D; D] [:: y] R2 *m mx_of y z V].
Proof.
move=> H1 HU; rewrite /einsum /= H1 HU /= /dims_ok /= !eqxx /=; eexists; split=> //.
apply/matrixP => i j; rewrite !mxE /=; apply: eq_bigr => k _.
by rewrite !mxE /factor /= !divn1.
Qed.

Lemma view_colsE (t : tensor) m c e D qD : shape t = [:: m; e * D * D]%N -> qD = [:: c; D; D; e; D; D] ->
  exists t', [/\ view_cols t qD = Ok t', shape t' = [:: m; e; D; D] &
    mat m (e * D * D) [:: m] [:: e; D; D] t' = mx_of m (e * D * D) t].
Proof.
move=> Ht ->; rewrite /view_cols Ht /=; apply: (@reshape_split _ [:: m] [:: e; D; D]) => //.
  by rewrite /= muln1.
by rewrite numel3.
Qed.

Lemma view_rowsE (t : tensor) n c e D qD : shape t = [:: c * D * D; n]%N -> qD = [:: c; D; D; e; D; D] ->
  exists t', [/\ view_rows t qD = Ok t', shape t' = [:: c; D; D; n] &
    mat (c * D * D) n [:: c; D; D] [:: n] t' = mx_of (c * D * D) n t].
Proof.
move=> Ht ->; rewrite /view_rows Ht /=; apply: (@reshape_split _ [:: c; D; D] [:: n]) => //.
  by rewrite numel3.
by rewrite /= muln1.
Qed.

(** ---- singular values ---- *)
(** columns of U and V: singular vectors of A belonging to the values s *)
Definition svd_of m n k (A : 'M[C]_(m, n)) (U : tensor) (s : seq C) (V : tensor) : Prop :=
  [/\ adj (mx_of m k U) *m mx_of m k U = 1%:M, adj (mx_of n k V) *m mx_of n k V = 1%:M, sv_ok (row_of_seq k s) &
      adj (mx_of m k U) *m A = diag_mx (row_of_seq k s) *m adj (mx_of n k V)].

(** the first z of them *)
Lemma svd_of_take m n k z (A : 'M[C]_(m, n)) (U : tensor) (s : seq C) (V : tensor) : (z <= k)%N ->
  svd_of k A U s V -> svd_of z A U s V.
Proof.
move=> Hz [H1 H2 [H3 H4] H5]; pose w := widen_ord Hz.
have P (M N : 'M[C]_(k, n)) : M = N -> forall i j, M (w i) j = N (w i) j by move->.
split.
- apply/matrixP => i j; have := congr1 (fun M : 'M_k => M (w i) (w j)) H1; rewrite !mxE.
  by move=> E; rewrite -[RHS]E; apply: eq_bigr => l _; rewrite !mxE.
- apply/matrixP => i j; have := congr1 (fun M : 'M_k => M (w i) (w j)) H2; rewrite !mxE.
  by move=> E; rewrite -[RHS]E; apply: eq_bigr => l _; rewrite !mxE.
- split=> [i|i j Hij]; rewrite !mxE; first by have := H3 (w i); rewrite mxE.
  by have := H4 (w i) (w j) Hij; rewrite !mxE.
apply/matrixP => i j; have := P _ _ H5 i j; rewrite !mul_diag_mx !mxE => <-.
by apply: eq_bigr => l _; rewrite !mxE.
Qed.

Definition dinv z (s : seq C) : 'M[C]_z := diag_mx (\row_(i < z) (sqrtC (nth 0 s i))^-1).

Lemma okE_weight (E : Prop) (U : tensor) s m n c : shape U = [:: m; n] -> (c <= n)%N -> (c <= size s)%N ->
  (~~ all (fun x => x != 0) (take c s) -> E) ->
  okE E (weight_cols U s c) (fun t => [/\ shape t = [:: m; c], mx_of m c t = mx_of m c U *m dinv c s &
     forall i : 'I_c, nth 0 s i != 0]).
Proof.
move=> HU Hn Hs HE; rewrite /weight_cols HU size_takel // (minn_idPl Hn) eqxx.
case: (boolP (all _ _)) => [/allP H|/HE //] /=; split=> //.
  apply/matrixP => i j; rewrite !mxE (bigD1 j) //= big1 => [|k /negbTE Nk]; last by rewrite !mxE Nk mulr0n mulr0.
  by rewrite addr0 !mxE eqxx mulr1n.
move=> i; apply: (H (nth 0 s i)); rewrite -(nth_take 0 (ltn_ord i)) mem_nth // size_takel //.
Qed.

(** relative singular values: all entries divided by the first *)
Lemma okE_rel (E : Prop) (s : seq C) : (0 < size s)%N -> (nth 0 s 0 = 0 -> E) ->
  okE E (rel s) (fun s' => nth 0 s 0 != 0 /\ s' = [seq x / nth 0 s 0 | x <- s]).
Proof. by case: s => [|s0 s] //= _ H; case: eqP => [/H //|/eqP N]; split. Qed.

(** the kept number counts a prefix: kept values exceed the cutoff *)
Lemma count_prefix (P : pred C) (s : seq C) i : (forall i j, (i <= j < size s)%N -> P (nth 0 s j) -> P (nth 0 s i)) ->
  (i < count P s)%N -> P (nth 0 s i).
Proof.
elim: s i => [|x s IH] i //= H Hi.
have Px : P x.
  have : has P (x :: s) by rewrite has_count /=; apply: leq_ltn_trans Hi.
  case/(has_nthP 0) => j Hj Pj; exact: (H 0%N j Hj Pj).
case: i Hi => [|i] //; rewrite Px add1n ltnS => Hi; apply: IH => // a b Hab; exact: (H a.+1 b.+1 Hab).
Qed.

Lemma svd_scale m n k (c : C) (A : 'M[C]_(m, n)) (U : tensor) (s : seq C) (V : tensor) : 0 < c ->
  svd_of k (c *: A) U s V -> svd_of k A U [seq x / c | x <- s] V.
Proof.
move=> Hc [H1 H2 [H3 H4] H5].
have Er : row_of_seq k [seq x / c | x <- s] = c^-1 *: row_of_seq k s.
  apply/matrixP => i j; rewrite !mxE; case: (ltnP j (size s)) => Hj; first by rewrite (nth_map 0) // mulrC.
  by rewrite !nth_default ?size_map // mulr0.
split=> //.
  split=> [i|i j Hij]; rewrite Er !mxE.
    by rewrite pmulr_rge0 ?invr_gt0 //; have := H3 i; rewrite mxE.
  by rewrite ler_pmul2l ?invr_gt0 //; have := H4 i j Hij; rewrite !mxE.
have -> : diag_mx (row_of_seq k [seq x / c | x <- s]) = c^-1 *: diag_mx (row_of_seq k s).
  by rewrite Er linearZ.
by rewrite -scalemxAl -H5 -scalemxAr scalerA mulVf ?scale1r // lt0r_neq0.
Qed.

Lemma usv_scale m n k (c : C) (A : 'M[C]_(m, n)) (U : tensor) (s : seq C) (V : tensor) : 0 < c -> size s = k ->
  usv m n k U s V = c *: A -> usv m n k U [seq x / c | x <- s] V = A.
Proof.
move=> Hc Hs; rewrite /usv => E.
have -> : row_of_seq k [seq x / c | x <- s] = c^-1 *: row_of_seq k s.
  by apply/matrixP => i j; rewrite !mxE (nth_map 0) ?Hs // mulrC.
by rewrite linearZ /= -scalemxAr -scalemxAl E scalerA mulVf ?scale1r // lt0r_neq0.
Qed.

Lemma usvE m n k (U : tensor) (s : seq C) (V : tensor) i j :
  usv m n k U s V i j = \sum_(l < k) at_ U [:: nat_of_ord i; nat_of_ord l] * nth 0 s l * (at_ V [:: nat_of_ord j; nat_of_ord l])^*.
Proof. by rewrite /usv mul_mx_diag !mxE; apply: eq_bigr => l _; rewrite !mxE. Qed.

Section Cfg.
Variable cfg : pconfig C.
Notation chi0 := (pchi cfg).
Notation cutoff := (svd_cutoff cfg).

(** number of kept values *)
Definition nkeep (s : seq C) : nat := minn chi0 (count (fun x => cutoff < x / nth 0 s 0) s).

Lemma keptE k (s : seq C) : size s = k -> sv_ok (row_of_seq k s) -> nth 0 s 0 != 0 ->
  let s' := [seq x / nth 0 s 0 | x <- s] in let z := kept cfg chi0 s' in
  [/\ 0 < nth 0 s 0, z = nkeep s, (z <= k)%N,
      (0 <= cutoff -> forall i, (i < z)%N -> 0 < nth 0 s i) &
      (cutoff < 1 -> (0 < chi0)%N -> (0 < z)%N)].
Proof.
move=> Hs [G M] N s' z.
have k0 : (0 < k)%N by rewrite -Hs; case: (s) N => //=; rewrite eqxx.
have P i : (i < k)%N -> 0 <= nth 0 s i by move=> Hi; have := G (Ordinal Hi); rewrite mxE.
have P0 : 0 < nth 0 s 0 by rewrite lt0r N P.
have Ez : z = nkeep s by rewrite /z /kept /s' count_map.
have Hz : (z <= k)%N by rewrite Ez /nkeep geq_min -Hs count_size orbT.
split=> //.
  move=> Hc i Hi; have Ik : (i < k)%N := leq_trans Hi Hz.
  rewrite lt0r P // andbT; apply/eqP => E0.
  have : cutoff < nth 0 s i / nth 0 s 0.
    apply: (@count_prefix (fun x => cutoff < x / nth 0 s 0)); last first.
      by apply: leq_trans Hi _; rewrite Ez /nkeep geq_min leqnn orbT.
    move=> a b /andP[Hab Hb]; rewrite Hs in Hb => H; apply: Order.POrderTheory.lt_le_trans H _.
    rewrite ler_pmul2r ?invr_gt0 //; have := M (Ordinal (leq_ltn_trans Hab Hb)) (Ordinal Hb) Hab.
    by rewrite !mxE.
  by rewrite E0 mul0r => H; have := Order.POrderTheory.le_lt_trans Hc H; rewrite Order.POrderTheory.ltxx.
move=> Hc Hchi; rewrite Ez /nkeep leq_min Hchi -has_count; apply/(has_nthP 0).
by exists 0%N; rewrite ?Hs // divff.
Qed.

(** the projectors of a cut with environment R1 R2; L is R1^T, or the adjoint of R1 *)
Definition cut_fact (R : Type) m n w D (L : 'M[C]_((w * D * D)%N, m)) (R1 : 'M[C]_(m, (w * D * D)%N)) (R2 : 'M[C]_((w * D * D)%N, n))
    (k : nat) (U : tensor) (s : seq C) (V : tensor) (pr : tensor * tensor * R) : Prop :=
  let z := nkeep s in
  [/\ svd_of k (R1 *m R2) U s V, size s = k /\ (z <= k)%N, 0 < nth 0 s 0 /\ (forall i : 'I_z, 0 < nth 0 s i),
      shape pr.1.1 = [:: w; D; D; z] /\ shape pr.1.2 = [:: w; D; D; z] &
      exists b1 b2, [/\ 0 < b1, 0 < b2,
        mat (w * D * D) z [:: w; D; D] [:: z] pr.1.1 = b1 *: (L *m cj (mx_of m z U) *m dinv z s) &
        mat (w * D * D) z [:: w; D; D] [:: z] pr.1.2 = b2 *: (R2 *m mx_of n z V *m dinv z s)]].

(** P1^T P2 on the kept space *)
Lemma cut_biorth (R : Type) m n w D (R1 : 'M[C]_(m, (w * D * D)%N)) (R2 : 'M[C]_((w * D * D)%N, n)) k U s V (pr : tensor * tensor * R) :
  cut_fact R1^T R1 R2 k U s V pr -> let z := nkeep s in
  exists2 c, 0 < c & (mat (w * D * D) z [:: w; D; D] [:: z] pr.1.1)^T *m mat (w * D * D) z [:: w; D; D] [:: z] pr.1.2 = c%:M.
Proof.
move=> [HS [Hk Hz] [_ Hpos] _ [b1 [b2 [B1 B2 E1 E2]]]] z; rewrite E1 E2.
have [_ HV _ HA] := svd_of_take Hz HS.
exists (b1 * b2); first exact: mulr_gt0.
have -> : (b1 *: (R1^T *m cj (mx_of m z U) *m dinv z s))^T = b1 *: (dinv z s *m (adj (mx_of m z U) *m R1)).
  rewrite linearZ /= !trmx_mul trmxK tr_diag_mx; congr (_ *: (_ *m (_ *m _))).
  by apply/matrixP => i j; rewrite !mxE.
rewrite -scalemxAl -scalemxAr scalerA !mulmxA -(mulmxA _ R1) -(mulmxA (dinv z s)) HA.
rewrite !mulmxA -(mulmxA _ (adj _)) HV mulmx1 /dinv.
rewrite !mulmx_diag -diag_const_mx -linearZ; congr diag_mx; apply/matrixP => i j; rewrite !mxE.
have P0 := Hpos j; have S0 : sqrtC (nth 0 s j) != 0 by rewrite sqrtC_eq0 lt0r_neq0.
by rewrite -{2}(sqrtCK (nth 0 s j)) expr2 mulrA mulVf // mul1r mulfV // mulr1.
Qed.

(** R1 P2 P1^T R2 when every value that was not kept is zero *)
Lemma cut_exact (R : Type) m n w D (R1 : 'M[C]_(m, (w * D * D)%N)) (R2 : 'M[C]_((w * D * D)%N, n)) k U s V (pr : tensor * tensor * R) :
  cut_fact R1^T R1 R2 k U s V pr -> usv m n k U s V = R1 *m R2 -> let z := nkeep s in
  (forall i, (z <= i < k)%N -> nth 0 s i = 0) ->
  exists2 c, 0 < c &
    R1 *m (mat (w * D * D) z [:: w; D; D] [:: z] pr.1.2 *m (mat (w * D * D) z [:: w; D; D] [:: z] pr.1.1)^T) *m R2
    = c *: (R1 *m R2).
Proof.
move=> [HS [Hk Hz] [_ Hpos] _ [b1 [b2 [B1 B2 E1 E2]]]] HA z Hd; rewrite E1 E2 -/z.
have [_ HV _ HL] := svd_of_take Hz HS; exists (b1 * b2); first exact: mulr_gt0.
have HA' : usv m n z U s V = R1 *m R2.
  apply/matrixP => i j; rewrite -HA !usvE (big_ord_widen k (fun l => at_ U [:: nat_of_ord i; l] * nth 0 s l * (at_ V [:: nat_of_ord j; l])^* )) // big_mkcond.
  apply: eq_bigr => l _; case: ifP => // /negbT; rewrite -leqNgt => Hl.
  by rewrite Hd ?Hl ?ltn_ord // mulr0 mul0r.
have E3 : (b1 *: (R1^T *m cj (mx_of m z U) *m dinv z s))^T = b1 *: (dinv z s *m (adj (mx_of m z U) *m R1)).
  rewrite linearZ /= !trmx_mul trmxK tr_diag_mx; congr (_ *: (_ *m (_ *m _))).
  by apply/matrixP => i j; rewrite !mxE.
rewrite E3 -scalemxAl -!scalemxAr -!scalemxAl scalerA (mulrC b2); congr (_ *: _).
rewrite !mulmxA -(mulmxA _ R1 R2) -HA' -(mulmxA _ (adj (mx_of m z U))) HA' HL -HA' /usv.
rewrite -!mulmxA (mulmxA (adj (mx_of n z V)) (mx_of n z V)) HV mul1mx !mulmxA; congr (_ *m _).
rewrite -!mulmxA; congr (_ *m _); rewrite /dinv !mulmx_diag; congr diag_mx; apply/matrixP => i j; rewrite !mxE.
have P0 := Hpos j; have S0 : sqrtC (nth 0 s j) != 0 by rewrite sqrtC_eq0 lt0r_neq0.
set q := sqrtC _ in S0 *; have -> : q^-1 * (q^-1 * nth 0 s j) = 1; last by rewrite mulr1.
by rewrite -(sqrtCK (nth 0 s j)) -/q expr2 !mulKf // mulVf.
Qed.

(** ---- the steps of the calculation ---- *)
Section Steps.
Variables (m n k : nat) (A : 'M[C]_(m, n)) (U V : tensor) (s : seq C) (E : Prop).
Hypotheses (Hs : size s = k) (k0 : (0 < k)%N) (HS : svd_of k A U s V).
Hypotheses (HE0 : nth 0 s 0 = 0 -> E) (HEc : ~ 0 <= cutoff -> E).
Notation z := (nkeep s).
Notation s' := [seq x / nth 0 s 0 | x <- s].

Lemma step_rel : okE E (rel s) (fun s1 => [/\ s1 = s', 0 < nth 0 s 0, kept cfg chi0 s1 = z & (z <= k)%N]).
Proof.
apply: okE_imp (okE_rel _ HE0) _; first by rewrite Hs.
move=> s1 [N ->]; have [_ _ Hv _] := HS; have [H1 H2 H3 _ _] := keptE Hs Hv N.
by split=> //; rewrite -H2.
Qed.

Hypotheses (P0 : 0 < nth 0 s 0) (Hz : (z <= k)%N).

Lemma nth_rel i : nth 0 s' i = nth 0 s i / nth 0 s 0.
Proof.
case: (ltnP i (size s)) => Hi; first by rewrite (nth_map 0).
by rewrite (nth_default _ Hi) mul0r nth_default ?size_map.
Qed.

Lemma step_weight (X : tensor) mm kk : shape X = [:: mm; kk] -> (k <= kk)%N ->
  okE E (weight_cols X s' z) (fun t => shape t = [:: mm; z] /\ (forall i : 'I_z, 0 < nth 0 s i) /\
     exists2 b, 0 < b & mx_of mm z t = b *: (mx_of mm z X *m dinv z s)).
Proof.
move=> HX Hk; have N : nth 0 s 0 != 0 by rewrite lt0r_neq0.
have [_ _ Hv _] := HS; have [H1 H2 H3 H4 _] := keptE Hs Hv N.
apply: okE_imp (okE_weight HX (leq_trans Hz Hk) _ _) _; first by rewrite size_map Hs.
  move=> /(all_nthP 0) Na; apply: HEc => Hc; apply: Na => i; rewrite size_takel ?size_map ?Hs // => Hi.
  by rewrite nth_take // nth_rel mulf_neq0 ?invr_eq0 // lt0r_neq0 // H4 // H2.
move=> t [-> -> Hn]; split=> //.
have G i : (i < k)%N -> 0 <= nth 0 s i by move=> Hi; have [Hv' _] := Hv; have := Hv' (Ordinal Hi); rewrite mxE.
have Pi (i : 'I_z) : 0 < nth 0 s i.
  rewrite lt0r G ?(leq_trans (ltn_ord i)) // andbT; have := Hn i; rewrite nth_rel.
  by apply: contraNneq => ->; rewrite mul0r.
split=> //; exists (sqrtC (nth 0 s 0)); first by rewrite sqrtC_gt0.
rewrite scalemxAr; congr (_ *m _); rewrite /dinv -linearZ; congr diag_mx; apply/matrixP => i j; rewrite !mxE nth_rel.
have S0 : sqrtC (nth 0 s 0) != 0 by rewrite sqrtC_eq0.
have -> : sqrtC (nth 0 s j / nth 0 s 0) = sqrtC (nth 0 s j) / sqrtC (nth 0 s 0).
  by rewrite rootCMl ?rootCV // Order.POrderTheory.ltW.
by rewrite invfM invrK mulrC.
Qed.
End Steps.

Lemma cj_dinv z (s : seq C) : (forall i : 'I_z, 0 < nth 0 s i) -> cj (dinv z s) = dinv z s.
Proof.
move=> H; rewrite /dinv map_diag_mx; congr diag_mx; apply/matrixP => i j; rewrite !mxE.
by rewrite conj_Creal // rpredV; apply: ger0_real; rewrite sqrtC_ge0 Order.POrderTheory.ltW.
Qed.

Lemma cj_scale m n b (M : 'M[C]_(m, n)) : 0 < b -> cj (b *: M) = b *: cj M.
Proof. by move=> Hb; apply/matrixP => i j; rewrite !mxE rmorphM; congr (_ * _); rewrite conj_Creal // gtr0_real. Qed.

Lemma cj_mul m n q (M : 'M[C]_(m, n)) (N : 'M[C]_(n, q)) : cj (M *m N) = cj M *m cj N.
Proof.
by apply/matrixP => i j; rewrite !mxE rmorph_sum; apply: eq_bigr => l _; rewrite !mxE rmorphM.
Qed.

Section Fun.
Variable R : Type.
Variable randn : R -> forall n q : nat, 'M[C]_(n, q) * R.
Variable lqr : qr_fun C.
Variable lsvd : thin_svd_fun C.
Variable fsvd : full_svd_fun C.

Lemma svd_fullE (t : tensor) m n : shape t = [:: m; n] -> full_svd_spec fsvd ->
  exists u s vh, [/\ svd_full fsvd t = Ok (u, s, vh), shape u = [:: m; m] /\ shape vh = [:: n; n], size s = minn m n,
    svd_of (minn m n) (mx_of m n t) u s (adjoint vh) & usv m n (minn m n) u s (adjoint vh) = mx_of m n t].
Proof.
move=> Ht /(_ m n (mx_of m n t)); rewrite /svd_full Ht; case: (fsvd _) => [[U s] Vh] [HU HV Hs HA].
exists (of_mx U), [seq s 0 i | i <- enum 'I_(minn m n)], (of_mx Vh).
have Hsz : size [seq s 0 i | i <- enum 'I_(minn m n)] = minn m n by rewrite size_map size_enum_ord.
pose wm := widen_ord (geq_minl m n); pose wn := widen_ord (geq_minr m n).
have Er : row_of_seq (minn m n) [seq s 0 i | i <- enum 'I_(minn m n)] = s.
  apply/matrixP => i j; rewrite mxE ord1 (nth_map j) ?size_enum_ord //.
  by rewrite nth_ord_enum.
have EU : mx_of m (minn m n) (of_mx U) = \matrix_(i, j) U i (wm j).
  by apply/matrixP => i j; rewrite !mxE -(at_of_mx U i (wm j)).
have EV : mx_of n (minn m n) (adjoint (of_mx Vh)) = \matrix_(i, j) (Vh (wn j) i)^*.
  by apply/matrixP => i j; rewrite !mxE -(at_of_mx Vh (wn j) i).
have HA' : usv m n (minn m n) (of_mx U) [seq s 0 i | i <- enum 'I_(minn m n)] (adjoint (of_mx Vh)) = mx_of m n t.
  apply/matrixP => i j; rewrite HA /usv Er EU EV mul_mx_diag mxE; apply: eq_bigr => l _.
  by rewrite !mxE conjCK.
have U1 : adj (mx_of m (minn m n) (of_mx U)) *m mx_of m (minn m n) (of_mx U) = 1%:M.
  rewrite EU; apply/matrixP => i j; have := congr1 (fun M : 'M_m => M (wm i) (wm j)) HU; rewrite !mxE.
  by move=> H; rewrite -[RHS]H; apply: eq_bigr => l _; rewrite !mxE.
split=> //; split=> //; last 2 first.
- by rewrite Er.
- by rewrite -HA' /usv Er !mulmxA U1 mul1mx.
rewrite EV; apply/matrixP => i j; have := congr1 (fun M : 'M_n => M (wn i) (wn j)) HV; rewrite !mxE.
move=> H; rewrite -[RHS]H; apply: eq_bigr => l _; rewrite !mxE conjCK mulrC //.
Qed.

(** the common end: projectors from the weighted singular vectors *)
Lemma cut_end m n w D k (L : 'M[C]_((w * D * D)%N, m)) (R1 : 'M[C]_(m, (w * D * D)%N)) (R2 : 'M[C]_((w * D * D)%N, n)) a a1 a2
  (U V U' V' p1 p2 : tensor) (s : seq C) (r : R) (z := nkeep s) :
  0 < a -> 0 < a1 -> 0 < a2 ->
  svd_of k (a *: (R1 *m R2)) U s V -> size s = k -> (z <= k)%N -> 0 < nth 0 s 0 -> (forall i : 'I_z, 0 < nth 0 s i) ->
  (exists2 b, 0 < b & mx_of m z U' = b *: (mx_of m z U *m dinv z s)) ->
  (exists2 b, 0 < b & mx_of n z V' = b *: (mx_of n z V *m dinv z s)) ->
  shape p1 = [:: w; D; D; z] -> shape p2 = [:: w; D; D; z] ->
  mat (w * D * D) z [:: w; D; D] [:: z] p1 = a1 *: L *m cj (mx_of m z U') ->
  mat (w * D * D) z [:: w; D; D] [:: z] p2 = a2 *: R2 *m mx_of n z V' ->
  cut_fact L R1 R2 k U [seq x / a | x <- s] V (p1, p2, r).
Proof.
move=> Ha Ha1 Ha2 HS Hs Hz P0 Pi [bu Hbu EU] [bv Hbv EV] Sp1 Sp2 Mp1 Mp2.
have nk i : nth 0 [seq x / a | x <- s] i = nth 0 s i / a.
  case: (ltnP i (size s)) => Hi; first by rewrite (nth_map 0).
  by rewrite (nth_default _ Hi) mul0r nth_default ?size_map.
have a0 : a != 0 by rewrite lt0r_neq0.
have Ez : nkeep [seq x / a | x <- s] = z.
  rewrite /z /nkeep count_map nk; congr minn; apply: eq_count => x /=.
  by rewrite invfM invrK mulrACA mulVf // mulr1.
rewrite /cut_fact Ez; split=> //.
- exact: svd_scale HS.
- by rewrite size_map.
- by rewrite nk divr_gt0 //; split=> // i; rewrite nk divr_gt0.
have Ed : dinv z s = (sqrtC a)^-1 *: dinv z [seq x / a | x <- s].
  rewrite /dinv -linearZ; congr diag_mx; apply/matrixP => i j; rewrite !mxE nk.
  rewrite rootCMl ?rootCV ?Order.POrderTheory.ltW // invfM invrK mulrCA mulVf ?mulr1 // sqrtC_eq0 //.
have Pi' i : 0 < nth 0 s (nat_of_ord (i : 'I_z)) / a by rewrite divr_gt0.
have q0 : 0 < (sqrtC a)^-1 by rewrite invr_gt0 sqrtC_gt0.
exists (a1 * bu * (sqrtC a)^-1), (a2 * bv * (sqrtC a)^-1); split; rewrite ?mulr_gt0 //.
- rewrite Mp1 EU Ed cj_scale // cj_mul cj_scale // cj_dinv => [|i]; last by rewrite nk.
  by rewrite -!(scalemxAl, scalemxAr) !scalerA mulmxA mulrA.
- by rewrite /= Mp2 EV Ed -!(scalemxAl, scalemxAr) !scalerA mulmxA mulrA.
Qed.

Lemma proj_end m n w D k (R1 : 'M[C]_(m, (w * D * D)%N)) (R2 : 'M[C]_((w * D * D)%N, n)) a a1 a2
  (R1t R2t U V U' V' : tensor) (s : seq C) (r : R) (z := nkeep s) :
  shape R1t = [:: m; w; D; D] -> shape R2t = [:: w; D; D; n] ->
  mat m (w * D * D) [:: m] [:: w; D; D] R1t = a1 *: R1 -> mat (w * D * D) n [:: w; D; D] [:: n] R2t = a2 *: R2 ->
  0 < a -> 0 < a1 -> 0 < a2 ->
  svd_of k (a *: (R1 *m R2)) U s V -> size s = k -> (z <= k)%N -> 0 < nth 0 s 0 -> (forall i : 'I_z, 0 < nth 0 s i) ->
  shape U' = [:: m; z] -> shape V' = [:: n; z] ->
  (exists2 b, 0 < b & mx_of m z U' = b *: (mx_of m z U *m dinv z s)) ->
  (exists2 b, 0 < b & mx_of n z V' = b *: (mx_of n z V *m dinv z s)) ->
  exists p1 p2, [/\ einsum "xedD,xz->edDz" [:: R1t; conj U'] = Ok p1, einsum "cuUy,yz->cuUz" [:: R2t; V'] = Ok p2 &
    cut_fact R1^T R1 R2 k U [seq x / a | x <- s] V (p1, p2, r)].
Proof.
move=> S1 S2 M1 M2 Ha Ha1 Ha2 HS Hs Hz P0 Pi SU SV EU EV.
have [p1 [-> Sp1 Mp1]] := proj1E S1 SU; have [p2 [-> Sp2 Mp2]] := proj2E S2 SV.
exists p1, p2; split=> //; apply: (@cut_end _ _ _ _ _ _ _ _ _ _ _ _ _ _ _ _ _ _ r Ha Ha1 Ha2 HS Hs Hz P0 Pi EU EV Sp1 Sp2).
- rewrite Mp1 M1; congr (_ *m _); by apply/matrixP => i j; rewrite !mxE.
- by rewrite Mp2 M2.
Qed.

(** the largest singular value is non-zero unless the matrix is zero *)
Lemma sval0 m n k (A : 'M[C]_(m, n)) (U V : tensor) (s : seq C) : svd_of k A U s V ->
  usv m n k U s V = A -> nth 0 s 0 = 0 -> A = 0.
Proof.
move=> [_ _ [G M] _] <- E0; rewrite /usv.
suff -> : row_of_seq k s = 0 by rewrite linear0 mulmx0 mul0mx.
apply/matrixP => i j; rewrite !mxE; have k0 : (0 < k)%N by apply: leq_ltn_trans (ltn_ord j).
have := M (Ordinal k0) j (leq0n _); have := G j; rewrite !mxE /= E0 => H1 H2.
by apply/eqP; rewrite Order.POrderTheory.eq_le H1 H2.
Qed.

Lemma quarterE' (q : quarter tensor) D p c e (E : Prop) f : qfit D p q c e -> quarter_flat q = Ok f ->
  (qmat c e D f = 0 -> E) ->
  okE E (make_quarter_tensor q) (fun Qd => [/\ Qd.2 = [:: c; D; D; e; D; D],
       shape Qd.1 = [:: c * D * D; e * D * D]%N, (0 < c * D * D)%N /\ (0 < e * D * D)%N &
       exists2 a, 0 < a & mx_of (c * D * D) (e * D * D) Qd.1 = a *: qmat c e D f]).
Proof. by move=> Hq Hf; have [f' [Hf' _ H]] := quarterE E Hq; move: Hf' H; rewrite Hf => -[<-]. Qed.

Lemma scale_eq0 m n (a : C) (A : 'M[C]_(m, n)) : 0 < a -> a *: A = 0 -> A = 0.
Proof. by move=> Ha /eqP; rewrite scaler_eq0 (negbTE (lt0r_neq0 Ha)) /= => /eqP. Qed.

Lemma absmax_mx0 m n (t : tensor) : shape t = [:: m; n] -> absmax t = 0 -> mx_of m n t = 0.
Proof.
move=> Ht Z; apply/matrixP => i j; rewrite !mxE.
by apply: (absmax_eq0 Z); rewrite Ht /= !ltn_ord.
Qed.

(** projectors from a full-rank decomposition of F *)
Lemma proj_full m n w D (R1 : 'M[C]_(m, (w * D * D)%N)) (R2 : 'M[C]_((w * D * D)%N, n)) a a1 a2 (t1 t4 Fm : tensor) (E : Prop) r :
  svd_type cfg = "full-rank" -> full_svd_spec fsvd ->
  shape t1 = [:: m; w; D; D] -> shape t4 = [:: w; D; D; n] -> shape Fm = [:: m; n] -> (0 < minn m n)%N ->
  0 < a -> 0 < a1 -> 0 < a2 ->
  mat m (w * D * D) [:: m] [:: w; D; D] t1 = a1 *: R1 -> mat (w * D * D) n [:: w; D; D] [:: n] t4 = a2 *: R2 ->
  mx_of m n Fm = a *: (R1 *m R2) -> (R1 *m R2 = 0 -> E) -> (~ 0 <= cutoff -> E) ->
  okE E (calculate_projectors randn lqr lsvd fsvd cfg r t1 t4 Fm chi0) (fun pr =>
    exists U s V, cut_fact R1^T R1 R2 (minn m n) U s V pr /\ usv m n (minn m n) U s V = R1 *m R2).
Proof.
move=> Ht Sp S1 S4 SF k0 A0 A1 A2 M1 M4 MF HEz HEc.
rewrite /calculate_projectors /psvd Ht String.eqb_refl.
have [u [s [vh [-> [Su Sv] Ss HS HA]]]] := svd_fullE SF Sp; rewrite ![bind (Ok _) _]/bind.
have HE0 : nth 0 s 0 = 0 -> E.
  by move=> /(sval0 HS HA); rewrite MF => /(scale_eq0 A0).
apply: okE_bind (step_rel Ss k0 HS HE0) _ => s' [-> P0 -> Hz].
apply: okE_bind (step_weight Ss HS HEc P0 Hz Su (geq_minl _ _)) _ => U' [SU' [Pi HU']].
have Sv' : shape (adjoint vh) = [:: n; n] by rewrite /= Sv.
apply: okE_bind (step_weight Ss HS HEc P0 Hz Sv' (geq_minr _ _)) _ => V' [SV' [_ HV']].
rewrite MF in HS HA.
have [p1 [p2 [-> -> Hf]]] := proj_end r S1 S4 M1 M4 A0 A1 A2 HS Ss Hz P0 Pi SU' SV' HU' HV'.
by exists u, [seq x / a | x <- s], (adjoint vh); split=> //; apply: usv_scale.
Qed.

Section Half.
Variables (g1 g4 : quarter tensor) (D p c1 w e4 : nat) (q1 q4 : tensor).
Hypotheses (F1 : qfit D p g1 c1 w) (F4 : qfit D p g4 w e4).
Hypotheses (Q1 : quarter_flat g1 = Ok q1) (Q4 : quarter_flat g4 = Ok q4).
Notation m := (c1 * D * D)%N.
Notation n := (e4 * D * D)%N.
Notation R1 := (qmat c1 w D q1).
Notation R2 := (qmat w e4 D q4).

Lemma half_full r : svd_type cfg = "full-rank" -> full_svd_spec fsvd ->
  okE (R1 *m R2 = 0 \/ ~ 0 <= cutoff) (calculate_half_system randn lqr lsvd fsvd cfg r g1 g4) (fun pr =>
    exists U s V, cut_fact R1^T R1 R2 (minn m n) U s V pr /\ usv m n (minn m n) U s V = R1 *m R2).
Proof.
move=> Ht Sp; rewrite /calculate_half_system Ht String.eqb_refl; set E := _ \/ _.
rewrite /contract_half_system.
apply: (@okE_bind _ _ _ _ _ (fun x => [/\ shape x.1.1 = [:: m; w; D; D]%N, shape x.1.2 = [:: w; D; D; n]%N,
      shape x.2 = [:: m; n]%N, (0 < minn m n)%N & exists a a1 a2, [/\ 0 < a, 0 < a1, 0 < a2,
        mat m (w * D * D) [:: m] [:: w; D; D] x.1.1 = a1 *: R1 /\ mat (w * D * D) n [:: w; D; D] [:: n] x.1.2 = a2 *: R2 &
        mx_of m n x.2 = a *: (R1 *m R2)]])).
  apply: okE_bind (quarterE' F1 Q1 _) _; first by move=> Z0; left; rewrite Z0 mul0mx.
  move=> [t1 d1] [/= D1 S1 [P1 _] [a1 A1 M1]].
  apply: okE_bind (quarterE' F4 Q4 _) _; first by move=> Z0; left; rewrite Z0 mulmx0.
  move=> [t4 d4] [/= D4 S4 [_ P4] [a4 A4 M4]].
  have [Rm [-> SR MR]] := matmulE S1 S4; rewrite [bind (Ok _) _]/bind.
  have [t1' [-> S1' M1']] := view_colsE S1 D1; have [t4' [-> S4' M4']] := view_rowsE S4 D4.
  rewrite ![bind (Ok _) _]/bind.
  apply: okE_bind (okE_tdiv _) _.
    move/(absmax_mx0 SR); rewrite MR M1 M4 -scalemxAl -scalemxAr scalerA.
    by move/(scale_eq0 (mulr_gt0 A1 A4)); left.
  move=> Rn [_ [a A ->]] /=; split=> //; first by rewrite leq_min P1 P4.
  exists (a * (a1 * a4)), a1, a4; split=> //; first by rewrite !mulr_gt0.
    by rewrite M1' M4' M1 M4.
  by rewrite mx_tscale MR M1 M4 -scalemxAl -scalemxAr !scalerA !mulrA.
move=> [[t1 t4] Fm] [/= S1 S4 SF k0 [a [a1 [a2 [A0 A1 A2 [M1 M4] MF]]]]].
by apply: (proj_full r Ht Sp S1 S4 SF k0 A0 A1 A2 M1 M4 MF); [left|right].
Qed.

Lemma half_rsvd r : svd_type cfg <> "full-rank" -> (0 < chi0)%N -> qr_spec lqr -> thin_svd_spec lsvd ->
  let k := minn (chi0 + rsvd_oversampling cfg) (minn m n) in
  let sampled := in_cols (R1 *m R2) (R1 *m R2 *m (randn r n k).1) in
  okE [\/ R1 *m R2 = 0, ~ 0 <= cutoff | ~ sampled] (calculate_half_system randn lqr lsvd fsvd cfg r g1 g4) (fun pr =>
    exists U s V, cut_fact R1^T R1 R2 k U s V pr /\ (sampled -> usv m n k U s V = R1 *m R2)).
Proof.
move=> Ht Hchi Sq Ss k sampled; rewrite /calculate_half_system; case: String.eqb_spec => // _; set E := or3 _ _ _.
apply: okE_bind (quarterE' F1 Q1 _) _; first by move=> Z0; apply: Or31; rewrite Z0 mul0mx.
move=> [t1 d1] [/= D1 S1 [P1 _] [a1 A1 M1]].
apply: okE_bind (quarterE' F4 Q4 _) _; first by move=> Z0; apply: Or31; rewrite Z0 mulmx0.
move=> [t4 d4] [/= D4 S4 [_ P4] [a4 A4 M4]].
have [U [s [V [-> SU Hs SV [P [EP EL]]]]]] := fused_matmulE randn lqr lsvd r (chi0 + rsvd_oversampling cfg) (rsvd_niter cfg) S1 S4.
rewrite -/k in SU Hs SV EL *; rewrite ![bind (Ok _) _]/bind.
have [P' [EP' SP MP]] := matmulE S1 S4; move: EP'; rewrite EP => -[E']; rewrite -{}E' in SP MP.
have [U' [s' [V' [EL' _ _ _ HL]]]] := svd_lowrankE randn lqr lsvd r (chi0 + rsvd_oversampling cfg) (rsvd_niter cfg) SP.
rewrite -/k EL in EL' HL *; case: EL' => E1 E2 E3; rewrite -{}E1 -{}E2 -{}E3 {U' s' V'} in HL.
have A0 := mulr_gt0 A1 A4; set a := a1 * a4 in A0.
have MP' : mx_of m n P = a *: (R1 *m R2) by rewrite MP M1 M4 -scalemxAl -scalemxAr scalerA.
have [H1 H2 H3 H4 [_ [_ _ H5]]] := HL Sq Ss; rewrite MP' in H4 H5.
have HS : svd_of k (a *: (R1 *m R2)) U s V by split.
have k0 : (0 < k)%N by rewrite !leq_min P1 P4 addn_gt0 Hchi.
have HA : sampled -> usv m n k U s V = a *: (R1 *m R2).
  by case=> Z HZ; apply: H5; exists Z; rewrite {1}HZ -!scalemxAl.
have HE0 : nth 0 s 0 = 0 -> E.
  move=> Z; case: (eqVneq (R1 *m R2) 0) => [|/eqP N]; first exact: Or31.
  apply: Or33 => Hsm; apply: N; apply: (scale_eq0 A0); apply: (sval0 HS) => //; exact: HA.
have HEc : ~ 0 <= cutoff -> E by exact: Or32.
apply: okE_bind (step_rel Hs k0 HS HE0) _ => s' [-> P0 -> Hz].
apply: okE_bind (step_weight Hs HS HEc P0 Hz SU (leqnn _)) _ => U' [SU' [Pi HU']].
apply: okE_bind (step_weight Hs HS HEc P0 Hz SV (leqnn _)) _ => V' [SV' [_ HV']].
have [t1' [-> S1' M1']] := view_colsE S1 D1; have [t4' [-> S4' M4']] := view_rowsE S4 D4.
rewrite ![bind (Ok _) _]/bind; rewrite {}M1 in M1'; rewrite {}M4 in M4'.
have [p1 [p2 [-> -> Hf]]] := proj_end (randn r n k).2 S1' S4' M1' M4' A0 A1 A4 HS Hs Hz P0 Pi SU' SV' HU' HV'.
by exists U, [seq x / a | x <- s], V; split=> //= Hsm; apply: usv_scale => //; apply: HA.
Qed.
End Half.

Section Full.
Variables (g1 g2 g3 g4 : quarter tensor) (D p c1 c2 c3 w e3 : nat) (q1 q2 q3 q4 : tensor).
Hypotheses (F1 : qfit D p g1 c1 w) (F2 : qfit D p g2 c2 c1) (F3 : qfit D p g3 c3 e3) (F4 : qfit D p g4 w c3).
Hypotheses (Q1 : quarter_flat g1 = Ok q1) (Q2 : quarter_flat g2 = Ok q2) (Q3 : quarter_flat g3 = Ok q3) (Q4 : quarter_flat g4 = Ok q4).
Notation m := (c2 * D * D)%N.
Notation n := (e3 * D * D)%N.
Notation R1 := (qmat c2 c1 D q2 *m qmat c1 w D q1).
Notation R2 := (qmat w c3 D q4 *m qmat c3 e3 D q3).

Lemma full_full r : svd_type cfg = "full-rank" -> full_svd_spec fsvd ->
  okE (R1 *m R2 = 0 \/ ~ 0 <= cutoff) (calculate_full_system randn lqr lsvd fsvd cfg r g1 g2 g3 g4) (fun pr =>
    exists U s V, cut_fact R1^T R1 R2 (minn m n) U s V pr /\ usv m n (minn m n) U s V = R1 *m R2).
Proof.
move=> Ht Sp; rewrite /calculate_full_system Ht String.eqb_refl; set E := _ \/ _.
rewrite /contract_full_system.
apply: (@okE_bind _ _ _ _ _ (fun x => [/\ shape x.1.1 = [:: m; w; D; D]%N, shape x.1.2 = [:: w; D; D; n]%N,
      shape x.2 = [:: m; n]%N, (0 < minn m n)%N & exists a a1 a2, [/\ 0 < a, 0 < a1, 0 < a2,
        mat m (w * D * D) [:: m] [:: w; D; D] x.1.1 = a1 *: R1 /\ mat (w * D * D) n [:: w; D; D] [:: n] x.1.2 = a2 *: R2 &
        mx_of m n x.2 = a *: (R1 *m R2)]])).
  apply: okE_bind (quarterE' F1 Q1 _) _; first by move=> Z0; left; rewrite Z0 mulmx0 mul0mx.
  move=> [t1 d1] [/= D1 S1 [P1 _] [a1 A1 M1]].
  apply: okE_bind (quarterE' F2 Q2 _) _; first by move=> Z0; left; rewrite Z0 !mul0mx.
  move=> [t2 d2] [/= D2 S2 [P2 _] [a2 A2 M2]].
  have [Ra [-> SA MA]] := matmulE S2 S1; rewrite [bind (Ok _) _]/bind.
  apply: okE_bind (quarterE' F3 Q3 _) _; first by move=> Z0; left; rewrite Z0 !mulmx0.
  move=> [t3 d3] [/= D3 S3 [_ P3] [a3 A3 M3]].
  apply: okE_bind (quarterE' F4 Q4 _) _; first by move=> Z0; left; rewrite Z0 mul0mx mulmx0.
  move=> [t4 d4] [/= D4 S4 [_ P4] [a4 A4 M4]].
  have [Rb [-> SB MB]] := matmulE S4 S3; rewrite [bind (Ok _) _]/bind.
  have MA' : mx_of m (w * D * D) Ra = (a2 * a1) *: R1 by rewrite MA M2 M1 -scalemxAl -scalemxAr scalerA.
  have MB' : mx_of (w * D * D) n Rb = (a4 * a3) *: R2 by rewrite MB M4 M3 -scalemxAl -scalemxAr scalerA.
  apply: okE_bind (okE_tdiv _) _.
    by move/(absmax_mx0 SA); rewrite MA' => /(scale_eq0 (mulr_gt0 A2 A1)) Z0; left; rewrite Z0 mul0mx.
  move=> Ra' [_ [a Ha ->]].
  apply: okE_bind (okE_tdiv _) _.
    by move/(absmax_mx0 SB); rewrite MB' => /(scale_eq0 (mulr_gt0 A4 A3)) Z0; left; rewrite Z0 mulmx0.
  move=> Rb' [_ [b Hb ->]].
  have SA' : shape (tscale a Ra) = [:: m; w * D * D]%N by [].
  have SB' : shape (tscale b Rb) = [:: w * D * D; n]%N by [].
  have MA2 : mx_of m (w * D * D) (tscale a Ra) = (a * (a2 * a1)) *: R1 by rewrite mx_tscale MA' scalerA.
  have MB2 : mx_of (w * D * D) n (tscale b Rb) = (b * (a4 * a3)) *: R2 by rewrite mx_tscale MB' scalerA.
  have [Fm [-> SF MF]] := matmulE SA' SB'; rewrite [bind (Ok _) _]/bind.
  have [t1' [-> S1' M1']] := view_colsE SA' D1; have [t4' [-> S4' M4']] := view_rowsE SB' D4.
  rewrite ![bind (Ok _) _]/bind.
  have al0 : 0 < a * (a2 * a1) by rewrite !mulr_gt0.
  have be0 : 0 < b * (a4 * a3) by rewrite !mulr_gt0.
  move: MF; rewrite MA2 MB2 -scalemxAl -scalemxAr scalerA => MF.
  apply: okE_bind (okE_tdiv _) _.
    by move/(absmax_mx0 SF); rewrite MF => /(scale_eq0 (mulr_gt0 al0 be0)); left.
  move=> Rn [_ [f Hf ->]] /=; split=> //; first by rewrite leq_min P2 P3.
  exists (f * (a * (a2 * a1) * (b * (a4 * a3)))), (a * (a2 * a1)), (b * (a4 * a3)); split=> //.
  - by rewrite mulr_gt0 // mulr_gt0.
  - by rewrite M1' M4' MA2 MB2.
  - by rewrite mx_tscale MF scalerA.
move=> [[t1 t4] Fm] [/= S1 S4 SF k0 [a [a1 [a2 [A0 A1 A2 [M1 M4] MF]]]]].
by apply: (proj_full r Ht Sp S1 S4 SF k0 A0 A1 A2 M1 M4 MF); [left|right].
Qed.

(** Q^H where Q1^T is meant: P1 is built from the adjoint of R1 *)
Lemma full_rsvd r : svd_type cfg <> "full-rank" -> (0 < chi0)%N -> qr_spec lqr -> thin_svd_spec lsvd ->
  let k := minn (chi0 + rsvd_oversampling cfg) (minn m n) in
  let sampled := in_cols (R1 *m R2) (R1 *m R2 *m (randn r n k).1) in
  okE [\/ R1 *m R2 = 0, ~ 0 <= cutoff | ~ sampled] (calculate_full_system randn lqr lsvd fsvd cfg r g1 g2 g3 g4) (fun pr =>
    exists U s V, cut_fact (adj R1) R1 R2 k U s V pr /\ (sampled -> usv m n k U s V = R1 *m R2)).
Proof.
move=> Ht Hchi Sq Ss k sampled; rewrite /calculate_full_system; case: String.eqb_spec => // _; set E := or3 _ _ _.
apply: okE_bind (quarterE' F1 Q1 _) _; first by move=> Z0; apply: Or31; rewrite Z0 mulmx0 mul0mx.
move=> [t1 d1] [/= D1 S1 [P1 _] [a1 A1 M1]].
apply: okE_bind (quarterE' F2 Q2 _) _; first by move=> Z0; apply: Or31; rewrite Z0 !mul0mx.
move=> [t2 d2] [/= D2 S2 [P2 _] [a2 A2 M2]].
apply: okE_bind (quarterE' F3 Q3 _) _; first by move=> Z0; apply: Or31; rewrite Z0 !mulmx0.
move=> [t3 d3] [/= D3 S3 [_ P3] [a3 A3 M3]].
apply: okE_bind (quarterE' F4 Q4 _) _; first by move=> Z0; apply: Or31; rewrite Z0 mul0mx mulmx0.
move=> [t4 d4] [/= D4 S4 [_ P4] [a4 A4 M4]].
have [U [s [V [-> SU Hs SV HL]]]] := fused_3matmulE randn lqr lsvd r (chi0 + rsvd_oversampling cfg) (rsvd_niter cfg) S2 S1 S4 S3.
rewrite -/k in SU Hs SV HL *; rewrite ![bind (Ok _) _]/bind.
have A12 := mulr_gt0 A2 A1; have A43 := mulr_gt0 A4 A3; have A0 := mulr_gt0 A12 A43; set a := a2 * a1 * _ in A0.
have MP : mx_of m (c1 * D * D) t2 *m mx_of (c1 * D * D) (w * D * D) t1 *m mx_of (w * D * D) (c3 * D * D) t4
    *m mx_of (c3 * D * D) n t3 = a *: (R1 *m R2).
  by rewrite M1 M2 M3 M4 -!(scalemxAl, scalemxAr) !scalerA !mulmxA /a; congr (_ *: _); rewrite -mulrA mulrC (mulrC a3).
rewrite MP in HL; have [H1 H2 H3 H4 [_ [_ _ H5]]] := HL Sq Ss.
have HS : svd_of k (a *: (R1 *m R2)) U s V by split.
have k0 : (0 < k)%N by rewrite !leq_min P2 P3 addn_gt0 Hchi.
have HA : sampled -> usv m n k U s V = a *: (R1 *m R2).
  by case=> Z HZ; apply: H5; exists Z; rewrite {1}HZ -!scalemxAl.
have HE0 : nth 0 s 0 = 0 -> E.
  move=> Z; case: (eqVneq (R1 *m R2) 0) => [|/eqP N]; first exact: Or31.
  apply: Or33 => Hsm; apply: N; apply: (scale_eq0 A0); apply: (sval0 HS) => //; exact: HA.
have HEc : ~ 0 <= cutoff -> E by exact: Or32.
apply: okE_bind (step_rel Hs k0 HS HE0) _ => s' [-> P0 -> Hz].
apply: okE_bind (step_weight Hs HS HEc P0 Hz SU (leqnn _)) _ => U' [SU' [Pi HU']].
apply: okE_bind (step_weight Hs HS HEc P0 Hz SV (leqnn _)) _ => V' [SV' [_ HV']].
have [S2a M2a] := adjointE S2; have [S1a M1a] := adjointE S1.
have SUc : shape (conj U') = [:: m; nkeep s] by [].
have [T [-> ST MT]] := matmulE S2a SUc; rewrite [bind (Ok _) _]/bind.
have [p1 [-> Sp1 Mp1]] := matmulE S1a ST; rewrite [bind (Ok _) _]/bind.
have [p1' [Ep1 Sp1' Mp1']] : exists p', [/\ reshape p1 [:: w; D; D; nkeep s] = Ok p', shape p' = [:: w; D; D; nkeep s] &
    mat (w * D * D) (nkeep s) [:: w; D; D] [:: nkeep s] p' = mx_of (w * D * D) (nkeep s) p1].
  by apply: (@reshape_split _ [:: w; D; D] [:: nkeep s]) => //; rewrite /= muln1 ?mulnA.
rewrite D1 /= Ep1 [bind (Ok _) _]/bind.
have [T' [-> ST' MT']] := matmulE S3 SV'; rewrite [bind (Ok _) _]/bind.
have [p2 [-> Sp2 Mp2]] := matmulE S4 ST'; rewrite [bind (Ok _) _]/bind.
have [p2' [Ep2 Sp2' Mp2']] : exists p', [/\ reshape p2 [:: w; D; D; nkeep s] = Ok p', shape p' = [:: w; D; D; nkeep s] &
    mat (w * D * D) (nkeep s) [:: w; D; D] [:: nkeep s] p' = mx_of (w * D * D) (nkeep s) p2].
  by apply: (@reshape_split _ [:: w; D; D] [:: nkeep s]) => //; rewrite /= muln1 ?mulnA.
rewrite D4 /= Ep2 [bind (Ok _) _]/bind.
exists U, [seq x / a | x <- s], V; split; last by move=> Hsm; apply: usv_scale => //; apply: HA.
apply: (@cut_end _ _ _ _ _ _ _ _ _ _ _ _ _ _ _ _ _ _ _ A0 A12 A43 HS Hs Hz P0 Pi HU' HV' Sp1' Sp2').
- rewrite Mp1' Mp1 M1a MT M2a M1 M2 mulmxA; congr (_ *m _).
  + have -> : adj (a1 *: qmat c1 w D q1) = a1 *: adj (qmat c1 w D q1).
      by apply/matrixP => i j; rewrite !mxE rmorphM; congr (_ * _); rewrite conj_Creal // gtr0_real.
    have -> : adj (a2 *: qmat c2 c1 D q2) = a2 *: adj (qmat c2 c1 D q2).
      by apply/matrixP => i j; rewrite !mxE rmorphM; congr (_ * _); rewrite conj_Creal // gtr0_real.
    by rewrite adjM -!(scalemxAl, scalemxAr) !scalerA mulrC.
  + by apply/matrixP => i j; rewrite !mxE.
- by rewrite Mp2' Mp2 MT' M4 M3 mulmxA -!(scalemxAl, scalemxAr) !scalerA.
Qed.
End Full.
End Fun.
End Cfg.
End Proj.
