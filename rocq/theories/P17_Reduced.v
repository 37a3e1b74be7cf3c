(** C46, C47: splitting site tensors and balancing the reduced tensors
    (acetn/evolution/tensor_update.py, full_update.py). *)
From Coq Require Import String Ascii.
From mathcomp Require Import all_ssreflect all_algebra.
From Verif Require Import Base Lattice Mover Tensor TN Rdm RdmFacts FullUpdate Linalg Mat Rsvd RsvdFacts Renorm RenormFacts Spectral ProjFacts Psd Als AlsFacts EighChol UpdFacts P16_Als.
Set Implicit Arguments.
Unset Strict Implicit.
Unset Printing Implicit Defensive.
Import GRing.Theory Num.Theory.
Local Open Scope ring_scope.
Local Open Scope string_scope.

Section C47.
Variable C : numClosedFieldType.
Notation tensor := (tensor C).

(** the columns of a tensor with three row legs are orthonormal *)
Definition isometric b n (q : tensor) : Prop := forall x x', (x < n)%N -> (x' < n)%N ->
  sumn b (fun i => sumn b (fun j => sumn b (fun k => (at_ q [:: i; j; k; x])^* * at_ q [:: i; j; k; x']))) = (x == x')%:R.

(** C47: splitting two site tensors and recomposing them gives back the same
    tensors; the split-off parts are isometric, the reduced ones keep the shared
    bond and the physical leg. *)
Theorem C47_lossless (lqr : qr_fun C) b p (a1 a2 : tensor) : qr_spec lqr ->
  shape a1 = [:: b; b; b; b; p] -> shape a2 = [:: b; b; b; b; p] ->
  let n := minn (b ^ 3) (p * b) in
  exists a1q a1r a2q a2r, decompose_site_tensors lqr a1 a2 = Ok (a1q, a1r, a2q, a2r) /\
    [/\ shape a1q = [:: b; b; b; n] /\ shape a2q = [:: b; b; b; n], shape a1r = [:: n; b; p] /\ shape a2r = [:: n; b; p],
        isometric b n a1q /\ isometric b n a2q &
        exists b1 b2, [/\ recompose_site_tensors a1q a1r a2q a2r = Ok (b1, b2), teq b1 a1 & teq b2 a2]].
Proof.
move=> Sq H1 H2; cbv zeta; rewrite /decompose_site_tensors H1 [drop 3 _]/=.
have [n En] : exists n, n = minn (b ^ 3) (p * b) by eexists.
rewrite -!En.
have [t1 [-> T1 ET1]] : exists t, [/\ einsum "lurdp->rdulp" [:: a1] = Ok t, shape t = [:: b; b; b; b; p] &
    forall r d u l P, at_ t [:: r; d; u; l; P] = at_ a1 [:: l; u; r; d; P]].
  by rewrite /einsum /= H1 /= /dims_ok /= ?eqxx /=; eexists; split=> // *; rewrite /= /factor /= mulr1.
have [t2 [-> T2 ET2]] : exists t, [/\ einsum "lurdp->dlurp" [:: a2] = Ok t, shape t = [:: b; b; b; b; p] &
    forall d l u r P, at_ t [:: d; l; u; r; P] = at_ a2 [:: l; u; r; d; P]].
  by rewrite /einsum /= H2 /= /dims_ok /= ?eqxx /=; eexists; split=> // *; rewrite /= /factor /= mulr1.
have b3 : (b ^ 3)%N = numel [:: b; b; b] by rewrite /= muln1 !expnS expn0 muln1.
have pb : (p * b)%N = numel [:: b; p] by rewrite /= muln1 mulnC.
rewrite [bind (Ok t1) _]/bind.
have [u1 [q1 [r1 [q1' [r1' [-> F1 G1 K1 [SQ1 SR1 P1 I1]]]]]]] := @qr_split C lqr [:: b; b; b] [:: b; p] t1 _ _ n T1 b3 pb En Sq.
rewrite [bind (Ok u1) _]/bind F1 [bind (Ok (q1, r1)) _]/bind G1 [bind (Ok q1') _]/bind K1 [bind (Ok r1') _]/bind [bind (Ok t2) _]/bind.
have [u2 [q2 [r2 [q2' [r2' [-> F2 G2 K2 [SQ2 SR2 P2 I2]]]]]]] := @qr_split C lqr [:: b; b; b] [:: b; p] t2 _ _ n T2 b3 pb En Sq.
rewrite [bind (Ok u2) _]/bind F2 [bind (Ok (q2, r2)) _]/bind G2 [bind (Ok q2') _]/bind K2 [bind (Ok r2') _]/bind.
rewrite [cat _ _]/= in SQ1 SQ2.
have I3 (q : tensor) x x' : \sum_(v <- indices [:: b; b; b]) (at_ q (cat v [:: x]))^* * at_ q (cat v [:: x']) =
    sumn b (fun i => sumn b (fun j => sumn b (fun k => (at_ q [:: i; j; k; x])^* * at_ q [:: i; j; k; x']))).
  rewrite indices_cons; apply: eq_sumn => i _; rewrite indices_cons; apply: eq_sumn => j _.
  by rewrite indices_cons; apply: eq_sumn => k _; rewrite big_seq1.
exists q1', r1', q2', r2'; split=> //; split=> //.
  by split=> x x' Hx Hx'; rewrite -I3; [apply: I1|apply: I2].
rewrite /recompose_site_tensors.
have [b1 [-> B1 EB1]] : exists t, [/\ einsum "rdux,xlp->lurdp" [:: q1'; r1'] = Ok t, shape t = [:: b; b; b; b; p] &
    forall l u r d P, at_ t [:: l; u; r; d; P] = sumn n (fun x => at_ q1' [:: r; d; u; x] * at_ r1' [:: x; l; P])].
  by rewrite /einsum /= SQ1 SR1 /= /dims_ok /= !eqxx /=; eexists; split.
have [b2 [-> B2 EB2]] : exists t, [/\ einsum "dlux,xrp->lurdp" [:: q2'; r2'] = Ok t, shape t = [:: b; b; b; b; p] &
    forall l u r d P, at_ t [:: l; u; r; d; P] = sumn n (fun x => at_ q2' [:: d; l; u; x] * at_ r2' [:: x; r; P])].
  by rewrite /einsum /= SQ2 SR2 /= /dims_ok /= !eqxx /=; eexists; split.
have rng v : in_range [:: b; b; b; b; p] v -> exists l u r d P, v = [:: l; u; r; d; P] /\
    [/\ (l < b)%N, (u < b)%N, (r < b)%N, (d < b)%N & (P < p)%N].
  case: v => [|l [|u [|r [|d [|P [|? ?]]]]]] //=; rewrite ?andbF //.
  by case/and5P => ? ? ? ? /andP[? _]; exists l, u, r, d, P.
exists b1, b2; split=> //; split; rewrite ?B1 ?B2 ?H1 ?H2 // => v /rng [l [u [r [d [P [-> [Hl Hu Hr Hd HP]]]]]]].
  by rewrite EB1 -ET1 (P1 [:: r; d; u] [:: l; P]) //= ?Hr ?Hd ?Hu ?Hl ?HP.
by rewrite EB2 -ET2 (P2 [:: d; l; u] [:: r; P]) //= ?Hr ?Hd ?Hu ?Hl ?HP.
Qed.

(** bond dimension 2, physical dimension 2: the reduced tensors have a leg of
    dimension 4 in place of the three outer legs *)
Example C47_example (f g : seq nat -> C) :
  let a1 : tensor := Tensor [:: 2; 2; 2; 2; 2]%N f in let a2 : tensor := Tensor [:: 2; 2; 2; 2; 2]%N g in
  exists a1q a1r a2q a2r b1 b2, [/\ decompose_site_tensors (@some_qr C) a1 a2 = Ok (a1q, a1r, a2q, a2r), shape a1r = [:: 4; 2; 2]%N,
    recompose_site_tensors a1q a1r a2q a2r = Ok (b1, b2), at_ b1 [:: 1; 0; 1; 0; 1]%N = f [:: 1; 0; 1; 0; 1]%N &
    at_ b2 [:: 0; 1; 0; 0; 1]%N = g [:: 0; 1; 0; 0; 1]%N].
Proof.
move=> a1 a2.
have [a1q [a1r [a2q [a2r [E [_ [S1 _] _ [b1 [b2 [E2 [X1 T1] [X2 T2]]]]]]]]]] := @C47_lossless (@some_qr C) 2 2 a1 a2 (@some_qr_spec C) erefl erefl.
by exists a1q, a1r, a2q, a2r, b1, b2; split=> //; rewrite ?T1 ?T2 ?X1 ?X2.
Qed.
End C47.

Section C46.
Variable C : numClosedFieldType.
Notation tensor := (tensor C).
Variable lqr : qr_fun C.
Variable fsvd : full_svd_fun C.

(** overlap of the columns u and v of a reduced tensor *)
Definition gram n p (a : tensor) (u v : nat) : C :=
  sumn n (fun y => sumn p (fun P => (at_ a [:: y; u; P])^* * at_ a [:: y; v; P])).
(** sum of squares of the two-site state *)
Definition total n D p (a1 a2 : tensor) : C :=
  sumn n (fun y => sumn p (fun P => sumn n (fun x => sumn p (fun Q => `|state D a1 a2 P Q y x| ^+ 2)))).

Lemma stateE n D p (a1 a2 : tensor) P Q y x (i j : 'I_(n * p)) : unravel [:: n; p] i = [:: y; P] -> unravel [:: n; p] j = [:: x; Q] ->
  state D a1 a2 P Q y x = (amat n D p a1 *m (amat n D p a2)^T) i j.
Proof. by move=> Ei Ej; rewrite mxE; apply: eq_bigr => u _; rewrite !mxE Ei Ej. Qed.

Lemma totalE n D p (a1 a2 : tensor) : total n D p a1 a2 = \sum_i \sum_j `|(amat n D p a1 *m (amat n D p a2)^T) i j| ^+ 2.
Proof.
pose F v := sumn n (fun x => sumn p (fun Q => `|state D a1 a2 (nth 0 v 1)%N Q (nth 0 v 0)%N x| ^+ 2)).
transitivity (\sum_(i < n * p) F (unravel [:: n; p] i)); first by rewrite sum2.
apply: eq_bigr => i _; have [y [P [_ _ Ei _]]] := unravel2 (ltn_ord i); rewrite /F Ei.
pose G v := `|state D a1 a2 P (nth 0 v 1)%N y (nth 0 v 0)%N| ^+ 2.
transitivity (\sum_(j < n * p) G (unravel [:: n; p] j)); first by rewrite sum2.
apply: eq_bigr => j _; have [x [Q [_ _ Ej _]]] := unravel2 (ltn_ord j); rewrite /G Ej /=.
by rewrite (stateE D a1 a2 Ei Ej).
Qed.

Lemma adjt m k (M : 'M[C]_(m, k)) : adj M^T = (adj M)^T.
Proof. by apply/matrixP => i j; rewrite !(adjE, mxE). Qed.

Lemma norm_list_gt0 (s : seq C) : norm_list s != 0 -> 0 < norm_list s.
Proof. by move=> H; rewrite lt0r H /norm_list sqrtC_ge0 sumr_ge0 // => x _; rewrite exprn_ge0. Qed.

Lemma norm_listE D (s : seq C) : size s = D -> norm_list s ^+ 2 = \sum_(i < D) `|nth 0 s i| ^+ 2.
Proof. by move=> Hs; rewrite /norm_list sqrtCK (big_nth 0) Hs big_mkord. Qed.

(** C46: the balancing step applied to two reduced tensors fails only if their
    two-site state is zero.  Otherwise it multiplies the state by a positive
    factor which makes its sum of squares one, keeps the shapes, and gives both
    tensors orthogonal columns over the shared bond with the same, ordered
    weights. *)
Theorem C46_balance n D p (a1 a2 : tensor) : shape a1 = [:: n; D; p] -> shape a2 = [:: n; D; p] -> (D <= n * p)%N ->
  qr_spec lqr -> full_svd_spec fsvd ->
  ((forall y x P Q, (y < n)%N -> (x < n)%N -> (P < p)%N -> (Q < p)%N -> state D a1 a2 P Q y x = 0) /\
   finalize_reduced_tensors lqr fsvd None a1 a2 = Err ZeroNorm) \/
  exists b1 b2 c w, [/\ finalize_reduced_tensors lqr fsvd None a1 a2 = Ok (b1, b2),
    shape b1 = [:: n; D; p] /\ shape b2 = [:: n; D; p],
    0 < c /\ (forall y x P Q, (y < n)%N -> (x < n)%N -> (P < p)%N -> (Q < p)%N -> state D b1 b2 P Q y x = c * state D a1 a2 P Q y x),
    total n D p b1 b2 = 1 &
    [/\ forall u, (u < D)%N -> 0 <= w u, forall u v, (u <= v)%N -> (v < D)%N -> w v <= w u,
        forall u v, (u < D)%N -> (v < D)%N -> gram n p b1 u v = w u *+ (u == v) &
        forall u v, (u < D)%N -> (v < D)%N -> gram n p b2 u v = w u *+ (u == v)]].
Proof.
move=> H1 H2 HD Sq Ss.
have [Q1 [Q2 [U [Vh [R1 [R2 [s [[IQ1 IQ2 IU IV] [Hs [s0 sm]] [E1 E2] ER H]]]]]]]] := finalizeE H1 H2 HD Sq Ss.
have Est : amat n D p a1 *m (amat n D p a2)^T = Q1 *m (U *m diag_mx (\row_i nth 0 s i) *m Vh) *m Q2^T.
  by rewrite E1 E2 trmx_mul -ER !mulmxA.
move: H; case: eqVneq => [Z|Nz] H; [left|right].
  split=> // y x P Q Hy Hx HP HQ.
  have [i Ei] := pair_ord Hy HP; have [j Ej] := pair_ord Hx HQ; rewrite (stateE D a1 a2 Ei Ej) Est.
  have -> : \row_i nth 0 s i = 0 :> 'rV[C]_D; last by rewrite raddf0 mulmx0 mul0mx mulmx0 mul0mx mxE.
  apply/matrixP => a b; rewrite !mxE; have /eqP := norm_listE Hs; rewrite Z expr0n eq_sym psumr_eq0 => [|k _]; last exact: exprn_ge0.
  by move/allP/(_ b (mem_index_enum b)); rewrite expf_eq0 normr_eq0 /= => /eqP.
have [b1 [b2 [Ef S1 S2 B1 B2]]] := H; have n0 := norm_list_gt0 Nz.
pose c := (norm_list s)^-1; have c0 : 0 < c by rewrite invr_gt0.
pose W := diag_mx (\row_(i < D) sqrtC (nth 0 s i / norm_list s)).
have WW : W *m W = c *: diag_mx (\row_i nth 0 s i).
  rewrite mulmx_diag -linearZ; congr diag_mx; apply/matrixP => i j; rewrite !mxE -expr2 sqrtCK mulrC //.
have Wt : W^T = W by rewrite tr_diag_mx.
have Wa : adj W = W.
  apply/matrixP => i j; rewrite adjE !mxE; case: eqVneq => [->|N]; last by rewrite rmorph0.
  by rewrite !mulr1n conj_Creal // ger0_real // sqrtC_ge0 divr_ge0 // Order.POrderTheory.ltW.
have Est' : amat n D p b1 *m (amat n D p b2)^T = c *: (amat n D p a1 *m (amat n D p a2)^T).
  rewrite Est B1 B2 -/W !trmx_mul trmxK Wt -!mulmxA (mulmxA W) WW -scalemxAl -!scalemxAr !mulmxA //.
exists b1, b2, c, (fun u => nth 0 s u * c); split=> //.
- split=> // y x P Q Hy Hx HP HQ; have [i Ei] := pair_ord Hy HP; have [j Ej] := pair_ord Hx HQ.
  by rewrite (stateE D b1 b2 Ei Ej) (stateE D a1 a2 Ei Ej) Est' mxE.
- rewrite totalE -tr_sq Est' Est adjZ -scalemxAl -scalemxAr scalerA mxtraceZ.
  have cr : c^* = c by rewrite conj_Creal // ger0_real // Order.POrderTheory.ltW.
  rewrite cr !adjM !mulmxA -(mulmxA _ (adj Q1)) IQ1 mulmx1 -(mulmxA _ (adj U)) IU mulmx1.
  rewrite mxtrace_mulC !mulmxA adjt -trmx_mul IQ2 trmx1 mul1mx.
  rewrite -(mulmxA _ _ Vh) mxtrace_mulC !mulmxA -(mulmxA _ Vh) IV mulmx1.
  have -> : adj (diag_mx (\row_i nth 0 s i)) = diag_mx (\row_i nth 0 s i) :> 'M[C]_D.
    apply/matrixP => i j; rewrite adjE !mxE; case: eqVneq => [->|N]; last by rewrite rmorph0.
    by rewrite !mulr1n conj_Creal // ger0_real.
  rewrite mulmx_diag mxtrace_diag (eq_bigr (fun i : 'I_D => `|nth 0 s i| ^+ 2)) => [|i _]; last first.
    by rewrite !mxE ger0_norm.
  by rewrite -(norm_listE Hs) -expr2 -exprMn mulVf ?expr1n.
have dW u v (Hu : (u < D)%N) (Hv : (v < D)%N) : (W *m W) (Ordinal Hu) (Ordinal Hv) = nth 0 s u * c *+ (u == v).
  by rewrite WW !mxE -val_eqE /= mulrnAr mulrC.
have IVt : adj Vh^T *m Vh^T = 1%:M.
  by rewrite adjt -trmx_mul IV trmx1.
split.
- by move=> u _; rewrite mulr_ge0 // Order.POrderTheory.ltW.
- by move=> u v Huv _; rewrite ler_pmul2r // sm.
- move=> u v Hu Hv; have [i [j [Ei Ej E]]] := amat_gram n p b1 Hu Hv; rewrite /gram -{}E -(dW u v Hu Hv).
  rewrite B1 !adjM Wa -/W !mulmxA -(mulmxA _ (adj Q1)) IQ1 mulmx1 -(mulmxA _ (adj U)) IU mulmx1.
  by congr ((_ *m _) _ _); apply: val_inj.
move=> u v Hu Hv; have [i [j [Ei Ej E]]] := amat_gram n p b2 Hu Hv; rewrite /gram -{}E -(dW u v Hu Hv).
rewrite B2 !adjM Wa -/W !mulmxA -(mulmxA _ (adj Q2)) IQ2 mulmx1 -(mulmxA _ (adj Vh^T)) IVt mulmx1.
by congr ((_ *m _) _ _); apply: val_inj.
Qed.
End C46.

(** a maximally entangled pair of two-dimensional sites: the balanced state is
    normalised, and still has the two equal entries *)
Section C46_example.
Variable C : numClosedFieldType.
Let a1 : tensor C := Tensor [:: 1; 2; 2]%N (fun i => (nth 0 i 1 == nth 0 i 2)%N%:R).
Let a2 : tensor C := Tensor [:: 1; 2; 2]%N (fun i => 3%:R * (nth 0 i 1 == nth 0 i 2)%N%:R).

Lemma pair_state P Q : (P < 2)%N -> state 2 a1 a2 P Q 0 0 = 3%:R * (P == Q)%:R.
Proof.
move=> HP; rewrite /state /sumn !big_ord_recl big_ord0 /= addr0; move: P HP => [|[|//]] _.
  by rewrite /= mul1r mul0r addr0.
by rewrite /= mul1r mul0r add0r.
Qed.

Example C46_example : exists b1 b2 c, [/\ finalize_reduced_tensors (@some_qr C) (@some_full_svd C) None a1 a2 = Ok (b1, b2), 0 < c,
  total 1 2 2 b1 b2 = 1, state 2 b1 b2 0 0 0 0 = c & state 2 b1 b2 1 1 0 0 = c /\ state 2 b1 b2 0 1 0 0 = 0].
Proof.
have [[Z _]|[b1 [b2 [c [w [E _ [c0 St] T _]]]]]] := @C46_balance C _ _ 1 2 2 a1 a2 erefl erefl isT (@some_qr_spec C) (@some_full_svd_spec C).
  by have /eqP := Z 0%N 0%N 0%N 0%N isT isT isT isT; rewrite pair_state // mulr1 pnatr_eq0.
exists b1, b2, (c * 3%:R); rewrite !St // !pair_state // !mulr1 !mulr0; split=> //.
by rewrite mulr_gt0 // ltr0n.
Qed.
End C46_example.

Print Assumptions C46_balance.
Print Assumptions C47_lossless.
