(** Positive semidefinite matrices and least squares over a numerically closed
    field. *)
From Coq Require Import String Ascii.
From mathcomp Require Import all_ssreflect all_algebra.
From Verif Require Import Base Tensor TN Linalg Mat RsvdFacts Spectral.
Set Implicit Arguments.
Unset Strict Implicit.
Unset Printing Implicit Defensive.
Import GRing.Theory Num.Theory.
Local Open Scope ring_scope.

Section Psd.
Variable C : numClosedFieldType.

Definition psd n (M : 'M[C]_n) : Prop := forall x : 'cV[C]_n, 0 <= (adj x *m M *m x) 0 0.

Lemma adj_trace n (M : 'M[C]_n) : \tr (adj M) = (\tr M)^*.
Proof. by rewrite /mxtrace rmorph_sum; apply: eq_bigr => i _; rewrite adjE. Qed.

Lemma real_form_eq n (M : 'M[C]_n) : (forall x : 'cV[C]_n, (adj x *m M *m x) 0 0 \is Num.real) -> adj M = M.
Proof.
move=> H; have [K EK] : exists K, K = M - adj M by eexists.
have Z (x : 'cV[C]_n) : (adj x *m K *m x) 0 0 = 0.
  rewrite EK mulmxBr mulmxBl [LHS]mxE [X in _ + X]mxE.
  have -> : adj x *m adj M *m x = adj (adj x *m M *m x) by rewrite !adjM adjK mulmxA.
  by rewrite adjE conj_Creal ?subrr.
have B (x y : 'cV[C]_n) : (adj x *m K *m y) 0 0 = 0.
  have E c : c^* * (adj y *m K *m x) 0 0 + c * (adj x *m K *m y) 0 0 = 0.
    have := Z (x + c *: y).
    have D (A B : 'M[C]_1) : (A + B) 0 0 = A 0 0 + B 0 0 by rewrite mxE.
    have S a (A : 'M[C]_1) : (a *: A) 0 0 = a * A 0 0 by rewrite mxE.
    rewrite adjD adjZ !mulmxDl !mulmxDr -!scalemxAl -!scalemxAr !D !S !Z !mulr0 add0r addr0.
    by rewrite addrC.
  have := E 1; have := E 'i; rewrite rmorph1 !mul1r conjCi mulNr => /eqP.
  rewrite addrC subr_eq0 => /eqP /(mulfI (neq0Ci C)) -> /eqP.
  by rewrite -mulr2n mulrn_eq0 /= => /eqP.
have K0 : K = 0.
  apply/matrixP => i j; rewrite [RHS]mxE -(B (delta_mx i 0) (delta_mx j 0)).
  have -> : adj (delta_mx i 0 : 'cV[C]_n) = delta_mx 0 i.
    by apply/matrixP => a b; rewrite adjE !mxE andbC rmorph_nat.
  by rewrite -rowE -colE !mxE.
by apply/eqP; rewrite eq_sym -subr_eq0 -EK K0.
Qed.

Lemma psd_herm n (M : 'M[C]_n) : psd M -> adj M = M.
Proof. by move=> H; apply: real_form_eq => x; apply: ger0_real. Qed.

Lemma psd_gram n (M : 'M[C]_n) : psd M -> exists Z : 'M[C]_n, M = Z *m adj Z.
Proof.
move=> H; have [U [f [U1 _ _ [E _]]]] := eigh_exists (psd_herm H).
have f0 (i : 'I_n) : 0 <= f i.
  have := H (U *m delta_mx i 0); rewrite E adjM !mulmxA -(mulmxA _ (adj U)) U1 mulmx1 -(mulmxA _ (adj U)) U1 mulmx1.
  have -> : adj (delta_mx i 0 : 'cV[C]_n) = delta_mx 0 i.
    by apply/matrixP => a b; rewrite adjE !mxE andbC rmorph_nat.
  by rewrite -rowE -colE !mxE eqxx mulr1n.
exists (U *m diag_mx (\row_i sqrtC (f i))); rewrite adjM.
have -> : adj (diag_mx (\row_(i < n) sqrtC (f i))) = diag_mx (\row_(i < n) sqrtC (f i)).
  apply/matrixP => i j; rewrite adjE !mxE [j == i]eq_sym; case: eqVneq => [->|_] /=; last by rewrite rmorph0.
  by rewrite !mulr1n conj_Creal // ger0_real // sqrtC_ge0.
rewrite mulmxA -(mulmxA U) mulmx_diag {1}E; congr (_ *m _ *m _); congr diag_mx.
by apply/matrixP => i j; rewrite !mxE -expr2 sqrtCK.
Qed.

Lemma gram_psd m n (Z : 'M[C]_(m, n)) : psd (Z *m adj Z).
Proof.
move=> x; rewrite mulmxA -mulmxA -{2}[x]adjK -adjM.
by rewrite -{1}[adj x *m Z]mulmx1 mulmx1; apply: sq_ge0.
Qed.

Lemma psd_ker n (M : 'M[C]_n) (x : 'cV[C]_n) : psd M -> (adj x *m M *m x) 0 0 = 0 -> M *m x = 0.
Proof.
move=> /psd_gram [Z ->] H.
have E : adj Z *m x = 0.
  apply: adj_mul_eq0; apply/matrixP => i j; rewrite !ord1 [RHS]mxE -H.
  by rewrite adjM adjK !mulmxA.
by rewrite -mulmxA E mulmx0.
Qed.

Lemma col_form n p (M : 'M[C]_n) (A B : 'M[C]_(n, p)) :
  \tr (adj B *m M *m A) = \sum_j (adj (col j B) *m M *m col j A) 0 0.
Proof.
apply: eq_bigr => j _; rewrite [LHS]mxE [RHS]mxE; apply: eq_bigr => k _; rewrite [col _ _ _ _]mxE; congr (_ * _).
by rewrite !mxE; apply: eq_bigr => l _; rewrite !mxE.
Qed.

Lemma psd_trace n p (M : 'M[C]_n) (A : 'M[C]_(n, p)) : psd M -> 0 <= \tr (adj A *m M *m A).
Proof. by move=> H; rewrite col_form; apply: sumr_ge0 => j _; apply: H. Qed.

Lemma ReB (x y : C) : 'Re (x - y) = 'Re x - 'Re y.
Proof. by rewrite raddfB. Qed.

(** the quadratic cost of least squares *)
Definition qcost n p (M : 'M[C]_n) (S A : 'M[C]_(n, p)) : C :=
  'Re (\tr (adj A *m M *m A)) - 2%:R * 'Re (\tr (adj A *m S)).

Lemma qcost_min n p (M : 'M[C]_n) (S X B : 'M[C]_(n, p)) : adj M = M -> M *m X = S ->
  qcost M S B = qcost M S X + 'Re (\tr (adj (B - X) *m M *m (B - X))).
Proof.
move=> HM HX; rewrite /qcost -{S}HX.
have [E ->] : exists E, B = X + E by exists (B - X); rewrite addrC subrK.
rewrite (addrC X E) addrK adjD !mulmxDl !mulmxDr !mulmxA.
have Q : \tr (adj X *m M *m E) = (\tr (adj E *m M *m X))^*.
  by rewrite -adj_trace !adjM adjK HM mulmxA.
rewrite !raddfD /= Q Re_conj.
move: ('Re (\tr (adj E *m M *m E))) ('Re (\tr (adj E *m M *m X))) ('Re (\tr (adj X *m M *m X))) => a b c.
rewrite !mulrDr !mulr_natl !mulr2n.
have -> : a + b + (b + c) = (b + b) + (c + a) by rewrite -addrA (addrA b) addrC -!addrA.
by rewrite opprD addrACA subrr add0r addrAC.
Qed.
End Psd.
