(** The truncated singular value decomposition is a best approximation among all
    matrices of at most that rank (Eckart-Young, Frobenius norm). *)
From mathcomp Require Import all_ssreflect all_algebra.
From Verif Require Import Linalg Spectral Psd.
Set Implicit Arguments.
Unset Strict Implicit.
Unset Printing Implicit Defensive.
Import GRing.Theory Num.Theory.
Local Open Scope ring_scope.

Section Eckart.
Variable C : numClosedFieldType.

(** sum of the squared moduli of the entries *)
Definition fro m n (M : 'M[C]_(m, n)) : C := \tr (adj M *m M).

Lemma froE m n (M : 'M[C]_(m, n)) : fro M = \sum_(i < m) \sum_(j < n) `|M i j| ^+ 2.
Proof.
rewrite exchange_big; apply: eq_bigr => j _; rewrite mxE; apply: eq_bigr => i _.
by rewrite adjE normCK mulrC.
Qed.

Lemma fro_ge0 m n (M : 'M[C]_(m, n)) : 0 <= fro M.
Proof. by rewrite froE sumr_ge0 // => i _; rewrite sumr_ge0 // => j _; rewrite exprn_ge0. Qed.

Lemma fro_isol m n k (U : 'M[C]_(m, k)) (M : 'M[C]_(k, n)) : adj U *m U = 1%:M -> fro (U *m M) = fro M.
Proof. by move=> U1; rewrite /fro adjM mulmxA -(mulmxA (adj M)) U1 mulmx1. Qed.

Lemma fro_isor m n k (V : 'M[C]_(k, n)) (M : 'M[C]_(m, k)) : V *m adj V = 1%:M -> fro (M *m V) = fro M.
Proof. by move=> V1; rewrite /fro adjM -mulmxA mxtrace_mulC -!mulmxA V1 mulmx1. Qed.

Lemma fro_diag n (d : 'rV[C]_n) : fro (diag_mx d) = \sum_i `|d 0 i| ^+ 2.
Proof.
rewrite froE; apply: eq_bigr => i _; rewrite (bigD1 i) //= big1 => [|j /negbTE N].
  by rewrite mxE eqxx mulr1n addr0.
by rewrite mxE eq_sym N mulr0n normr0 expr0n.
Qed.

(** a matrix with orthonormal columns and its complement *)
Lemma fro_split m n k (Q : 'M[C]_(m, k)) (M : 'M[C]_(m, n)) : adj Q *m Q = 1%:M ->
  fro M = fro (adj Q *m M) + fro (M - Q *m (adj Q *m M)).
Proof.
move=> Q1; rewrite /fro -raddfD /=; congr (\tr _).
rewrite adjB !adjM adjK mulmxBl !mulmxBr !mulmxA -(mulmxA (adj M *m Q) (adj Q) Q) Q1 mulmx1 subrr subr0.
by rewrite addrC subrK.
Qed.

Lemma fro_proj_le m n k (Q : 'M[C]_(m, k)) (M : 'M[C]_(m, n)) : adj Q *m Q = 1%:M -> fro (adj Q *m M) <= fro M.
Proof. by move=> Q1; rewrite (fro_split M Q1) ler_addl fro_ge0. Qed.

Variables (N D : nat) (U Vh : 'M[C]_N) (s : nat -> C).
Hypotheses (U1 : adj U *m U = 1%:M) (V1 : Vh *m adj Vh = 1%:M).
Hypotheses (s0 : forall i, 0 <= s i) (sm : forall i j, (i <= j)%N -> s j <= s i).
Definition full : 'M[C]_N := U *m diag_mx (\row_i s i) *m Vh.
Definition trunc : 'M[C]_N := U *m diag_mx (\row_(i < N) (s i *+ (i < D)%N)) *m Vh.

Lemma fro_tail : fro (full - trunc) = \sum_(i < N) s i ^+ 2 *+ (D <= i)%N.
Proof.
rewrite /full /trunc -mulmxBl -mulmxBr fro_isor // fro_isol // -raddfB /= fro_diag; apply: eq_bigr => i _.
rewrite !mxE [(D <= i)%N]leqNgt; case: (i < D)%N; first by rewrite subrr normr0 expr0n.
by rewrite subr0 ger0_norm.
Qed.

Lemma fro_full : fro full = \sum_(i < N) s i ^+ 2.
Proof.
rewrite /full fro_isor // fro_isol // fro_diag; apply: eq_bigr => i _; rewrite mxE ger0_norm //.
Qed.

(** no D-dimensional projection keeps more than the D largest values *)
Lemma ky_fan (Q : 'M[C]_(N, D)) : adj Q *m Q = 1%:M -> (D <= N)%N -> fro (adj Q *m full) <= \sum_(i < N) s i ^+ 2 *+ (i < D)%N.
Proof.
move=> Q1 HD; pose T := adj Q *m U; pose t (i : 'I_N) := \sum_(a < D) `|T a i| ^+ 2.
have Et : fro (adj Q *m full) = \sum_(i < N) s i ^+ 2 * t i.
  rewrite /full !mulmxA fro_isor // froE exchange_big; apply: eq_bigr => i _; rewrite mulr_sumr; apply: eq_bigr => a _.
  by rewrite mul_mx_diag [(\matrix_(_, _) _) _ _]mxE [(\row__ _) _ _]mxE normrM exprMn (ger0_norm (s0 i)) mulrC.
have t1 i : 0 <= t i <= 1.
  rewrite sumr_ge0 => [|a _]; last by rewrite exprn_ge0.
  have -> : t i = fro (adj Q *m col i U).
    rewrite froE; apply: eq_bigr => a _; rewrite big_ord1; congr (`|_| ^+ 2).
    by rewrite !mxE; apply: eq_bigr => k _; rewrite !mxE.
  have <- : fro (col i U) = 1; last exact: fro_proj_le.
  rewrite /fro /mxtrace big_ord1; have /matrixP/(_ i i) := U1; rewrite [RHS]mxE eqxx mulr1n => <-.
  by rewrite !mxE; apply: eq_bigr => k _; rewrite !adjE !mxE.
have tD : \sum_i t i = D%:R.
  have -> : \sum_i t i = fro T by rewrite froE exchange_big.
  rewrite /T fro_isor ?(mulmx1C U1) // /fro adjK mxtrace_mulC Q1 mxtrace1 //.
have sD : \sum_(i < N) (i < D)%N%:R = D%:R :> C.
  rewrite -natr_sum; congr (_%:R); rewrite (eq_bigr (fun i : 'I_N => if (i < D)%N then 1%N else 0%N)) => [|i _]; last by case: ltnP.
  by rewrite -big_mkcond -(big_ord_widen _ (fun _ => 1%N) HD) sum1_card card_ord.
rewrite Et; pose c := s D ^+ 2.
have pt (i : 'I_N) : s i ^+ 2 * t i <= s i ^+ 2 *+ (i < D)%N + c * (t i - (i < D)%N%:R).
  case/andP: (t1 i) => t0 t1'; case: (ltnP i D) => Hi; last first.
    rewrite mulr0n add0r subr0 ler_wpmul2r // /c ler_expn2r ?nnegrE //; exact: sm.
  rewrite mulr1n -subr_ge0; have -> : s i ^+ 2 + c * (t i - 1) - s i ^+ 2 * t i = (s i ^+ 2 - c) * (1 - t i).
    by rewrite mulrBl !mulrBr !mulr1 opprB addrAC addrA addrAC.
  rewrite mulr_ge0 ?subr_ge0 // /c ler_expn2r ?nnegrE //; apply: sm; exact: ltnW.
apply: Order.POrderTheory.le_trans (ler_sum _ (fun i _ => pt i)) _.
by rewrite big_split /= -mulr_sumr sumrB tD sD subrr mulr0 addr0.
Qed.

Theorem eckart_young (A : 'M[C]_(N, D)) (B : 'M[C]_(D, N)) : (D <= N)%N -> fro (full - trunc) <= fro (full - A *m B).
Proof.
move=> HD; have [Q [R [Q1 EA _ _]]] := qr_exists A (esym (minn_idPr HD)).
rewrite (fro_split (full - A *m B) Q1).
have -> : full - A *m B - Q *m (adj Q *m (full - A *m B)) = full - Q *m (adj Q *m full).
  rewrite EA !mulmxBr !mulmxA -(mulmxA Q (adj Q) Q) Q1 mulmx1 opprB addrA subrK //.
apply: Order.POrderTheory.le_trans (_ : fro (full - Q *m (adj Q *m full)) <= _); last by rewrite ler_addr fro_ge0.
have -> : fro (full - Q *m (adj Q *m full)) = fro full - fro (adj Q *m full) by rewrite [fro full](fro_split full Q1) addrAC subrr add0r.
rewrite fro_tail ler_subr_addr fro_full.
apply: Order.POrderTheory.le_trans (_ : _ <= \sum_(i < N) s i ^+ 2 *+ (D <= i)%N + \sum_(i < N) s i ^+ 2 *+ (i < D)%N) _.
  by rewrite ler_add2l ky_fan.
rewrite -big_split Order.POrderTheory.le_eqVlt; apply/orP; left; apply/eqP; apply: eq_bigr => i _ /=.
by rewrite leqNgt; case: (i < D)%N; rewrite /= ?add0r ?addr0.
Qed.
End Eckart.
