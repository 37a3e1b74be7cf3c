(** The matrix decompositions that are taken from LAPACK exist: singular value
    decompositions and QR decompositions of all matrices over C. *)
From mathcomp Require Import all_ssreflect all_algebra.
From Verif Require Import Base Tensor TN Linalg.
Set Implicit Arguments.
Unset Strict Implicit.
Unset Printing Implicit Defensive.
Import GRing.Theory Num.Theory.
Local Open Scope ring_scope.

Section Spectral.
Variable C : numClosedFieldType.

(** ---- a unitary matrix with a given first column ---- *)

Lemma unitC n (H : 'M[C]_n) : adj H *m H = 1%:M -> H *m adj H = 1%:M.
Proof. exact: mulmx1C. Qed.

Lemma adj_scalar n (a : C) : adj (a%:M : 'M[C]_n) = (a^*)%:M.
Proof. by apply/matrixP => i j; rewrite !mxE eq_sym; case: eqP; rewrite ?mulr1n ?mulr0n ?rmorph0. Qed.

Lemma mx11 (M : 'M[C]_1) : M = (M 0 0)%:M.
Proof. by apply/matrixP => i j; rewrite !ord1 mxE eqxx mulr1n. Qed.

Lemma adjB m n (M N : 'M[C]_(m, n)) : adj (M - N) = adj M - adj N.
Proof. by apply/matrixP => i j; rewrite !mxE rmorphB. Qed.

(** all entries are real *)
Definition rl m n (A : 'M[C]_(m, n)) : Prop := forall i j, A i j \is Num.real.
Lemma rl0 m n : rl (0 : 'M[C]_(m, n)).
Proof. by move=> i j; rewrite mxE real0. Qed.
Lemma rl_delta m n i0 j0 : rl (delta_mx i0 j0 : 'M[C]_(m, n)).
Proof. by move=> i j; rewrite mxE realn. Qed.
Lemma rl_scalar n (a : C) : a \is Num.real -> rl (a%:M : 'M[C]_n).
Proof. by move=> H i j; rewrite mxE; case: eqP; rewrite ?mulr1n ?mulr0n ?real0. Qed.
Lemma rlB m n (A B : 'M[C]_(m, n)) : rl A -> rl B -> rl (A - B).
Proof. by move=> H K i j; rewrite !mxE rpredB. Qed.
Lemma rlZ m n (a : C) (A : 'M[C]_(m, n)) : a \is Num.real -> rl A -> rl (a *: A).
Proof. by move=> H K i j; rewrite !mxE rpredM. Qed.
Lemma rlM m n p (A : 'M[C]_(m, n)) (B : 'M[C]_(n, p)) : rl A -> rl B -> rl (A *m B).
Proof. by move=> H K i j; rewrite !mxE rpred_sum // => k _; rewrite rpredM. Qed.
Lemma rl_conj (x : C) : x \is Num.real -> x^* \is Num.real.
Proof. by move=> H; rewrite conj_Creal. Qed.
Lemma rl_adj m n (A : 'M[C]_(m, n)) : rl A -> rl (adj A).
Proof. by move=> H i j; rewrite !mxE rl_conj. Qed.
Lemma rl_block m1 m2 n1 n2 (A : 'M[C]_(m1, n1)) (B : 'M[C]_(m1, n2)) (D : 'M[C]_(m2, n1)) (E : 'M[C]_(m2, n2)) :
  rl A -> rl B -> rl D -> rl E -> rl (block_mx A B D E).
Proof. by move=> a b d e i j; rewrite mxE; case: splitP => k _; rewrite mxE; case: splitP. Qed.

(** the reflection that takes e to x *)
Lemma reflection n (x e : 'cV[C]_n) (a : C) : adj e *m e = 1%:M -> adj x *m x = 1%:M ->
  adj e *m x = a%:M -> a^* = a -> exists H : 'M[C]_n, [/\ adj H *m H = 1%:M, H *m e = x & rl x -> rl e -> rl H].
Proof.
move=> ee Hx ex ar.
have xe : adj x *m e = a%:M by rewrite -[LHS]adjK adjM adjK ex adj_scalar ar.
case: (eqVneq a 1) => [E|N].
  exists 1%:M; split; [by rewrite adj1 mulmx1| |by move=> _ _; apply: rl_scalar; rewrite real1].
  rewrite mul1mx; apply/eqP; rewrite -subr_eq0; apply/eqP/adj_mul_eq0.
  by rewrite adjB mulmxBl !mulmxBr ee ex xe Hx E subrr.
pose d := 1 - a; have d0 : d != 0 by rewrite subr_eq0 eq_sym.
have dr : (d^-1)^* = d^-1 by rewrite fmorphV rmorphB rmorph1 ar.
pose w := x - e; pose H := 1%:M - d^-1 *: (w *m adj w).
have ww : adj w *m w = (d + d)%:M.
  rewrite /w adjB mulmxBl !mulmxBr Hx xe ex ee; apply/matrixP => i j; rewrite !ord1 !mxE eqxx !mulr1n /d.
  by rewrite opprB.
have we : adj w *m e = (- d)%:M.
  by rewrite /w adjB mulmxBl xe ee; apply/matrixP => i j; rewrite !ord1 !mxE eqxx !mulr1n /d opprB.
exists H; split; last first.
- move=> rx re; have rw : rl w by apply: rlB.
  apply: rlB; first by apply: rl_scalar; rewrite real1.
  apply: rlZ; last by apply: rlM => //; apply: rl_adj.
  by rewrite CrealE dr.
- rewrite /H mulmxBl mul1mx -scalemxAl -mulmxA we mul_mx_scalar scalerA mulrN mulVf // scaleN1r opprK /w.
  by rewrite addrC subrK.
- have -> : adj H = H by rewrite /H adjB adj1 adjZ adjM adjK dr.
  pose P := d^-1 *: (w *m adj w); have PP : P *m P = P + P.
    rewrite /P -scalemxAl -scalemxAr mulmxA -(mulmxA w) ww mul_mx_scalar -!scalemxAl !scalerA -scalerDl.
    by congr (_ *: _); rewrite mulrDr mulVf // mulrDr !mulr1.
  by rewrite /H -/P mulmxBl mul1mx mulmxBr mulmx1 PP opprB addrK subrK.
Qed.

Lemma unitary_first n (u : 'cV[C]_n.+1) : adj u *m u = 1%:M ->
  exists H : 'M[C]_n.+1, [/\ adj H *m H = 1%:M, H *m delta_mx 0 0 = u & rl u -> rl H].
Proof.
move=> Hu; pose e : 'cV[C]_n.+1 := delta_mx 0 0.
have [f [F1 F2 F3]] : exists f : C, [/\ f * f^* = 1, f * u 0 0 = `|u 0 0| & rl u -> f \is Num.real].
  case: (eqVneq (u 0 0) 0) => [->|N]; first by exists 1; rewrite ?rmorph1 ?mulr1 ?mulr0 ?normr0 ?real1.
  exists (`|u 0 0| / u 0 0); split; [|by rewrite divfK|by move=> ru; rewrite rpred_div // normr_real].
  rewrite -normCK normrM normfV normr_id divff ?expr1n // normr_eq0 //.
pose x := f *: u.
have Hx : adj x *m x = 1%:M by rewrite /x adjZ -scalemxAl -scalemxAr Hu scalerA mulrC F1 scale1r.
have ee : adj e *m e = 1%:M.
  apply/matrixP => i j; rewrite !ord1 !mxE big_ord_recl !mxE /= rmorph1 mulr1 big1 ?addr0 // => k _.
  by rewrite !mxE /= mulr0.
have ex : adj e *m x = (x 0 0)%:M.
  rewrite [LHS]mx11; congr (_%:M); rewrite mxE big_ord_recl !mxE /= rmorph1 mul1r big1 ?addr0 // => k _.
  by rewrite !mxE /= rmorph0 mul0r.
have x0r : (x 0 0)^* = x 0 0 by rewrite mxE F2 conj_Creal // normr_real.
have [H [HH He Hr]] := reflection ee Hx ex x0r.
exists (f^* *: H); split; first by rewrite adjZ -scalemxAl -scalemxAr HH scalerA conjCK F1 scale1r.
  by rewrite -scalemxAl He /x scalerA mulrC F1 scale1r.
move=> ru; apply: rlZ; first exact/rl_conj/F3.
by apply: Hr; [apply: rlZ => //; apply: F3|apply: rl_delta].
Qed.

(** ---- QR ---- *)

Lemma unit_of n (a : 'cV[C]_n.+1) : exists2 u : 'cV[C]_n.+1, adj u *m u = 1%:M /\ (rl a -> rl u) & exists c, a = c *: u.
Proof.
case: (eqVneq a 0) => [->|N].
  exists (delta_mx 0 0); last by exists 0; rewrite scale0r.
  split; last by move=> _; apply: rl_delta.
  apply/matrixP => i j; rewrite !ord1 !mxE big_ord_recl !mxE /= rmorph1 mulr1 big1 ?addr0 // => k _.
  by rewrite !mxE /= mulr0.
pose q := (adj a *m a) 0 0; have q0 : q != 0.
  by apply: contra_neq N => Z; apply: adj_mul_eq0; rewrite [LHS]mx11 -/q Z; apply/matrixP => i j; rewrite !mxE mul0rn.
have qp : 0 <= q by rewrite /q mxE; apply: sumr_ge0 => i _; rewrite !mxE mulrC -normCK exprn_ge0.
have s0 : sqrtC q != 0 by rewrite sqrtC_eq0.
have sr : (sqrtC q)^* = sqrtC q by rewrite conj_Creal // ger0_real // sqrtC_ge0.
exists ((sqrtC q)^-1 *: a); last by exists (sqrtC q); rewrite scalerA divff ?scale1r.
split; last by move=> ra; apply: rlZ => //; rewrite rpredV ger0_real // sqrtC_ge0.
rewrite adjZ -scalemxAl -scalemxAr scalerA fmorphV sr -invfM -expr2 sqrtCK [X in _ *: X]mx11 -/q.
by rewrite scale_scalar_mx mulVf.
Qed.

Lemma qr_exists m n k (A : 'M[C]_(m, n)) : k = minn m n ->
  exists Q : 'M[C]_(m, k), exists R : 'M[C]_(k, n),
    [/\ adj Q *m Q = 1%:M, A = Q *m R, forall (i : 'I_k) (j : 'I_n), (j < i)%N -> R i j = 0 & rl A -> rl Q].
Proof.
elim: m n k A => [|m IH] n k A.
  rewrite min0n => ->; exists 0, 0; split; try by apply/matrixP => -[].
    by case.
  by move=> _ [].
case: n A => [|n] A.
  rewrite minn0 => ->; exists 0, 0; split; try by apply/matrixP => i [].
  - by case.
  by move=> _ i [].
case: k => [|k]; rewrite minnSS // => -[Ek].
have [u [U1 ru] [c Uc]] := unit_of (col 0 A).
have [H [HH He rH]] := unitary_first U1.
pose B : 'M[C]_(1 + m, 1 + n) := adj H *m A.
have [Q [R [HQ HR HT rQ]]] := IH n k (drsubmx B) Ek.
have Bl : dlsubmx B = 0.
  apply/matrixP => i j; rewrite !mxE.
  have -> : \sum_k0 adj H (rshift 1 i) k0 * A k0 (lshift n j) = (adj H *m col 0 A) (rshift 1 i) 0.
    by rewrite mxE; apply: eq_bigr => l _; rewrite !mxE; congr (_ * A _ _); apply: val_inj; rewrite /= ord1.
  rewrite Uc -He -scalemxAr mulmxA HH mul1mx !mxE /=.
  by rewrite mulr0.
pose Q1 : 'M[C]_(1 + m, 1 + k) := block_mx 1%:M 0 0 Q.
pose R1 : 'M[C]_(1 + k, 1 + n) := block_mx (ulsubmx B) (ursubmx B) 0 R.
have Q1Q : adj Q1 *m Q1 = 1%:M.
  rewrite /Q1 /adj tr_block_mx map_block_mx !trmx0 !map_mx0 -/(adj _) -/(adj _) adj1.
  by rewrite mulmx_block !mul0mx !mulmx0 mulmx1 !addr0 !add0r HQ -scalar_mx_block.
have QR1 : Q1 *m R1 = B.
  by rewrite /Q1 /R1 mulmx_block !mul1mx !mul0mx !mulmx0 !addr0 !add0r -HR -{1}Bl submxK.
exists (H *m Q1 : 'M_(m.+1, k.+1)), (R1 : 'M_(k.+1, n.+1)); split.
- by rewrite adjM mulmxA -(mulmxA (adj Q1)) HH mulmx1.
- by rewrite -mulmxA QR1 /B mulmxA unitC // mul1mx.
- move=> i j Hij; rewrite /R1 mxE.
  case: splitP => i' Ei; first by move: Hij; rewrite Ei ord1.
  rewrite mxE; case: splitP => j' Ej; rewrite ?mxE // HT //.
  by move: Hij; rewrite Ei Ej ltn_add2l.
- move=> rA; have {}rH : rl H by apply: rH; apply: ru => i j; rewrite mxE.
  have rB : rl (B : 'M_(m.+1, n.+1)) by apply: rlM => //; apply: rl_adj.
  have rQ1 : rl Q1 by apply: rl_block; [apply: rl_scalar; rewrite rpred1|exact: rl0|exact: rl0|apply: rQ => i j; rewrite mxE mxE; exact: rB].
  exact: rlM.
Qed.

(** ---- singular values ---- *)

Lemma seq_max (r : seq C) : r != [::] -> {in r, forall x, x \is Num.real} ->
  exists2 x, x \in r & {in r, forall y, y <= x}.
Proof.
elim: r => [//|a r IH] _ R; case: (eqVneq r [::]) => [E|N].
  by exists a; rewrite ?mem_head // E => y; rewrite inE => /eqP ->.
have [|x xr xm] := IH N; first by move=> y yr; apply: R; rewrite inE yr orbT.
have Ra : a \is Num.real by apply: R; rewrite mem_head.
have Rx : x \is Num.real by apply: R; rewrite inE xr orbT.
case: (real_leP Ra Rx) => H.
  by exists x; [rewrite inE xr orbT|move=> y; rewrite inE => /predU1P[->//|/xm]].
exists a; rewrite ?mem_head // => y; rewrite inE => /predU1P[->//|/xm Hy].
exact: Order.POrderTheory.le_trans Hy (Order.POrderTheory.ltW H).
Qed.

Lemma sq_ge0 m (v : 'rV[C]_m) : 0 <= (v *m adj v) 0 0.
Proof. by rewrite mxE; apply: sumr_ge0 => i _; rewrite !mxE -normCK exprn_ge0. Qed.
Lemma sq_gt0 m (v : 'rV[C]_m) : v != 0 -> 0 < (v *m adj v) 0 0.
Proof.
move=> N; rewrite lt0r sq_ge0 andbT; apply: contra_neq N => Z.
rewrite -[v]adjK; have -> : adj v = 0; last by rewrite adj0.
by apply: adj_mul_eq0; rewrite adjK [LHS]mx11 Z; apply/matrixP => i j; rewrite !mxE mul0rn.
Qed.

Lemma gram_eig_ge0 m n (A : 'M[C]_(m, n)) (v : 'rV[C]_m) a : v != 0 -> v *m (A *m adj A) = a *: v -> 0 <= a.
Proof.
move=> N E; have : 0 <= ((v *m A) *m adj (v *m A)) 0 0 by apply: sq_ge0.
rewrite adjM mulmxA -(mulmxA v) E -scalemxAl mxE pmulr_lge0 //; exact: sq_gt0.
Qed.

Lemma herm_pow n (M : 'M[C]_n.+1) k : adj M = M -> M ^+ k = 0 -> M = 0.
Proof.
move=> H; have P j : M ^+ (2 ^ j) = 0 -> M = 0.
  elim: j => [|j IH]; first by rewrite expn0 expr1.
  rewrite expnS mulnC exprM expr2 => Z; apply: IH; apply: adj_mul_eq0.
  have -> : adj (M ^+ (2 ^ j)) = M ^+ (2 ^ j) => //.
  elim: (2 ^ j)%N => [|i IHi]; first by rewrite expr0; apply: adj1.
  by rewrite {1}exprS exprSr -!mulmxE adjM IHi H.
move=> Z; apply: (P k); rewrite -(subnK (ltnW (ltn_expl k (isT : 1 < 2)%N))) exprD Z; exact: mulr0.
Qed.

(** the largest eigenvalue of A A^H *)
Lemma gram_max m n (A : 'M[C]_(m.+1, n)) : A != 0 ->
  exists2 l, 0 < l & (exists2 v : 'rV[C]_m.+1, v *m (A *m adj A) = l *: v & v != 0) /\
    forall a (w : 'rV[C]_m.+1), w != 0 -> w *m (A *m adj A) = a *: w -> a <= l.
Proof.
move=> N; pose M := A *m adj A.
have MH : adj M = M by rewrite /M adjM adjK.
have M0 : M != 0.
  apply: contra_neq N => Z; rewrite -[A]adjK; have -> : adj A = 0; last by rewrite adj0.
  by apply: adj_mul_eq0; rewrite adjK.
have [r Er] := closed_field_poly_normal (char_poly M).
rewrite (monicP (char_poly_monic M)) scale1r in Er.
have eigr a : (a \in r) = eigenvalue M a by rewrite eigenvalue_root_char Er root_prod_XsubC.
have ge0 a : a \in r -> 0 <= a.
  by rewrite eigr => /eigenvalueP[v E Nv]; apply: gram_eig_ge0 Nv E.
have rn : r != [::].
  by apply/eqP => E; have := size_char_poly M; rewrite Er E big_nil size_poly1.
have [|l lr lm] := seq_max rn; first by move=> x /ge0; apply: ger0_real.
exists l; last first.
  split; first by move: lr; rewrite eigr => /eigenvalueP[v E Nv]; exists v.
  by move=> a w Nw E; apply: lm; rewrite eigr; apply/eigenvalueP; exists w.
rewrite lt0r ge0 // andbT; apply: contra_neq M0 => l0.
have Z : {in r, forall x, x = 0}.
  by move=> x xr; apply/eqP; rewrite Order.POrderTheory.eq_le ge0 // andbT -l0 lm.
apply: (@herm_pow _ _ (size r) MH).
have := Cayley_Hamilton M; rewrite Er.
have -> : \prod_(z <- r) ('X - z%:P) = 'X^(size r).
  rewrite (eq_big_seq (fun=> 'X)) => [|x /Z ->]; last by rewrite subr0.
  by rewrite big_const_seq count_predT -Monoid.iteropE.
by rewrite rmorphX /= horner_mx_X.
Qed.

(** the rectangular matrix with diagonal f *)
Definition sg m n (f : nat -> C) : 'M[C]_(m, n) := \matrix_(i, j) (f i *+ (i == j :> nat)).

Lemma block_first m n (B : 'M[C]_(m.+1, n.+1)) s : (forall i, B i 0 = s *+ (i == 0)) -> (forall j, B 0 j = s *+ (j == 0)) ->
  (B : 'M_(1 + m, 1 + n)) = block_mx s%:M 0 0 (@drsubmx _ 1 m 1 n B).
Proof.
move=> Bij0 B0ij.
  rewrite -[LHS](@submxK _ 1 m 1 n B); congr block_mx; apply/matrixP => i j; rewrite !mxE ?ord1.
  - by have := B0ij 0; rewrite eqxx => <-; congr (B _ _); apply: val_inj.
  - by have := B0ij (rshift 1 j); rewrite /= mulr0n => <-; congr (B _ _); apply: val_inj.
  - by have := Bij0 (rshift 1 i); rewrite /= mulr0n => <-; congr (B _ _); apply: val_inj.
Qed.

(** a real symmetric matrix has real eigenvectors *)
Lemma pselect_rl m n (A : 'M[C]_(m, n)) : rl A \/ ~ rl A.
Proof.
case E: [forall i, forall j, A i j \is Num.real]; [left|right].
  by move=> i j; have /forallP/(_ i)/forallP/(_ j) := E.
by move=> R; move/forallP: E; case=> i; apply/forallP => j.
Qed.
Lemma real_eigM m (M : 'M[C]_m) (l : C) (v : 'rV[C]_m) : rl M -> l \is Num.real -> v *m M = l *: v -> v != 0 ->
  exists w : 'rV[C]_m, [/\ w *m M = l *: w, w != 0 & rl w].
Proof.
move=> RM Rl E N.
pose x : 'rV[C]_m := \row_i 'Re (v 0 i); pose y : 'rV[C]_m := \row_i 'Im (v 0 i).
have rS (F : 'I_m -> C) : 'Re (\sum_j F j) = \sum_j 'Re (F j) by rewrite raddf_sum.
have iS (F : 'I_m -> C) : 'Im (\sum_j F j) = \sum_j 'Im (F j) by rewrite raddf_sum.
have Ex : x *m M = l *: x.
  apply/matrixP => i j; rewrite !ord1 !mxE; have := congr1 (fun w : 'rV_m => 'Re (w 0 j)) E; rewrite !mxE rS ReMl // => <-.
  by apply: eq_bigr => k _; rewrite !mxE ReMr.
have Ey : y *m M = l *: y.
  apply/matrixP => i j; rewrite !ord1 !mxE; have := congr1 (fun w : 'rV_m => 'Im (w 0 j)) E; rewrite !mxE iS ImMl // => <-.
  by apply: eq_bigr => k _; rewrite !mxE ImMr.
case: (eqVneq x 0) => [x0|Nx]; last by exists x; split=> // i j; rewrite mxE Creal_Re.
exists y; split=> // [|i j]; last by rewrite mxE Creal_Im.
apply: contra_neq N => y0; apply/matrixP => i j; rewrite !ord1 [v 0 j]Crect.
have /matrixP/(_ 0 j) := x0; have /matrixP/(_ 0 j) := y0; rewrite !mxE => -> ->; by rewrite mulr0 addr0.
Qed.
Lemma real_eig m n (A : 'M[C]_(m, n)) (l : C) (v : 'rV[C]_m) : rl A -> l \is Num.real -> v *m (A *m adj A) = l *: v -> v != 0 ->
  exists w : 'rV[C]_m, [/\ w *m (A *m adj A) = l *: w, w != 0 & rl A -> rl w].
Proof.
move=> RA Rl E N; have [|w [Ew Nw Rw]] := real_eigM _ Rl E N; first by apply: rlM => //; apply: rl_adj.
by exists w.
Qed.

Lemma svd_exists m n (A : 'M[C]_(m, n)) : exists U Vh f,
  [/\ adj U *m U = 1%:M, adj Vh *m Vh = 1%:M, (forall i, 0 <= f i) /\ (forall i, (minn m n <= i)%N -> f i = 0),
      forall i j, (i <= j)%N -> f j <= f i & A = U *m sg m n f *m Vh /\ (rl A -> rl U /\ rl Vh)].
Proof.
have Z m' n' : exists U Vh f, [/\ adj U *m U = 1%:M, adj Vh *m Vh = 1%:M, (forall i, 0 <= f i) /\ (forall i, (minn m' n' <= i)%N -> f i = 0),
      forall i j, (i <= j)%N -> f j <= f i & (0 : 'M[C]_(m', n')) = U *m sg m' n' f *m Vh /\ (rl (0 : 'M[C]_(m', n')) -> rl U /\ rl Vh)].
  exists 1%:M, 1%:M, (fun=> 0); rewrite !adj1 !mulmx1 mul1mx; split=> //.
  split; first by apply/matrixP => i j; rewrite !mxE mul0rn.
  by move=> _; split; apply: rl_scalar; rewrite real1.
elim: m n A => [|m IH] n A.
  have -> : A = 0 by apply/matrixP => -[]. exact: Z.
case: n A => [|n] A.
  have -> : A = 0 by apply/matrixP => i []. exact: Z.
case: (eqVneq A 0) => [->|N]; first exact: Z.
have [l lp [[v1 Ev1 Nv1] lm]] := gram_max N.
have [v0 [Ev0 Nv0 Rv0]] : exists v0 : 'rV[C]_m.+1, [/\ v0 *m (A *m adj A) = l *: v0, v0 != 0 & rl A -> rl v0].
  case: (pselect_rl A) => [RA|NR]; last by exists v1; split.
  have [v0 [E0 N0 R0]] := real_eig RA (gtr0_real lp) Ev1 Nv1; by exists v0.
pose sgm := sqrtC l; have sp : 0 < sgm by rewrite sqrtC_gt0.
have s0 : sgm != 0 by rewrite lt0r_neq0.
have sr : sgm^* = sgm by rewrite conj_Creal // gtr0_real.
have s2 : sgm * sgm = l by rewrite -expr2 sqrtCK.
(* a unit eigenvector *)
have [v [v1' Rv] Ev] : exists2 v : 'rV[C]_m.+1, v *m adj v = 1%:M /\ (rl A -> rl v) & v *m (A *m adj A) = l *: v.
  have [u [U1 Ru] [c Uc]] := unit_of (adj v0).
  exists (adj u); first by rewrite adjK; split=> // RA; apply/rl_adj/Ru/rl_adj/Rv0.
  have c0 : c != 0 by apply: contra_neq Nv0 => c0; rewrite -[v0]adjK Uc c0 scale0r adj0.
  have Ev : v0 = c^* *: adj u by rewrite -[v0]adjK Uc adjZ.
  have cc : c^* != 0 by rewrite fmorph_eq0.
  by apply: (scalerI cc); rewrite scalemxAl -Ev Ev0 Ev !scalerA mulrC.
have {v1 Ev1 Nv1} v1 := v1'; pose u : 'rV[C]_n.+1 := sgm^-1 *: (v *m A).
have u1 : u *m adj u = 1%:M.
  rewrite /u adjZ adjM -scalemxAl -scalemxAr scalerA mulmxA -(mulmxA v) Ev -scalemxAl v1 scalerA fmorphV sr -invfM s2.
  by rewrite mulVf ?scale1r // lt0r_neq0.
have [|H [HH He RH]] := @unitary_first m (adj v); first by rewrite adjK.
have [|W [WW We RW]] := @unitary_first n (adj u); first by rewrite adjK.
pose B : 'M[C]_(m.+1, n.+1) := adj H *m A *m W.
have HA : A = H *m B *m adj W.
  by rewrite /B !mulmxA unitC // mul1mx -mulmxA unitC // mulmx1.
have Bl : B *m delta_mx 0 0 = sgm *: (delta_mx 0 0 : 'cV_m.+1).
  rewrite /B -mulmxA We /u adjZ adjM -!scalemxAr fmorphV sr.
  have -> : adj H *m A *m (adj A *m adj v) = l *: delta_mx 0 0.
    rewrite mulmxA -(mulmxA (adj H)) -{1}(adjK A) -adjM -mulmxA.
    have -> : adj (A *m adj A) *m adj v = l *: adj v.
      by rewrite -adjM Ev adjZ conj_Creal // gtr0_real.
    by rewrite -scalemxAr -He mulmxA HH mul1mx.
  by rewrite scalerA -s2 mulKf.
have Br : (delta_mx 0 0 : 'rV_m.+1) *m B = sgm *: delta_mx 0 0.
  have -> : (delta_mx 0 0 : 'rV[C]_m.+1) = v *m H.
    rewrite -[v]adjK -He adjM -mulmxA HH mulmx1; apply/matrixP => i j; rewrite !mxE andbC.
    by case: andb; rewrite ?rmorph1 ?rmorph0.
  rewrite /B !mulmxA -(mulmxA v) unitC // mulmx1.
  have -> : v *m A = sgm *: u by rewrite /u scalerA divff // scale1r.
  rewrite -scalemxAl; congr (_ *: _).
  rewrite -[u]adjK -We adjM -mulmxA WW mulmx1; apply/matrixP => i j; rewrite !mxE andbC.
  by case: andb; rewrite ?rmorph1 ?rmorph0.
have Bij0 i : B i 0 = sgm *+ (i == 0).
  have := congr1 (fun X : 'cV_m.+1 => X i 0) Bl; rewrite -colE !mxE => ->.
  by rewrite eqxx andbT; case: eqP; rewrite ?mulr1 ?mulr0.
have B0ij j : B 0 j = sgm *+ (j == 0).
  have := congr1 (fun X : 'rV_n.+1 => X 0 j) Br; rewrite -rowE !mxE => ->.
  by rewrite eqxx /=; case: eqP; rewrite ?mulr1 ?mulr0.
pose B' := @drsubmx _ 1 m 1 n B.
have EB : (B : 'M_(1 + m, 1 + n)) = block_mx sgm%:M 0 0 B'.
  exact: block_first.
have [U' [V' [f [U1 V1 [F1 F2] F3 [EB' RB']]]]] := IH n B'.
have f0 : f 0%N <= sgm.
  case: (posnP (minn m n)) => [E|]; first by rewrite F2 ?E // Order.POrderTheory.ltW.
  rewrite leq_min => /andP[m0 n0].
  pose i0 := Ordinal m0; pose y : 'rV[C]_m := delta_mx 0 i0 *m adj U'.
  have y1 : y *m adj y = 1%:M.
    rewrite /y adjM adjK mulmxA -(mulmxA _ (adj U')) U1 mulmx1.
    apply/matrixP => i j; rewrite !ord1 !mxE (bigD1 i0) //= !mxE !eqxx rmorph1 mulr1 big1 ?addr0 // => k /negbTE Nk.
    by rewrite !mxE Nk mul0r.
  have Ey : y *m (B' *m adj B') = (f 0%N * f 0%N) *: y.
    rewrite /y EB' !adjM !mulmxA -(mulmxA _ (adj U')) U1 mulmx1 -(mulmxA _ V') unitC // mulmx1.
    rewrite scalemxAl; congr (_ *m _); apply/matrixP => i j; rewrite !ord1 -mulmxA !mxE (bigD1 i0) //= big1 => [|k /negbTE Nk]; last first.
      by rewrite mxE Nk andbF mul0r.
    rewrite !mxE eqxx mul1r addr0 (bigD1 (Ordinal n0)) //= big1 => [|k Nk]; last first.
      rewrite !mxE eq_sym; move: Nk; rewrite -val_eqE /= => /negbTE ->; by rewrite mulr0n mul0r.
    rewrite !mxE eqxx addr0 mulr1n rmorphMn /= conj_Creal ?ger0_real // -val_eqE /=.
    by case: (val j) => [|j'] //=; rewrite ?mulr1 ?mulr1n // !mulr0n !mulr0.
  pose rm : 'rV[C]_m.+1 := (row_mx 0 y : 'rV_(1 + m)).
  pose x : 'rV[C]_m.+1 := rm *m adj H.
  have Ex : x *m (A *m adj A) = (f 0%N * f 0%N) *: x.
    have BB : B *m adj B = adj H *m (A *m adj A) *m H.
      by rewrite /B !adjM adjK !mulmxA -(mulmxA _ W) unitC // mulmx1.
    have -> : A *m adj A = H *m (B *m adj B) *m adj H by rewrite BB !mulmxA unitC // mul1mx -mulmxA unitC // mulmx1.
    rewrite /x -mulmxA -(mulmxA H) (mulmxA (adj H) H) HH mul1mx (mulmxA rm) scalemxAl; congr (_ *m _).
    have EBB : (B *m adj B : 'M_(1 + m)) = block_mx (sgm%:M *m adj sgm%:M) 0 0 (B' *m adj B').
      have E : (B *m adj B : 'M_(1 + m)) = block_mx sgm%:M 0 0 B' *m adj (block_mx sgm%:M 0 0 B' : 'M_(1 + m, 1 + n)) by rewrite -EB.
      by rewrite E /adj tr_block_mx map_block_mx !trmx0 !map_mx0 mulmx_block !mul0mx !mulmx0 !addr0 !add0r.
    transitivity ((row_mx 0 y : 'rV_(1 + m)) *m block_mx (sgm%:M *m adj sgm%:M) 0 0 (B' *m adj B')); first by rewrite -EBB.
    rewrite mul_row_block !mul0mx mulmx0 !add0r Ey.
    transitivity ((f 0%N * f 0%N) *: (row_mx 0 y : 'rV_(1 + m))) => //.
    by rewrite scale_row_mx scaler0.
  have Nx : x != 0.
    apply/eqP => Zx; have : x *m adj x = 1%:M.
      rewrite /x adjM adjK mulmxA -(mulmxA _ (adj H)) HH mulmx1.
      transitivity ((row_mx 0 y : 'rV_(1 + m)) *m adj (row_mx 0 y : 'rV_(1 + m))) => //.
      by rewrite /adj tr_row_mx map_col_mx mul_row_col trmx0 map_mx0 mul0mx add0r; exact: y1.
    rewrite Zx mul0mx => /matrixP /(_ 0 0); rewrite !mxE eqxx => /eqP; by rewrite eq_sym oner_eq0.
  have := lm _ _ Nx Ex; rewrite -s2 -!expr2 ler_pexpn2r // nnegrE ?F1 //; exact: Order.POrderTheory.ltW.
pose g i := if i is i'.+1 then f i' else sgm.
pose U : 'M[C]_(1 + m) := block_mx 1%:M 0 0 U'; pose V : 'M[C]_(1 + n) := block_mx 1%:M 0 0 V'.
have UU : adj U *m U = 1%:M.
  rewrite /U /adj tr_block_mx map_block_mx !trmx0 !map_mx0 -/(adj _) -/(adj _) adj1.
  by rewrite mulmx_block !mul0mx !mulmx0 mulmx1 !addr0 !add0r U1 -scalar_mx_block.
have VV : adj V *m V = 1%:M.
  rewrite /V /adj tr_block_mx map_block_mx !trmx0 !map_mx0 -/(adj _) -/(adj _) adj1.
  by rewrite mulmx_block !mul0mx !mulmx0 mulmx1 !addr0 !add0r V1 -scalar_mx_block.
have EG : (sg m.+1 n.+1 g : 'M_(1 + m, 1 + n)) = block_mx sgm%:M 0 0 (sg m n f).
  rewrite -[LHS](@submxK _ 1 m 1 n); congr block_mx; apply/matrixP => i j; rewrite !mxE ?ord1 //=.
have UGV : U *m (sg m.+1 n.+1 g) *m V = B.
  transitivity (U *m block_mx sgm%:M 0 0 (sg m n f) *m V); first by rewrite -EG.
  rewrite /U /V !mulmx_block !mul0mx !mulmx0 !mul1mx !addr0 !add0r !mulmx1 ?mul0mx ?addr0 -EB' -EB //.
exists (H *m U), (V *m adj W), g; split.
- by rewrite adjM mulmxA -(mulmxA (adj U)) HH mulmx1.
- by rewrite adjM adjK mulmxA -(mulmxA W) VV mulmx1 unitC.
- split; first by case=> [|i] //=; apply: Order.POrderTheory.ltW.
  by case=> [|i]; rewrite minnSS // ltnS => /F2.
- case=> [|i] [|j] //= Hij; last exact: F3.
  by apply: Order.POrderTheory.le_trans f0; apply: F3.
- split; first by rewrite HA -UGV !mulmxA.
  move=> RA; have {}RH : rl H by apply/RH/rl_adj/Rv.
  have {}RW : rl W.
    by apply/RW/rl_adj/rlZ; [rewrite rpredV gtr0_real|apply: rlM => //; apply: Rv].
  have [|RU RV] := RB'.
    have RB : rl B by apply: rlM => //; apply: rlM => //; apply: rl_adj.
    move=> i j; have -> : B' i j = B (rshift 1 i) (rshift 1 j) by rewrite /B' !mxE.
    exact: RB.
  have R1 k : rl (1%:M : 'M[C]_k) by apply: rl_scalar; rewrite real1.
  have RUU : rl U by apply: rl_block => //; apply: rl0.
  have RVV : rl V by apply: rl_block => //; apply: rl0.
  by split; [exact: (rlM RH RUU)|exact: (rlM RVV (rl_adj RW))].
Qed.

(** ---- eigenvalues of Hermitian matrices ---- *)

Lemma adjE m n (M : 'M[C]_(m, n)) i j : adj M i j = (M j i)^*.
Proof. by rewrite !mxE. Qed.

Lemma herm_eig_real n (A : 'M[C]_n) (v : 'rV[C]_n) a : adj A = A -> v != 0 -> v *m A = a *: v -> a \is Num.real.
Proof.
move=> HA N E; have [q Eq P] : exists2 q, (v *m adj v) 0 0 = q & 0 < q by exists ((v *m adj v) 0 0) => //; apply: sq_gt0.
have E1 : v *m A *m adj v = (a * q)%:M.
  by rewrite E -scalemxAl [X in _ *: X]mx11 Eq scale_scalar_mx.
have E2 : adj (v *m A *m adj v) = v *m A *m adj v by rewrite !adjM adjK HA mulmxA.
move: E2; rewrite E1 adj_scalar => /matrixP /(_ 0 0); rewrite !mxE !mulr1n rmorphM (conj_Creal (gtr0_real P)) => /mulIf H.
by rewrite CrealE; apply/eqP; apply: H; rewrite lt0r_neq0.
Qed.

Lemma herm_min n (A : 'M[C]_n.+1) : adj A = A ->
  exists2 l, l \is Num.real & (exists2 v : 'rV[C]_n.+1, v *m A = l *: v & v != 0) /\
    forall a (w : 'rV[C]_n.+1), w != 0 -> w *m A = a *: w -> l <= a.
Proof.
move=> HA; have [r Er] := closed_field_poly_normal (char_poly A).
rewrite (monicP (char_poly_monic A)) scale1r in Er.
have eigr a : (a \in r) = eigenvalue A a by rewrite eigenvalue_root_char Er root_prod_XsubC.
have rr a : a \in r -> a \is Num.real.
  by rewrite eigr => /eigenvalueP[v E Nv]; apply: herm_eig_real Nv E.
have rn : [seq - x | x <- r] != [::].
  by apply/eqP => E; have := size_char_poly A; rewrite Er; case: (r) E => // _; rewrite big_nil size_poly1.
have [|l /mapP[l' lr El] lm] := seq_max rn; first by move=> x /mapP[y /rr Hy ->]; rewrite realN.
exists l'; first exact: rr.
split; first by move: lr; rewrite eigr => /eigenvalueP[v E Nv]; exists v.
move=> a w Nw E; rewrite -ler_opp2 -El; apply: lm; apply/mapP; exists a => //.
by rewrite eigr; apply/eigenvalueP; exists w.
Qed.

Lemma eigh_exists n (A : 'M[C]_n) : adj A = A -> exists (U : 'M[C]_n) (f : nat -> C),
  [/\ adj U *m U = 1%:M, forall i, (i < n)%N -> f i \is Num.real, forall i j, (i <= j)%N -> (j < n)%N -> f i <= f j &
      A = U *m diag_mx (\row_i f i) *m adj U /\ (rl A -> rl U)].
Proof.
elim: n A => [|n IH] A HA.
  by exists 1%:M, (fun=> 0); split=> //; [apply/matrixP => -[]|split; [apply/matrixP => -[]|move=> _ []]].
have [l lr [[v1 Ev1 Nv1] lm]] := herm_min HA.
have [v0 [Ev0 Nv0 rv0]] : exists v0 : 'rV[C]_n.+1, [/\ v0 *m A = l *: v0, v0 != 0 & rl A -> rl v0].
  case: (pselect_rl A) => [RA|NA]; last by exists v1.
  by have [w [Ew Nw Rw]] := real_eigM RA lr Ev1 Nv1; exists w.
have [v [v2 rv] Ev] : exists2 v : 'rV[C]_n.+1, v *m adj v = 1%:M /\ (rl A -> rl v) & v *m A = l *: v.
  have [u [U1 ru] [c Uc]] := unit_of (adj v0).
  exists (adj u); first by rewrite adjK; split=> // RA; apply: rl_adj; apply: ru; apply: rl_adj; apply: rv0.
  have c0 : c != 0 by apply: contra_neq Nv0 => c0; rewrite -[v0]adjK Uc c0 scale0r adj0.
  have Ev : v0 = c^* *: adj u by rewrite -[v0]adjK Uc adjZ.
  have cc : c^* != 0 by rewrite fmorph_eq0.
  by apply: (scalerI cc); rewrite scalemxAl -Ev Ev0 Ev !scalerA mulrC.
have [|H [HH He rH]] := @unitary_first n (adj v); first by rewrite adjK.
pose B : 'M[C]_(n.+1, n.+1) := adj H *m A *m H.
have HAB : A = H *m B *m adj H.
  by rewrite /B !mulmxA unitC // mul1mx -mulmxA unitC // mulmx1.
have HB : adj B = B by rewrite /B !adjM adjK HA mulmxA.
have Bl : B *m delta_mx 0 0 = l *: (delta_mx 0 0 : 'cV_n.+1).
  rewrite /B -mulmxA He -mulmxA.
  have -> : A *m adj v = l *: adj v by rewrite -{1}HA -adjM Ev adjZ conj_Creal.
  by rewrite -scalemxAr -He mulmxA HH mul1mx.
have Bij0 i : B i 0 = l *+ (i == 0).
  have := congr1 (fun X : 'cV_n.+1 => X i 0) Bl; rewrite -colE !mxE => ->.
  by rewrite eqxx andbT; case: eqP; rewrite ?mulr1 ?mulr0.
have B0ij j : B 0 j = l *+ (j == 0).
  by rewrite -HB adjE Bij0 rmorphMn /= conj_Creal.
pose B' := @drsubmx _ 1 n 1 n B.
have EB : (B : 'M_(1 + n, 1 + n)) = block_mx l%:M 0 0 B'.
  exact: block_first.
have HB' : adj B' = B'.
  have : adj (B : 'M_(1 + n)) = B by [].
  rewrite {1}EB /adj tr_block_mx map_block_mx EB => /eq_block_mx[_ _ _]; exact.
have [U' [f [U1 F1 F2 [EB' rU']]]] := IH B' HB'.
have f0 : (0 < n)%N -> l <= f 0%N.
  move=> n0; pose i0 := Ordinal n0; pose y : 'rV[C]_n := delta_mx 0 i0 *m adj U'.
  have y1 : y *m adj y = 1%:M.
    rewrite /y adjM adjK mulmxA -(mulmxA _ (adj U')) U1 mulmx1.
    apply/matrixP => i j; rewrite !ord1 !mxE (bigD1 i0) //= !mxE !eqxx rmorph1 mulr1 big1 ?addr0 // => k /negbTE Nk.
    by rewrite !mxE Nk mul0r.
  have Ey : y *m B' = f 0%N *: y.
    rewrite /y EB' !mulmxA -(mulmxA _ (adj U')) U1 mulmx1.
    rewrite scalemxAl; congr (_ *m _); apply/matrixP => i j; rewrite !ord1 !mxE (bigD1 i0) //= big1 => [|k /negbTE Nk]; last first.
      by rewrite mxE Nk andbF mul0r.
    by rewrite !mxE eqxx mul1r addr0 eq_sym mulr_natr.
  pose rm : 'rV[C]_n.+1 := (row_mx 0 y : 'rV_(1 + n)).
  pose x : 'rV[C]_n.+1 := rm *m adj H.
  have Ex : x *m A = f 0%N *: x.
    rewrite HAB /x -mulmxA -(mulmxA H) (mulmxA (adj H) H) HH mul1mx (mulmxA rm) scalemxAl; congr (_ *m _).
    transitivity ((row_mx 0 y : 'rV_(1 + n)) *m block_mx l%:M 0 0 B'); first by rewrite -EB.
    rewrite mul_row_block !mul0mx mulmx0 !add0r Ey.
    transitivity (f 0%N *: (row_mx 0 y : 'rV_(1 + n))) => //.
    by rewrite scale_row_mx scaler0.
  apply: lm Ex; apply/eqP => Zx; have : x *m adj x = 1%:M.
    rewrite /x adjM adjK mulmxA -(mulmxA _ (adj H)) HH mulmx1.
    transitivity ((row_mx 0 y : 'rV_(1 + n)) *m adj (row_mx 0 y : 'rV_(1 + n))) => //.
    by rewrite /adj tr_row_mx map_col_mx mul_row_col trmx0 map_mx0 mul0mx add0r; exact: y1.
  rewrite Zx mul0mx => /matrixP /(_ 0 0); rewrite !mxE eqxx => /eqP; by rewrite eq_sym oner_eq0.
pose g i := if i is i'.+1 then f i' else l.
pose U : 'M[C]_(1 + n) := block_mx 1%:M 0 0 U'.
have aU : adj U = block_mx 1%:M 0 0 (adj U').
  by rewrite /U /adj tr_block_mx map_block_mx !trmx0 !map_mx0 -/(adj _) -/(adj _) adj1.
have UU : adj U *m U = 1%:M.
  by rewrite aU /U mulmx_block !mul0mx !mulmx0 mulmx1 !addr0 !add0r U1 -scalar_mx_block.
have EG : (diag_mx (\row_(i < n.+1) g i) : 'M_(1 + n)) = block_mx l%:M 0 0 (diag_mx (\row_(i < n) f i)).
  rewrite -[LHS](@submxK _ 1 n 1 n); congr block_mx; apply/matrixP => i j; rewrite !mxE ?ord1 //=.
have UGV : U *m diag_mx (\row_(i < n.+1) g i) *m adj U = B.
  transitivity (U *m block_mx l%:M 0 0 (diag_mx (\row_(i < n) f i)) *m adj U); first by rewrite -EG.
  by rewrite aU /U !mulmx_block !mul0mx !mulmx0 !mul1mx !addr0 !add0r !mulmx1 ?mul0mx ?addr0 -EB' -EB.
exists (H *m U), g; split.
- by rewrite adjM mulmxA -(mulmxA (adj U)) HH mulmx1.
- by case=> [|i] //= /F1.
- case=> [|i] [|j] //= Hij; last exact: F2.
  move=> Hj; apply: Order.POrderTheory.le_trans (f0 _) (F2 _ _ (leq0n _) Hj); exact: (leq_ltn_trans (leq0n j) Hj).
- split=> [|RA]; first by rewrite HAB -UGV adjM !mulmxA.
  have {}rH : rl H by apply: rH; [apply: rl_adj; apply: rv].
  have rB : rl (B : 'M_n.+1) by apply: rlM => //; apply: rlM => //; apply: rl_adj.
  have rU : rl U by apply: rl_block; [apply: rl_scalar; rewrite rpred1|exact: rl0|exact: rl0|apply: rU' => i j; rewrite mxE mxE; exact: rB].
  exact: rlM.
Qed.

(** ---- functions meeting the specifications ---- *)

Definition sv_okb k (s : 'rV[C]_k) : bool :=
  [forall i, 0 <= s 0 i] && [forall i : 'I_k, forall j : 'I_k, (i <= j)%N ==> (s 0 j <= s 0 i)].
Lemma sv_okP k (s : 'rV[C]_k) : reflect (sv_ok s) (sv_okb s).
Proof.
apply: (iffP andP) => [[/forallP H1 /forallP H2]|[H1 H2]]; split=> //.
- by move=> i j Hij; have /forallP /(_ j) := H2 i; rewrite Hij.
- exact/forallP.
- by apply/forallP => i; apply/forallP => j; apply/implyP; apply: H2.
Qed.

Definition mxreal m n (A : 'M[C]_(m, n)) : bool := [forall i, forall j, A i j \is Num.real].
Lemma mxrealP m n (A : 'M[C]_(m, n)) : reflect (rl A) (mxreal A).
Proof.
apply: (iffP idP) => [H i j|H]; first by have /forallP/(_ i)/forallP/(_ j) := H.
by apply/forallP => i; apply/forallP => j.
Qed.

Definition full_svd_b m n (A : 'M[C]_(m, n)) (x : 'M[C]_m * 'rV[C]_(minn m n) * 'M[C]_n) : bool :=
  let: (U, s, Vh) := x in
  [&& adj U *m U == 1%:M, Vh *m adj Vh == 1%:M, sv_okb s, (mxreal A ==> mxreal U && mxreal Vh) &
      [forall i, forall j, A i j == \sum_(k < minn m n) U i (widen_ord (geq_minl m n) k) * s 0 k *
                                              Vh (widen_ord (geq_minr m n) k) j]].

Lemma sg_sum m n (U : 'M[C]_m) (V : 'M[C]_n) f i j : (U *m sg m n f *m V) i j =
  \sum_(k < minn m n) U i (widen_ord (geq_minl m n) k) * f k * V (widen_ord (geq_minr m n) k) j.
Proof.
pose F (k l : nat) : C := (if insub k is Some k' then U i k' else 0) * f k * (if insub l is Some l' then V l' j else 0).
have -> : (U *m sg m n f *m V) i j = \sum_(l < n) \sum_(k < m) F k l *+ (k == l :> nat).
  rewrite mxE; apply: eq_bigr => l _; rewrite mxE big_distrl /=; apply: eq_bigr => k _.
  by rewrite mxE /F !valK mulrnAr mulrnAl.
have -> : \sum_(l < n) \sum_(k < m) F k l *+ (k == l :> nat) = \sum_(l < n | (l < m)%N) F l l.
  rewrite [RHS]big_mkcond; apply: eq_bigr => l _; case: ifP => Hl.
    rewrite (bigD1 (Ordinal Hl)) //= eqxx mulr1n big1 ?addr0 // => k.
    by rewrite -val_eqE /= => /negbTE ->.
  rewrite big1 // => k _; case: eqP => // E; by move: (ltn_ord k); rewrite E Hl.
transitivity (\sum_(k < minn m n) F k k).
  rewrite (big_ord_widen n (fun k => F k k)) ?geq_minr //; apply: eq_bigl => l.
  by rewrite leq_min ltn_ord andbT.
apply: eq_bigr => k _; rewrite /F.
have E1 : insub (nat_of_ord k) = Some (widen_ord (geq_minl m n) k).
  by rewrite -[RHS]valK.
have E2 : insub (nat_of_ord k) = Some (widen_ord (geq_minr m n) k).
  by rewrite -[RHS]valK.
by rewrite E1 E2.
Qed.

Lemma full_svd_ex m n (A : 'M[C]_(m, n)) : exists x, full_svd_b A x.
Proof.
have [U [Vh [f [HU HV [F1 F2] F3 [HA HR]]]]] := svd_exists A.
exists (U, \row_k f k, Vh); rewrite /full_svd_b HU eqxx (mulmx1C HV) eqxx /=; apply/and3P; split.
- by apply/sv_okP; split=> [i|i j Hij]; rewrite !mxE //; apply: F3.
- by apply/implyP => /mxrealP/HR[RU RV]; apply/andP; split; apply/mxrealP.
apply/forallP => i; apply/forallP => j; rewrite {1}HA sg_sum; apply/eqP; apply: eq_bigr => k _.
by rewrite mxE.
Qed.
Definition some_full_svd : full_svd_fun C := fun m n A => xchoose (full_svd_ex A).

Theorem some_full_svd_spec : full_svd_spec some_full_svd.
Proof.
move=> m n A; have := xchooseP (full_svd_ex A); rewrite /some_full_svd.
case: (xchoose _) => [[U s] Vh] /and5P[/eqP HU /eqP HV /sv_okP Hs _ /forallP HA]; split=> // i j.
by have /forallP /(_ j) /eqP := HA i.
Qed.

(** for a real matrix its factors are real *)
Theorem some_full_svd_real m n (A : 'M[C]_(m, n)) : rl A -> rl (some_full_svd A).1.1 /\ rl (some_full_svd A).2.
Proof.
move=> RA; have := xchooseP (full_svd_ex A); rewrite /some_full_svd.
case: (xchoose _) => [[U s] Vh] /and5P[_ _ _ H _] /=.
by move: H; rewrite (introT (mxrealP A) RA) /= => /andP[/mxrealP RU /mxrealP RV].
Qed.

Definition thin_svd_b m n (A : 'M[C]_(m, n)) (x : 'M[C]_(m, minn m n) * 'rV[C]_(minn m n) * 'M[C]_(minn m n, n)) : bool :=
  let: (U, s, Vh) := x in
  [&& adj U *m U == 1%:M, Vh *m adj Vh == 1%:M, sv_okb s, mxreal A ==> (mxreal U && mxreal Vh) & A == U *m diag_mx s *m Vh].

Lemma thin_svd_ex m n (A : 'M[C]_(m, n)) : exists x, thin_svd_b A x.
Proof.
have := @some_full_svd_real m n A; have := some_full_svd_spec A; case: (some_full_svd A) => [[U s] Vh] [HU HV Hs HA] HR.
pose wm := widen_ord (geq_minl m n); pose wn := widen_ord (geq_minr m n).
exists (\matrix_(i, j) U i (wm j), s, \matrix_(i, j) Vh (wn i) j); rewrite /thin_svd_b; apply/and5P; split.
- apply/eqP/matrixP => i j; have := congr1 (fun M : 'M_m => M (wm i) (wm j)) HU; rewrite !mxE.
  by move=> H; rewrite -[RHS]H; apply: eq_bigr => l _; rewrite !mxE.
- apply/eqP/matrixP => i j; have := congr1 (fun M : 'M_n => M (wn i) (wn j)) HV; rewrite !mxE.
  by move=> H; rewrite -[RHS]H; apply: eq_bigr => l _; rewrite !mxE.
- exact/sv_okP.
- by apply/implyP => /mxrealP/HR[RU RV]; apply/andP; split; apply/mxrealP => i j; rewrite mxE.
- apply/eqP/matrixP => i j; rewrite HA mul_mx_diag mxE; apply: eq_bigr => l _; by rewrite !mxE.
Qed.
Definition some_thin_svd : thin_svd_fun C := fun m n A => xchoose (thin_svd_ex A).

Theorem some_thin_svd_spec : thin_svd_spec some_thin_svd.
Proof.
move=> m n A; have := xchooseP (thin_svd_ex A); rewrite /some_thin_svd.
by case: (xchoose _) => [[U s] Vh] /and5P[/eqP HU /eqP HV /sv_okP Hs _ /eqP HA].
Qed.

(** for a real matrix its factors are real *)
Theorem some_thin_svd_real m n (A : 'M[C]_(m, n)) : rl A -> rl (some_thin_svd A).1.1 /\ rl (some_thin_svd A).2.
Proof.
move=> RA; have := xchooseP (thin_svd_ex A); rewrite /some_thin_svd.
case: (xchoose _) => [[U s] Vh] /and5P[_ _ _ H _] /=.
by move: H; rewrite (introT (mxrealP A) RA) /= => /andP[/mxrealP RU /mxrealP RV].
Qed.

Definition qr_b m n (A : 'M[C]_(m, n)) (x : 'M[C]_(m, minn m n) * 'M[C]_(minn m n, n)) : bool :=
  let: (Q, R) := x in
  [&& adj Q *m Q == 1%:M, A == Q *m R, [forall i : 'I_(minn m n), forall j : 'I_n, (j < i)%N ==> (R i j == 0)] & mxreal A ==> mxreal Q].

Lemma qr_ex m n (A : 'M[C]_(m, n)) : exists x, qr_b A x.
Proof.
have [Q [R [HQ HA HR RQ]]] := qr_exists A erefl; exists (Q, R); rewrite /qr_b HQ -HA !eqxx /=.
apply/andP; split; last by apply/implyP => /mxrealP/RQ/mxrealP.
by apply/forallP => i; apply/forallP => j; apply/implyP => /HR ->.
Qed.
Definition some_qr : qr_fun C := fun m n A => xchoose (qr_ex A).

Theorem some_qr_spec : qr_spec some_qr.
Proof.
move=> m n A; have := xchooseP (qr_ex A); rewrite /some_qr.
case: (xchoose _) => [Q R] /and4P[/eqP HQ /eqP HA /forallP HR _]; split=> // i j Hij.
by have /forallP /(_ j) := HR i; rewrite Hij => /eqP.
Qed.

(** for a real matrix its factors are real *)
Theorem some_qr_real m n (A : 'M[C]_(m, n)) : rl A -> rl (some_qr A).1 /\ rl (some_qr A).2.
Proof.
move=> RA; have := xchooseP (qr_ex A); rewrite /some_qr.
case: (xchoose _) => [Q R] /and4P[/eqP HQ /eqP HA _ H] /=.
have RQ : rl Q by move: H; rewrite (introT (mxrealP A) RA) /= => /mxrealP.
by split=> //; have -> : R = adj Q *m A; [rewrite HA mulmxA HQ mul1mx|apply: rlM => //; apply: rl_adj].
Qed.
End Spectral.
