(** Facts about the splitting, balancing, gauging and truncation steps of the
    bond updates. *)
From Coq Require Import String Ascii.
From mathcomp Require Import all_ssreflect all_algebra.
From Verif Require Import Base Lattice Mover Tensor TN Rdm RdmFacts FullUpdate Linalg Mat Rsvd RsvdFacts Renorm RenormFacts Spectral ProjFacts Psd Als AlsFacts EighChol.
Set Implicit Arguments.
Unset Strict Implicit.
Unset Printing Implicit Defensive.
Import GRing.Theory Num.Theory.
Local Open Scope ring_scope.
Local Open Scope string_scope.

Section Split.
Variable C : numClosedFieldType.
Notation tensor := (tensor C).
Variable lqr : qr_fun C.

Lemma qrE (t : tensor) m n k : shape t = [:: m; n] -> k = minn m n -> qr_spec lqr ->
  exists q r, [/\ qr lqr t = Ok (q, r), shape q = [:: m; k], shape r = [:: k; n],
    adj (mx_of m k q) *m mx_of m k q = 1%:M & mx_of m n t = mx_of m k q *m mx_of k n r].
Proof.
move=> Ht -> Sq; rewrite /qr Ht; have := Sq _ _ (mx_of m n t); case: (lqr _) => Q R [HQ E _].
by exists (of_mx Q), (of_mx R); rewrite !mx_ofK; split.
Qed.

(** the matrix of t with the legs s1 as rows and s2 as columns, split by qr and
    with the legs restored *)
Lemma qr_split (s1 s2 : seq nat) (t : tensor) m n k : shape t = cat s1 s2 -> m = numel s1 -> n = numel s2 -> k = minn m n -> qr_spec lqr ->
  exists t2 q r q' r', [/\ reshape t [:: m; n] = Ok t2, qr lqr t2 = Ok (q, r), reshape q (cat s1 [:: k]) = Ok q', reshape r (k :: s2) = Ok r' &
   [/\ shape q' = cat s1 [:: k], shape r' = k :: s2,
    forall v w, in_range s1 v -> in_range s2 w -> at_ t (cat v w) = sumn k (fun x => at_ q' (cat v [:: x]) * at_ r' (x :: w)) &
    forall x x', (x < k)%N -> (x' < k)%N -> \sum_(v <- indices s1) (at_ q' (cat v [:: x]))^* * at_ q' (cat v [:: x']) = (x == x')%:R]].
Proof.
move=> Ht Hm Hn Hk Sq.
have [t2 [Et0 St2 Et2]] := reshape2 Ht Hm Hn.
have [q [r [Eqr Hq Hr Q1 E]]] := qrE St2 Hk Sq.
have kE : k = numel [:: k] by rewrite /= muln1.
have [q' [Eq0 Sq' Eq']] := @reshape_split C s1 [:: k] m k q Hq Hm kE.
have [r' [Er0 Sr' Er']] := @reshape_split C [:: k] s2 k n r Hr kE Hn.
rewrite cat1s in Er0 Sr'; exists t2, q, r, q', r'; split=> //; split=> //.
  move=> v w Hv Hw; have Lv := ravel_lt Hv; have Lw := ravel_lt Hw; rewrite -Hm in Lv; rewrite -Hn in Lw.
  have /matrixP/(_ (Ordinal Lv) (Ordinal Lw)) : mat m n s1 s2 t = mat m k s1 [:: k] q' *m mat k n [:: k] s2 r' by rewrite Eq' Er' -E Et2.
  rewrite !mxE /= !ravelK // => ->; apply: eq_bigr => x _; rewrite !mxE /= !ravelK //.
  by rewrite divn1.
move=> x x' Hx Hx'; have /matrixP/(_ (Ordinal Hx) (Ordinal Hx')) : adj (mat m k s1 [:: k] q') *m mat m k s1 [:: k] q' = 1%:M by rewrite Eq'.
rewrite !mxE -val_eqE /= => <-.
rewrite (@sum_unravel C s1 m (fun v => (at_ q' (cat v [:: x]))^* * at_ q' (cat v [:: x']))) //.
by apply: eq_bigr => i _; rewrite adjE !mxE /= !divn1.
Qed.
End Split.

Section Svd.
Variable C : numClosedFieldType.
Notation tensor := (tensor C).
Variable fsvd : full_svd_fun C.

(** the full decomposition of a square matrix *)
Lemma svd_square (t : tensor) n : shape t = [:: n; n] -> full_svd_spec fsvd ->
  exists u s vh, [/\ svd_full fsvd t = Ok (u, s, vh), shape u = [:: n; n] /\ shape vh = [:: n; n], size s = n &
   let U := mx_of n n u in let Vh := mx_of n n vh in
   [/\ adj U *m U = 1%:M, Vh *m adj Vh = 1%:M, forall i, 0 <= nth 0 s i, forall i j, (i <= j)%N -> nth 0 s j <= nth 0 s i &
     mx_of n n t = U *m diag_mx (\row_i nth 0 s i) *m Vh]].
Proof.
move=> Ht /(_ n n (mx_of n n t)); rewrite /svd_full Ht; case: (fsvd _) => [[U s] Vh] [HU HV [Hp Hm] HA].
have Hsz : size [seq s 0 i | i <- enum 'I_(minn n n)] = n by rewrite size_map size_enum_ord minnn.
have Hn i (Hi : (i < minn n n)%N) : nth 0 [seq s 0 i | i <- enum 'I_(minn n n)] i = s 0 (Ordinal Hi).
  by rewrite (nth_map (Ordinal Hi)) ?size_enum_ord // -[i]/(nat_of_ord (Ordinal Hi)) nth_ord_enum.
have H0 i : 0 <= nth 0 [seq s 0 i | i <- enum 'I_(minn n n)] i.
  case: (ltnP i (minn n n)) => Hi; first by rewrite Hn.
  by rewrite nth_default // Hsz -(minnn n).
exists (of_mx U), [seq s 0 i | i <- enum 'I_(minn n n)], (of_mx Vh); split=> //=; rewrite !mx_ofK; split=> //.
  move=> i j Hij; case: (ltnP j (minn n n)) => Hj; last by rewrite [in X in X <= _]nth_default // Hsz -(minnn n).
  by rewrite (Hn _ (leq_ltn_trans Hij Hj)) (Hn _ Hj); apply: Hm.
apply/matrixP => i j; rewrite HA mul_mx_diag mxE.
have W (k : 'I_n) : (k < minn n n)%N by rewrite minnn.
rewrite (reindex (fun k : 'I_n => Ordinal (W k))) /=; last first.
  have W' (k : 'I_(minn n n)) : (k < n)%N by rewrite -[X in (_ < X)%N]minnn.
  by exists (fun k => Ordinal (W' k)) => k _; apply: val_inj.
apply: eq_bigr => k _; rewrite !mxE Hn; congr (U _ _ * s 0 _ * Vh _ _); exact: val_inj.
Qed.
End Svd.

(** reduced tensors with the outer and physical leg as rows *)
Section Amat.
Variable C : numClosedFieldType.
Notation tensor := (tensor C).
Definition amat n D p (a : tensor) : 'M[C]_(n * p, D) :=
  \matrix_(i, j) at_ a [:: nth 0 (unravel [:: n; p] i) 0; nat_of_ord j; nth 0 (unravel [:: n; p] i) 1]%N.

Lemma pair_ord n p y P : (y < n)%N -> (P < p)%N -> exists i : 'I_(n * p), unravel [:: n; p] i = [:: y; P].
Proof.
move=> Hy HP; have HI : in_range [:: n; p] [:: y; P] by rewrite /= Hy HP.
have Hk : (ravel [:: n; p] [:: y; P] < n * p)%N by have := ravel_lt HI; rewrite [numel _]/= muln1.
by exists (Ordinal Hk); change (unravel [:: n; p] (ravel [:: n; p] [:: y; P]) = [:: y; P]); rewrite ravelK.
Qed.

Lemma amat_gram n D p a u v : (u < D)%N -> (v < D)%N -> exists i j : 'I_D, [/\ nat_of_ord i = u, nat_of_ord j = v &
  (adj (amat n D p a) *m amat n D p a) i j = sumn n (fun y => sumn p (fun P => (at_ a [:: y; u; P])^* * at_ a [:: y; v; P]))].
Proof.
move=> Hu Hv; exists (Ordinal Hu), (Ordinal Hv); split=> //; rewrite mxE.
pose F w := (at_ a [:: nth 0 w 0; u; nth 0 w 1]%N)^* * at_ a [:: nth 0 w 0; v; nth 0 w 1]%N.
transitivity (\sum_(k < n * p) F (unravel [:: n; p] k)); last by rewrite sum2.
by apply: eq_bigr => k _; rewrite adjE !mxE.
Qed.
End Amat.

Section Finalize.
Variable C : numClosedFieldType.
Notation tensor := (tensor C).
Variable lqr : qr_fun C.
Variable fsvd : full_svd_fun C.

Lemma sqrt_weightsE (s : seq C) k d : size s = k -> d != 0 ->
  exists w, [/\ sqrt_weights s k d = Ok w, shape w = [:: k] & forall i, at_ w [:: i] = sqrtC (nth 0 s i / d)].
Proof. by move=> Hs Hd; rewrite /sqrt_weights (negbTE Hd) take_oversize ?Hs //; eexists; split. Qed.

Lemma finalizeE n D p (a1 a2 : tensor) : shape a1 = [:: n; D; p] -> shape a2 = [:: n; D; p] -> (D <= n * p)%N ->
  qr_spec lqr -> full_svd_spec fsvd ->
  exists Q1 Q2 U Vh (R1 R2 : 'M[C]_D) (s : seq C),
   [/\ [/\ adj Q1 *m Q1 = 1%:M, adj Q2 *m Q2 = 1%:M, adj U *m U = 1%:M & Vh *m adj Vh = 1%:M],
       size s = D /\ (forall i, 0 <= nth 0 s i) /\ (forall i j, (i <= j)%N -> nth 0 s j <= nth 0 s i),
       amat n D p a1 = Q1 *m R1 /\ amat n D p a2 = Q2 *m R2, R1 *m R2^T = U *m diag_mx (\row_i nth 0 s i) *m Vh &
       if norm_list s == 0 then finalize_reduced_tensors lqr fsvd None a1 a2 = Err ZeroNorm else
       let W := diag_mx (\row_(i < D) sqrtC (nth 0 s i / norm_list s)) in
       exists b1 b2, [/\ finalize_reduced_tensors lqr fsvd None a1 a2 = Ok (b1, b2), shape b1 = [:: n; D; p], shape b2 = [:: n; D; p],
         amat n D p b1 = Q1 *m U *m W & amat n D p b2 = Q2 *m Vh^T *m W]].
Proof.
move=> H1 H2 HD Sq Ss; rewrite /finalize_reduced_tensors [bind (Ok _) _]/bind H1.
have [t1 [-> T1 ET1]] : exists t, [/\ einsum "yup->ypu" [:: a1] = Ok t, shape t = [:: n; p; D] &
    forall y P u, at_ t [:: y; P; u] = at_ a1 [:: y; u; P]].
  by rewrite /einsum /= H1 /= /dims_ok /= ?eqxx /=; eexists; split=> // *; rewrite /= /factor /= mulr1.
have [t2 [-> T2 ET2]] : exists t, [/\ einsum "xvq->xqv" [:: a2] = Ok t, shape t = [:: n; p; D] &
    forall y P u, at_ t [:: y; P; u] = at_ a2 [:: y; u; P]].
  by rewrite /einsum /= H2 /= /dims_ok /= ?eqxx /=; eexists; split=> // *; rewrite /= /factor /= mulr1.
have np : (n * p)%N = numel [:: n; p] by rewrite /= muln1.
have DE : D = numel [:: D] by rewrite /= muln1.
have mA (t a : tensor) : (forall y P u, at_ t [:: y; P; u] = at_ a [:: y; u; P]) -> mat (n * p) D [:: n; p] [:: D] t = amat n D p a.
  move=> E; apply/matrixP => i j; rewrite !mxE unravel1 //; have [y [P [_ _ -> _]]] := unravel2 (ltn_ord i).
  by rewrite /= E.
rewrite [bind (Ok t1) _]/bind.
have [m1 [-> M1 EM1]] := @reshape2 C [:: n; p] [:: D] (n * p) D t1 T1 np DE; rewrite [bind (Ok m1) _]/bind.
have kD : D = minn (n * p) D by rewrite minnC; apply/esym/minn_idPl.
have [q1 [r1 [-> Q1 R1 IQ1 E1]]] := qrE M1 kD Sq; rewrite [bind (Ok _) _]/bind.
rewrite [bind (Ok t2) _]/bind.
have [m2 [-> M2 EM2]] := @reshape2 C [:: n; p] [:: D] (n * p) D t2 T2 np DE; rewrite [bind (Ok m2) _]/bind.
have [q2 [r2 [-> Q2 R2 IQ2 E2]]] := qrE M2 kD Sq; rewrite [bind (Ok _) _]/bind.
have [t3 [-> T3 ET3]] : exists t, [/\ einsum "au,bu->ab" [:: r1; r2] = Ok t, shape t = [:: D; D] &
    mx_of D D t = mx_of D D r1 *m (mx_of D D r2)^T].
  rewrite /einsum /= R1 R2 /= /dims_ok /= ?eqxx /=; eexists; split=> //.
  by apply/matrixP => i j; rewrite !mxE; apply: eq_bigr => k _; rewrite !mxE.
rewrite [bind (Ok t3) _]/bind.
have [u [s [vh [-> [SU SV] Hs [IU IV s0 sm EU]]]]] := svd_square T3 Ss; rewrite [bind (Ok _) _]/bind.
exists (mx_of (n * p) D q1), (mx_of (n * p) D q2), (mx_of D D u), (mx_of D D vh), (mx_of D D r1), (mx_of D D r2), s; split=> //.
- by rewrite -E1 -E2 EM1 EM2 (mA _ _ ET1) (mA _ _ ET2).
- by rewrite -ET3.
case: eqVneq => [->|Nn]; first by rewrite /sqrt_weights eqxx.
have [w [-> Sw Ew]] := sqrt_weightsE Hs Nn; rewrite [bind (Ok w) _]/bind.
have [c1 [-> C1 EC1]] : exists t, [/\ einsum "ab,b->ab" [:: cols u D; w] = Ok t, shape t = [:: D; D] &
    forall a b, at_ t [:: a; b] = at_ u [:: a; b] * at_ w [:: b]].
  by rewrite /einsum /= SU Sw /= minnn /dims_ok /= ?eqxx /=; eexists; split.
rewrite [bind (Ok c1) _]/bind.
have [c2 [-> C2 EC2]] : exists t, [/\ einsum "ba,b->ba" [:: rows vh D; w] = Ok t, shape t = [:: D; D] &
    forall a b, at_ t [:: b; a] = at_ vh [:: b; a] * at_ w [:: b]].
  by rewrite /einsum /= SV Sw /= minnn /dims_ok /= ?eqxx /=; eexists; split.
rewrite [bind (Ok c2) _]/bind.
have [p1 [Ep1 P1 EP1]] := @reshape_split C [:: n; p] [:: D] (n * p) D q1 Q1 np DE.
have [p2 [Ep2 P2 EP2]] := @reshape_split C [:: n; p] [:: D] (n * p) D q2 Q2 np DE.
rewrite [cat _ _]/= in Ep1 P1 Ep2 P2; rewrite Ep1 [bind (Ok p1) _]/bind Ep2 [bind (Ok p2) _]/bind.
have [b1 [-> B1 EB1]] : exists t, [/\ einsum "ypa,au->yup" [:: p1; c1] = Ok t, shape t = [:: n; D; p] &
    forall y v P, at_ t [:: y; v; P] = sumn D (fun a => at_ p1 [:: y; P; a] * at_ c1 [:: a; v])].
  by rewrite /einsum /= P1 C1 /= /dims_ok /= ?eqxx /=; eexists; split.
rewrite [bind (Ok b1) _]/bind.
have [b2 [-> B2 EB2]] : exists t, [/\ einsum "xqb,vb->xvq" [:: p2; c2] = Ok t, shape t = [:: n; D; p] &
    forall y v P, at_ t [:: y; v; P] = sumn D (fun a => at_ p2 [:: y; P; a] * at_ c2 [:: v; a])].
  by rewrite /einsum /= P2 C2 /= /dims_ok /= ?eqxx /=; eexists; split.
exists b1, b2; split=> //; rewrite -?EP1 -?EP2.
  apply/matrixP => i j; rewrite -mulmxA mul_mx_diag !mxE EB1; apply: eq_bigr => k _; rewrite !mxE EC1 Ew unravel1 //.
apply/matrixP => i j; rewrite -mulmxA mul_mx_diag !mxE EB2; apply: eq_bigr => k _; rewrite !mxE EC2 Ew unravel1 //.
Qed.
End Finalize.

(** ---- positive_approx ---- *)
Section Pos.
Variable C : numClosedFieldType.
Notation tensor := (tensor C).
Variable fsvd : full_svd_fun C.
Variable leigh : eigh_fun C.
Variable cutoff : C.

Lemma posE n k (n12 : tensor) fuel : k.+1 = (n ^ 2)%N -> shape n12 = [:: n; n; n; n] ->
  let M := mat k.+1 k.+1 [:: n; n] [:: n; n] n12 in
  (shift_loop fsvd leigh cutoff fuel M = None -> positive_approx fsvd leigh fuel cutoff n12 = None) /\
  (forall N' nw nz, shift_loop fsvd leigh cutoff fuel M = Some (N', (nw, nz)) ->
     exists t, [/\ positive_approx fsvd leigh fuel cutoff n12 = Some (Ok t), shape t = [:: n; n; k.+1] &
       mat k.+1 k.+1 [:: n; n] [:: k.+1] t = nz *m diag_mx (\row_i sqrtC (nw 0 i))]).
Proof.
move=> Ek Hs M; rewrite /positive_approx Hs -Ek.
have kn : k.+1 = numel [:: n; n] by rewrite Ek /= muln1 expnS expn1.
have k1 : k.+1 = numel [:: k.+1] by rewrite /= muln1.
have [t [-> St ->]] := @reshape2 C [:: n; n] [:: n; n] k.+1 k.+1 n12 Hs kn kn; rewrite -/M.
split=> [-> //|N' nw nz ->].
have [t' [Et' St' Mt']] := @reshape_split C [:: n; n] [:: k.+1] k.+1 k.+1 (of_mx nz) erefl kn k1.
rewrite [cat _ _]/= in Et' St'; rewrite Et' [bind _ _]/bind; eexists; split=> //.
have kk : (n * n)%N = k.+1 by rewrite Ek expnS expn1.
apply/matrixP => i j; have Li : (i < n * n)%N by rewrite kk.
have Lj : nth 0 [seq nw 0 l | l <- enum 'I_k.+1] j = nw 0 j.
  by rewrite (nth_map j) ?size_enum_ord // nth_ord_enum.
rewrite mul_mx_diag !mxE -[in RHS](mx_ofK nz) -Mt' mxE unravel1 //.
have [y [x [_ _ -> _]]] := unravel2 Li.
by rewrite -Lj.
Qed.

Hypothesis Se : eigh_spec leigh.
Hypothesis Ss : full_svd_spec fsvd.

Lemma adj_rdiag n (w : 'rV[C]_n) : (forall i, w 0 i \is Num.real) -> adj (diag_mx w) = diag_mx w.
Proof.
move=> H; apply/matrixP => i j; rewrite adjE !mxE; case: eqVneq => [->|_]; last by rewrite rmorph0.
by rewrite !mulr1n conj_Creal.
Qed.

(** the Hermitian matrix whose eigendecomposition one evaluation returns *)
Definition eig_of n (A P : 'M[C]_n) : Prop :=
  if leigh A is Some _ then P = lowherm A else psd P /\ P *m P = A *m adj A.

Lemma eig_or_svdE n (A : 'M[C]_n) : let: (w, V) := eig_or_svd fsvd leigh A in
  [/\ adj V *m V = 1%:M, forall i, w 0 i \is Num.real, forall i j : 'I_n, (i <= j)%N -> w 0 i <= w 0 j &
      eig_of A (V *m diag_mx w *m adj V)].
Proof.
rewrite /eig_or_svd /eig_of; have := Se A; case: (leigh A) => [[w V] [? ? ? ->] //|_].
have := Ss A; case: (fsvd A) => [[U s] Vh] [HU HV [Hp Hm] HA].
have Hsz : size [seq s 0 k | k <- enum 'I_(minn n n)] = n by rewrite size_map size_enum_ord minnn.
have Hn i (Hi : (i < minn n n)%N) : nth 0 [seq s 0 k | k <- enum 'I_(minn n n)] i = s 0 (Ordinal Hi).
  by rewrite (nth_map (Ordinal Hi)) ?size_enum_ord // -[i]/(nat_of_ord (Ordinal Hi)) nth_ord_enum.
have W (k : 'I_n) : (k < minn n n)%N by rewrite minnn.
pose sn : 'rV[C]_n := \row_k s 0 (Ordinal (W k)).
have Hr : \row_i nth 0 (rev [seq s 0 k | k <- enum 'I_(minn n n)]) i = \row_i sn 0 (rev_ord i).
  apply/matrixP => a i; rewrite !mxE nth_rev Hsz //.
rewrite {}Hr; set w := \row_i _; set V := \matrix_(i, j) _.
have EA : A = U *m diag_mx sn *m Vh.
  apply/matrixP => i j; rewrite HA mul_mx_diag mxE.
  rewrite (reindex (fun k : 'I_n => Ordinal (W k))) /=; last first.
    have W' (k : 'I_(minn n n)) : (k < n)%N by rewrite -[X in (_ < X)%N]minnn.
    by exists (fun k => Ordinal (W' k)) => k _; apply: val_inj.
  by apply: eq_bigr => k _; rewrite !mxE; congr (U _ _ * s 0 _ * Vh _ _); exact: val_inj.
have EP : V *m diag_mx w *m adj V = U *m diag_mx sn *m adj U.
  rewrite !mul_mx_diag; apply/matrixP => i j; rewrite !mxE (reindex_inj rev_ord_inj); apply: eq_bigr => k _.
  by rewrite !adjE !mxE !rev_ordK.
have sp i : 0 <= sn 0 i by rewrite mxE.
rewrite EP; split.
- apply/matrixP => i j; have := congr1 (fun M : 'M_n => M (rev_ord i) (rev_ord j)) HU.
  rewrite !mxE (inj_eq rev_ord_inj) => <-; apply: eq_bigr => k _; rewrite !adjE !mxE //.
- by move=> i; rewrite mxE ger0_real.
- by move=> i j Hij; rewrite !mxE; apply: Hm; rewrite /= leq_sub2l // ltnS.
split.
  have -> : U *m diag_mx sn *m adj U = (U *m diag_mx (\row_i sqrtC (sn 0 i))) *m adj (U *m diag_mx (\row_i sqrtC (sn 0 i))).
    rewrite adjM adj_rdiag => [|i]; last by rewrite mxE ger0_real ?sqrtC_ge0.
    rewrite mulmxA -[in RHS](mulmxA U) mulmx_diag; congr (_ *m diag_mx _ *m _).
    by apply/matrixP => a i; rewrite !mxE -expr2 sqrtCK.
  exact: gram_psd.
rewrite EA !adjM adj_rdiag => [|i]; last by rewrite ger0_real.
by rewrite !mulmxA -(mulmxA _ (adj U)) HU mulmx1 -(mulmxA _ Vh) HV mulmx1.
Qed.

Lemma shift_loopE n fuel (N N' : 'M[C]_n.+1) w V : shift_loop fsvd leigh cutoff fuel N = Some (N', (w, V)) -> 0 <= cutoff ->
  exists2 d, 0 <= d & [/\ N' = N + d%:M, eig_or_svd fsvd leigh N' = (w, V) & cutoff <= w 0 0].
Proof.
move=> H c0; elim: fuel N H => [|fuel IH] N; rewrite [shift_loop _ _ _ _ _]/=; have := eig_or_svdE N; case E: (eig_or_svd _ _ _) => [w' V'] [_ wr _ _].
  case: ifP => // Hc [<- <- <-]; exists 0 => //; split=> //; first by rewrite raddf0 addr0.
  by rewrite real_leNgt ?Hc //; apply: ger0_real.
case: ifP => Hc; last first.
  case=> <- <- <-; exists 0 => //; split=> //; first by rewrite raddf0 addr0.
  by rewrite real_leNgt ?Hc //; apply: ger0_real.
case/IH => d d0 [-> E2 L]; exists (2%:R * maxC cutoff `|w' 0 0| + d).
  by rewrite addr_ge0 // mulr_ge0 ?ler0n // /maxC; case: ifP.
by split=> //; rewrite raddfD /= addrA.
Qed.

Lemma eig_form n (V : 'M[C]_n) (w : 'rV[C]_n) (x : 'cV[C]_n) : (adj x *m (V *m diag_mx w *m adj V) *m x) 0 0 = \sum_i w 0 i * `|(adj V *m x) i 0| ^+ 2.
Proof.
have -> : adj x *m (V *m diag_mx w *m adj V) *m x = adj (adj V *m x) *m (diag_mx w *m (adj V *m x)) by rewrite adjM adjK !mulmxA.
by rewrite mxE; apply: eq_bigr => i _; rewrite mul_diag_mx adjE [(\matrix_(_, _) _) _ _]mxE normCK mulrCA [_^* * _]mulrC.
Qed.

Lemma col_norm n (x : 'cV[C]_n) : (adj x *m x) 0 0 = \sum_i `|x i 0| ^+ 2.
Proof. by rewrite mxE; apply: eq_bigr => i _; rewrite adjE normCK mulrC. Qed.

Lemma min_form n (V : 'M[C]_n.+1) (w : 'rV[C]_n.+1) (x : 'cV[C]_n.+1) : adj V *m V = 1%:M -> (forall i, w 0 0 <= w 0 i) ->
  w 0 0 * (adj x *m x) 0 0 <= (adj x *m (V *m diag_mx w *m adj V) *m x) 0 0.
Proof.
move=> V1 Hw; rewrite eig_form.
have -> : adj x *m x = adj (adj V *m x) *m (adj V *m x) by rewrite adjM adjK !mulmxA -(mulmxA (adj x)) (mulmx1C V1) mulmx1.
by rewrite col_norm mulr_sumr; apply: ler_sum => i _; rewrite ler_wpmul2r ?exprn_ge0.
Qed.

Lemma lowherm_shift n (N : 'M[C]_n) d : d \is Num.real -> lowherm (N + d%:M) = lowherm N + d%:M.
Proof.
move=> Hd; apply/matrixP => i j; rewrite !mxE; case: (ltngtP j i) => [H|H|/val_inj ->].
- by have /negbTE -> : i != j by [rewrite -val_eqE gtn_eqF]; rewrite mulr0n !addr0.
- have /negbTE Nij : i != j by rewrite -val_eqE ltn_eqF.
  by rewrite [j == i]eq_sym Nij mulr0n !addr0.
by rewrite eqxx mulr1n raddfD /=; congr (_ + _); apply/Creal_ReP.
Qed.

Lemma shift_stop n fuel (N : 'M[C]_n.+1) w V : eig_or_svd fsvd leigh N = (w, V) -> (w 0 0 < cutoff) = false ->
  shift_loop fsvd leigh cutoff fuel N = Some (N, (w, V)).
Proof. by case: fuel => [|f] E H /=; rewrite E H. Qed.

Lemma shift_go n fuel (N : 'M[C]_n.+1) w V : eig_or_svd fsvd leigh N = (w, V) -> w 0 0 < cutoff ->
  shift_loop fsvd leigh cutoff fuel.+1 N = shift_loop fsvd leigh cutoff fuel (N + (2%:R * maxC cutoff `|w 0 0|)%:M).
Proof. by move=> E H /=; rewrite E H. Qed.

(** the value of the form on the first eigenvector *)
Lemma first_form n (V : 'M[C]_n.+1) (w : 'rV[C]_n.+1) : adj V *m V = 1%:M ->
  let x := col 0 V in (adj x *m x) 0 0 = 1 /\ (adj x *m (V *m diag_mx w *m adj V) *m x) 0 0 = w 0 0.
Proof.
move=> V1 x; have Ex : adj V *m x = delta_mx 0 0 by rewrite /x colE mulmxA V1 mul1mx.
split.
  have -> : adj x *m x = adj (adj V *m x) *m (adj V *m x) by rewrite adjM adjK !mulmxA -(mulmxA (adj x)) (mulmx1C V1) mulmx1.
  rewrite Ex col_norm (bigD1 0) //= big1 => [|i /negbTE N]; first by rewrite mxE eqxx addr0 normr1 expr1n.
  by rewrite mxE N normr0 expr0n.
rewrite eig_form Ex (bigD1 0) //= big1 => [|i /negbTE N]; first by rewrite mxE eqxx addr0 normr1 expr1n mulr1.
by rewrite mxE N normr0 expr0n mulr0.
Qed.

Lemma maxC_real (x y : C) : x \is Num.real -> y \is Num.real -> [/\ maxC x y \is Num.real, x <= maxC x y & y <= maxC x y].
Proof.
by move=> Hx Hy; rewrite /maxC; case: (real_leP Hx Hy) => H; split=> //; apply: Order.POrderTheory.ltW.
Qed.

(** with an eigh that does not fail one shift suffices *)
Lemma one_shift n fuel (N : 'M[C]_n.+1) : (forall m (A : 'M[C]_m), leigh A) -> cutoff \is Num.real ->
  exists d N' w V, shift_loop fsvd leigh cutoff fuel.+1 N = Some (N', (w, V)) /\
    [/\ N' = N + d%:M, leigh N' = Some (w, V), 0 <= d, cutoff <= w 0 0 &
        (forall x : 'cV[C]_n.+1, cutoff * (adj x *m x) 0 0 <= (adj x *m lowherm N *m x) 0 0) -> d = 0].
Proof.
move=> tot cr; have := eig_or_svdE N; have := tot _ N; rewrite /eig_of.
case EN : (eig_or_svd _ _ N) => [w V]; move: (EN); rewrite {1}/eig_or_svd; case E: (leigh N) => [p|//] Ep _ [V1 wr wm EV].
move: E; rewrite {}Ep => E.
have [H1 H2] := first_form w V1; rewrite EV in H2.
have [Hc|Hc] := real_ltP (wr 0) cr; last first.
  exists 0, N, w, V; split; last by split=> //; rewrite ?raddf0 ?addr0.
  by rewrite (shift_stop _ EN) // Order.POrderTheory.le_gtF.
rewrite (shift_go _ EN) //; have [mr m1 m2] := maxC_real cr (normr_real (w 0 0)).
have [d Ed] : exists d, d = 2%:R * maxC cutoff `|w 0 0| by eexists.
have d0 : 0 <= d by rewrite Ed mulr_ge0 ?ler0n // (Order.POrderTheory.le_trans _ m2).
have dr := ger0_real d0.
have [N2 EN2] : exists N2, N2 = N + d%:M by eexists.
rewrite -Ed -EN2; have := eig_or_svdE N2; have := tot _ N2; rewrite /eig_of.
case EN' : (eig_or_svd _ _ N2) => [w2 V2]; move: (EN'); rewrite {1}/eig_or_svd; case E2: (leigh N2) => [p2|//] Ep2 _ [V21 wr2 wm2 EV2].
move: E2; rewrite {}Ep2 => E2.
have [K1 K2] := first_form w2 V21; rewrite EV2 EN2 lowherm_shift // -EV in K2.
have L := min_form (col 0 V2) V1 (fun i => wm 0 i (leq0n i)).
have L2 : w 0 0 + d <= w2 0 0.
  have SS (A B : 'M[C]_1) : (A + d *: B) 0 0 = A 0 0 + d * B 0 0 by rewrite !mxE.
  rewrite -K2 mulmxDr mulmxDl mul_mx_scalar -scalemxAl SS K1 mulr1 ler_add2r.
  by rewrite K1 mulr1 in L.
have L3 : cutoff <= w2 0 0.
  apply: Order.POrderTheory.le_trans L2; rewrite Ed mulr_natl mulr2n -[X in X <= _]add0r addrCA addrC ler_add // -ler_subl_addl sub0r.
  by apply: Order.POrderTheory.le_trans m2; rewrite -normrN real_ler_norm // rpredN.
exists d, N2, w2, V2; split; first by rewrite (shift_stop _ EN') // Order.POrderTheory.le_gtF.
split=> // Hx; have := Hx (col 0 V); rewrite H1 H2 mulr1 => Hx'.
by move: (Order.POrderTheory.le_lt_trans Hx' Hc); rewrite Order.POrderTheory.ltxx.
Qed.
End Pos.
