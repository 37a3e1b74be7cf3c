(** Property C82: the truncated projector pair is the best one of its dimension. *)
From Coq Require Import String Ascii.
From mathcomp Require Import all_ssreflect all_algebra.
From Verif Require Import Base Lattice LatticeFacts Mover Tensor TN Rdm RdmFacts Fits Linalg Mat Rsvd RsvdFacts Renorm RenormFacts ProjFacts Spectral Psd Als EighChol P14_Projector Eckart.
Set Implicit Arguments.
Unset Strict Implicit.
Unset Printing Implicit Defensive.
Import GRing.Theory Num.Theory.
Local Open Scope ring_scope.
Local Open Scope string_scope.

(** ** Eckart-Young for rectangular matrices *)
Section Rect.
Variable C : numClosedFieldType.
Variables (m n k z : nat) (U : 'M[C]_(m, k)) (V : 'M[C]_(n, k)) (s : nat -> C).
Hypotheses (U1 : adj U *m U = 1%:M) (V1 : adj V *m V = 1%:M).
Hypotheses (s0 : forall i, 0 <= s i) (sm : forall i j, (i <= j)%N -> s j <= s i).
Definition rfull : 'M[C]_(m, n) := U *m diag_mx (\row_i s i) *m adj V.
Definition rtrunc : 'M[C]_(m, n) := U *m diag_mx (\row_(i < k) (s i *+ (i < z)%N)) *m adj V.

Let V1' : adj V *m adj (adj V) = 1%:M. Proof. by rewrite adjK. Qed.

Lemma rfro_tail : fro (rfull - rtrunc) = \sum_(i < k) s i ^+ 2 *+ (z <= i)%N.
Proof.
rewrite /rfull /rtrunc -mulmxBl -mulmxBr fro_isor // fro_isol // -raddfB /= fro_diag; apply: eq_bigr => i _.
rewrite !mxE [(z <= i)%N]leqNgt; case: (i < z)%N; first by rewrite subrr normr0 expr0n.
by rewrite subr0 ger0_norm.
Qed.

Lemma rfro_full : fro rfull = \sum_(i < k) s i ^+ 2.
Proof. by rewrite /rfull fro_isor // fro_isol // fro_diag; apply: eq_bigr => i _; rewrite mxE ger0_norm. Qed.

Lemma rky_fan (Q : 'M[C]_(m, z)) : adj Q *m Q = 1%:M -> (z <= k)%N -> fro (adj Q *m rfull) <= \sum_(i < k) s i ^+ 2 *+ (i < z)%N.
Proof.
move=> Q1 Hz; pose T := adj Q *m U; pose t (i : 'I_k) := \sum_(a < z) `|T a i| ^+ 2.
have Et : fro (adj Q *m rfull) = \sum_(i < k) s i ^+ 2 * t i.
  rewrite /rfull !mulmxA fro_isor // froE exchange_big; apply: eq_bigr => i _; rewrite mulr_sumr; apply: eq_bigr => a _.
  by rewrite mul_mx_diag [(\matrix_(_, _) _) _ _]mxE [(\row__ _) _ _]mxE normrM exprMn (ger0_norm (s0 i)) mulrC.
have t1 i : 0 <= t i <= 1.
  rewrite sumr_ge0 => [|a _]; last by rewrite exprn_ge0.
  have -> : t i = fro (adj Q *m col i U).
    rewrite froE; apply: eq_bigr => a _; rewrite big_ord1; congr (`|_| ^+ 2).
    by rewrite !mxE; apply: eq_bigr => l _; rewrite !mxE.
  have <- : fro (col i U) = 1; last exact: fro_proj_le.
  rewrite /fro /mxtrace big_ord1; have /matrixP/(_ i i) := U1; rewrite [RHS]mxE eqxx mulr1n => <-.
  by rewrite !mxE; apply: eq_bigr => l _; rewrite !adjE !mxE.
have tz : \sum_i t i <= z%:R.
  have -> : \sum_i t i = fro (adj U *m Q).
    rewrite /t exchange_big -(froE T) /T !froE exchange_big; apply: eq_bigr => i _; apply: eq_bigr => a _.
    by rewrite -[adj U *m Q]adjK adjM adjK adjE norm_conjC.
  have <- : fro Q = z%:R by rewrite /fro Q1 mxtrace1.
  exact: fro_proj_le.
have sz : \sum_(i < k) (i < z)%N%:R = z%:R :> C.
  rewrite -natr_sum; congr (_%:R); rewrite (eq_bigr (fun i : 'I_k => if (i < z)%N then 1%N else 0%N)) => [|i _]; last by case: ltnP.
  by rewrite -big_mkcond -(big_ord_widen _ (fun _ => 1%N) Hz) sum1_card card_ord.
rewrite Et; pose c := s z ^+ 2; have c0 : 0 <= c by rewrite exprn_ge0.
have pt (i : 'I_k) : s i ^+ 2 * t i <= s i ^+ 2 *+ (i < z)%N + c * (t i - (i < z)%N%:R).
  case/andP: (t1 i) => t0 t1'; case: (ltnP i z) => Hi; last first.
    rewrite mulr0n add0r subr0 ler_wpmul2r // /c ler_expn2r ?nnegrE //; exact: sm.
  rewrite mulr1n -subr_ge0; have -> : s i ^+ 2 + c * (t i - 1) - s i ^+ 2 * t i = (s i ^+ 2 - c) * (1 - t i).
    by rewrite mulrBl !mulrBr !mulr1 opprB addrAC addrA addrAC.
  rewrite mulr_ge0 ?subr_ge0 // /c ler_expn2r ?nnegrE //; apply: sm; exact: ltnW.
apply: Order.POrderTheory.le_trans (ler_sum _ (fun i _ => pt i)) _.
rewrite big_split /= -mulr_sumr sumrB sz -[X in _ <= X]addr0 ler_add2l.
by rewrite mulr_ge0_le0 // subr_le0.
Qed.

Lemma eckart_young_fact (A : 'M[C]_(m, z)) (B : 'M[C]_(z, n)) : (z <= m)%N -> (z <= k)%N -> fro (rfull - rtrunc) <= fro (rfull - A *m B).
Proof.
move=> Hm Hz; have [Q [Rq [Q1 EA _ _]]] := qr_exists A (esym (minn_idPr Hm)).
rewrite (fro_split (rfull - A *m B) Q1).
have -> : rfull - A *m B - Q *m (adj Q *m (rfull - A *m B)) = rfull - Q *m (adj Q *m rfull).
  rewrite EA !mulmxBr !mulmxA -(mulmxA Q (adj Q) Q) Q1 mulmx1 opprB addrA subrK //.
apply: Order.POrderTheory.le_trans (_ : fro (rfull - Q *m (adj Q *m rfull)) <= _); last by rewrite ler_addr fro_ge0.
have -> : fro (rfull - Q *m (adj Q *m rfull)) = fro rfull - fro (adj Q *m rfull) by rewrite [fro rfull](fro_split rfull Q1) addrAC subrr add0r.
rewrite rfro_tail ler_subr_addr rfro_full.
apply: Order.POrderTheory.le_trans (_ : _ <= \sum_(i < k) s i ^+ 2 *+ (z <= i)%N + \sum_(i < k) s i ^+ 2 *+ (i < z)%N) _.
  by rewrite ler_add2l rky_fan.
rewrite -big_split Order.POrderTheory.le_eqVlt; apply/orP; left; apply/eqP; apply: eq_bigr => i _ /=.
by rewrite leqNgt; case: (i < z)%N; rewrite /= ?add0r ?addr0.
Qed.

Lemma rank_factor (X : 'M[C]_(m, n)) : (\rank X <= z)%N -> exists A : 'M[C]_(m, z), exists B : 'M[C]_(z, n), X = A *m B.
Proof.
move=> Hr; have := mulmx_base X; move: (col_base X) (row_base X) => cb rb E.
exists (cb *m pid_mx (\rank X)), (pid_mx (\rank X) *m rb).
rewrite -!mulmxA (mulmxA (pid_mx _) (pid_mx _)) mul_pid_mx minnn.
by have -> : minn z (\rank X) = \rank X; [apply/minn_idPr|rewrite pid_mx_1 mul1mx].
Qed.

Theorem eckart_young_rect (X : 'M[C]_(m, n)) : (z <= m)%N -> (z <= k)%N -> (\rank X <= z)%N -> fro (rfull - rtrunc) <= fro (rfull - X).
Proof. by move=> Hm Hk /rank_factor[A [B ->]]; apply: eckart_young_fact. Qed.
End Rect.

Section Optimal.
Variable C : numClosedFieldType.
Notation tensor := (tensor C).
Variable R : Type.
Notation pmat w D z P := (mat (w * D * D)%N z [:: w; D; D] [:: z] P).

(** s lists the singular values of A, largest first *)
Definition singular_values m n (A : 'M[C]_(m, n)) (s : seq C) : Prop :=
  exists (U : 'M[C]_(m, size s)) (V : 'M[C]_(n, size s)),
    [/\ adj U *m U = 1%:M, adj V *m V = 1%:M, (forall i, 0 <= nth 0 s i), (forall i j, (i <= j)%N -> nth 0 s j <= nth 0 s i) &
        A = U *m diag_mx (\row_i nth 0 s i) *m adj V].

(** what the pair makes of the cut when both projectors are put into it *)
Definition through m n w D z (R1 : 'M[C]_(m, (w * D * D)%N)) (R2 : 'M[C]_((w * D * D)%N, n)) (pr : tensor * tensor * R) : 'M[C]_(m, n) :=
  R1 *m (pmat w D z pr.1.2 *m (pmat w D z pr.1.1)^T) *m R2.

(** The kept dimension is the number of singular values above the cutoff, at most
    chi; up to a positive factor the cut that passes through the projectors is
    as close to the original as any matrix whose rank is the kept dimension,
    and what is lost is the sum of the squares of the singular values dropped. *)
Definition best_cut m n w D chi cutoff (R1 : 'M[C]_(m, (w * D * D)%N)) (R2 : 'M[C]_((w * D * D)%N, n)) (pr : tensor * tensor * R) : Prop :=
  exists s z c, [/\ singular_values (R1 *m R2) s, z = minn chi (count (fun x => cutoff * nth 0 s 0 < x) s),
    shape pr.1.1 = [:: w; D; D; z] /\ shape pr.1.2 = [:: w; D; D; z],
    0 < c /\ fro (R1 *m R2 - c *: through z R1 R2 pr) = \sum_(z <= i < size s) nth 0 s i ^+ 2 &
    forall X : 'M[C]_(m, n), (\rank X <= z)%N -> fro (R1 *m R2 - c *: through z R1 R2 pr) <= fro (R1 *m R2 - X)].

Variable cfg : pconfig C.

Lemma isometry_le m k (U : 'M[C]_(m, k)) : adj U *m U = 1%:M -> (k <= m)%N.
Proof. by move=> H; have := mxrankM_maxr (adj U) U; rewrite H mxrank1 => /leq_trans; apply; apply: rank_leq_row. Qed.

Lemma cut_best m n w D (R1 : 'M[C]_(m, (w * D * D)%N)) (R2 : 'M[C]_((w * D * D)%N, n)) k U s V (pr : tensor * tensor * R) :
  cut_fact cfg R1^T R1 R2 k U s V pr -> usv m n k U s V = R1 *m R2 -> best_cut (pchi cfg) (svd_cutoff cfg) R1 R2 pr.
Proof.
move=> [HS [Hk Hz] [Hs0 Hpos] [S1 S2] [b1 [b2 [B1 B2 E1 E2]]]] HA; set z := nkeep cfg s in Hz Hpos S1 S2 E1 E2.
have [HU HV [G M] _] := HS.
have s0 i : 0 <= nth 0 s i.
  by case: (ltnP i k) => Hi; [have := G (Ordinal Hi); rewrite mxE|rewrite nth_default ?Hk].
have sm i j : (i <= j)%N -> nth 0 s j <= nth 0 s i.
  move=> Hij; case: (ltnP j k) => Hj; last by rewrite (nth_default _ (_ : size s <= j)%N) ?Hk.
  by have := M (Ordinal (leq_ltn_trans Hij Hj)) (Ordinal Hj) Hij; rewrite !mxE.
have EA : R1 *m R2 = rfull (mx_of m k U) (mx_of n k V) (nth 0 s) by rewrite -HA.
have c0 : 0 < (b1 * b2)^-1 by rewrite invr_gt0 mulr_gt0.
have ET : (b1 * b2)^-1 *: through z R1 R2 pr = rtrunc z (mx_of m k U) (mx_of n k V) (nth 0 s).
  have [_ HVz _ HL] := svd_of_take Hz HS.
  rewrite /through E1 E2.
  have E3 : (b1 *: (R1^T *m (map_mx (fun x : C => x^*) (mx_of m z U)) *m dinv z s))^T = b1 *: (dinv z s *m (adj (mx_of m z U) *m R1)).
    rewrite linearZ /= !trmx_mul trmxK tr_diag_mx; congr (_ *: (_ *m (_ *m _))).
    by apply/matrixP => i j; rewrite !mxE.
  rewrite E3 -scalemxAl -!scalemxAr -!scalemxAl scalerA (mulrC b2) scalerA mulVf ?scale1r; last by rewrite lt0r_neq0 // mulr_gt0.
  rewrite !mulmxA -(mulmxA _ R1 R2) -(mulmxA _ (adj (mx_of m z U))) HL -/z.
  have AV : R1 *m R2 *m mx_of n z V = mx_of m z U *m diag_mx (row_of_seq z s).
    rewrite -HA /usv; apply/matrixP => i j.
    pose w' := widen_ord Hz.
    have EV (x : 'I_k) : (adj (mx_of n k V) *m mx_of n z V) x j = (x == w' j)%:R.
      have /matrixP/(_ x (w' j)) := HV; rewrite !mxE => <-; apply: eq_bigr => a _; by rewrite !mxE.
    rewrite -mulmxA [LHS]mxE (bigD1 (w' j)) //= big1 ?addr0 => [|x /negbTE N]; last by rewrite EV N mulr0.
    by rewrite EV eqxx mulr1 !mul_mx_diag !mxE.
  rewrite -(mulmxA R1) (mulmxA R1) AV /rtrunc.
  have D1 : diag_mx (row_of_seq z s) *m dinv z s *m dinv z s *m diag_mx (row_of_seq z s) = diag_mx (row_of_seq z s).
    rewrite /dinv !mulmx_diag; congr diag_mx; apply/matrixP => i j; rewrite !mxE.
    have P0 := Hpos j; have S0 : sqrtC (nth 0 s j) != 0 by rewrite sqrtC_eq0 lt0r_neq0.
    have := sqrtCK (nth 0 s j); move: (sqrtC _) S0 => q S0 <-.
    by rewrite expr2 mulfK // mulfV // mul1r.
  rewrite !mulmxA -!(mulmxA (mx_of m z U)) D1.
  apply/matrixP => i j; rewrite [LHS]mxE [RHS]mxE.
  rewrite (eq_bigr (fun l : 'I_z => at_ U [:: nat_of_ord i; nat_of_ord l] * nth 0 s l * (at_ V [:: nat_of_ord j; nat_of_ord l])^*)); last first.
    by move=> l _; rewrite mul_diag_mx !mxE mulrA.
  rewrite (big_ord_widen k (fun l => at_ U [:: nat_of_ord i; l] * nth 0 s l * (at_ V [:: nat_of_ord j; l])^* )) // big_mkcond.
  apply: eq_bigr => l _; rewrite mul_mx_diag !mxE; case: ifP => _; first by rewrite mulr1n.
  by rewrite mulr0n mulr0 mul0r.
exists s, z, (b1 * b2)^-1; split=> //.
- by rewrite /singular_values Hk; exists (mx_of m k U), (mx_of n k V); split.
- rewrite /z /nkeep; congr minn; apply: eq_count => x /=; by rewrite ltr_pdivl_mulr.
- split=> //; rewrite EA ET rfro_tail // Hk -(big_mkord xpredT (fun i => nth 0 s i ^+ 2 *+ (z <= i)%N)) (big_cat_nat _ _ _ (leq0n z) Hz) /=.
  rewrite big_nat_cond big1 ?add0r => [|i /andP[/andP[_ Hi] _]]; last by rewrite leqNgt Hi mulr0n.
  by apply: eq_big_nat => i /andP[-> _]; rewrite mulr1n.
- move=> X HX; rewrite EA ET; apply: eckart_young_rect => //; apply: leq_trans Hz _; exact: isometry_le HU.
Qed.

Variable randn : R -> forall n q : nat, 'M[C]_(n, q) * R.
Variable lqr : qr_fun C.
Variable lsvd : thin_svd_fun C.
Variable fsvd : full_svd_fun C.
Notation half := (calculate_half_system randn lqr lsvd fsvd cfg).
Notation full := (calculate_full_system randn lqr lsvd fsvd cfg).
Notation qmat c e D t := (mat (c * D * D)%N (e * D * D)%N [:: c; D; D] [:: e; D; D] t).

Section Half.
Variables (g1 g4 : quarter tensor) (D p c1 w e4 : nat) (q1 q4 : tensor).
Hypotheses (F1 : qfit D p g1 c1 w) (F4 : qfit D p g4 w e4).
Hypotheses (Q1 : quarter_flat g1 = Ok q1) (Q4 : quarter_flat g4 = Ok q4).
Let R1 := qmat c1 w D q1.
Let R2 := qmat w e4 D q4.

Theorem C82_half_full_rank r pr : svd_type cfg = "full-rank" -> full_svd_spec fsvd ->
  half r g1 g4 = Ok pr -> best_cut (pchi cfg) (svd_cutoff cfg) R1 R2 pr.
Proof.
move=> Ht Sp E; have := half_full randn lqr lsvd F1 F4 Q1 Q4 r Ht Sp; rewrite E => -[U [s [V [H E']]]].
exact: cut_best H E'.
Qed.

(** with the randomised SVD, for every draw that meets the column space of the cut *)
Theorem C82_half_rsvd r pr : svd_type cfg <> "full-rank" -> (0 < pchi cfg)%N -> qr_spec lqr -> thin_svd_spec lsvd ->
  let k := minn (pchi cfg + rsvd_oversampling cfg) (minn (c1 * D * D) (e4 * D * D)) in
  in_cols (R1 *m R2) (R1 *m R2 *m (randn r (e4 * D * D) k).1) ->
  half r g1 g4 = Ok pr -> best_cut (pchi cfg) (svd_cutoff cfg) R1 R2 pr.
Proof.
move=> Ht Hc S1 S2 k Hs E; have := half_rsvd randn fsvd F1 F4 Q1 Q4 r Ht Hc S1 S2; rewrite E => -[U [s [V [H /(_ Hs) E']]]].
exact: cut_best H E'.
Qed.
End Half.

Section Full.
Variables (g1 g2 g3 g4 : quarter tensor) (D p c1 c2 c3 w e3 : nat) (q1 q2 q3 q4 : tensor).
Hypotheses (F1 : qfit D p g1 c1 w) (F2 : qfit D p g2 c2 c1) (F3 : qfit D p g3 c3 e3) (F4 : qfit D p g4 w c3).
Hypotheses (Q1 : quarter_flat g1 = Ok q1) (Q2 : quarter_flat g2 = Ok q2) (Q3 : quarter_flat g3 = Ok q3) (Q4 : quarter_flat g4 = Ok q4).
Let R1 := qmat c2 c1 D q2 *m qmat c1 w D q1.
Let R2 := qmat w c3 D q4 *m qmat c3 e3 D q3.

Theorem C82_full_full_rank r pr : svd_type cfg = "full-rank" -> full_svd_spec fsvd ->
  full r g1 g2 g3 g4 = Ok pr -> best_cut (pchi cfg) (svd_cutoff cfg) R1 R2 pr.
Proof.
move=> Ht Sp E; have := full_full randn lqr lsvd F1 F2 F3 F4 Q1 Q2 Q3 Q4 r Ht Sp; rewrite E => -[U [s [V [H E']]]].
exact: cut_best H E'.
Qed.

(** the randomised SVD of the full system: for real tensors (see C22) *)
Theorem C82_full_rsvd_real r pr : svd_type cfg <> "full-rank" -> (0 < pchi cfg)%N -> qr_spec lqr -> thin_svd_spec lsvd ->
  real_quarter g1 -> real_quarter g2 ->
  let k := minn (pchi cfg + rsvd_oversampling cfg) (minn (c2 * D * D) (e3 * D * D)) in
  in_cols (R1 *m R2) (R1 *m R2 *m (randn r (e3 * D * D) k).1) ->
  full r g1 g2 g3 g4 = Ok pr -> best_cut (pchi cfg) (svd_cutoff cfg) R1 R2 pr.
Proof.
move=> Ht Hc S1 S2 G1 G2 k Hs E; have := full_rsvd randn fsvd F1 F2 F3 F4 Q1 Q2 Q3 Q4 r Ht Hc S1 S2; rewrite E => -[U [s [V [H /(_ Hs) E']]]].
have T : adj R1 = R1^T by rewrite /R1 adjM trmx_mul (real_qmat F1 Q1 G1) (real_qmat F2 Q2 G2).
rewrite -/R1 T in H; exact: cut_best H E'.
Qed.
End Full.

(** If chi is no restriction, the relative error is at most the cutoff times the
    square root of the number of values. *)
Theorem C82_cutoff m n w D chi cutoff (R1 : 'M[C]_(m, (w * D * D)%N)) (R2 : 'M[C]_((w * D * D)%N, n)) (pr : tensor * tensor * R) :
  best_cut chi cutoff R1 R2 pr -> 0 <= cutoff -> (minn m n <= chi)%N ->
  exists z c, [/\ shape pr.1.1 = [:: w; D; D; z], 0 < c &
    fro (R1 *m R2 - c *: through z R1 R2 pr) <= (minn m n)%:R * cutoff ^+ 2 * fro (R1 *m R2)].
Proof.
move=> [s [z [c [[U [V [U1 V1 s0 sm EA]]] Ez [S1 _] [c0 EF] _]]]] Hc Hchi; exists z, c; split=> //.
have Hk : (size s <= minn m n)%N by rewrite leq_min (isometry_le U1) (isometry_le V1).
have {}Ez : z = count (fun x => cutoff * nth 0 s 0 < x) s.
  by rewrite Ez; apply/minn_idPr; apply: leq_trans (count_size _ _) _; apply: leq_trans Hk Hchi.
have small i : (z <= i < size s)%N -> nth 0 s i <= cutoff * nth 0 s 0.
  move=> /andP[Hi Hi']; have Rr x : 0 <= x -> cutoff * nth 0 s 0 < x \/ x <= cutoff * nth 0 s 0.
    by move=> x0; have := real_ltP (ger0_real (mulr_ge0 Hc (s0 0%N))) (ger0_real x0); case=> H; [left|right].
  case: (Rr _ (s0 i)) => // L; exfalso; move: Hi; rewrite leqNgt Ez => /negP; apply.
  rewrite -(cat_take_drop i.+1 s) count_cat (@leq_trans (count (fun x : C => cutoff * nth 0 s 0 < x)%R (take i.+1 s))) //; last first.
    by rewrite cat_take_drop leq_addr.
  have St : size (take i.+1 s) = i.+1 by rewrite size_takel.
  have /eqP -> : count (fun x : C => cutoff * nth 0 s 0 < x)%R (take i.+1 s) == size (take i.+1 s); last by rewrite St.
  rewrite -all_count; apply/(all_nthP 0) => j; rewrite St ltnS => Hj.
  rewrite nth_take //; apply: Order.POrderTheory.lt_le_trans L _; exact: sm.
have F0 : nth 0 s 0 ^+ 2 <= fro (R1 *m R2) \/ size s = 0%N.
  case Es: (size s) => [|l]; [by right|left].
  rewrite EA -/(rfull U V (nth 0 s)) rfro_full //.
  have H0 : (0 < size s)%N by rewrite Es.
  by rewrite (bigD1 (Ordinal H0)) //= ler_addl sumr_ge0 // => i _; rewrite exprn_ge0.
rewrite EF; case: F0 => [F0|Es]; last first.
  by rewrite Es big_geq // mulr_ge0 ?fro_ge0 // mulr_ge0 ?ler0n ?exprn_ge0.
apply: Order.POrderTheory.le_trans (_ : _ <= \sum_(z <= i < size s) (cutoff ^+ 2 * fro (R1 *m R2))) _.
  rewrite big_nat [X in _ <= X]big_nat; apply: ler_sum => i Hi.
  apply: Order.POrderTheory.le_trans (_ : _ <= (cutoff * nth 0 s 0) ^+ 2) _.
    by rewrite ler_expn2r ?nnegrE ?mulr_ge0 // small.
  by rewrite exprMn ler_wpmul2l // exprn_ge0.
rewrite sumr_const_nat -mulr_natl -mulrA ler_wpmul2r ?mulr_ge0 ?exprn_ge0 ?fro_ge0 // ler_nat.
exact: leq_trans (leq_subr _ _) Hk.
Qed.
End Optimal.

(** A cut diag(2, 1) truncated to one state: something is lost, but no more than
    what the best matrix of rank one loses. *)
Section Example_.
Variable C : numClosedFieldType.
Notation tensor := (tensor C).

Example C82_example (pt : ptype) : let cfg := PConfig "full-rank" (0 : C) 2 2 1 in
  let A := diag_mx (\row_(i < 2 * 1 * 1) (if i == 0 then 2%:R else 1)) : 'M[C]_(2 * 1 * 1) in
  exists (pr : tensor * tensor * unit) (R1 R2 : 'M[C]_(2 * 1 * 1)) c, [/\
    match pt with
    | Half => calculate_half_system (fun r _ _ => (0, r)) (@some_qr C) (@some_thin_svd C) (@some_full_svd C) cfg tt (diag_quarter 2%:R) (diag_quarter 1) = Ok pr
    | Full => calculate_full_system (fun r _ _ => (0, r)) (@some_qr C) (@some_thin_svd C) (@some_full_svd C) cfg tt (diag_quarter 1) (diag_quarter 2%:R) (diag_quarter 1) (diag_quarter 1) = Ok pr
    end, R1 *m R2 = A, shape pr.1.1 = [:: 2; 1; 1; 1]%N, 0 < c & 0 < fro (A - c *: @through _ _ _ _ 2 1 1 R1 R2 pr) <= 1].
Proof.
move=> cfg A; have [F1 [q1 Q1 D1]] := diag_flat (1 : C); have [Fi [qi Qi Di]] := diag_flat (2%:R : C).
have DI : diag_mx (\row_(i < 2 * 1 * 1) (if i == 0 then 1 else 1)) = 1%:M :> 'M[C]_(2 * 1 * 1).
  by rewrite -diag_const_mx; congr diag_mx; apply/matrixP => a b; rewrite !mxE; case: eqP.
have Nz : A <> 0.
  by move=> /matrixP/(_ 0 0); rewrite !mxE eqxx mulr1n => /eqP; rewrite pnatr_eq0.
have RA : \rank A = 2%N.
  apply: mxrank_unit; rewrite unitmxE det_diag unitfE; apply/prodf_neq0 => i _; rewrite mxE.
  by case: ifP => _; rewrite ?oner_eq0 // pnatr_eq0.
have H2 (i : 'I_(2 * 1 * 1)) : i = 0 \/ i = 1.
  by case: i => [[|[|m]] Hm] //; [left|right]; apply/val_inj.
have fin (pr : tensor * tensor * unit) (R1 R2 : 'M[C]_(2 * 1 * 1)) : R1 *m R2 = A -> @best_cut C unit _ _ 2 1 1 0 R1 R2 pr ->
  exists2 c, 0 < c & shape pr.1.1 = [:: 2; 1; 1; 1]%N /\ 0 < fro (A - c *: @through _ _ _ _ 2 1 1 R1 R2 pr) <= 1.
  move=> EA [s [z [c [[U [V [U1 V1 s0 sm Es]]] Ez [S1 _] [c0 _] Hb]]]].
  have z1 : z = 1%N.
    apply/eqP; rewrite eqn_leq {1}Ez geq_minl /= lt0n; apply/eqP => z0.
    have : (0 < \rank (R1 *m R2))%N by rewrite EA RA.
    rewrite Es; have -> : diag_mx (\row_i nth 0 s i) = 0 :> 'M_(size s); last by rewrite mulmx0 mul0mx mxrank0.
    apply/matrixP => i j; rewrite !mxE; case: eqP => [->|_]; last by rewrite mulr0n.
    rewrite mulr1n; apply/eqP; have := s0 j; rewrite le0r => /orP[//|P].
    have : has (fun x => 0 * nth 0 s 0 < x) s by apply/hasP; exists (nth 0 s j); rewrite ?mem_nth // mul0r.
    by rewrite has_count; move: Ez; rewrite z0 /minn; case: (count _ s) => // l; case: ifP.
  rewrite z1 in S1 Hb; exists c => //; split=> //; rewrite -EA; apply/andP; split.
    rewrite lt0r fro_ge0 andbT; apply/eqP => F0.
    have /eqP : R1 *m R2 - c *: through 1 R1 R2 pr = 0.
      apply/matrixP => i j; rewrite [RHS]mxE; apply/eqP; rewrite -normr_eq0 -sqrf_eq0.
      move/eqP: F0; rewrite froE psumr_eq0 => [|a _]; last by rewrite sumr_ge0 // => b _; rewrite exprn_ge0.
      move/allP/(_ i (mem_index_enum _)) => /=.
      rewrite psumr_eq0 => [|b _]; last by rewrite exprn_ge0.
      by move/allP/(_ j (mem_index_enum _)).
    rewrite subr_eq0 => /eqP E; have := RA; rewrite -EA E => Er.
    suff : (2 <= 1)%N by []; rewrite -{1}Er; apply: leq_trans (_ : \rank (through 1 R1 R2 pr) <= 1)%N.
      exact: mxrank_scale.
    rewrite /through; apply: leq_trans (mxrankM_maxl _ _) _; apply: leq_trans (mxrankM_maxr _ _) _.
    by apply: leq_trans (mxrankM_maxl _ _) _; apply: rank_leq_col.
  pose X := diag_mx (\row_(i < 2 * 1 * 1) (if i == 0 then 2%:R else 0)) : 'M[C]_(2 * 1 * 1).
  have <- : fro (R1 *m R2 - X) = 1.
    rewrite EA /A /X -raddfB /= fro_diag !big_ord_recl big_ord0 !mxE /= subrr normr0 expr0n /= subr0 normr1 expr1n.
    by rewrite add0r addr0.
  apply: Hb; have -> : X = 2%:R *: delta_mx 0 0.
    by apply/matrixP => i j; rewrite !mxE; case: (H2 i) => ->; case: (H2 j) => -> /=; rewrite ?mulr0n ?mulr1n ?mulr0 ?mulr1.
  by apply: leq_trans (mxrank_scale _ _) _; rewrite mxrank_delta.
case: pt.
  have := full_full (cfg := cfg) (fun (r : unit) _ _ => (0, r)) (@some_qr C) (@some_thin_svd C) F1 Fi F1 F1 Q1 Qi Q1 Q1 tt erefl (@some_full_svd_spec C).
  case E: calculate_full_system => [pr|e] /=; last by rewrite D1 Di DI !mulmx1 => -[_ [/Nz //|]]; rewrite Order.POrderTheory.lexx.
  move=> _; have := C82_full_full_rank (cfg := cfg) F1 Fi F1 F1 Q1 Qi Q1 Q1 erefl (@some_full_svd_spec C) E.
  rewrite D1 Di DI !mulmx1 => Hb; have [c c0 [S1 Hc]] := fin pr _ _ (mulmx1 _) Hb.
  by exists pr, A, 1%:M, c; split=> //; rewrite mulmx1.
have := half_full (cfg := cfg) (fun (r : unit) _ _ => (0, r)) (@some_qr C) (@some_thin_svd C) Fi F1 Qi Q1 tt erefl (@some_full_svd_spec C).
case E: calculate_half_system => [pr|e] /=; last by rewrite D1 Di DI !mulmx1 => -[_ [/Nz //|]]; rewrite Order.POrderTheory.lexx.
move=> _; have := C82_half_full_rank (cfg := cfg) Fi F1 Qi Q1 erefl (@some_full_svd_spec C) E.
rewrite D1 Di DI => Hb; have [c c0 [S1 Hc]] := fin pr _ _ (mulmx1 _) Hb.
by exists pr, A, 1%:M, c; split=> //; rewrite mulmx1.
Qed.
End Example_.

Print Assumptions C82_half_full_rank.
Print Assumptions C82_half_rsvd.
Print Assumptions C82_full_full_rank.
Print Assumptions C82_full_rsvd_real.
Print Assumptions C82_cutoff.
