(** C50, C51: the simple update (acetn/evolution/simple_update.py,
    lambda_tensors.py). *)
From Coq Require Import String Ascii.
From mathcomp Require Import all_ssreflect all_algebra.
From Verif Require Import Base Lattice Mover Tensor TN Rdm RdmFacts FullUpdate Linalg Mat Rsvd RsvdFacts Renorm RenormFacts Spectral ProjFacts Psd Als AlsFacts EighChol UpdFacts P16_Als P17_Reduced Eckart.
Set Implicit Arguments.
Unset Strict Implicit.
Unset Printing Implicit Defensive.
Import GRing.Theory Num.Theory.
Local Open Scope ring_scope.
Local Open Scope string_scope.

Section C50.
Variable C : numClosedFieldType.
Notation tensor := (tensor C).
Variable lcut : C.

(** the four weight vectors match the legs of the tensor *)
Definition matching (b : nat -> nat) (p : nat) (w : nat -> tensor) (a : tensor) : Prop :=
  shape a = [:: b 0; b 1; b 2; b 3; p]%N /\ forall d, (d < 4)%N -> shape (w d) = [:: b d].
(** product of a function of the weights of an entry over the legs except ex *)
Definition wprod (ex : nat) (w : nat -> tensor) (f : C -> C) (i : seq nat) : C :=
  \prod_(d < 4 | d != ex :> nat) f (at_ (w d) [:: nth 0%N i d]).

Lemma weightsE b p v (a : tensor) : matching b p v a ->
  exists2 t, einsum "l,u,r,d,lurdp->lurdp" [:: v 0%N; v 1%N; v 2%N; v 3%N; a] = Ok t &
    shape t = shape a /\ forall l u r d P, at_ t [:: l; u; r; d; P] =
      at_ (v 0%N) [:: l] * (at_ (v 1%N) [:: u] * (at_ (v 2%N) [:: r] * (at_ (v 3%N) [:: d] * at_ a [:: l; u; r; d; P]))).
Proof.
move=> [Sa Sv]; rewrite /einsum /= Sa !Sv // /= /dims_ok /= !eqxx /=; eexists=> //; split=> // *.
Qed.

Lemma wprodE ex w f l u r d P : wprod ex w f [:: l; u; r; d; P] =
  (if ex == 0%N then 1 else f (at_ (w 0%N) [:: l])) * ((if ex == 1%N then 1 else f (at_ (w 1%N) [:: u])) *
  ((if ex == 2%N then 1 else f (at_ (w 2%N) [:: r])) * (if ex == 3%N then 1 else f (at_ (w 3%N) [:: d])))).
Proof.
rewrite /wprod big_mkcond !big_ord_recl big_ord0 /= /bump /= mulr1.
by rewrite ![_ == ex]eq_sym !if_neg.
Qed.

Definition legs (i : seq nat) := exists l u r d P, i = [:: l; u; r; d; P]%N.
Lemma range5 s0 s1 s2 s3 s4 v : in_range [:: s0; s1; s2; s3; s4] v -> legs v.
Proof. by case: v => [|l [|u [|r [|d [|P [|? ?]]]]]] //=; rewrite ?andbF // => _; exists l, u, r, d, P. Qed.

Lemma absorbE b p w (a : tensor) ex : matching b p w a ->
  exists2 t, absorb w a ex = Ok t & shape t = shape a /\ forall i, legs i -> at_ t i = wprod ex w id i * at_ a i.
Proof.
move=> [Sa Sw]; pose v d := if d == ex then ones_like (w d) else w d.
have Mv : matching b p v a by split=> // d Hd; rewrite /v; case: ifP => _; rewrite /= Sw.
have [t Et [St Ht]] := weightsE Mv; exists t => //; split=> // i [l [u [r [d [P ->]]]]].
rewrite Ht wprodE /v ![_ == ex]eq_sym !mulrA.
by do 4![case: (ex == _) => //=].
Qed.

Lemma stripE b p w (a : tensor) ex : matching b p w a ->
  exists2 t, strip lcut w a ex = Ok t & shape t = shape a /\ forall i, legs i -> at_ t i = wprod ex w (fun x => (maxC x lcut)^-1) i * at_ a i.
Proof.
move=> [Sa Sw]; pose v d := if d == ex then ones_like (w d) else inv_clamped lcut (w d).
have Mv : matching b p v a by split=> // d Hd; rewrite /v; case: ifP => _; rewrite /= Sw.
have [t Et [St Ht]] := weightsE Mv; exists t => //; split=> // i [l [u [r [d [P ->]]]]].
rewrite Ht wprodE /v ![_ == ex]eq_sym !mulrA.
by do 4![case: (ex == _) => //=].
Qed.

(** the factor a weight x picks up *)
Definition ratio (x : C) : C := x / maxC x lcut.

(** absorbing and stripping multiplies every entry by the ratios of its weights *)
Theorem C50_roundtrip b p w (a : tensor) ex : matching b p w a ->
  exists t t', [/\ absorb w a ex = Ok t, strip lcut w t ex = Ok t', shape t' = shape a &
    forall i, in_range (shape a) i -> at_ t' i = wprod ex w ratio i * at_ a i].
Proof.
move=> M; have [t Et [St Ht]] := absorbE ex M.
have Mt : matching b p w t by case: M => Sa Sw; split=> //; rewrite St.
have [t' Et' [St' Ht']] := stripE ex Mt; exists t, t'; split=> //; first by rewrite St'.
move=> i; case: M => -> _ /range5 Hi; rewrite Ht' // Ht // mulrA; congr (_ * _).
by rewrite -big_split; apply: eq_bigr => d _; rewrite /ratio mulrC.
Qed.

(** C50: for non-negative weights (they are square roots of singular values),
    absorbing and stripping gives back every tensor exactly if no weight on the
    legs involved is below the cutoff. *)
Theorem C50_identity b p w ex : (forall d, (d < 4)%N -> (0 < b d)%N /\ shape (w d) = [:: b d]) -> (0 < p)%N -> 0 < lcut ->
  (forall d i, (d < 4)%N -> (i < b d)%N -> 0 <= at_ (w d) [:: i]) ->
  (forall d i, (d < 4)%N -> d != ex -> (i < b d)%N -> lcut <= at_ (w d) [:: i]) <->
  (forall a : tensor, shape a = [:: b 0; b 1; b 2; b 3; p]%N ->
     exists t t', [/\ absorb w a ex = Ok t, strip lcut w t ex = Ok t' & teq t' a]).
Proof.
move=> Hw p0 c0 w0; have Sw d : (d < 4)%N -> shape (w d) = [:: b d] by case/Hw.
have R1 x : lcut <= x -> ratio x = 1.
  move=> H; have x0 := Order.POrderTheory.lt_le_trans c0 H; rewrite /ratio /maxC; case: ifP => H'.
    by rewrite (Order.POrderTheory.le_anti (x := x) (y := lcut)) ?H ?H' // divff // Order.POrderTheory.gt_eqF.
  by rewrite divff // Order.POrderTheory.gt_eqF.
have R2 x : 0 <= x -> 0 <= ratio x <= 1.
  move=> x0; rewrite /ratio /maxC; have [H|H] := real_leP (ger0_real x0) (gtr0_real c0).
    by rewrite divr_ge0 ?(Order.POrderTheory.ltW c0) // ler_pdivr_mulr // mul1r.
  by rewrite divff ?Order.POrderTheory.gt_eqF ?(Order.POrderTheory.lt_trans c0) // ler01 Order.POrderTheory.lexx.
split=> [H a Sa|H d i Hd Nd Hi].
  have M : matching b p w a by split.
  have [t [t' [E1 E2 S3 E3]]] := C50_roundtrip ex M; exists t, t'; split=> //; split=> // v; rewrite S3 => Hv.
  rewrite E3 // /wprod big1 ?mul1r // => d Nd; apply: R1; apply: H => //.
  by move: Hv; rewrite Sa; case: v => [|l [|u [|r [|e [|P [|? ?]]]]]] //=; rewrite ?andbF // => /and5P[? ? ? ? _]; case: d Nd => [[|[|[|[|]]]]].
pose a : tensor := Tensor [:: b 0; b 1; b 2; b 3; p]%N (fun _ => 1).
have M : matching b p w a by split.
have [t [t' [E1 E2 S3 E3]]] := C50_roundtrip ex M; have [t1 [t2 [F1 F2 [_ F3]]]] := H a erefl.
move: F1 F2; rewrite E1 => -[<-]; rewrite E2 => -[E]; rewrite -{}E {t1 t2} in F3.
pose v := [:: (if d == 0 then i else 0); (if d == 1 then i else 0); (if d == 2 then i else 0); (if d == 3 then i else 0); 0]%N.
have Z d' : (d' < 4)%N -> ((if d == d' then i else 0) < b d')%N by case: eqVneq => [<-|] // _ /Hw [].
have Hv : in_range (shape a) v by rewrite /= !Z ?p0.
have Pv : wprod ex w ratio v = 1 by have := E3 v Hv; rewrite F3 ?S3 //= mulr1.
have Vd : nth 0%N v d = i by rewrite /v; case: (d) Hd => [|[|[|[|]]]].
have Vr (k : 'I_4) : 0 <= at_ (w k) [:: nth 0%N v k].
  by apply: w0 => //; case: k => [[|[|[|[|]]]]] //= _; apply: Z.
have := Pv; rewrite /wprod (bigD1 (Ordinal Hd)) //= Vd => P1.
have q01 : 0 <= \prod_(k < 4 | (k != ex :> nat) && (k != Ordinal Hd)) ratio (at_ (w k) [:: nth 0%N v k]) <= 1.
  apply: (big_ind (fun x : C => 0 <= x <= 1)) => [|x y /andP[x0 x1] /andP[y0 y1]|k _]; first by rewrite ler01 Order.POrderTheory.lexx.
    by rewrite mulr_ge0 // mulr_ile1.
  by apply: R2.
have x0 := w0 d i Hd Hi; have /andP[r0 r1] := R2 _ x0.
rewrite real_leNgt ?(gtr0_real c0) ?ger0_real //; apply/negP => L.
have r2 : ratio (at_ (w d) [:: i]) < 1.
  by rewrite /ratio /maxC (Order.POrderTheory.ltW L) ltr_pdivr_mulr // mul1r.
case/andP: q01 => q0 q1; have := ler_wpmul2l r0 q1; rewrite P1 mulr1 => K.
by have := Order.POrderTheory.le_lt_trans K r2; rewrite Order.POrderTheory.ltxx.
Qed.
End C50.

Section C51.
Variable C : numClosedFieldType.
Notation tensor := (tensor C).
Variable fsvd : full_svd_fun C.
Hypothesis Sf : full_svd_spec fsvd.

(** the two-site state after the gate *)
Definition gated D p (a1 a2 gate : tensor) (r s y x : nat) : C :=
  sumn p (fun P => sumn p (fun Q => state D a1 a2 P Q y x * at_ gate [:: P; Q; r; s])).
(** sum of the squared moduli of a two-site state, and of a difference *)
Definition size2 n p (f : nat -> nat -> nat -> nat -> C) : C :=
  sumn n (fun y => sumn p (fun r => sumn n (fun x => sumn p (fun s => `|f r s y x| ^+ 2)))).
(** t is a closest state to f among those with D bond states *)
Definition closest n D p (f t : nat -> nat -> nat -> nat -> C) : Prop := forall b1 b2 : tensor,
  size2 n p (fun r s y x => f r s y x - t r s y x) <= size2 n p (fun r s y x => f r s y x - state D b1 b2 r s y x).

Definition stmat n p (f : nat -> nat -> nat -> nat -> C) : 'M[C]_(n * p) := \matrix_(i, j)
  f (nth 0 (unravel [:: n; p] i) 1)%N (nth 0 (unravel [:: n; p] j) 1)%N (nth 0 (unravel [:: n; p] i) 0)%N (nth 0 (unravel [:: n; p] j) 0)%N.

Lemma size2E n p f : size2 n p f = fro (stmat n p f).
Proof.
rewrite froE; pose F v := sumn n (fun x => sumn p (fun s => `|f (nth 0 v 1)%N s (nth 0 v 0)%N x| ^+ 2)).
transitivity (\sum_(i < n * p) F (unravel [:: n; p] i)); first by rewrite sum2.
apply: eq_bigr => i _; rewrite /F.
pose G v := `|f (nth 0 (unravel [:: n; p] i) 1)%N (nth 0 v 1)%N (nth 0 (unravel [:: n; p] i) 0)%N (nth 0 v 0)%N| ^+ 2.
transitivity (\sum_(j < n * p) G (unravel [:: n; p] j)); first by rewrite sum2.
by apply: eq_bigr => j _; rewrite /G mxE.
Qed.

Lemma stmat_state n D p (a1 a2 : tensor) : stmat n p (state D a1 a2) = amat n D p a1 *m (amat n D p a2)^T.
Proof. by apply/matrixP => i j; rewrite !mxE; apply: eq_bigr => u _; rewrite !mxE. Qed.

Lemma truncateE n D p (a1 a2 gate : tensor) : shape a1 = [:: n; D; p] -> shape a2 = [:: n; D; p] -> shape gate = [:: p; p; p; p] -> forall HD : (D <= n * p)%N,
  exists (U Vh : 'M[C]_(n * p)) (s : seq C),
   [/\ adj U *m U = 1%:M, Vh *m adj Vh = 1%:M, (forall i, 0 <= nth 0 s i) /\ (forall i j, (i <= j)%N -> nth 0 s j <= nth 0 s i),
       stmat n p (gated D p a1 a2 gate) = full U Vh (nth 0 s) &
       size s = (n * p)%N /\
       if norm_list (take D s) == 0 then simple_truncate fsvd a1 a2 gate = Err ZeroNorm else
       let W := diag_mx (\row_(i < D) sqrtC (nth 0 s i / norm_list (take D s))) in
       exists b1 b2 lam, [/\ simple_truncate fsvd a1 a2 gate = Ok (b1, b2, lam), shape b1 = [:: n; D; p] /\ shape b2 = [:: n; D; p], shape lam = [:: D],
         forall i, (i < D)%N -> at_ lam [:: i] = sqrtC (nth 0 s i / norm_list (take D s)) &
         amat n D p b1 = (\matrix_(i, j) U i (widen_ord HD j)) *m W /\ amat n D p b2 = (\matrix_(i, j) Vh (widen_ord HD j) i) *m W]].
Proof.
move=> H1 H2 Hg HD; rewrite /simple_truncate H1.
have [t1 [-> T1 ET1]] : exists t, [/\ einsum "yup,xuq->ypxq" [:: a1; a2] = Ok t, shape t = [:: n; p; n; p] &
    forall y P x Q, at_ t [:: y; P; x; Q] = state D a1 a2 P Q y x].
  by rewrite /einsum /= H1 H2 /= /dims_ok /= ?eqxx /=; eexists; split.
rewrite [bind (Ok t1) _]/bind.
have [t2 [-> T2 ET2]] : exists t, [/\ einsum "ypxq,pqrs->yrxs" [:: t1; gate] = Ok t, shape t = [:: n; p; n; p] &
    forall y r x s, at_ t [:: y; r; x; s] = sumn p (fun P => sumn p (fun Q => at_ t1 [:: y; P; x; Q] * at_ gate [:: P; Q; r; s]))].
  by rewrite /einsum /= T1 Hg /= /dims_ok /= ?eqxx /=; eexists; split.
rewrite [bind (Ok t2) _]/bind.
have np : (n * p)%N = numel [:: n; p] by rewrite /= muln1.
have DE : D = numel [:: D] by rewrite /= muln1.
have [m1 [-> M1 EM1]] := @reshape2 C [:: n; p] [:: n; p] (n * p) (n * p) t2 T2 np np; rewrite [bind (Ok m1) _]/bind.
have [u [s [vh [-> [SU SV] Hs [IU IV s0 sm EU]]]]] := svd_square M1 Sf; rewrite [bind (Ok _) _]/bind.
exists (mx_of (n * p) (n * p) u), (mx_of (n * p) (n * p) vh), s; split=> //.
  rewrite /full -EU EM1; apply/matrixP => i j; rewrite !mxE.
  have [y [r [_ _ -> _]]] := unravel2 (ltn_ord i); have [x [q [_ _ -> _]]] := unravel2 (ltn_ord j).
  by rewrite /= ET2 /gated; apply: eq_sumn => P _; apply: eq_sumn => Q _; rewrite ET1.
split=> //; have St : size (take D s) = D by rewrite size_takel // Hs.
case: eqVneq => [->|Nn]; first by rewrite /sqrt_weights eqxx.
have [w [-> Sw Ew]] := sqrt_weightsE St Nn; rewrite [bind (Ok w) _]/bind.
have {}Ew i : (i < D)%N -> at_ w [:: i] = sqrtC (nth 0 s i / norm_list (take D s)) by move=> Hi; rewrite Ew nth_take.
have mD : minn D (n * p) = D by apply/minn_idPl.
have Sc : shape (cols u D) = [:: n * p; D]%N by rewrite /cols SU /= mD.
have Sr : shape (rows vh D) = [:: D; n * p]%N by rewrite /rows SV /= mD.
have [c1 [Ec1 C1 EC1]] := @reshape_split C [:: n; p] [:: D] (n * p) D _ Sc np DE.
have [c2 [Ec2 C2 EC2]] := @reshape_split C [:: D] [:: n; p] D (n * p) _ Sr DE np.
rewrite [cat _ _]/= in Ec1 C1 Ec2 C2; rewrite Ec1 [bind (Ok c1) _]/bind Ec2 [bind (Ok c2) _]/bind.
have [b1 [-> B1 EB1]] : exists t, [/\ einsum "ypa,a->yap" [:: c1; w] = Ok t, shape t = [:: n; D; p] &
    forall y a P, at_ t [:: y; a; P] = at_ c1 [:: y; P; a] * at_ w [:: a]].
  by rewrite /einsum /= C1 Sw /= /dims_ok /= ?eqxx /=; eexists; split.
rewrite [bind (Ok b1) _]/bind.
have [b2 [-> B2 EB2]] : exists t, [/\ einsum "axq,a->xaq" [:: c2; w] = Ok t, shape t = [:: n; D; p] &
    forall y a P, at_ t [:: y; a; P] = at_ c2 [:: a; y; P] * at_ w [:: a]].
  by rewrite /einsum /= C2 Sw /= /dims_ok /= ?eqxx /=; eexists; split.
exists b1, b2, w; split=> //; split.
  apply/matrixP => i j; rewrite mul_mx_diag !mxE EB1 Ew //; congr (_ * _).
  by have /matrixP/(_ i j) := EC1; rewrite !mxE unravel1.
apply/matrixP => i j; rewrite mul_mx_diag !mxE EB2 Ew //; congr (_ * _).
by have /matrixP/(_ j i) := EC2; rewrite !mxE unravel1.
Qed.

(** C51: the simple update of a bond.  Unless the best approximation of the
    gate-applied state with D bond states is zero (then it divides by zero), the
    two new reduced tensors describe that approximation, normalised; both have
    orthogonal columns whose squared lengths are the squares of the new bond
    weights; the weights are ordered and their fourth powers sum to one. *)
Theorem C51_truncation n D p (a1 a2 gate : tensor) : shape a1 = [:: n; D; p] -> shape a2 = [:: n; D; p] -> shape gate = [:: p; p; p; p] -> (D <= n * p)%N ->
  let g := gated D p a1 a2 gate in
  exists t, closest n D p g t /\
  ((size2 n p t = 0 /\ simple_truncate fsvd a1 a2 gate = Err ZeroNorm) \/
   exists b1 b2 lam c, [/\ simple_truncate fsvd a1 a2 gate = Ok (b1, b2, lam),
    [/\ shape b1 = [:: n; D; p], shape b2 = [:: n; D; p] & shape lam = [:: D]],
    [/\ 0 < c, c ^+ 2 * size2 n p t = 1 &
        forall r s y x, (r < p)%N -> (s < p)%N -> (y < n)%N -> (x < n)%N -> state D b1 b2 r s y x = c * t r s y x],
    forall u v, (u < D)%N -> (v < D)%N -> gram n p b1 u v = at_ lam [:: u] ^+ 2 *+ (u == v) /\ gram n p b2 u v = at_ lam [:: u] ^+ 2 *+ (u == v) &
    [/\ forall u, (u < D)%N -> 0 <= at_ lam [:: u], forall u v, (u <= v)%N -> (v < D)%N -> at_ lam [:: v] <= at_ lam [:: u] &
        sumn D (fun u => at_ lam [:: u] ^+ 4) = 1]]).
Proof using Sf.
move=> H1 H2 Hg HD g.
have [U [Vh [s [IU IV [s0 sm] EG [Hs H]]]]] := truncateE H1 H2 Hg HD.
pose T := trunc D U Vh (nth 0 s).
pose t r q y x := if (insub (ravel [:: n; p] [:: y; r]), insub (ravel [:: n; p] [:: x; q])) is (Some i, Some j) then T i j else 0.
have tE (i j : 'I_(n * p)) y r x q : unravel [:: n; p] i = [:: y; r] -> unravel [:: n; p] j = [:: x; q] -> t r q y x = T i j.
  move=> Ei Ej; rewrite /t -Ei -Ej !unravelK ?valK //= muln1 //.
have Mt : stmat n p t = T.
  apply/matrixP => i j; rewrite mxE; apply: tE.
    by have [y [r [_ _ -> _]]] := unravel2 (ltn_ord i).
  by have [y [r [_ _ -> _]]] := unravel2 (ltn_ord j).
exists t; split.
  move=> b1 b2; rewrite !size2E.
  have B f h : stmat n p (fun r q y x => f r q y x - h r q y x) = stmat n p f - stmat n p h by apply/matrixP => i j; rewrite !mxE.
  rewrite !B Mt EG stmat_state; exact: eckart_young.
pose Ud : 'M[C]_(n * p, D) := \matrix_(i, j) U i (widen_ord HD j).
pose Vd : 'M[C]_(n * p, D) := \matrix_(i, j) Vh (widen_ord HD j) i.
pose dD := diag_mx (\row_(i < D) nth 0 s i).
have ET : T = Ud *m dD *m Vd^T.
  apply/matrixP => i j; rewrite /T /trunc /dD !mul_mx_diag !mxE.
  transitivity (\sum_(k < n * p | (k < D)%N) U i k * nth 0 s k * Vh k j).
    by rewrite [RHS]big_mkcond /=; apply: eq_bigr => k _; rewrite !mxE; case: (k < D)%N; rewrite ?mulr1n // mulr0n mulr0 mul0r.
  by rewrite (big_ord_narrow HD); apply: eq_bigr => k _; rewrite !mxE.
have UU : adj Ud *m Ud = 1%:M.
  apply/matrixP => i j; have /matrixP/(_ (widen_ord HD i) (widen_ord HD j)) := IU.
  by rewrite !mxE => E; rewrite -[RHS]E; apply: eq_bigr => k _; rewrite !mxE.
have VV : Vd^T *m adj (Vd^T) = 1%:M.
  apply/matrixP => i j; have /matrixP/(_ (widen_ord HD i) (widen_ord HD j)) := IV.
  by rewrite !mxE => E; rewrite -[RHS]E; apply: eq_bigr => k _; rewrite !mxE.
have [r Er] : exists r, r = norm_list (take D s) by eexists.
have r2 : r ^+ 2 = \sum_(k < D) nth 0 s k ^+ 2.
  rewrite Er sqrtCK (big_nth 0) size_takel ?Hs // big_mkord; apply: eq_bigr => k _.
  by rewrite nth_take // ger0_norm.
have r0 : 0 <= r by rewrite Er sqrtC_ge0 sumr_ge0 // => x _; rewrite exprn_ge0.
have tr : size2 n p t = r ^+ 2.
  rewrite size2E Mt ET fro_isor // fro_isol // fro_diag r2; apply: eq_bigr => k _; by rewrite mxE ger0_norm.
rewrite -{}Er in H; move: H; case: eqVneq => [r_0 E|rn].
  by left; rewrite tr r_0 expr0n.
have {}r0 : 0 < r by rewrite lt0r rn.
move=> /= -[b1 [b2 [lam [E [B1 B2] SL EL [M1 M2]]]]]; right; exists b1, b2, lam, r^-1.
have L0 u : (u < D)%N -> 0 <= at_ lam [:: u] by move=> Hu; rewrite EL // sqrtC_ge0 divr_ge0 // Order.POrderTheory.ltW.
have W2 : diag_mx (\row_(i < D) sqrtC (nth 0 s i / r)) *m diag_mx (\row_(i < D) sqrtC (nth 0 s i / r)) = r^-1 *: dD.
  apply/matrixP => i j; rewrite mul_mx_diag !mxE; case: (eqVneq i j) => [->|]; last by rewrite !mulr0n mulr0 mul0r.
  by rewrite !mulr1n -expr2 sqrtCK mulrC.
have Wa : adj (diag_mx (\row_(i < D) sqrtC (nth 0 s i / r))) = diag_mx (\row_(i < D) sqrtC (nth 0 s i / r)).
  apply/matrixP => i j; rewrite adjE !mxE eq_sym; case: (eqVneq i j) => [->|]; last by rewrite !mulr0n conjC0.
  by rewrite !mulr1n geC0_conj // sqrtC_ge0 divr_ge0 // Order.POrderTheory.ltW.
have VV' : adj Vd *m Vd = 1%:M.
  have := congr1 trmx VV; rewrite trmx_mul !trmx1 trmxK => E'; rewrite -[RHS]E'; congr (_ *m _).
  by apply/matrixP => i j; rewrite !mxE.
have dE (A : 'M[C]_(n * p, D)) : adj A *m A = 1%:M -> adj (A *m diag_mx (\row_(i < D) sqrtC (nth 0 s i / r))) *m (A *m diag_mx (\row_(i < D) sqrtC (nth 0 s i / r))) = r^-1 *: dD.
  by move=> A1; rewrite adjM Wa mulmxA -(mulmxA _ (adj A)) A1 mulmx1 W2.
have gE b : adj (amat n D p b) *m amat n D p b = r^-1 *: dD -> forall u v, (u < D)%N -> (v < D)%N -> gram n p b u v = at_ lam [:: u] ^+ 2 *+ (u == v).
  move=> Eb u v Hu Hv; have [i [j [Ei Ej Eg]]] := amat_gram n p b Hu Hv.
  rewrite /gram -{}Eg Eb !mxE EL // sqrtCK -Ei -Ej val_eqE; case: (i == j); last by rewrite !mulr0n mulr0.
  by rewrite !mulr1n mulrC.
split=> //.
- split; first by rewrite invr_gt0.
    by rewrite tr -exprMn mulVf ?expr1n // Order.POrderTheory.gt_eqF.
  move=> P Q y x HP HQ Hy Hx; have [i Ei] := pair_ord Hy HP; have [j Ej] := pair_ord Hx HQ.
  rewrite (tE _ _ _ _ _ _ Ei Ej) ET.
  have /matrixP/(_ i j) := stmat_state n D p b1 b2; rewrite {1}/stmat mxE Ei Ej /= => ->.
  rewrite M1 M2 -/Ud -/Vd trmx_mul tr_diag_mx mulmxA -[in LHS](mulmxA Ud).
  rewrite W2 -scalemxAr -scalemxAl mxE //.
- by move=> u v Hu Hv; rewrite !gE // ?M1 ?M2 dE.
split=> //.
  move=> u v Huv Hv; have Hu := leq_ltn_trans Huv Hv.
  by rewrite !EL // ler_sqrtC ?nnegrE ?divr_ge0 ?(Order.POrderTheory.ltW r0) // ler_wpmul2r ?invr_ge0 ?(Order.POrderTheory.ltW r0) // sm.
transitivity (\sum_(k < D) nth 0 s k ^+ 2 / r ^+ 2).
  by apply: eq_bigr => k _; rewrite EL // (exprM _ 2 2) sqrtCK expr_div_n.
by rewrite -mulr_suml -r2 mulfV // expf_eq0 /=.
Qed.

Lemma size2_eq0 n p f : size2 n p f <= 0 -> forall r s y x, (r < p)%N -> (s < p)%N -> (y < n)%N -> (x < n)%N -> f r s y x = 0.
Proof.
rewrite size2E => H r s y x Hr Hs Hy Hx.
have /eqP E : fro (stmat n p f) == 0 by rewrite Order.POrderTheory.eq_le H fro_ge0.
have [i Ei] := pair_ord Hy Hr; have [j Ej] := pair_ord Hx Hs.
have : stmat n p f i j = f r s y x by rewrite mxE Ei Ej.
move=> <-; apply/eqP; rewrite -normr_eq0 -sqrf_eq0; move: E; rewrite froE => /eqP.
rewrite psumr_eq0 => [/allP/(_ i (mem_index_enum _))|k _]; last by apply: sumr_ge0 => l _; rewrite exprn_ge0.
by rewrite /= psumr_eq0 => [/allP/(_ j (mem_index_enum _))|k _]; rewrite ?exprn_ge0.
Qed.

(** if the gate-applied state is non-zero and D bond states are enough for it
    (as for the identity gate), nothing is lost *)
Theorem C51_exact n D p (a1 a2 gate b1 b2 : tensor) : shape a1 = [:: n; D; p] -> shape a2 = [:: n; D; p] -> shape gate = [:: p; p; p; p] -> (D <= n * p)%N ->
  (forall r s y x, (r < p)%N -> (s < p)%N -> (y < n)%N -> (x < n)%N -> gated D p a1 a2 gate r s y x = state D b1 b2 r s y x) ->
  size2 n p (gated D p a1 a2 gate) != 0 ->
  exists d1 d2 lam c, [/\ simple_truncate fsvd a1 a2 gate = Ok (d1, d2, lam), 0 < c, c ^+ 2 * size2 n p (gated D p a1 a2 gate) = 1 &
    forall r s y x, (r < p)%N -> (s < p)%N -> (y < n)%N -> (x < n)%N -> state D d1 d2 r s y x = c * gated D p a1 a2 gate r s y x].
Proof using Sf.
move=> H1 H2 Hg HD Eb Nz; have [t [Ct H]] := C51_truncation H1 H2 Hg HD.
have E0 f h : (forall r s y x, (r < p)%N -> (s < p)%N -> (y < n)%N -> (x < n)%N -> f r s y x = h r s y x) -> size2 n p f = size2 n p h.
  move=> E; apply: eq_sumn => y Hy; apply: eq_sumn => r Hr; apply: eq_sumn => x Hx; apply: eq_sumn => s Hs; by rewrite E.
have Z : size2 n p (fun r s y x => gated D p a1 a2 gate r s y x - t r s y x) <= 0.
  apply: (Order.POrderTheory.le_trans (Ct b1 b2)).
  rewrite (E0 _ (fun _ _ _ _ => 0)) => [|r s y x *]; last by rewrite Eb // subrr.
  by rewrite /size2 /sumn big1 // => i _; rewrite big1 // => j _; rewrite big1 // => k _; rewrite big1 // => l _; rewrite normr0 expr0n.
have {}Z r s y x : (r < p)%N -> (s < p)%N -> (y < n)%N -> (x < n)%N -> t r s y x = gated D p a1 a2 gate r s y x.
  by move=> Hr Hs Hy Hx; have /eqP := size2_eq0 Z Hr Hs Hy Hx; rewrite subr_eq0 => /eqP.
case: H => [[S0 _]|[d1 [d2 [lam [c [E _ [c0 c1 Es] _ _]]]]]].
  by rewrite -(E0 t) // S0 eqxx in Nz.
by exists d1, d2, lam, c; split=> // [|r s y x *]; [rewrite -(E0 t) | rewrite Es // Z].
Qed.

Definition identity_gate p (gate : tensor) := forall P Q r s, (P < p)%N -> (Q < p)%N -> (r < p)%N -> (s < p)%N ->
  at_ gate [:: P; Q; r; s] = ((P == r) && (Q == s))%:R.

Lemma gated_id D p (a1 a2 gate : tensor) r s y x : identity_gate p gate -> (r < p)%N -> (s < p)%N ->
  gated D p a1 a2 gate r s y x = state D a1 a2 r s y x.
Proof.
move=> Hi Hr Hs; rewrite /gated.
transitivity (sumn p (fun P => sumn p (fun Q => state D a1 a2 P Q y x *+ (Q == s)) *+ (P == r))).
  apply: eq_sumn => P HP; case: eqVneq => [EP|NP]; last first.
    by rewrite mulr0n /sumn big1 // => Q _; rewrite Hi // (negbTE NP) mulr0.
  by rewrite mulr1n; apply: eq_sumn => Q HQ; rewrite Hi // EP eqxx /= mulr_natr.
by rewrite (sumn_delta (fun P => sumn p (fun Q => state D a1 a2 P Q y x *+ (Q == s)))) // (sumn_delta (fun Q => state D a1 a2 r Q y x)).
Qed.

Corollary C51_identity_gate n D p (a1 a2 gate : tensor) : shape a1 = [:: n; D; p] -> shape a2 = [:: n; D; p] -> shape gate = [:: p; p; p; p] -> (D <= n * p)%N ->
  identity_gate p gate -> size2 n p (state D a1 a2) != 0 ->
  exists d1 d2 lam c, [/\ simple_truncate fsvd a1 a2 gate = Ok (d1, d2, lam), 0 < c, c ^+ 2 * size2 n p (state D a1 a2) = 1 &
    forall r s y x, (r < p)%N -> (s < p)%N -> (y < n)%N -> (x < n)%N -> state D d1 d2 r s y x = c * state D a1 a2 r s y x].
Proof using Sf.
move=> H1 H2 Hg HD Hi Nz.
have Eg r s y x : (r < p)%N -> (s < p)%N -> (y < n)%N -> (x < n)%N -> gated D p a1 a2 gate r s y x = state D a1 a2 r s y x.
  by move=> Hr Hs _ _; apply: gated_id.
have E0 : size2 n p (gated D p a1 a2 gate) = size2 n p (state D a1 a2).
  by apply: eq_sumn => y Hy; apply: eq_sumn => r Hr; apply: eq_sumn => x Hx; apply: eq_sumn => s Hs; rewrite Eg.
rewrite -E0 in Nz; have [d1 [d2 [lam [c [E c0 c1 Es]]]]] := C51_exact H1 H2 Hg HD Eg Nz.
by exists d1, d2, lam, c; rewrite -E0; split=> // r s y x *; rewrite Es // Eg.
Qed.
End C51.

Section Examples.
Variable C : numClosedFieldType.
Notation tensor := (tensor C).
(** weights 1 and 1/10 on one leg and cutoff 1/100: every tensor survives; with
    cutoff 1/2 some tensor does not *)
Let w (d : nat) : tensor := Tensor [:: 2%N] (fun i => if nth 0%N i 0 == 0%N then 1 else 10%:R^-1).
Example C50_example a : shape a = [:: 2; 2; 2; 2; 2]%N ->
  exists t t', [/\ absorb w a 2%N = Ok t, strip (100%:R^-1) w t 2%N = Ok t' & teq t' a].
Proof.
have c0 : 0 < 100%:R^-1 :> C by rewrite invr_gt0 ltr0n.
have [d i _ _|H _] := @C50_identity C (100%:R^-1) (fun _ => 2%N) 2%N w 2%N (fun _ _ => Logic.conj isT erefl) isT c0.
  by case: i => [|i]; rewrite /= ?ler01 // invr_ge0 ler0n.
apply: H => d [|i] _ _ _ /=; first by rewrite invf_le1 ?ler1n ?ltr0n.
by rewrite lef_pinv ?posrE ?ltr0n // ler_nat.
Qed.
Example C50_small_weight_refuted : ~ forall a : tensor, shape a = [:: 2; 2; 2; 2; 2]%N ->
  exists t t', [/\ absorb w a 2%N = Ok t, strip (2%:R^-1) w t 2%N = Ok t' & teq t' a].
Proof.
have c0 : 0 < 2%:R^-1 :> C by rewrite invr_gt0 ltr0n.
have [d i _ _|_ H H'] := @C50_identity C (2%:R^-1) (fun _ => 2%N) 2%N w 2%N (fun _ _ => Logic.conj isT erefl) isT c0.
  by case: i => [|i]; rewrite /= ?ler01 // invr_ge0 ler0n.
have := H H' 0%N 1%N isT isT isT; rewrite /= lef_pinv ?posrE ?ltr0n // ler_nat //.
Qed.

(** a maximally entangled pair and the identity gate *)
Let a1 : tensor := Tensor [:: 1; 2; 2]%N (fun i => (nth 0 i 1 == nth 0 i 2)%N%:R).
Let g : tensor := Tensor [:: 2; 2; 2; 2]%N (fun i => ((nth 0 i 0 == nth 0 i 2)%N && (nth 0 i 1 == nth 0 i 3)%N)%:R).
Let st P Q : (P < 2)%N -> state 2%N a1 a1 P Q 0%N 0%N = (P == Q)%:R.
Proof.
move=> HP; rewrite /state /sumn !big_ord_recl big_ord0 /= addr0; move: P HP => [|[|//]] _.
  by rewrite /= mul1r mul0r addr0.
by rewrite /= mul1r mul0r add0r.
Qed.
Example C51_example : exists d1 d2 lam c, [/\ simple_truncate (@some_full_svd C) a1 a1 g = Ok (d1, d2, lam), c ^+ 2 = 2%:R^-1, 0 < c,
  state 2%N d1 d2 0%N 0%N 0%N 0%N = c & state 2%N d1 d2 0%N 1%N 0%N 0%N = 0].
Proof.
have S2 : size2 1%N 2%N (state 2%N a1 a1) = 2%:R.
  rewrite /size2 /sumn !big_ord_recl !big_ord0 /= !st //= !normr0 !normr1 !expr0n !expr1n /= !addr0 !add0r //.
have N : size2 1%N 2%N (state 2%N a1 a1) != 0 by rewrite S2 pnatr_eq0.
have [|d1 [d2 [lam [c [E c0 c1 Es]]]]] := @C51_identity_gate C _ (@some_full_svd_spec C) 1%N 2%N 2%N a1 a1 g erefl erefl erefl isT _ N; first by [].
exists d1, d2, lam, c; rewrite !Es // !st // mulr1 mulr0; split=> //.
by move: c1; rewrite S2 => c1; apply: (mulIf (x := 2%:R)); rewrite ?c1 ?mulVf ?pnatr_eq0.
Qed.
End Examples.

Print Assumptions C50_roundtrip.
Print Assumptions C50_identity.
Print Assumptions C51_truncation.
Print Assumptions C51_exact.
Print Assumptions C51_identity_gate.
