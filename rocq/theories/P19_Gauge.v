(** C45: gauge fixing of the norm tensor (acetn/evolution/full_update.py,
    gauge_fix, finalize_reduced_tensors, precondition_norm_tensor). *)
From Coq Require Import String Ascii.
From mathcomp Require Import all_ssreflect all_algebra.
From Verif Require Import Base Lattice Mover Tensor TN Rdm RdmFacts FullUpdate Linalg Mat Rsvd RsvdFacts Renorm RenormFacts Spectral ProjFacts Psd Als AlsFacts EighChol UpdFacts P16_Als P17_Reduced P18_Positive.
Set Implicit Arguments.
Unset Strict Implicit.
Unset Printing Implicit Defensive.
Import GRing.Theory Num.Theory.
Local Open Scope ring_scope.
Local Open Scope string_scope.

Section Spec.
Variable C : numClosedFieldType.
Notation tensor := (tensor C).

(** a matrix applied to the first leg of a reduced tensor *)
Definition gauged n (R a : tensor) : tensor := Tensor (shape a) (fun i =>
  sumn n (fun y => at_ R [:: nth 0 i 0; y]%N * at_ a [:: y; nth 0 i 1; nth 0 i 2]%N)).
(** overlaps of the slices of a square root with respect to either leg *)
Definition overlap_y n (nz : tensor) (Y y : nat) : C :=
  sumn (n ^ 2) (fun z => sumn n (fun x => (at_ nz [:: Y; x; z])^* * at_ nz [:: y; x; z])).
Definition overlap_x n (nz : tensor) (X x : nat) : C :=
  sumn (n ^ 2) (fun z => sumn n (fun y => (at_ nz [:: y; X; z])^* * at_ nz [:: y; x; z])).
(** l is an eigenvalue of the n x n matrix f *)
Definition eigval1 n (f : nat -> nat -> C) (l : C) : Prop := exists2 v : nat -> C,
  exists2 y, (y < n)%N & v y != 0 & forall Y, (Y < n)%N -> sumn n (fun y => f Y y * v y) = l * v Y.
(** no eigenvalue of f other than zero is at most e^2; none at all *)
Definition clear n (f : nat -> nat -> C) (e : C) : Prop := forall l, eigval1 n f l -> l != 0 -> e ^+ 2 < l.
Definition regular n (f : nat -> nat -> C) (e : C) : Prop := forall l, eigval1 n f l -> e ^+ 2 < l.
End Spec.

Section Facts.
Variable C : numClosedFieldType.
Notation tensor := (tensor C).

Lemma tr_prod n m (A B : 'M[C]_(n, m)) : \tr (A^T *m B) = \sum_(y < n) \sum_(x < m) A y x * B y x.
Proof.
rewrite exchange_big; apply: eq_bigr => x _; rewrite mxE; apply: eq_bigr => y _.
by rewrite mxE.
Qed.

(** the slice of a square root, and of a two-site state *)
Definition slice n (nz : tensor) (z : nat) : 'M[C]_n := \matrix_(y, x) at_ nz [:: nat_of_ord y; nat_of_ord x; z].
Definition smat n (u : nat -> nat -> C) : 'M[C]_n := \matrix_(y, x) u y x.

Lemma nform_gram n m (N : tensor) (F : nat -> nat -> nat -> C) u :
  (forall y x Y X, (y < n)%N -> (x < n)%N -> (Y < n)%N -> (X < n)%N -> at_ N [:: y; x; Y; X] = sumn m (fun z => F z y x * (F z Y X)^* )) ->
  nform n N u u = sumn m (fun z => `|\tr ((smat n (F z))^T *m smat n u)| ^+ 2).
Proof.
move=> HN; pose T z := sumn n (fun y => sumn n (fun x => F z y x * u y x)).
have ET z : \tr ((smat n (F z))^T *m smat n u) = T z.
  by rewrite tr_prod; apply: eq_bigr => y _; apply: eq_bigr => x _; rewrite !mxE.
transitivity (sumn n (fun y => sumn n (fun x => sumn m (fun z => F z y x * u y x * (T z)^* )))).
  apply: eq_sumn => y Hy; apply: eq_sumn => x Hx.
  transitivity (sumn n (fun Y => sumn m (fun z => sumn n (fun X => F z y x * u y x * (F z Y X * u Y X)^* )))).
    apply: eq_sumn => Y HY; rewrite sumnC; apply: eq_sumn => X HX; rewrite HN // !sumn_mulr; apply: eq_sumn => z _.
    by rewrite rmorphM mulrA (mulrAC (F z y x)).
  rewrite sumnC; apply: eq_sumn => z _; rewrite sumn_conj sumn_mull; apply: eq_sumn => Y _.
  by rewrite sumn_conj sumn_mull.
transitivity (sumn n (fun y => sumn m (fun z => sumn n (fun x => F z y x * u y x * (T z)^* )))).
  by apply: eq_sumn => y _; rewrite sumnC.
rewrite sumnC; apply: eq_sumn => z _; rewrite ET normCK {2}/T sumn_mulr; apply: eq_sumn => y _.
by rewrite sumn_mulr.
Qed.

Lemma gram_psd4 n m (N : tensor) (F : nat -> nat -> nat -> C) :
  (forall y x Y X, (y < n)%N -> (x < n)%N -> (Y < n)%N -> (X < n)%N -> at_ N [:: y; x; Y; X] = sumn m (fun z => F z y x * (F z Y X)^* )) ->
  norm_psd n N.
Proof. by move=> H u; rewrite (nform_gram _ H) sumr_ge0 // => z _; rewrite exprn_ge0. Qed.

Lemma iso_square n k (V : 'M[C]_(k, n)) : k = n -> V *m adj V = 1%:M -> adj V *m V = 1%:M.
Proof. by move=> Ek; move: V; case: _ / Ek => V; apply: mulmx1C. Qed.

Section Pinv.
Variable lsvd : thin_svd_fun C.
Hypothesis Ss : thin_svd_spec lsvd.
Variable rtol : nat -> nat -> C.

Lemma pinv_keep n (R : 'M[C]_n) cut : (forall i, (lsvd R).1.2 0 i = 0 \/ cut < (lsvd R).1.2 0 i) -> 0 <= cut ->
  R *m pinv_mx lsvd cut R *m R = R.
Proof using Ss.
move=> H c0; have := Ss R; rewrite /pinv_mx; case E: (lsvd R) H => [[U s] Vh] /= H [HU HV [s0 _] ER].
rewrite {1 2 3}ER !mulmxA -(mulmxA _ Vh) HV mulmx1 -(mulmxA _ (adj U)) HU mulmx1.
rewrite -(mulmxA U) mulmx_diag -(mulmxA U) mulmx_diag; congr (_ *m diag_mx _ *m _).
apply/matrixP => a i; rewrite (ord1 a) !mxE; case: (H i) => [->|L]; first by rewrite !mul0r.
by rewrite L -mulrA mulVf ?mulr1 // Order.POrderTheory.gt_eqF // (Order.POrderTheory.le_lt_trans c0).
Qed.

Lemma pinv_left n (R : 'M[C]_n) cut : (forall i, cut < (lsvd R).1.2 0 i) -> 0 <= cut -> pinv_mx lsvd cut R *m R = 1%:M.
Proof using Ss.
move=> H c0; have := Ss R; rewrite /pinv_mx; case E: (lsvd R) H => [[U s] Vh] /= H [HU HV [s0 _] ER].
rewrite [X in _ *m X]ER !mulmxA -(mulmxA _ (adj U)) HU mulmx1 -(mulmxA (adj Vh)) mulmx_diag.
set d := diag_mx _; have -> : d = 1%:M; last by rewrite mulmx1 (iso_square (minnn n)).
apply/matrixP => i j; rewrite !mxE H mulVf // Order.POrderTheory.gt_eqF // (Order.POrderTheory.le_lt_trans c0) //.
Qed.

Lemma sv_eig n (R : 'M[C]_n) (f : nat -> nat -> C) i : (forall Y y : 'I_n, f Y y = (adj R *m R) Y y) ->
  eigval1 n f ((lsvd R).1.2 0 i ^+ 2).
Proof using Ss.
move=> Hf; have := Ss R; case E: (lsvd R) => [[U s] Vh] /= [HU HV [s0 _] ER].
have Er : adj (diag_mx s) = diag_mx s by rewrite adj_rdiag // => j; rewrite ger0_real.
have [v Ev] : exists v, v = col i (adj Vh) by eexists.
have Rv : adj R *m R *m v = s 0 i ^+ 2 *: v.
  rewrite Ev colE ER !adjM Er !mulmxA -(mulmxA _ Vh) HV mulmx1 -(mulmxA _ (adj U)) HU mulmx1.
  rewrite -!(mulmxA (adj Vh)) mulmx_diag scalemxAr; congr (_ *m _).
  by apply/matrixP => a b; rewrite mul_diag_mx !mxE; case: eqVneq => [->|]; rewrite ?mulr0 // ord1.
have vN : v != 0.
  apply/eqP => v0; have /matrixP/(_ i i) := HV; rewrite mxE [RHS]mxE eqxx big1 => [/eqP|k _]; first by rewrite eq_sym oner_eq0.
  by have /matrixP/(_ k 0) := v0; rewrite Ev !mxE => ->; rewrite mulr0.
exists (fun y => if insub y is Some k then v k 0 else 0).
  have /matrix0Pn [k [z Hk]] := vN; exists (nat_of_ord k) => //.
  by rewrite valK -(ord1 z).
move=> Y HY; have /matrixP/(_ (Ordinal HY) 0) := Rv; rewrite mxE [RHS]mxE => E2.
have -> : insub Y = Some (Ordinal HY) by rewrite insubT.
by rewrite -E2; apply: eq_bigr => y _; rewrite valK -Hf.
Qed.

Lemma sv_clear n (R : 'M[C]_n) (f : nat -> nat -> C) e : (forall Y y : 'I_n, f Y y = (adj R *m R) Y y) -> 0 <= e -> clear n f e ->
  forall i, (lsvd R).1.2 0 i = 0 \/ e < (lsvd R).1.2 0 i.
Proof using Ss.
move=> Hf e0 Hc i; have := sv_eig i Hf; have := Ss R; case E: (lsvd R) => [[U s] Vh] /= [_ _ [s0 _] _] He.
have [->|N] := eqVneq (s 0 i) 0; [by left | right].
by have := Hc _ He; rewrite expf_eq0 N /= ltr_pexpn2r ?nnegrE // => ->.
Qed.

Lemma sv_regular n (R : 'M[C]_n) (f : nat -> nat -> C) e : (forall Y y : 'I_n, f Y y = (adj R *m R) Y y) -> 0 <= e -> regular n f e ->
  forall i, e < (lsvd R).1.2 0 i.
Proof using Ss.
move=> Hf e0 Hc i; have := Hc _ (sv_eig i Hf); rewrite ltr_pexpn2r ?nnegrE //.
by have := Ss R; case: (lsvd R) i => [[U s] Vh] i [_ _ [s0 _] _].
Qed.

Variable lqr : qr_fun C.
Hypothesis Sq : qr_spec lqr.

Definition lastmat n (t : tensor) (z : nat) : 'M[C]_n := \matrix_(x, y) at_ t [:: z; nat_of_ord x; nat_of_ord y].

(** one of the two gauge factors *)
Lemma sideE n (t : tensor) atol : shape t = [:: n ^ 2; n; n]%N -> 0 < atol ->
  exists t2 q r, [/\ reshape t [:: n ^ 3; n]%N = Ok t2, qr lqr t2 = Ok (q, r), shape r = [:: n; n],
    pinv lsvd rtol atol r = Ok (of_mx (pinv_mx lsvd atol (mx_of n n r))) &
    let R := mx_of n n r in let Ri := pinv_mx lsvd atol R in
    (forall Y y : 'I_n, (adj R *m R) Y y = sumn (n ^ 2) (fun z => sumn n (fun x => (at_ t [:: z; x; nat_of_ord Y])^* * at_ t [:: z; x; nat_of_ord y]))) /\
    (R *m Ri *m R = R -> forall z, (z < n ^ 2)%N -> lastmat n t z *m (Ri *m R) = lastmat n t z)].
Proof using Ss Sq.
move=> St a0.
have n3 : (n ^ 3)%N = numel [:: n ^ 2; n]%N by rewrite /= muln1 !expnS expn0 !muln1 mulnA.
have n1 : n = numel [:: n] by rewrite /= muln1.
have [t2 [E2 S2 M2]] := @reshape2 C [:: n ^ 2; n]%N [:: n] (n ^ 3)%N n t St n3 n1.
have kn : n = minn (n ^ 3) n.
  by apply/esym/minn_idPr; case: (n) => // k; rewrite -{1}(expn1 k.+1) leq_pexp2l.
have [q [r [Eq _ Sr Q1 EM]]] := qrE S2 kn Sq.
exists t2, q, r; rewrite /pinv Sr /pinv_cut a0; split=> //.
set R := mx_of n n r; set Ri := pinv_mx _ _ _; cbv zeta; rewrite M2 in EM.
have key (i : 'I_(n ^ 3)) z x : unravel [:: n ^ 2; n]%N i = [:: z; x] -> forall y, mat (n ^ 3) n [:: n ^ 2; n]%N [:: n] t i y = at_ t [:: z; x; nat_of_ord y].
  by move=> Ei y; rewrite mxE Ei unravel1.
have ordn z x : (z < n ^ 2)%N -> (x < n)%N -> exists i : 'I_(n ^ 3), unravel [:: n ^ 2; n]%N i = [:: z; x].
  move=> Hz Hx; have HI : in_range [:: n ^ 2; n]%N [:: z; x] by rewrite /= Hz Hx.
  have Hi : (ravel [:: n ^ 2; n]%N [:: z; x] < n ^ 3)%N by rewrite n3 ravel_lt.
  by exists (Ordinal Hi); rewrite -[RHS](ravelK HI).
split=> [Y y|HK z Hz].
  have -> : adj R *m R = adj (mat (n ^ 3) n [:: n ^ 2; n]%N [:: n] t) *m mat (n ^ 3) n [:: n ^ 2; n]%N [:: n] t.
    by rewrite EM adjM mulmxA -(mulmxA (adj R)) Q1 mulmx1.
  rewrite mxE; pose F w := (at_ t (cat w [:: nat_of_ord Y]))^* * at_ t (cat w [:: nat_of_ord y]).
  have e3 : (n ^ 3)%N = (n ^ 2 * n)%N by rewrite n3 /= muln1.
  transitivity (\sum_(i < n ^ 3) F (unravel [:: n ^ 2; n]%N i)); last by rewrite e3 sum2.
  by apply: eq_bigr => i _; rewrite /F adjE !mxE !unravel1.
apply/matrixP => x y; have [i Ei] := ordn z x Hz (ltn_ord x).
have K : mat (n ^ 3) n [:: n ^ 2; n]%N [:: n] t *m (Ri *m R) = mat (n ^ 3) n [:: n ^ 2; n]%N [:: n] t.
  by rewrite {1}EM -mulmxA (mulmxA R) HK -EM.
rewrite [RHS]mxE -(key i _ _ Ei) -K [RHS]mxE [LHS]mxE; apply: eq_bigr => l _.
by rewrite (key i _ _ Ei) [lastmat _ _ _ _ _]mxE.
Qed.

Lemma gaugeE n p q (nz g : tensor) atol : shape nz = [:: n; n; n ^ 2]%N -> shape g = [:: n; n; p; q] -> 0 < atol ->
  exists N' g' xi yi rx ry, gauge_fix lqr lsvd rtol nz g atol = Ok (N', g', xi, yi, (rx, ry)) /\
   [/\ [/\ shape N' = [:: n; n; n; n], shape g' = [:: n; n; p; q], shape xi = [:: n; n] & shape yi = [:: n; n]],
    exists F, (forall y x Y X, at_ N' [:: y; x; Y; X] = sumn (n ^ 2) (fun z => F z y x * (F z Y X)^* )) /\
      (forall z, smat n (F z) = (mx_of n n yi)^T *m slice n nz z *m mx_of n n xi),
    forall P Q, smat n (target g' P Q) = mx_of n n ry *m smat n (target g P Q) *m (mx_of n n rx)^T &
    [/\ mx_of n n xi = pinv_mx lsvd atol (mx_of n n rx), mx_of n n yi = pinv_mx lsvd atol (mx_of n n ry),
        forall Y y : 'I_n, overlap_y n nz Y y = (adj (mx_of n n ry) *m mx_of n n ry) Y y,
        forall Y y : 'I_n, overlap_x n nz Y y = (adj (mx_of n n rx) *m mx_of n n rx) Y y &
        (mx_of n n ry *m mx_of n n yi *m mx_of n n ry = mx_of n n ry -> forall z, (z < n ^ 2)%N -> (slice n nz z)^T *m (mx_of n n yi *m mx_of n n ry) = (slice n nz z)^T) /\
        (mx_of n n rx *m mx_of n n xi *m mx_of n n rx = mx_of n n rx -> forall z, (z < n ^ 2)%N -> slice n nz z *m (mx_of n n xi *m mx_of n n rx) = slice n nz z)]].
Proof using Ss Sq.
move=> Sn Sg a0; rewrite /gauge_fix Sg.
have [t1 [-> T1 ET1]] : exists t, [/\ einsum "yxz->zxy" [:: nz] = Ok t, shape t = [:: n ^ 2; n; n]%N & forall z x y, at_ t [:: z; x; y] = at_ nz [:: y; x; z]].
  by rewrite /einsum /= Sn /= /dims_ok /= ?eqxx /=; eexists; split=> // *; rewrite /= /factor /= mulr1.
have [t1' [q1 [ry [E1 Q1 Sry Py [Oy Ky]]]]] := sideE T1 a0.
have [t2 [E2 T2 ET2]] : exists t, [/\ einsum "yxz->zyx" [:: nz] = Ok t, shape t = [:: n ^ 2; n; n]%N & forall z y x, at_ t [:: z; y; x] = at_ nz [:: y; x; z]].
  by rewrite /einsum /= Sn /= /dims_ok /= ?eqxx /=; eexists; split=> // *; rewrite /= /factor /= mulr1.
have [t2' [q2 [rx [E3 Q2 Srx Px [Ox Kx]]]]] := sideE T2 a0.
rewrite [bind (Ok t1) _]/bind E1 [bind (Ok t1') _]/bind Q1 [bind (Ok (q1, _)) _]/bind E2 [bind (Ok t2) _]/bind E3 [bind (Ok t2') _]/bind.
rewrite Q2 [bind (Ok (q2, _)) _]/bind Py Px.
set yi := of_mx (pinv_mx lsvd atol (mx_of n n ry)); set xi := of_mx (pinv_mx lsvd atol (mx_of n n rx)).
have Syi : shape yi = [:: n; n] by []. have Sxi : shape xi = [:: n; n] by [].
have Mx : mx_of n n xi = pinv_mx lsvd atol (mx_of n n rx) by rewrite mx_ofK.
have My : mx_of n n yi = pinv_mx lsvd atol (mx_of n n ry) by rewrite mx_ofK.
rewrite [bind (Ok yi) _]/bind [bind (Ok xi) _]/bind; rewrite -My in Ky; rewrite -Mx in Kx; clear Py Px.
clearbody xi yi.
have [u1 [-> U1 EU1]] : exists t, [/\ einsum "yxz,xw->yzw" [:: nz; xi] = Ok t, shape t = [:: n; n ^ 2; n]%N &
    forall y z w, at_ t [:: y; z; w] = sumn n (fun x => at_ nz [:: y; x; z] * at_ xi [:: x; w])].
  by rewrite /einsum /= Sn Sxi /= /dims_ok /= ?eqxx /=; eexists; split=> // *; rewrite /= /factor /=.
have [u2 [U2e U2 EU2]] : exists t, [/\ einsum "yzw,yv->zvw" [:: u1; yi] = Ok t, shape t = [:: n ^ 2; n; n]%N &
    forall z v w, at_ t [:: z; v; w] = sumn n (fun y => at_ u1 [:: y; z; w] * at_ yi [:: y; v])].
  by rewrite /einsum /= U1 Syi /= /dims_ok /= ?eqxx /=; eexists; split=> // *; rewrite /= /factor /=.
have [N' [EN SN HN]] : exists t, [/\ einsum "zvw,zVW->vwVW" [:: u2; conj u2] = Ok t, shape t = [:: n; n; n; n]%N &
    forall v w V W, at_ t [:: v; w; V; W] = sumn (n ^ 2) (fun z => at_ u2 [:: z; v; w] * (at_ u2 [:: z; V; W])^* )].
  by rewrite /einsum /= U2 /= /dims_ok /= ?eqxx /=; eexists; split=> // *; rewrite /= /factor /=.
have [g1 [G1e G1 EG1]] : exists t, [/\ einsum "zx,yxpq->yzpq" [:: rx; g] = Ok t, shape t = [:: n; n; p; q]%N &
    forall y z P Q, at_ t [:: y; z; P; Q] = sumn n (fun x => at_ rx [:: z; x] * at_ g [:: y; x; P; Q])].
  by rewrite /einsum /= Srx Sg /= /dims_ok /= ?eqxx /=; eexists; split=> // *; rewrite /= /factor /=.
have [g2 [G2e G2 EG2]] : exists t, [/\ einsum "wy,yzpq->wzpq" [:: ry; g1] = Ok t, shape t = [:: n; n; p; q]%N &
    forall w z P Q, at_ t [:: w; z; P; Q] = sumn n (fun y => at_ ry [:: w; y] * at_ g1 [:: y; z; P; Q])].
  by rewrite /einsum /= Sry G1 /= /dims_ok /= ?eqxx /=; eexists; split=> // *; rewrite /= /factor /=.
rewrite [bind (Ok u1) _]/bind U2e [bind (Ok u2) _]/bind EN [bind (Ok N') _]/bind G1e [bind (Ok g1) _]/bind G2e [bind (Ok g2) _]/bind.
exists N', g2, xi, yi, rx, ry; split=> //; split=> //.
- exists (fun z y x => at_ u2 [:: z; y; x]); split=> // z; apply/matrixP => v w; rewrite mxE EU2 -mulmxA mxE.
  by apply: eq_bigr => y _; rewrite EU1 mulrC !mxE; congr (_ * _); apply: eq_bigr => x _; rewrite !mxE.
- move=> P Q; apply/matrixP => w z; rewrite mxE /target EG2 -mulmxA mxE; apply: eq_bigr => y _.
  by rewrite EG1 !mxE; congr (_ * _); apply: eq_bigr => x _; rewrite !mxE mulrC.
split=> //.
- move=> Y y; rewrite Oy; apply: eq_sumn => z _; apply: eq_sumn => x _; rewrite !ET1 //.
- move=> Y y; rewrite Ox; apply: eq_sumn => z _; apply: eq_sumn => x _; rewrite !ET2 //.
have L1 z : lastmat n t1 z = (slice n nz z)^T by apply/matrixP => x y; rewrite !mxE ET1.
have L2 z : lastmat n t2 z = slice n nz z by apply/matrixP => x y; rewrite !mxE ET2.
by split=> H z Hz; [rewrite -L1 Ky|rewrite -L2 Kx].
Qed.
End Pinv.
End Facts.

Section C45.
Variable C : numClosedFieldType.
Notation tensor := (tensor C).
Variable lqr : qr_fun C.
Variable lsvd : thin_svd_fun C.
Variable rtol : nat -> nat -> C.
Hypothesis Sq : qr_spec lqr.
Hypothesis Ss : thin_svd_spec lsvd.

Definition amatP n D (a : tensor) (P : nat) : 'M[C]_(n, D) := \matrix_(y, u) at_ a [:: nat_of_ord y; nat_of_ord u; P].

Lemma state_mat n D (a1 a2 : tensor) P Q : smat n (state D a1 a2 P Q) = amatP n D a1 P *m (amatP n D a2 Q)^T.
Proof. by apply/matrixP => y x; rewrite !mxE; apply: eq_bigr => u _; rewrite !mxE. Qed.

Lemma gauged_mat n D (R a : tensor) P : amatP n D (gauged n R a) P = mx_of n n R *m amatP n D a P.
Proof. by apply/matrixP => y u; rewrite !mxE; apply: eq_bigr => x _; rewrite !mxE. Qed.

Lemma smatB n (u v : nat -> nat -> C) : smat n (fun y x => u y x - v y x) = smat n u - smat n v.
Proof. by apply/matrixP => y x; rewrite !mxE. Qed.

Lemma squareG n (nz : tensor) y x Y X : at_ (square n nz) [:: y; x; Y; X] = sumn (n ^ 2) (fun z => at_ nz [:: y; x; z] * (at_ nz [:: Y; X; z])^* ).
Proof. by []. Qed.

(** lengths agree if the slices of the square roots agree on the states *)
Lemma len2_eq n p q (N' nz : tensor) F (f g : nat -> nat -> nat -> nat -> C) :
  (forall y x Y X, at_ N' [:: y; x; Y; X] = sumn (n ^ 2) (fun z => F z y x * (F z Y X)^* )) ->
  (forall P Q z, (z < n ^ 2)%N -> \tr ((smat n (F z))^T *m smat n (f P Q)) = \tr ((slice n nz z)^T *m smat n (g P Q))) ->
  len2 n p q N' f = len2 n p q (square n nz) g.
Proof.
move=> HF H; apply: eq_sumn => Q _; apply: eq_sumn => P _.
rewrite (nform_gram _ (fun y x Y X _ _ _ _ => HF y x Y X)).
rewrite (nform_gram _ (fun y x Y X _ _ _ _ => squareG n nz y x Y X)).
by apply: eq_sumn => z Hz; rewrite H.
Qed.

Lemma sliceE n (nz : tensor) z (Y X Psi : 'M[C]_n) :
  \tr ((Y^T *m slice n nz z *m X)^T *m Psi) = \tr ((slice n nz z)^T *m (Y *m Psi *m X^T)).
Proof. by rewrite !trmx_mul trmxK -!mulmxA mxtrace_mulC !mulmxA. Qed.

Lemma slice_keep n (S K L Psi : 'M[C]_n) : S^T *m K = S^T -> S *m L = S -> \tr (S^T *m (K *m Psi *m L^T)) = \tr (S^T *m Psi).
Proof. by move=> HK HL; rewrite !mulmxA HK mxtrace_mulC mulmxA -trmx_mul HL. Qed.

(** C45: unless a non-zero gauge factor is cut off, the problem handed to the
    solver is the original one.  (1) Undoing the gauge of any pair of reduced
    tensors gives a pair at the same distance from the original target;
    (2) gauge-transforming any pair does not change its distance; (3) nor the
    cost the solver computes.  The gauge-fixed norm tensor is positive. *)
Theorem C45_same_problem n p q (nz g : tensor) atol : shape nz = [:: n; n; n ^ 2]%N -> shape g = [:: n; n; p; q] -> 0 < atol ->
  clear n (overlap_y n nz) atol -> clear n (overlap_x n nz) atol ->
  exists N' g' xi yi rx ry, gauge_fix lqr lsvd rtol nz g atol = Ok (N', g', xi, yi, (rx, ry)) /\
   [/\ shape N' = [:: n; n; n; n] /\ shape g' = [:: n; n; p; q], shape xi = [:: n; n] /\ shape yi = [:: n; n], norm_psd n N',
    forall D a1 a2, dist2 n D p q N' g' a1 a2 = dist2 n D p q (square n nz) g (gauged n yi a1) (gauged n xi a2) &
    forall D a1 a2, dist2 n D p q N' g' (gauged n ry a1) (gauged n rx a2) = dist2 n D p q (square n nz) g a1 a2 /\
      (shape a1 = [:: n; D; p] -> shape a2 = [:: n; D; q] ->
       exists c, calculate_cost a1 a2 g (square n nz) = Ok c /\ calculate_cost (gauged n ry a1) (gauged n rx a2) g' N' = Ok c)].
Proof using Sq Ss.
move=> Sn Sg a0 Cy Cx; have a0' := Order.POrderTheory.ltW a0.
have [N' [g' [xi [yi [rx [ry [E [[SN Sg' Sxi Syi] [F [HF1 HF2]] Hg [Mx My Oy Ox [Ky Kx]]]]]]]]]] := gaugeE Ss rtol Sq Sn Sg a0.
have {}Ky : forall z, (z < n ^ 2)%N -> (slice n nz z)^T *m (mx_of n n yi *m mx_of n n ry) = (slice n nz z)^T.
  by apply: Ky; rewrite My pinv_keep //; apply: sv_clear Cy.
have {}Kx : forall z, (z < n ^ 2)%N -> slice n nz z *m (mx_of n n xi *m mx_of n n rx) = slice n nz z.
  by apply: Kx; rewrite Mx pinv_keep //; apply: sv_clear Cx.
have PN : norm_psd n N' by apply: (gram_psd4 (fun y x Y X _ _ _ _ => HF1 y x Y X)).
have PS : norm_psd n (square n nz) by apply: (gram_psd4 (fun y x Y X _ _ _ _ => squareG n nz y x Y X)).
have Ht P Q z : (z < n ^ 2)%N -> \tr ((smat n (F z))^T *m smat n (target g' P Q)) = \tr ((slice n nz z)^T *m smat n (target g P Q)).
  move=> Hz; rewrite HF2 sliceE Hg -[RHS](slice_keep _ (Ky z Hz) (Kx z Hz)) !trmx_mul.
  by rewrite !mulmxA.
have D2 D a1 a2 : dist2 n D p q N' g' (gauged n ry a1) (gauged n rx a2) = dist2 n D p q (square n nz) g a1 a2.
  apply: (len2_eq _ _ HF1) => P Q z Hz; rewrite !smatB !mulmxBr !raddfB /= Ht //; congr (_ - _).
  rewrite HF2 sliceE !state_mat !gauged_mat trmx_mul -[RHS](slice_keep _ (Ky z Hz) (Kx z Hz)) !trmx_mul.
  by rewrite !mulmxA.
exists N', g', xi, yi, rx, ry; split=> //; split=> //.
  move=> D a1 a2; apply: (len2_eq _ _ HF1) => P Q z Hz; rewrite !smatB !mulmxBr !raddfB /= Ht //; congr (_ - _).
  by rewrite HF2 sliceE !state_mat !gauged_mat trmx_mul !mulmxA.
move=> D a1 a2; split=> // S1 S2.
have [c Ec Hc] := @dist_cost C n D p q (square n nz) g a1 a2 erefl Sg S1 S2 (psd_norm_herm PS).
have [c' Ec' Hc'] := @dist_cost C n D p q N' g' (gauged n ry a1) (gauged n rx a2) SN Sg' S1 S2 (psd_norm_herm PN).
exists c; split=> //; rewrite Ec'; congr Ok; move: Hc'; rewrite D2 Hc.
have -> : len2 n p q N' (target g') = len2 n p q (square n nz) (target g); last by move/addIr.
by apply: (len2_eq _ _ HF1) => P Q z Hz; rewrite Ht.
Qed.

(** if all gauge factors are kept the inverse undoes the gauge *)
Theorem C45_undone n p q (nz g : tensor) atol : shape nz = [:: n; n; n ^ 2]%N -> shape g = [:: n; n; p; q] -> 0 < atol ->
  regular n (overlap_y n nz) atol -> regular n (overlap_x n nz) atol ->
  exists N' g' xi yi rx ry, gauge_fix lqr lsvd rtol nz g atol = Ok (N', g', xi, yi, (rx, ry)) /\
   forall D p (a : tensor), shape a = [:: n; D; p] ->
     [/\ teq (gauged n yi (gauged n ry a)) a, teq (gauged n xi (gauged n rx a)) a,
         teq (gauged n ry (gauged n yi a)) a & teq (gauged n rx (gauged n xi a)) a].
Proof using Sq Ss.
move=> Sn Sg a0 Cy Cx; have a0' := Order.POrderTheory.ltW a0.
have [N' [g' [xi [yi [rx [ry [E [_ _ _ [Mx My Oy Ox _]]]]]]]]] := gaugeE Ss rtol Sq Sn Sg a0.
have Ky : mx_of n n yi *m mx_of n n ry = 1%:M by rewrite My pinv_left //; apply: sv_regular Cy.
have Kx : mx_of n n xi *m mx_of n n rx = 1%:M by rewrite Mx pinv_left //; apply: sv_regular Cx.
exists N', g', xi, yi, rx, ry; split=> // D p' a Sa.
have key R R' : mx_of n n R *m mx_of n n R' = 1%:M -> teq (gauged n R (gauged n R' a)) a.
  move=> K; split=> // v; rewrite [shape _]/= Sa; case: v => [|y [|u [|P [|? ?]]]] //=; rewrite ?andbF // => /and4P[Hy Hu HP _].
  have /matrixP/(_ (Ordinal Hy) (Ordinal Hu)) : amatP n D (gauged n R (gauged n R' a)) P = amatP n D a P.
    by rewrite !gauged_mat mulmxA K mul1mx.
  by rewrite mxE [RHS]mxE; apply.
by split; apply: key => //; apply: mulmx1C.
Qed.
End C45.

Section Overlap.
Variable C : numClosedFieldType.
Notation tensor := (tensor C).

(** an eigenvalue of a Gram matrix is bounded below by the form *)
Lemma eig_bound n m (F : nat -> nat -> C) (G : nat -> nat -> C) c l :
  (forall Y y, (Y < n)%N -> (y < n)%N -> G Y y = sumn m (fun k => (F k Y)^* * F k y)) ->
  (forall v : nat -> C, c * sumn n (fun y => `|v y| ^+ 2) <= sumn m (fun k => `|sumn n (fun y => F k y * v y)| ^+ 2)) ->
  eigval1 n G l -> c <= l.
Proof.
move=> HG Hc [v [y Hy vy] Hv].
have v0 : 0 < sumn n (fun y => `|v y| ^+ 2).
  rewrite /sumn (bigD1 (Ordinal Hy)) //= ltr_paddr // ?exprn_gt0 ?normr_gt0 // sumr_ge0 // => i _.
  by rewrite exprn_ge0.
rewrite -(ler_pmul2r v0); apply: Order.POrderTheory.le_trans (Hc v) _; rewrite Order.POrderTheory.le_eqVlt; apply/orP; left; apply/eqP.
transitivity (sumn n (fun Y => (v Y)^* * sumn n (fun y => G Y y * v y))); last first.
  rewrite sumn_mull; apply: eq_sumn => Y HY; rewrite Hv // normCK mulrCA; congr (_ * _); exact: mulrC.
transitivity (sumn m (fun k => sumn n (fun Y => (v Y)^* * (F k Y)^* * sumn n (fun y => F k y * v y)))).
  apply: eq_sumn => k _; rewrite normCK mulrC sumn_conj sumn_mulr; apply: eq_sumn => Y _.
  by rewrite rmorphM [(v Y)^* * _]mulrC.
rewrite sumnC; apply: eq_sumn => Y HY.
transitivity (sumn m (fun k => sumn n (fun y => (v Y)^* * ((F k Y)^* * F k y * v y)))).
  by apply: eq_sumn => k _; rewrite sumn_mull; apply: eq_sumn => z _; rewrite !mulrA.
rewrite sumnC sumn_mull; apply: eq_sumn => z Hz; rewrite HG // sumn_mulr sumn_mull; apply: eq_sumn => k _.
by [].
Qed.

Lemma pair_sum n m (f : nat -> nat -> C) : sumn m (fun z => sumn n (fun x => f z x)) = sumn (m * n) (fun k => f (k %/ n)%N (k %% n)%N).
Proof.
pose F w := f (nth 0 w 0)%N (nth 0 w 1)%N.
transitivity (\sum_(i < m * n) F (unravel [:: m; n] i)); first by rewrite sum2.
by apply: eq_bigr => i _; rewrite /F /= !muln1 divn1.
Qed.

Section Bound.
Variables (n : nat) (nz : tensor) (c : C).
Hypothesis Ha : above n (square n nz) c.

Lemma above_nform v : c * vlen n v <= sumn (n ^ 2) (fun z => `|sumn n (fun y => sumn n (fun x => at_ nz [:: y; x; z] * v y x))| ^+ 2).
Proof using Ha.
apply: Order.POrderTheory.le_trans (Ha v) _; rewrite (nform_gram _ (fun y x Y X _ _ _ _ => squareG n nz y x Y X)).
rewrite Order.POrderTheory.le_eqVlt; apply/orP; left; apply/eqP; apply: eq_sumn => z _; rewrite tr_prod.
by congr (`|_| ^+ 2); apply: eq_bigr => y _; apply: eq_bigr => x _; rewrite !mxE.
Qed.

Lemma bound_y l : eigval1 n (overlap_y n nz) l -> c *+ n <= l.
Proof using Ha.
apply: (@eig_bound n (n ^ 2 * n) (fun k y => at_ nz [:: y; (k %% n); (k %/ n)]%N)).
  by move=> Y y _ _; rewrite /overlap_y (pair_sum _ _ (fun z x => (at_ nz [:: Y; x; z])^* * at_ nz [:: y; x; z])).
move=> v; rewrite -(pair_sum _ _ (fun z x => `|sumn n (fun y => at_ nz [:: y; x; z] * v y)| ^+ 2)) sumnC.
rewrite mulrnAl -mulr_natr -[n in n%:R]card_ord -sumr_const mulr_sumr; apply: ler_sum => x _; rewrite mulr1.
have := above_nform (fun y x' => v y *+ (x' == x)); rewrite /vlen.
rewrite (eq_sumn (G := fun y => `|v y| ^+ 2)) => [H|y _]; last first.
  rewrite (eq_sumn (G := fun x' => `|v y| ^+ 2 *+ (x' == x))) ?sumn_delta // => x' _.
  by case: eqP => _; rewrite ?mulr1n // !mulr0n normr0 expr0n.
apply: Order.POrderTheory.le_trans H _; rewrite Order.POrderTheory.le_eqVlt; apply/orP; left; apply/eqP; apply: eq_sumn => z _.
congr (`|_| ^+ 2); apply: eq_sumn => y _.
by rewrite (eq_sumn (G := fun x' => (at_ nz [:: y; x'; z] * v y) *+ (x' == x))) ?sumn_delta // => x' _; rewrite mulrnAr.
Qed.

Lemma bound_x l : eigval1 n (overlap_x n nz) l -> c *+ n <= l.
Proof using Ha.
apply: (@eig_bound n (n ^ 2 * n) (fun k x => at_ nz [:: (k %% n); x; (k %/ n)]%N)).
  by move=> X x _ _; rewrite /overlap_x (pair_sum _ _ (fun z y => (at_ nz [:: y; X; z])^* * at_ nz [:: y; x; z])).
move=> v; rewrite -(pair_sum _ _ (fun z y => `|sumn n (fun x => at_ nz [:: y; x; z] * v x)| ^+ 2)) sumnC.
rewrite mulrnAl -mulr_natr -[n in n%:R]card_ord -sumr_const mulr_sumr; apply: ler_sum => y _; rewrite mulr1.
have := above_nform (fun y' x => v x *+ (y' == y)); rewrite /vlen sumnC.
rewrite (eq_sumn (G := fun y => `|v y| ^+ 2)) => [H|x _]; last first.
  rewrite (eq_sumn (G := fun y' => `|v x| ^+ 2 *+ (y' == y))) ?sumn_delta // => y' _.
  by case: eqP => _; rewrite ?mulr1n // !mulr0n normr0 expr0n.
apply: Order.POrderTheory.le_trans H _; rewrite Order.POrderTheory.le_eqVlt; apply/orP; left; apply/eqP; apply: eq_sumn => z _.
congr (`|_| ^+ 2); rewrite sumnC; apply: eq_sumn => x _.
by rewrite (eq_sumn (G := fun y' => (at_ nz [:: y'; x; z] * v x) *+ (y' == y))) ?sumn_delta // => y' _; rewrite mulrnAr.
Qed.
End Bound.
End Overlap.

Section More.
Variable C : numClosedFieldType.
Notation tensor := (tensor C).
Variable lqr : qr_fun C.
Variable lsvd : thin_svd_fun C.
Variable fsvd : full_svd_fun C.
Variable leigh : eigh_fun C.
Variable rtol : nat -> nat -> C.
Hypothesis Sq : qr_spec lqr.
Hypothesis Ss : thin_svd_spec lsvd.
Hypothesis Sf : full_svd_spec fsvd.
Hypothesis Se : eigh_spec leigh.

(** after the positive approximation no gauge factor is cut off if
    atol^2 < n cutoff, which holds for the default values 1e-12 of both *)
Theorem C45_after_positive n (N : tensor) cutoff atol fuel : (0 < n)%N -> shape N = [:: n; n; n; n] -> 0 <= cutoff ->
  (forall m (A : 'M[C]_m), leigh A) -> atol ^+ 2 < cutoff *+ n ->
  exists nz, [/\ positive_approx fsvd leigh fuel.+1 cutoff N = Some (Ok nz), shape nz = [:: n; n; n ^ 2]%N,
    regular n (overlap_y n nz) atol & regular n (overlap_x n nz) atol].
Proof using Sf Se.
move=> n0 SN c0 tot Hat; have [t [d [E St d0 [_ Et] [A _]]]] := C44_positive Se Sf fuel n0 SN c0 tot.
have At : above n (square n t) cutoff.
  move=> v; apply: Order.POrderTheory.le_trans (A v) _; rewrite Order.POrderTheory.le_eqVlt; apply/orP; left; apply/eqP.
  by apply: eq_sumn => y Hy; apply: eq_sumn => x Hx; apply: eq_sumn => Y HY; apply: eq_sumn => X HX; rewrite Et //= Hy Hx HY HX.
exists t; split=> // l Hl; apply: Order.POrderTheory.lt_le_trans Hat _; [exact: bound_y Hl|exact: bound_x Hl].
Qed.

(** the reduced tensors returned at the end are the balanced version of the
    solver's result with the gauge undone *)
Theorem C45_finalize n D p (xi yi a1 a2 : tensor) : shape xi = [:: n; n] -> shape yi = [:: n; n] ->
  shape a1 = [:: n; D; p] -> shape a2 = [:: n; D; p] -> (D <= n * p)%N ->
  let u := state D (gauged n yi a1) (gauged n xi a2) in
  ((forall y x P Q, (y < n)%N -> (x < n)%N -> (P < p)%N -> (Q < p)%N -> u P Q y x = 0) /\
   finalize_reduced_tensors lqr fsvd (Some (xi, yi)) a1 a2 = Err ZeroNorm) \/
  exists b1 b2 c, [/\ finalize_reduced_tensors lqr fsvd (Some (xi, yi)) a1 a2 = Ok (b1, b2),
    shape b1 = [:: n; D; p] /\ shape b2 = [:: n; D; p],
    0 < c /\ (forall y x P Q, (y < n)%N -> (x < n)%N -> (P < p)%N -> (Q < p)%N -> state D b1 b2 P Q y x = c * u P Q y x) &
    total n D p b1 b2 = 1].
Proof using Sq Sf.
move=> Sx Sy S1 S2 HD u.
have [b1 [E1 T1 H1]] : exists t, [/\ einsum "yz,zup->yup" [:: yi; a1] = Ok t, shape t = [:: n; D; p]%N &
    forall y u P, at_ t [:: y; u; P] = sumn n (fun z => at_ yi [:: y; z] * at_ a1 [:: z; u; P])].
  by rewrite /einsum /= Sy S1 /= /dims_ok /= ?eqxx /=; eexists; split=> // *; rewrite /= /factor /=.
have [b2 [E2 T2 H2]] : exists t, [/\ einsum "xw,wvq->xvq" [:: xi; a2] = Ok t, shape t = [:: n; D; p]%N &
    forall x v Q, at_ t [:: x; v; Q] = sumn n (fun w => at_ xi [:: x; w] * at_ a2 [:: w; v; Q])].
  by rewrite /einsum /= Sx S2 /= /dims_ok /= ?eqxx /=; eexists; split=> // *; rewrite /= /factor /=.
have Eu P Q y x : state D b1 b2 P Q y x = u P Q y x by apply: eq_sumn => k _; rewrite H1 H2.
have EF : finalize_reduced_tensors lqr fsvd (Some (xi, yi)) a1 a2 = finalize_reduced_tensors lqr fsvd None b1 b2.
  by rewrite {1}/finalize_reduced_tensors E1 [bind (Ok b1) _]/bind E2.
rewrite EF; have [[Z ->]|[c1 [c2 [c [w [-> Sc [c0 St] T _]]]]]] := C46_balance T1 T2 HD Sq Sf; [left|right].
  by split=> // y x P Q Hy Hx HP HQ; rewrite -Eu Z.
by exists c1, c2, c; split=> //; split=> // y x P Q Hy Hx HP HQ; rewrite -Eu St.
Qed.

(** whatever the configuration, the norm tensor handed to the solver is positive,
    so that the half-steps of C41 and C42 apply *)
Theorem C45_solver_norm n p q cfg (nz g : tensor) : shape nz = [:: n; n; n ^ 2]%N -> shape g = [:: n; n; p; q] -> 0 < gauge_fix_atol cfg ->
  exists N' g' gauge, [/\ precondition_norm_tensor lqr lsvd rtol cfg nz g = Ok (N', g', gauge), shape N' = [:: n; n; n; n],
    shape g' = [:: n; n; p; q], norm_psd n N' & use_gauge_fix cfg = false -> [/\ gauge = None, g' = g & teq N' (square n nz)]].
Proof using Sq Ss.
move=> Sn Sg a0; rewrite /precondition_norm_tensor; case: (use_gauge_fix cfg).
  have [N' [g' [xi [yi [rx [ry [-> [[SN Sg' _ _] [F [HF _]] _ _]]]]]]]] := gaugeE Ss rtol Sq Sn Sg a0.
  by eexists _, _, _; split=> //; exact: (gram_psd4 (fun y x Y X _ _ _ _ => HF y x Y X)).
have [N' [-> SN HN]] : exists t, [/\ einsum "xyz,XYz->xyXY" [:: nz; conj nz] = Ok t, shape t = [:: n; n; n; n]%N &
    forall v w V W, at_ t [:: v; w; V; W] = sumn (n ^ 2) (fun z => at_ nz [:: v; w; z] * (at_ nz [:: V; W; z])^* )].
  by rewrite /einsum /= Sn /= /dims_ok /= ?eqxx /=; eexists; split=> // *; rewrite /= /factor /=.
eexists _, _, _; split=> //; first exact: (gram_psd4 (fun y x Y X _ _ _ _ => HN y x Y X)).
move=> _; split=> //; split=> // v; rewrite SN; case: v => [|y [|x [|Y [|X [|? ?]]]]] //=; rewrite ?andbF //.
Qed.
End More.

(** a norm tensor with entries of both signs: after the positive approximation
    with the default cutoffs the gauge factors are regular, so all of the above
    applies *)
Example C45_example (C : numClosedFieldType) (N : tensor C) : shape N = [:: 2; 2; 2; 2]%N ->
  let e : C := (10 ^ 12)%:R^-1 in
  exists nz, [/\ positive_approx (@some_full_svd C) (@some_eigh C) 1 e N = Some (Ok nz), shape nz = [:: 2; 2; 4]%N,
    regular 2 (overlap_y 2 nz) e & regular 2 (overlap_x 2 nz) e].
Proof.
move=> SN e.
have T0 : 0 < (10 ^ 12)%:R :> C by rewrite natrX exprn_gt0 // ltr0n.
have e0 : 0 < e by rewrite invr_gt0.
have [] := @C45_after_positive C (@some_full_svd C) (@some_eigh C) (@some_full_svd_spec C) (@some_eigh_spec C) 2 N e e 0 isT SN (Order.POrderTheory.ltW e0) (fun m A => erefl).
  rewrite expr2 mulr2n (Order.POrderTheory.lt_trans (_ : _ < e)) //; last by rewrite ltr_addl.
  by rewrite gtr_pmulr // invf_lt1 // natrX exprn_egt1 // ltr1n.
by move=> nz H; exists nz.
Qed.

Print Assumptions C45_same_problem.
Print Assumptions C45_undone.
Print Assumptions C45_after_positive.
Print Assumptions C45_finalize.
Print Assumptions C45_solver_norm.
