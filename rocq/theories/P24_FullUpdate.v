(** C67: the full update of a bond (acetn/evolution/full_update.py,
    tensor_update.py), from the site tensors to the site tensors. *)
From Coq Require Import String Ascii.
From mathcomp Require Import all_ssreflect all_algebra.
From Verif Require Import Base Lattice Mover Tensor TN Rdm RdmFacts FullUpdate Linalg Mat Rsvd RsvdFacts Renorm RenormFacts Spectral ProjFacts Psd Als AlsFacts EighChol UpdFacts P09_Rdm P16_Als P17_Reduced P18_Positive P19_Gauge Eckart P20_Simple P22_SimpleUpdate P23_Solver.
Set Implicit Arguments.
Unset Strict Implicit.
Unset Printing Implicit Defensive.
Import GRing.Theory Num.Theory.
Local Open Scope ring_scope.
Local Open Scope string_scope.

(** ---- specification ---- *)
Section Spec.
Variable C : numClosedFieldType.
Notation tensor := (tensor C).
Notation pair := (nat -> nat -> nat -> nat -> C).

(** a pair vector with a matrix applied to each of its two legs *)
Definition dress n (W1 W2 : tensor) (v : nat -> nat -> C) (y x : nat) : C :=
  sumn n (fun y' => sumn n (fun x' => at_ W1 [:: y; y'] * at_ W2 [:: x; x'] * v y' x')).
(** the n x n matrices W and V are inverse to each other *)
Definition inverse n (W V : tensor) : Prop := forall i j, (i < n)%N -> (j < n)%N ->
  sumn n (fun k => at_ W [:: i; k] * at_ V [:: k; j]) = (i == j)%:R.
End Spec.

Section Facts.
Variable C : numClosedFieldType.
Notation tensor := (tensor C).
Notation pair := (nat -> nat -> nat -> nat -> C).

Lemma smat_dress n (W1 W2 : tensor) v : smat n (dress n W1 W2 v) = mx_of n n W1 *m smat n v *m (mx_of n n W2)^T.
Proof.
apply/matrixP => y x; rewrite mxE [RHS]mxE /dress; transitivity (sumn n (fun x' => sumn n (fun y' => at_ W1 [:: y : nat; y'] * at_ W2 [:: x : nat; x'] * v y' x'))).
  by rewrite sumnC.
apply: eq_bigr => x' _; rewrite !mxE big_distrl /=; apply: eq_bigr => y' _; rewrite !mxE.
by rewrite -!mulrA; congr (_ * _); rewrite mulrC.
Qed.

Lemma inverseE n (W V : tensor) : inverse n W V <-> mx_of n n W *m mx_of n n V = 1%:M.
Proof.
split=> [H|H i j Hi Hj].
  by apply/matrixP => i j; rewrite !mxE -[RHS](H i j) //; apply: eq_bigr => k _; rewrite !mxE.
have /matrixP/(_ (Ordinal Hi) (Ordinal Hj)) := H; rewrite !mxE => <-.
by apply: eq_bigr => k _; rewrite !mxE.
Qed.

Lemma inverse_sym n (W V : tensor) : inverse n W V -> inverse n V W.
Proof. by move/inverseE/mulmx1C/inverseE. Qed.

Lemma mx_eye n : mx_of n n (eye C n) = 1%:M.
Proof. by apply/matrixP => i j; rewrite !mxE. Qed.

(** equal on the range *)
Lemma nform_ext n (N M : tensor) u v : (forall y x Y X, (y < n)%N -> (x < n)%N -> (Y < n)%N -> (X < n)%N -> at_ N [:: y; x; Y; X] = at_ M [:: y; x; Y; X]) ->
  (forall y x, (y < n)%N -> (x < n)%N -> u y x = v y x) -> nform n N u u = nform n M v v.
Proof.
move=> HN H; apply: eq_sumn => y Hy; apply: eq_sumn => x Hx; apply: eq_sumn => Y HY; apply: eq_sumn => X HX.
by rewrite HN // !H.
Qed.

Lemma len2_ext n p q (N M : tensor) (f g : pair) :
  (forall y x Y X, (y < n)%N -> (x < n)%N -> (Y < n)%N -> (X < n)%N -> at_ N [:: y; x; Y; X] = at_ M [:: y; x; Y; X]) ->
  (forall P Q y x, (P < p)%N -> (Q < q)%N -> (y < n)%N -> (x < n)%N -> f P Q y x = g P Q y x) -> len2 n p q N f = len2 n p q M g.
Proof. by move=> HN H; apply: eq_sumn => Q HQ; apply: eq_sumn => P HP; apply: nform_ext => // y x Hy Hx; rewrite H. Qed.

Lemma teq4 n (N M : tensor) : shape N = [:: n; n; n; n] -> teq N M ->
  forall y x Y X, (y < n)%N -> (x < n)%N -> (Y < n)%N -> (X < n)%N -> at_ N [:: y; x; Y; X] = at_ M [:: y; x; Y; X].
Proof. by move=> SN [_ H] y x Y X Hy Hx HY HX; apply: H; rewrite SN /= Hy Hx HY HX. Qed.
Lemma teq3 n D p (a b : tensor) : shape a = [:: n; D; p] -> teq a b ->
  forall y u P, (y < n)%N -> (u < D)%N -> (P < p)%N -> at_ a [:: y; u; P] = at_ b [:: y; u; P].
Proof. by move=> SN [_ H] y u P Hy Hu HP; apply: H; rewrite SN /= Hy Hu HP. Qed.

Lemma state_ext n D p (a1 a2 b1 b2 : tensor) :
  (forall y u P, (y < n)%N -> (u < D)%N -> (P < p)%N -> at_ a1 [:: y; u; P] = at_ b1 [:: y; u; P]) ->
  (forall y u P, (y < n)%N -> (u < D)%N -> (P < p)%N -> at_ a2 [:: y; u; P] = at_ b2 [:: y; u; P]) ->
  forall P Q y x, (P < p)%N -> (Q < p)%N -> (y < n)%N -> (x < n)%N -> state D a1 a2 P Q y x = state D b1 b2 P Q y x.
Proof. by move=> H1 H2 P Q y x HP HQ Hy Hx; apply: eq_sumn => u Hu; rewrite H1 // H2. Qed.

(** a positive norm tensor is Hermitian, entry by entry *)
Lemma norm_psd_herm n (N : tensor) : norm_psd n N -> norm_herm n N.
Proof.
move=> /psd_norm_herm H y x Y X Hy Hx HY HX.
have R y' x' : (y' < n)%N -> (x' < n)%N -> exists i : 'I_(n * n), unravel [:: n; n] i = [:: y'; x'].
  move=> Hy' Hx'; have HI : in_range [:: n; n] [:: y'; x'] by rewrite /= Hy' Hx'.
  have Hi : (ravel [:: n; n] [:: y'; x'] < n * n)%N by have := ravel_lt HI; rewrite /= muln1.
  by exists (Ordinal Hi); rewrite -[RHS](ravelK HI).
have [i Ei] := R y x Hy Hx; have [j Ej] := R Y X HY HX.
have /matrixP/(_ i j) := H; by rewrite adjE /nmat !mxE Ei Ej.
Qed.
End Facts.

(** ---- the problem the solver is given ---- *)
Section Problem.
Variable C : numClosedFieldType.
Notation tensor := (tensor C).
Notation pair := (nat -> nat -> nat -> nat -> C).
Variable lqr : qr_fun C.
Variable lsvd : thin_svd_fun C.
Variable fsvd : full_svd_fun C.
Variable leigh : eigh_fun C.
Variable lchol : chol_fun C.
Variable rtol : nat -> nat -> C.
Variable cfg : econfig C.
Hypothesis Sq : qr_spec lqr.
Hypothesis Ss : thin_svd_spec lsvd.
Hypothesis Sf : full_svd_spec fsvd.
Hypothesis Se : eigh_spec leigh.

Lemma gauged_eye n D p (a : tensor) : shape a = [:: n; D; p] ->
  forall y u P, (y < n)%N -> (u < D)%N -> (P < p)%N -> at_ (gauged n (eye C n) a) [:: y; u; P] = at_ a [:: y; u; P].
Proof.
move=> Sa y u P Hy Hu HP; have /matrixP/(_ (Ordinal Hy) (Ordinal Hu)) : amatP n D (gauged n (eye C n) a) P = amatP n D a P.
  by rewrite gauged_mat mx_eye mul1mx.
by rewrite mxE [RHS]mxE.
Qed.

(** the factors of a real matrix are real, as they are for a real dtype *)
Definition real_qr : Prop := forall m n (A : 'M[C]_(m, n)), rl A -> rl (lqr A).1 /\ rl (lqr A).2.
Definition real_eigh : Prop := forall n (A : 'M[C]_n) w V, rl A -> leigh A = Some (w, V) -> rl V.
Definition real4 n (N : tensor) : Prop := forall y x Y X, (y < n)%N -> (x < n)%N -> (Y < n)%N -> (X < n)%N -> at_ N [:: y; x; Y; X] \is Num.real.

Lemma of_mx_real m n (A : 'M[C]_(m, n)) i : rl A -> at_ (of_mx A) i \is Num.real.
Proof.
move=> H; rewrite /of_mx /=; case: i => [|a [|b [|? ?]]]; rewrite ?rpred0 //.
by case: (insub a : option 'I_m) => [a'|]; case: (insub b : option 'I_n) => [b'|]; rewrite ?rpred0 //; apply: H.
Qed.

Lemma side_real n (t : tensor) : shape t = [:: n ^ 2; n; n]%N -> real_qr ->
  (forall z x y, (z < n ^ 2)%N -> (x < n)%N -> (y < n)%N -> at_ t [:: z; x; y] \is Num.real) ->
  exists t2 q r, [/\ reshape t [:: n ^ 3; n]%N = Ok t2, qr lqr t2 = Ok (q, r) & rl (mx_of n n r)].
Proof.
move=> St Rq Rt.
have n3 : (n ^ 3)%N = numel [:: n ^ 2; n]%N by rewrite /= muln1 !expnS expn0 !muln1 mulnA.
have n1 : n = numel [:: n] by rewrite /= muln1.
have [t2 [E2 S2 M2]] := @reshape2 C [:: n ^ 2; n]%N [:: n] (n ^ 3)%N n t St n3 n1.
case E: (lqr (mat (n ^ 3) n [:: n ^ 2; n]%N [:: n] t)) => [Q R].
exists t2, (of_mx Q), (of_mx R); rewrite E2 /qr S2 M2 E; split=> // i j.
rewrite mxE; apply: of_mx_real.
have [|_] := Rq _ _ (mat (n ^ 3) n [:: n ^ 2; n]%N [:: n] t); last by rewrite E.
move=> a b; rewrite mxE unravel1 //.
have := unravel_range (sh := [:: n ^ 2; n]%N) (i := a); rewrite -n3 => /(_ (ltn_ord a)).
case: (unravel _ a) => [|z [|x [|? ?]]] //=; rewrite ?andbF // => /and3P[Hz Hx _]; exact: Rt.
Qed.

Lemma gauge_real n p q (nz g : tensor) atol N' g' xi yi rx ry : shape nz = [:: n; n; n ^ 2]%N -> shape g = [:: n; n; p; q] -> real_qr ->
  (forall y x z, (y < n)%N -> (x < n)%N -> (z < n ^ 2)%N -> at_ nz [:: y; x; z] \is Num.real) ->
  gauge_fix lqr lsvd rtol nz g atol = Ok (N', g', xi, yi, (rx, ry)) -> rl (mx_of n n ry) /\ rl (mx_of n n rx).
Proof.
move=> Sn Sg Rq Rn; rewrite /gauge_fix Sg.
have [t1 [-> T1 ET1]] : exists t, [/\ einsum "yxz->zxy" [:: nz] = Ok t, shape t = [:: n ^ 2; n; n]%N & forall z x y, at_ t [:: z; x; y] = at_ nz [:: y; x; z]].
  by rewrite /einsum /= Sn /= /dims_ok /= ?eqxx /=; eexists; split=> // *; rewrite /= /factor /= mulr1.
have [t2 [E2 T2 ET2]] : exists t, [/\ einsum "yxz->zyx" [:: nz] = Ok t, shape t = [:: n ^ 2; n; n]%N & forall z y x, at_ t [:: z; y; x] = at_ nz [:: y; x; z]].
  by rewrite /einsum /= Sn /= /dims_ok /= ?eqxx /=; eexists; split=> // *; rewrite /= /factor /= mulr1.
have [|t1' [q1 [ry' [F1 Q1 R1]]]] := side_real T1 Rq; first by move=> z x y Hz Hx Hy; rewrite ET1 Rn.
have [|t2' [q2 [rx' [F2 Q2 R2]]]] := side_real T2 Rq; first by move=> z x y Hz Hx Hy; rewrite ET2 Rn.
rewrite [bind (Ok t1) _]/bind F1 [bind (Ok t1') _]/bind Q1 [bind (Ok (q1, _)) _]/bind E2 [bind (Ok t2) _]/bind F2 [bind (Ok t2') _]/bind.
rewrite Q2 [bind (Ok (q2, _)) _]/bind.
case: (pinv _ _ _ ry') => // yi'; rewrite [bind (Ok _) _]/bind; case: (pinv _ _ _ rx') => // xi'; rewrite [bind (Ok _) _]/bind.
case: (einsum _ _) => // u1; rewrite [bind (Ok _) _]/bind; case: (einsum _ _) => // u2; rewrite [bind (Ok _) _]/bind.
case: (einsum _ _) => // u3; rewrite [bind (Ok _) _]/bind; case: (einsum _ _) => // u4; rewrite [bind (Ok _) _]/bind.
by case: (einsum _ _) => // u5 [_ _ _ _ <- <-].
Qed.

Lemma pos_real n (N nz : tensor) cutoff fuel : (0 < n)%N -> shape N = [:: n; n; n; n] -> 0 <= cutoff -> (forall m (A : 'M[C]_m), leigh A) ->
  real_eigh -> real4 n N -> positive_approx fsvd leigh fuel.+1 cutoff N = Some (Ok nz) ->
  forall y x z, (y < n)%N -> (x < n)%N -> (z < n ^ 2)%N -> at_ nz [:: y; x; z] \is Num.real.
Proof using Se Sf.
move=> n0 SN c0 tot Re RN EP; have [k Ek] : exists k, k.+1 = (n ^ 2)%N by exists (n ^ 2).-1; rewrite prednK // expn_gt0 n0.
have [d [N' [w [V [E [EN El d0 L H0]]]]]] := @one_shift C fsvd leigh cutoff Se Sf k fuel (mat k.+1 k.+1 [:: n; n] [:: n; n] N) tot (ger0_real c0).
have [_ /(_ _ _ _ E) [t [Et St Mt]]] := @posE C fsvd leigh cutoff n k N fuel.+1 Ek SN.
move: Et; rewrite EP => -[Et]; rewrite -{}Et in St Mt.
have := Se N'; rewrite El => -[V1 wr wm EV].
have w0 i : 0 <= w 0 i by apply: Order.POrderTheory.le_trans (wm 0 i (leq0n i)); apply: Order.POrderTheory.le_trans L.
have RM : rl (mat k.+1 k.+1 [:: n; n] [:: n; n] N).
  move=> i j; rewrite mxE.
  have R (a : 'I_k.+1) : exists y x, [/\ (y < n)%N, (x < n)%N & unravel [:: n; n] a = [:: y; x]].
    have := @unravel_range [:: n; n] a; have Ha : (a < numel [:: n; n])%N by rewrite /= muln1 mulnn -Ek.
    move=> /(_ Ha); case: (unravel _ a) => [|y [|x [|? ?]]] //=; rewrite ?andbF // => /and3P[Hy Hx _].
    by exists y, x.
  have [y [x [Hy Hx ->]]] := R i; have [Y [X [HY HX ->]]] := R j; exact: RN.
have RV : rl V.
  apply: (Re _ _ w _ _ El); rewrite EN => i j; rewrite !mxE rpredD //; first by have := RM i j; rewrite mxE.
  by rewrite rpredMn // ger0_real.
move=> y x z Hy Hx Hz; have [i Ei] := ordP Ek Hy Hx; rewrite -Ek in Hz.
have /matrixP/(_ i (Ordinal Hz)) := Mt; rewrite mul_mx_diag [LHS]mxE [RHS]mxE Ei unravel1 //= => ->.
by rewrite rpredM // mxE ger0_real // sqrtC_ge0.
Qed.

Lemma problem n p q (nz g : tensor) : shape nz = [:: n; n; n ^ 2]%N -> shape g = [:: n; n; p; q] ->
  (use_gauge_fix cfg -> [/\ 0 < gauge_fix_atol cfg, regular n (overlap_y n nz) (gauge_fix_atol cfg) & regular n (overlap_x n nz) (gauge_fix_atol cfg)]) ->
  exists N' g' gauge W1 W2 V1 V2, [/\ precondition_norm_tensor lqr lsvd rtol cfg nz g = Ok (N', g', gauge),
    [/\ shape N' = [:: n; n; n; n], shape g' = [:: n; n; p; q], norm_psd n N' & inverse n W1 V1 /\ inverse n W2 V2],
    forall v, nform n N' (dress n W1 W2 v) (dress n W1 W2 v) = nform n (square n nz) v v,
    forall P Q, smat n (target g' P Q) = smat n (dress n W1 W2 (target g P Q)) &
    (forall D a1 a2, shape a1 = [:: n; D; p] -> shape a2 = [:: n; D; q] -> exists t1 t2,
      [/\ finalize_reduced_tensors lqr fsvd gauge a1 a2 = finalize_reduced_tensors lqr fsvd None t1 t2,
          shape t1 = [:: n; D; p] /\ shape t2 = [:: n; D; q],
          forall y u P, (y < n)%N -> (u < D)%N -> (P < p)%N -> at_ t1 [:: y; u; P] = at_ (gauged n V1 a1) [:: y; u; P] &
          forall y u P, (y < n)%N -> (u < D)%N -> (P < q)%N -> at_ t2 [:: y; u; P] = at_ (gauged n V2 a2) [:: y; u; P]]) /\
    (use_gauge_fix cfg = false -> W1 = eye C n /\ W2 = eye C n) /\
    (real_qr -> (forall y x z, (y < n)%N -> (x < n)%N -> (z < n ^ 2)%N -> at_ nz [:: y; x; z] \is Num.real) -> rl (mx_of n n W1) /\ rl (mx_of n n W2))].
Proof using Sq Ss.
move=> Sn Sg HG; rewrite /precondition_norm_tensor; case EG: (use_gauge_fix cfg) HG => HG.
  have {HG} [a0 Cy Cx] := HG isT; have a0' := Order.POrderTheory.ltW a0.
  have [N' [g' [xi [yi [rx [ry [EGF [[SN Sg' Sxi Syi] [F [HF1 HF2]] Hg [Mx My Oy Ox [Ky Kx]]]]]]]]]] := gaugeE Ss rtol Sq Sn Sg a0.
  rewrite EGF; have Ky1 : mx_of n n yi *m mx_of n n ry = 1%:M by rewrite My pinv_left //; apply: sv_regular Cy.
  have Kx1 : mx_of n n xi *m mx_of n n rx = 1%:M by rewrite Mx pinv_left //; apply: sv_regular Cx.
  exists N', g', (Some (xi, yi)), ry, rx, yi, xi; rewrite [bind (Ok _) _]/bind; split=> //.
  - split=> //; first by apply: (gram_psd4 (fun y x Y X _ _ _ _ => HF1 y x Y X)).
    by split; apply/inverseE/mulmx1C.
  - move=> v; rewrite (nform_gram _ (fun y x Y X _ _ _ _ => HF1 y x Y X)) (nform_gram _ (fun y x Y X _ _ _ _ => squareG n nz y x Y X)).
    apply: eq_sumn => z Hz; rewrite HF2 sliceE smat_dress.
    have -> // : mx_of n n yi *m (mx_of n n ry *m smat n v *m (mx_of n n rx)^T) *m (mx_of n n xi)^T = smat n v.
    by rewrite !mulmxA Ky1 mul1mx -mulmxA -trmx_mul Kx1 trmx1 mulmx1.
  - by move=> P Q; rewrite smat_dress.
  split; [move=> D a1 a2 S1 S2|by split=> // Rq Rn; apply: (gauge_real Sn Sg Rq Rn EGF)].
  have [b1 [E1 T1 H1]] : exists t, [/\ einsum "yz,zup->yup" [:: yi; a1] = Ok t, shape t = [:: n; D; p]%N &
      forall y u P, at_ t [:: y; u; P] = sumn n (fun z => at_ yi [:: y; z] * at_ a1 [:: z; u; P])].
    by rewrite /einsum /= Syi S1 /= /dims_ok /= ?eqxx /=; eexists; split=> // *; rewrite /= /factor /=.
  have [b2 [E2 T2 H2]] : exists t, [/\ einsum "xw,wvq->xvq" [:: xi; a2] = Ok t, shape t = [:: n; D; q]%N &
      forall x v Q, at_ t [:: x; v; Q] = sumn n (fun w => at_ xi [:: x; w] * at_ a2 [:: w; v; Q])].
    by rewrite /einsum /= Sxi S2 /= /dims_ok /= ?eqxx /=; eexists; split=> // *; rewrite /= /factor /=.
  exists b1, b2; split=> //; first by rewrite {1}/finalize_reduced_tensors E1 [bind (Ok b1) _]/bind E2.
  - by move=> y u P _ _ _; rewrite H1.
  by move=> y u P _ _ _; rewrite H2.
have [N' [-> SN HN]] : exists t, [/\ einsum "xyz,XYz->xyXY" [:: nz; conj nz] = Ok t, shape t = [:: n; n; n; n]%N &
    forall v w V W, at_ t [:: v; w; V; W] = sumn (n ^ 2) (fun z => at_ nz [:: v; w; z] * (at_ nz [:: V; W; z])^* )].
  by rewrite /einsum /= Sn /= /dims_ok /= ?eqxx /=; eexists; split=> // *; rewrite /= /factor /=.
exists N', g, None, (eye C n), (eye C n), (eye C n), (eye C n); rewrite [bind (Ok _) _]/bind; split=> //.
- split=> //; first exact: (gram_psd4 (fun y x Y X _ _ _ _ => HN y x Y X)).
  by split; apply/inverseE; rewrite mx_eye mulmx1.
- move=> v; apply: nform_ext => [y x Y X _ _ _ _|y x Hy Hx]; first by rewrite HN squareG.
  have /matrixP/(_ (Ordinal Hy) (Ordinal Hx)) := smat_dress n (eye C n) (eye C n) v.
  by rewrite mx_eye trmx1 mulmx1 mul1mx !mxE.
- by move=> P Q; rewrite smat_dress mx_eye trmx1 mulmx1 mul1mx.
split; last by split=> // _ _; rewrite mx_eye; split; apply: rl_scalar; rewrite rpred1.
by move=> D a1 a2 S1 S2; exists a1, a2; split=> // y u P Hy Hu HP; rewrite ?(gauged_eye S1) ?(gauged_eye S2) //.
Qed.
End Problem.

(** ---- a run of the solver ---- *)
Section Run.
Variable C : numClosedFieldType.
Notation tensor := (tensor C).
Notation pair := (nat -> nat -> nat -> nat -> C).
Variable fsvd : full_svd_fun C.
Variable leigh : eigh_fun C.
Variable lchol : chol_fun C.
Variable cfg : econfig C.
Hypothesis Sf : full_svd_spec fsvd.
Notation solve1 := (solve_a1r leigh lchol cfg).
Notation solve2 := (solve_a2r leigh lchol cfg).
Hypothesis Hm : als_method cfg = "cholesky" \/ als_method cfg = "pinv".

Lemma known (A : Prop) : als_method cfg <> "cholesky" -> als_method cfg <> "pinv" -> A.
Proof. by case: Hm => ->. Qed.

Variables (n D p : nat) (N g n12g : tensor).
Hypotheses (SN : shape N = [:: n; n; n; n]) (Sg : shape g = [:: n; n; p; p]) (PN : norm_psd n N).
Hypothesis Eg : einsum "yxYX,yxpq->YXpq" [:: N; g] = Ok n12g.
Notation good x := (shape x.1 = [:: n; D; p] /\ shape x.2 = [:: n; D; p]).
Notation sweeps := (sweeps leigh lchol cfg).

Lemma sweeps_total x j : good x -> (exists2 y, sweeps N n12g x j = Ok y & good y) \/ sweeps N n12g x j = Err RuntimeError.
Proof using Hm SN Sg Eg.
move=> Gx; elim: j => [|j [[y Ey Gy]|Ey]] /=; first by left; exists x.
  rewrite Ey [bind (Ok y) _]/bind.
  by case: (sweep_total leigh lchol cfg SN Sg Eg Gy) => [[z -> Gz]|[->|[M1 [M2 _]]]]; [left; exists z|right|exact: known].
by right; rewrite Ey.
Qed.

(** with the pseudoinverse and an eigh that does not fail, no sweep fails *)
Lemma solve_ar_pinv (R S : tensor) : shape R = [:: n; D; n; D] -> shape S = [:: n; D; p] -> als_method cfg = "pinv" ->
  (forall m (A : 'M[C]_m), leigh A) -> solve_ar leigh lchol cfg R S <> Err RuntimeError.
Proof.
move=> HR HS Mp tot; rewrite /solve_ar HS.
have nD : (n * D)%N = numel [:: n; D] by rewrite /= muln1.
have pE : p = numel [:: p] by rewrite /= muln1.
have [S2 [-> SS2 _]] := @reshape2 C [:: n; D] [:: p] (n * D) p S HS nD pE; rewrite [bind (Ok S2) _]/bind.
have [R2 [-> SR2 _]] := @reshape2 C [:: n; D] [:: n; D] (n * D) (n * D) R HR nD nD; rewrite [bind (Ok R2) _]/bind.
have [aS _] := adjointE SR2.
have [R3 [-> SR3]] : exists R3, [/\ tadd R2 (adjoint R2) = Ok R3 & shape R3 = [:: n * D; n * D]%N].
  by rewrite /tadd SR2 aS eqxx; eexists; split.
rewrite [bind (Ok R3) _]/bind; set R4 := tscale _ _; rewrite Mp /=.
rewrite /herm_pinv SR3 eqxx; case El: (leigh _) => [[w V]|]; last by have := tot _ (mx_of (n * D) (n * D) R4); rewrite El.
rewrite [bind (Ok _) _]/bind; set T := of_mx _.
have [Y [-> SY _]] := @matmulE C _ _ _ T S2 (erefl _) SS2; rewrite [bind (Ok Y) _]/bind.
by have [Z [-> _ _]] := @reshape_split C [:: n; D] [:: p] (n * D) p Y SY nD pE.
Qed.

Lemma sweeps_pinv x j : good x -> als_method cfg = "pinv" -> (forall m (A : 'M[C]_m), leigh A) ->
  exists2 y, sweeps N n12g x j = Ok y & good y.
Proof using Hm SN Sg Eg.
move=> Gx Mp tot; elim: j => [|j [y Ey Gy]] /=; first by exists x.
rewrite Ey [bind (Ok y) _]/bind; case: y Gy {Ey} => y1 y2 [_ /= S2]; rewrite /sweep /=.
have {}S2 : shape y2 = [:: n; D; p] by [].
have [a1 E1 S1] : exists2 a1, solve1 N n12g y2 = Ok a1 & shape a1 = [:: n; D; p].
  case: (solve1_total leigh lchol cfg SN Sg Eg S2) => [//|[E|[M1 [M2 _]]]]; last exact: known.
  have [a S1 _] := rmatP (0 : 'M[C]_(n * D, p)).
  have [g' Eg' [Sg' [R [S [ER ES SR SS _]]]]] := costE SN Sg S1 S2.
  move: Eg' ES E; rewrite Eg => -[<-] ES; rewrite /solve_a1r ES ER !/bind => E.
  by case: (solve_ar_pinv SR SS Mp tot E).
rewrite E1 [bind (Ok a1) _]/bind.
case: (solve2_total leigh lchol cfg SN Sg Eg S1) => [[a2 -> T2]|[E|[M1 [M2 _]]]]; [by exists (a1, a2)| |exact: known].
have [g' Eg' [R [S [ER ES SR SS _]]]] := costE2 SN Sg S1 S2.
move: Eg' ES E; rewrite Eg => -[<-] ES; rewrite /solve_a2r ES ER !/bind => E.
by case: (solve_ar_pinv SR SS Mp tot E).
Qed.

(** after at least one sweep the second tensor is the solution for the first *)
Lemma last_half x k y : good x -> sweeps N n12g x k.+1 = Ok y -> good y /\ solve2 N n12g y.1 = Ok y.2.
Proof using Hm SN Sg Eg.
move=> Gx /= H; case: (sweeps_total k Gx) => [[z Ez Gz]|E]; last by move: H; rewrite E.
move: H; rewrite Ez [bind (Ok z) _]/bind /sweep.
case: (solve1_total leigh lchol cfg SN Sg Eg Gz.2) => [[a1 -> S1]|[->|[M1 [M2 ->]]]] //; rewrite [bind (Ok a1) _]/bind.
case: (solve2_total leigh lchol cfg SN Sg Eg S1) => [[a2 E2 S2]|[->|[M1 [M2 ->]]]] //.
by rewrite E2 [bind (Ok a2) _]/bind => -[<-].
Qed.

(** exact sweeps: the result is no further from the target than any pair with
    the second tensor of the guess *)
Lemma beats_guess x k y : exact_method leigh lchol cfg -> good x -> sweeps N n12g x k.+1 = Ok y ->
  forall b, shape b = [:: n; D; p] -> dist2 n D p p N g y.1 y.2 <= dist2 n D p p N g b x.2.
Proof using Hm SN Sg PN Eg.
move=> Hex Gx; elim: k y => [|k IH] y H b Sb.
  move: H => /=; rewrite /sweep.
  case: (solve1_total leigh lchol cfg SN Sg Eg Gx.2) => [[a1 E1 S1]|[->|[M1 [M2 ->]]]] //; rewrite E1 [bind (Ok a1) _]/bind.
  case: (solve2_total leigh lchol cfg SN Sg Eg S1) => [[a2 E2 S2]|[->|[M1 [M2 ->]]]] //; rewrite E2 [bind (Ok a2) _]/bind => -[<-] /=.
  have [_ H1] := C41_half_step1 SN Sg Gx.2 PN Hex Eg E1.
  have [_ H2] := C41_half_step2 SN Sg S1 PN Hex Eg E2.
  exact: Order.POrderTheory.le_trans (H2 _ Gx.2) (H1 _ Sb).
case: (sweeps_total k.+1 Gx) => [[z Ez Gz]|E]; last by move: H; rewrite /= in E *; rewrite E.
apply: Order.POrderTheory.le_trans (IH z Ez b Sb).
have {}H : sweep leigh lchol cfg N n12g z = Ok y by move: H Ez => /= H Ez; move: H; rewrite Ez.
move: H; rewrite /sweep; case: (solve1_total leigh lchol cfg SN Sg Eg Gz.2) => [[a1 E1 S1]|[->|[M1 [M2 ->]]]] //; rewrite E1 [bind (Ok a1) _]/bind.
case: (solve2_total leigh lchol cfg SN Sg Eg S1) => [[a2 E2 S2]|[->|[M1 [M2 ->]]]] //; rewrite E2 [bind (Ok a2) _]/bind => -[<-] /=.
have [_ H1] := C41_half_step1 SN Sg Gz.2 PN Hex Eg E1.
have [_ H2] := C41_half_step2 SN Sg S1 PN Hex Eg E2.
exact: Order.POrderTheory.le_trans (H2 _ Gz.2) (H1 _ Gz.1).
Qed.
End Run.

Section RunSolve.
Variable C : numClosedFieldType.
Notation tensor := (tensor C).
Variable fsvd : full_svd_fun C.
Variable leigh : eigh_fun C.
Variable lchol : chol_fun C.
Variable cfg : econfig C.
Hypothesis Sf : full_svd_spec fsvd.
Hypothesis Hm : als_method cfg = "cholesky" \/ als_method cfg = "pinv".

(** the outcomes of the solver *)
Lemma solve_run n D p (N g : tensor) : shape N = [:: n; n; n; n] -> shape g = [:: n; n; p; p] -> norm_psd n N -> (0 < n * p)%N -> (D <= n * p)%N ->
  exists2 n12g, einsum "yxYX,yxpq->YXpq" [:: N; g] = Ok n12g &
  (initialize_reduced_tensors fsvd g n D p = Err ZeroNorm /\ als_solve fsvd leigh lchol cfg N g n D p = Err ZeroNorm) \/
  exists x, [/\ initialize_reduced_tensors fsvd g n D p = Ok x, shape x.1 = [:: n; D; p] /\ shape x.2 = [:: n; D; p] &
    exists k, [/\ (0 < als_niter cfg)%N -> (0 < k)%N, als_solve fsvd leigh lchol cfg N g n D p = sweeps leigh lchol cfg N n12g x k &
      sweeps leigh lchol cfg N n12g x k = Err RuntimeError \/
      exists2 y, sweeps leigh lchol cfg N n12g x k = Ok y & shape y.1 = [:: n; D; p] /\ shape y.2 = [:: n; D; p]]].
Proof using Sf Hm.
move=> SN Sg PN np HD; have [n12g Eg H] := C40_solver fsvd leigh lchol cfg D SN Sg (norm_psd_herm PN); exists n12g => //.
have [U [Vh [s [_ _ _ _ HI]]]] := guessE Sf Sg np HD.
move: H; case: ifP HI => [_ EI|_ [b1 [b2 [EI [S1 S2] _ _]]]]; rewrite EI; first by left.
case=> k [k1 E k2 _]; right; exists (b1, b2); split=> //; exists k; split=> //.
  move=> k0; case: k k1 k2 {E} => // _ /(_ k0) [[e]|[]] //.
by case: (@sweeps_total _ leigh lchol cfg Hm n D p N g n12g SN Sg Eg (b1, b2) k) => // [[y Ey Gy]|Ey]; [right; exists y|left].
Qed.
End RunSolve.

(** ---- the update of the reduced tensors ---- *)
Section Reduced.
Variable C : numClosedFieldType.
Notation tensor := (tensor C).
Notation pair := (nat -> nat -> nat -> nat -> C).
Variable lqr : qr_fun C.
Variable lsvd : thin_svd_fun C.
Variable fsvd : full_svd_fun C.
Variable leigh : eigh_fun C.
Variable lchol : chol_fun C.
Variable rtol : nat -> nat -> C.
Variable cfg : econfig C.
Hypothesis Sq : qr_spec lqr.
Hypothesis Ss : thin_svd_spec lsvd.
Hypothesis Sf : full_svd_spec fsvd.
Hypothesis Se : eigh_spec leigh.
Hypothesis Hm : als_method cfg = "cholesky" \/ als_method cfg = "pinv".
Hypothesis tot : forall m (A : 'M[C]_m), leigh A.
Notation cutoff := (positive_approx_cutoff cfg).
Hypothesis c0 : 0 <= cutoff.

Lemma goalE n D p (a1 a2 gate : tensor) : shape a1 = [:: n; D; p] -> shape a2 = [:: n; D; p] -> shape gate = [:: p; p; p; p] ->
  exists t g, [/\ einsum "yup,xuq->yxpq" [:: a1; a2] = Ok t, einsum "yxpq,pqrs->yxrs" [:: t; gate] = Ok g, shape g = [:: n; n; p; p] &
    forall r s y x, target g r s y x = gated D p a1 a2 gate r s y x].
Proof.
move=> S1 S2 Sg.
have [t [E1 T1 H1]] : exists t, [/\ einsum "yup,xuq->yxpq" [:: a1; a2] = Ok t, shape t = [:: n; n; p; p]%N &
    forall y x P Q, at_ t [:: y; x; P; Q] = sumn D (fun u => at_ a1 [:: y; u; P] * at_ a2 [:: x; u; Q])].
  by rewrite /einsum /= S1 S2 /= /dims_ok /= ?eqxx /=; eexists; split=> // *; rewrite /= /factor /=.
have [g [E2 T2 H2]] : exists t', [/\ einsum "yxpq,pqrs->yxrs" [:: t; gate] = Ok t', shape t' = [:: n; n; p; p]%N &
    forall y x r s, at_ t' [:: y; x; r; s] = sumn p (fun P => sumn p (fun Q => at_ t [:: y; x; P; Q] * at_ gate [:: P; Q; r; s]))].
  by rewrite /einsum /= T1 Sg /= /dims_ok /= ?eqxx /=; eexists; split=> // *; rewrite /= /factor /=.
exists t, g; split=> // r s y x; rewrite /target H2; apply: eq_sumn => P _; apply: eq_sumn => Q _.
by rewrite H1.
Qed.

Lemma core n D p (a1 a2 N gate : tensor) fuel : (0 < n)%N -> (0 < p)%N -> (D <= n * p)%N ->
  shape a1 = [:: n; D; p] -> shape a2 = [:: n; D; p] -> shape N = [:: n; n; n; n] -> shape gate = [:: p; p; p; p] ->
  (use_gauge_fix cfg -> 0 < gauge_fix_atol cfg /\ gauge_fix_atol cfg ^+ 2 < cutoff *+ n) ->
  exists d nz g N' g' W1 W2 V1 V2 n12g, [/\ [/\ 0 <= d, P18_Positive.above n (shifted n (lower n N) d) cutoff,
      P18_Positive.above n (lower n N) cutoff -> d = 0, positive_approx fsvd leigh fuel.+1 cutoff N = Some (Ok nz) &
      real_qr lqr -> real_eigh leigh -> real4 n N -> rl (mx_of n n W1) /\ rl (mx_of n n W2)],
    [/\ inverse n W1 V1, inverse n W2 V2, forall v, nform n N' (dress n W1 W2 v) (dress n W1 W2 v) = nform n (shifted n (lower n N) d) v v &
      use_gauge_fix cfg = false -> W1 = eye C n /\ W2 = eye C n],
    [/\ shape N' = [:: n; n; n; n], shape g' = [:: n; n; p; p], norm_psd n N' & einsum "yxYX,yxpq->YXpq" [:: N'; g'] = Ok n12g],
    [/\ shape g = [:: n; n; p; p], forall r s y x, target g r s y x = gated D p a1 a2 gate r s y x,
        forall P Q, smat n (target g' P Q) = smat n (dress n W1 W2 (target g P Q)) &
        exists gauge, precondition_norm_tensor lqr lsvd rtol cfg nz g = Ok (N', g', gauge)] &
    exists2 r, update_reduced_tensors lqr lsvd fsvd leigh lchol rtol cfg fuel.+1 a1 a2 N gate = Some r &
    (initialize_reduced_tensors fsvd g' n D p = Err ZeroNorm /\ r = Err ZeroNorm) \/
    exists x, [/\ initialize_reduced_tensors fsvd g' n D p = Ok x, shape x.1 = [:: n; D; p] /\ shape x.2 = [:: n; D; p] &
      exists2 k, (0 < als_niter cfg)%N -> (0 < k)%N &
      (sweeps leigh lchol cfg N' n12g x k = Err RuntimeError /\ r = Err RuntimeError) \/
      exists y e1 e2, [/\ sweeps leigh lchol cfg N' n12g x k = Ok y, shape y.1 = [:: n; D; p] /\ shape y.2 = [:: n; D; p],
        r = finalize_reduced_tensors lqr fsvd None e1 e2, shape e1 = [:: n; D; p] /\ shape e2 = [:: n; D; p] &
        (forall z u P, (z < n)%N -> (u < D)%N -> (P < p)%N -> at_ e1 [:: z; u; P] = at_ (gauged n V1 y.1) [:: z; u; P]) /\
        (forall z u P, (z < n)%N -> (u < D)%N -> (P < p)%N -> at_ e2 [:: z; u; P] = at_ (gauged n V2 y.2) [:: z; u; P])]]].
Proof using Sq Ss Sf Se Hm tot c0.
move=> n0 p0 HD S1 S2 SN Sg HG.
have [t [g [E1 E2 Sg0 Hg]]] := goalE S1 S2 Sg.
have [nz [d [EP Snz d0 Hsq [Hab Hd]]]] := C44_positive Se Sf fuel n0 SN c0 tot.
have HR : use_gauge_fix cfg -> [/\ 0 < gauge_fix_atol cfg, regular n (overlap_y n nz) (gauge_fix_atol cfg) & regular n (overlap_x n nz) (gauge_fix_atol cfg)].
  move=> /HG [a0 Ha]; have [nz' [EP' _ Ry Rx]] := C45_after_positive Sf Se fuel n0 SN c0 tot Ha.
  by move: EP'; rewrite EP => -[->].
have [N' [g' [gauge [W1 [W2 [V1 [V2 [EPN [SN' Sg' PN' [I1 I2]] HF Ht [Hfin [Heye Hreal]]]]]]]]]] := problem fsvd rtol Sq Ss Snz Sg0 HR.
have np : (0 < n * p)%N by rewrite muln_gt0 n0 p0.
have [n12g Eg Hrun] := solve_run leigh lchol Sf Hm SN' Sg' PN' np HD.
exists d, nz, g, N', g', W1, W2, V1, V2, n12g; split=> //.
- by split=> // Rq Re RN; apply: Hreal => //; apply: (pos_real Sf Se n0 SN c0 tot Re RN EP).
- split=> // v; rewrite HF; apply: nform_ext => // y x Y X Hy Hx HY HX.
  exact: (teq4 (erefl : shape (square n nz) = [:: n; n; n; n]) Hsq).
- by split=> //; exists gauge.
rewrite /update_reduced_tensors E1 [bind (Ok t) _]/bind E2 EP [bind (Ok nz) _]/bind EPN [bind (Ok (N', _, _)) _]/bind S1.
eexists; first by reflexivity.
case: Hrun => [[EI ->]|[x [EI Gx [k [k0 -> Hk]]]]]; [by left|right].
exists x; split=> //; exists k => //; case: Hk => [->|[y -> Gy]]; [by left|right].
case: y Gy => y1 y2 /= [T1 T2]; have [e1 [e2 [Ef Sh He1 He2]]] := Hfin D y1 y2 T1 T2.
by exists (y1, y2), e1, e2; split=> //; rewrite [bind (Ok _) _]/bind Ef.
Qed.

(** distances in the frame of the solver *)
Section Frame.
Variables (n D p : nat) (M N' g' W1 W2 V1 V2 : tensor) (goal : pair).
Hypotheses (I1 : inverse n W1 V1) (I2 : inverse n W2 V2).
Hypothesis HF : forall v, nform n N' (dress n W1 W2 v) (dress n W1 W2 v) = nform n M v v.
Hypothesis Ht : forall P Q, smat n (target g' P Q) = smat n (dress n W1 W2 (goal P Q)).

Lemma gauged_back W V (e y : tensor) : inverse n W V ->
  (forall z u P, (z < n)%N -> (u < D)%N -> (P < p)%N -> at_ e [:: z; u; P] = at_ (gauged n V y) [:: z; u; P]) ->
  forall z u P, (z < n)%N -> (u < D)%N -> (P < p)%N -> at_ (gauged n W e) [:: z; u; P] = at_ y [:: z; u; P].
Proof.
move=> /inverseE I H z u P Hz Hu HP.
have /matrixP/(_ (Ordinal Hz) (Ordinal Hu)) : amatP n D (gauged n W e) P = amatP n D y P; last by rewrite mxE [RHS]mxE.
rewrite gauged_mat; have -> : amatP n D e P = amatP n D (gauged n V y) P by apply/matrixP => i j; rewrite !mxE H.
by rewrite gauged_mat mulmxA I mul1mx.
Qed.

Lemma dist_ext (a1 a2 b1 b2 : tensor) :
  (forall y u P, (y < n)%N -> (u < D)%N -> (P < p)%N -> at_ a1 [:: y; u; P] = at_ b1 [:: y; u; P]) ->
  (forall y u P, (y < n)%N -> (u < D)%N -> (P < p)%N -> at_ a2 [:: y; u; P] = at_ b2 [:: y; u; P]) ->
  dist2 n D p p N' g' a1 a2 = dist2 n D p p N' g' b1 b2.
Proof. by move=> H1 H2; apply: len2_ext => // P Q y x HP HQ Hy Hx; rewrite (state_ext H1 H2). Qed.

Lemma frame_len (f : pair) (h : pair) : (forall P Q, smat n (f P Q) = smat n (dress n W1 W2 (h P Q))) ->
  len2 n p p N' f = len2 n p p M h.
Proof using HF.
move=> H; apply: eq_sumn => Q HQ; apply: eq_sumn => P HP; rewrite -HF; apply: nform_ext => // y x Hy Hx.
by have /matrixP/(_ (Ordinal Hy) (Ordinal Hx)) := H P Q; rewrite !mxE.
Qed.

Lemma frame_dist (b1 b2 : tensor) : dist2 n D p p N' g' (gauged n W1 b1) (gauged n W2 b2) =
  len2 n p p M (fun P Q y x => state D b1 b2 P Q y x - goal P Q y x).
Proof using HF Ht.
apply: frame_len => P Q; rewrite !smatB Ht !smat_dress smatB mulmxBr mulmxBl; congr (_ - _).
by rewrite !state_mat !gauged_mat trmx_mul !mulmxA.
Qed.
End Frame.

Definition balanced n D p (b1 b2 : tensor) : Prop := total n D p b1 b2 = 1 /\ exists w : nat -> C,
  [/\ forall u, (u < D)%N -> 0 <= w u, forall u v, (u <= v)%N -> (v < D)%N -> w v <= w u,
      forall u v, (u < D)%N -> (v < D)%N -> gram n p b1 u v = w u *+ (u == v) &
      forall u v, (u < D)%N -> (v < D)%N -> gram n p b2 u v = w u *+ (u == v)].

(** C67, on the reduced tensors.  The update never runs on.  It works with the
    metric M, the norm tensor (its lower triangle) plus the smallest multiple of
    the identity the positive approximation adds; the solver sees M in another
    basis.  It may fail with a zero norm or in a linear solve.  Otherwise the new
    pair describes, up to a positive factor which normalises it, a state of a pair
    (e1, e2) such that e2 is optimal for e1: no other second tensor is closer to
    the state after the gate, in the metric M (if the solve is regularised, in
    the sense of C42, in the basis of the solver). *)
Theorem C67_reduced n D p (a1 a2 N gate : tensor) fuel : (0 < n)%N -> (0 < p)%N -> (D <= n * p)%N ->
  shape a1 = [:: n; D; p] -> shape a2 = [:: n; D; p] -> shape N = [:: n; n; n; n] -> shape gate = [:: p; p; p; p] ->
  (use_gauge_fix cfg -> 0 < gauge_fix_atol cfg /\ gauge_fix_atol cfg ^+ 2 < cutoff *+ n) ->
  exists d N' W1 W2 V1 V2, let M := shifted n (lower n N) d in
   [/\ [/\ 0 <= d, P18_Positive.above n M cutoff & P18_Positive.above n (lower n N) cutoff -> d = 0],
    [/\ inverse n W1 V1, inverse n W2 V2, forall v, nform n N' (dress n W1 W2 v) (dress n W1 W2 v) = nform n M v v &
      use_gauge_fix cfg = false -> W1 = eye C n /\ W2 = eye C n] &
    exists2 r, update_reduced_tensors lqr lsvd fsvd leigh lchol rtol cfg fuel.+1 a1 a2 N gate = Some r &
    r = Err ZeroNorm \/ r = Err RuntimeError \/
    exists b1 b2 e1 e2 c, [/\ r = Ok (b1, b2),
      [/\ shape b1 = [:: n; D; p], shape b2 = [:: n; D; p], shape e1 = [:: n; D; p] & shape e2 = [:: n; D; p]],
      0 < c /\ (forall y x P Q, (y < n)%N -> (x < n)%N -> (P < p)%N -> (Q < p)%N -> state D b1 b2 P Q y x = c * state D e1 e2 P Q y x),
      balanced n D p b1 b2 & (0 < als_niter cfg)%N ->
        let away b := len2 n p p M (fun P Q y x => state D e1 b P Q y x - gated D p a1 a2 gate P Q y x) in
        (exact_method leigh lchol cfg -> forall b, shape b = [:: n; D; p] -> away e2 <= away b) /\
        (als_method cfg = "cholesky" -> chol_spec lchol -> 0 <= als_epsilon cfg ->
         exists2 m, largest n D (normal2 n p N' (gauged n W1 e1)) m &
           forall b, shape b = [:: n; D; p] ->
             away e2 <= away b + als_epsilon cfg * m * (sq3 n D p (gauged n W2 b) - sq3 n D p (gauged n W2 e2)))]].
Proof using Sq Ss Sf Se Hm tot c0.
move=> n0 p0 HD S1 S2 SN Sg HG.
have [d [nz [g [N' [g' [W1 [W2 [V1 [V2 [n12g [[d0 Hab Hd _ _] [I1 I2 HF Heye] [SN' Sg' PN' Eg] [Sg0 Hg Ht _] [r Er Hr]]]]]]]]]]]] :=
  core fuel n0 p0 HD S1 S2 SN Sg HG.
exists d, N', W1, W2, V1, V2; split=> //; exists r => //.
case: Hr => [[_ ->]|[x [EI Gx [k k0]]]]; first by left.
case=> [[_ ->]|[y [e1 [e2 [Ey [T1 T2] -> [Se1 Se2] [He1 He2]]]]]]; first by right; left.
case: (C46_balance Se1 Se2 HD Sq Sf) => [[_ ->]|[b1 [b2 [c [w [-> [Sb1 Sb2] Hc Tot Hw]]]]]]; [by left|right; right].
exists b1, b2, e1, e2, c; split=> //; first by split=> //; exists w.
move=> ni; have {k0} k0 := k0 ni; case: k k0 Ey => // k _ Ey.
have [_ El] := last_half Hm SN' Sg' Eg Gx Ey.
have Y1 := gauged_back I1 He1; have Y2 := gauged_back I2 He2.
have Ht' P Q : smat n (target g' P Q) = smat n (dress n W1 W2 (gated D p a1 a2 gate P Q)).
  by rewrite Ht !smat_dress; congr (_ *m _ *m _); apply/matrixP => i j; rewrite !mxE Hg.
have D1 b : len2 n p p (shifted n (lower n N) d) (fun P Q y x => state D e1 b P Q y x - gated D p a1 a2 gate P Q y x) =
    dist2 n D p p N' g' y.1 (gauged n W2 b) by rewrite -(frame_dist _ _ HF Ht'); apply: dist_ext.
have D2 : len2 n p p (shifted n (lower n N) d) (fun P Q y x => state D e1 e2 P Q y x - gated D p a1 a2 gate P Q y x) =
    dist2 n D p p N' g' y.1 y.2 by rewrite D1; apply: dist_ext.
split=> [Hex b Sb|Mc Lc e0].
  by rewrite D2 D1; have [_ ->] := C41_half_step2 SN' Sg' T1 PN' Hex Eg El.
have [m Lm [/(_ _ El) [_ Hb] _]] := C42_half_step2 leigh SN' Sg' T1 PN' Mc Lc e0 Eg.
have EN X V x' v : (V < D)%N -> (v < D)%N -> normal2 n p N' (gauged n W1 e1) X V x' v = normal2 n p N' y.1 X V x' v.
  by move=> HV Hv; apply: eq_sumn => P HP; apply: eq_sumn => Y HY; apply: eq_sumn => z Hz; rewrite !Y1.
exists m => [|b Sb].
  case: Lm => m0 L1 L2; split=> // [Y U z u HY HU Hz Hu|nD]; first by rewrite EN //; apply: L1.
  by have [Y [U [z [u [HY HU Hz Hu E]]]]] := L2 nD; exists Y, U, z, u; split=> //; rewrite EN.
rewrite D2 D1; have -> : sq3 n D p (gauged n W2 e2) = sq3 n D p y.2.
  by apply: eq_sumn => z Hz; apply: eq_sumn => u Hu; apply: eq_sumn => P HP; rewrite Y2.
exact: Hb.
Qed.

Lemma above_zero n p (M : tensor) (f : pair) (c : C) : 0 < c -> P18_Positive.above n M c -> len2 n p p M f <= 0 ->
  forall P Q y x, (P < p)%N -> (Q < p)%N -> (y < n)%N -> (x < n)%N -> f P Q y x = 0.
Proof.
move=> c1 Ha L P Q y x HP HQ Hy Hx.
have v0 u : 0 <= vlen n u by rewrite /vlen sumr_ge0 // => i _; rewrite sumr_ge0 // => j _; rewrite exprn_ge0.
have F0 P' Q' : 0 <= nform n M (f P' Q') (f P' Q') by apply: Order.POrderTheory.le_trans (Ha _); rewrite mulr_ge0 // Order.POrderTheory.ltW.
have E1 : sumn p (fun P => nform n M (f P Q) (f P Q)) = 0.
  by apply: (sumn_le0 (F := fun Q => sumn p (fun P => nform n M (f P Q) (f P Q))) _ L HQ) => Q'; rewrite sumr_ge0.
have E2 : nform n M (f P Q) (f P Q) = 0.
  by apply: (sumn_le0 (F := fun P => nform n M (f P Q) (f P Q)) _ _ HP) => //; rewrite E1.
have E3 : vlen n (f P Q) <= 0 by have := Ha (f P Q); rewrite E2 pmulr_rle0.
have E4 : sumn n (fun x => `|f P Q y x| ^+ 2) = 0.
  by apply: (sumn_le0 (F := fun y => sumn n (fun x => `|f P Q y x| ^+ 2)) _ E3 Hy) => y'; rewrite sumr_ge0 // => x' _; rewrite exprn_ge0.
have E5 : `|f P Q y x| ^+ 2 = 0.
  by apply: (sumn_le0 (F := fun x => `|f P Q y x| ^+ 2) _ _ Hx) => [x'|]; [rewrite exprn_ge0|rewrite E4].
by move/eqP: E5; rewrite expf_eq0 /= normr_eq0 => /eqP.
Qed.

(** a tensor times a number *)
Lemma state_scale D (a1 a2 : tensor) c P Q y x : state D (tscale c a1) a2 P Q y x = c * state D a1 a2 P Q y x.
Proof. by rewrite /state sumn_mull; apply: eq_sumn => u _; rewrite mulrA. Qed.

(** C67: with real data (a real dtype), exact solves and a positive cutoff, the
    update is exact whenever it can be: if the state after the gate can be
    described with the given bond dimension and is not zero, the new pair
    describes it, up to the positive factor which normalises it.  The
    pseudoinverse does not fail; the Cholesky solve without regularisation may. *)
Theorem C67_exact n D p (a1 a2 N gate t1 t2 : tensor) fuel : (0 < n)%N -> (0 < p)%N -> (D <= n * p)%N ->
  shape a1 = [:: n; D; p] -> shape a2 = [:: n; D; p] -> shape N = [:: n; n; n; n] -> shape gate = [:: p; p; p; p] ->
  (use_gauge_fix cfg -> 0 < gauge_fix_atol cfg /\ gauge_fix_atol cfg ^+ 2 < cutoff *+ n) ->
  0 < cutoff -> exact_method leigh lchol cfg -> (0 < als_niter cfg)%N ->
  real_svd fsvd -> real_qr lqr -> real_eigh leigh -> real4 n N ->
  let goal := gated D p a1 a2 gate in
  (forall P Q y x, (P < p)%N -> (Q < p)%N -> (y < n)%N -> (x < n)%N -> goal P Q y x \is Num.real) ->
  (forall P Q y x, (P < p)%N -> (Q < p)%N -> (y < n)%N -> (x < n)%N -> goal P Q y x = state D t1 t2 P Q y x) ->
  (exists P Q y x, [/\ (P < p)%N, (Q < p)%N, (y < n)%N, (x < n)%N & goal P Q y x != 0]) ->
  exists2 r, update_reduced_tensors lqr lsvd fsvd leigh lchol rtol cfg fuel.+1 a1 a2 N gate = Some r &
  (r = Err RuntimeError /\ als_method cfg = "cholesky") \/
  exists b1 b2 c, [/\ r = Ok (b1, b2), shape b1 = [:: n; D; p] /\ shape b2 = [:: n; D; p],
    0 < c /\ (forall y x P Q, (y < n)%N -> (x < n)%N -> (P < p)%N -> (Q < p)%N -> state D b1 b2 P Q y x = c * goal P Q y x) &
    balanced n D p b1 b2].
Proof using Sq Ss Sf Se Hm tot c0.
move=> n0 p0 HD S1 S2 SN Sg HG cp Hex ni Rs Rq Re RN goal Rg Hrep [P0 [Q0 [y0 [x0 [HP0 HQ0 Hy0 Hx0 N0]]]]].
have [d [nz [g [N' [g' [W1 [W2 [V1 [V2 [n12g [[d0 Hab Hd _ HR] [I1 I2 HF _] [SN' Sg' PN' Eg] [Sg0 Hg Ht _] [r Er Hr]]]]]]]]]]]] :=
  core fuel n0 p0 HD S1 S2 SN Sg HG.
have [RW1 RW2] := HR Rq Re RN; exists r => //.
have Ht' P Q : smat n (target g' P Q) = smat n (dress n W1 W2 (goal P Q)).
  by rewrite Ht !smat_dress; congr (_ *m _ *m _); apply/matrixP => i j; rewrite !mxE Hg.
have np : (0 < n * p)%N by rewrite muln_gt0 n0 p0.
have Rt P Q y x : (P < p)%N -> (Q < p)%N -> (y < n)%N -> (x < n)%N -> target g' P Q y x \is Num.real.
  move=> HP HQ Hy Hx; have /matrixP/(_ (Ordinal Hy) (Ordinal Hx)) := Ht' P Q; rewrite mxE /= => ->; rewrite smat_dress.
  apply: rlM; last by move=> i j; rewrite mxE.
  by apply: rlM => // i j; rewrite mxE Rg.
have Rep P Q y x : (P < p)%N -> (Q < p)%N -> (y < n)%N -> (x < n)%N -> target g' P Q y x = state D (gauged n W1 t1) (gauged n W2 t2) P Q y x.
  move=> HP HQ Hy Hx; have /matrixP/(_ (Ordinal Hy) (Ordinal Hx)) : smat n (target g' P Q) = smat n (state D (gauged n W1 t1) (gauged n W2 t2) P Q).
    rewrite Ht' smat_dress state_mat !gauged_mat trmx_mul !mulmxA; congr (_ *m _); rewrite -mulmxA -state_mat; congr (_ *m _).
    by apply/matrixP => i j; rewrite !mxE Hrep.
  by rewrite !mxE.
have Nz : exists P Q y x, [/\ (P < p)%N, (Q < p)%N, (y < n)%N, (x < n)%N & target g' P Q y x != 0].
  have Nm : smat n (target g' P0 Q0) != 0.
    apply/eqP => Z; have : smat n (goal P0 Q0) = 0.
      have /inverseE J1 := inverse_sym I1; have /inverseE J2 := inverse_sym I2.
      have := Z; rewrite Ht' smat_dress => {}Z.
      have : mx_of n n V1 *m (mx_of n n W1 *m smat n (goal P0 Q0) *m (mx_of n n W2)^T) *m (mx_of n n V2)^T = 0 by rewrite Z mulmx0 mul0mx.
      by rewrite !mulmxA J1 mul1mx -mulmxA -trmx_mul J2 trmx1 mulmx1.
    by move/matrixP/(_ (Ordinal Hy0) (Ordinal Hx0)); rewrite !mxE /= => E; rewrite E eqxx in N0.
  by have /matrix0Pn[i [j]] := Nm; rewrite mxE => Nij; exists P0, Q0, (i : nat), (j : nat).
have [u1 [u2 [c [EI cc Hu]]]] := C66_real_representable Sf Sg' np HD Rs Rt Rep Nz.
case: Hr => [[E _]|[x [EI' Gx [k k0]]]]; first by rewrite E in EI.
move: EI'; rewrite EI => -[Ex]; rewrite -{}Ex /= in Gx *; have {k0} k0 := k0 ni; case: k k0 => // k _.
case=> [[Es ->]|[y [e1 [e2 [Ey [T1 T2] -> [Se1 Se2] [He1 He2]]]]]].
  left; split=> //; case: Hm => // Mp; have [y Ey _] := sweeps_pinv lchol Hm SN' Sg' Eg k.+1 (x := (u1, u2)) Gx Mp tot.
  by rewrite Ey in Es.
right.
have B := beats_guess Hm SN' Sg' PN' Eg (x := (u1, u2)) Hex Gx Ey (b := tscale c^-1 u1).
have Z0 : dist2 n D p p N' g' (tscale c^-1 u1) u2 = 0.
  transitivity (len2 n p p N' (fun _ _ _ _ => 0)).
    apply: len2_ext => // P Q z z' HP HQ Hz Hz'; rewrite state_scale Hu // mulKf ?subrr //.
    by rewrite Order.POrderTheory.gt_eqF.
  rewrite /len2 /nform /sumn; rewrite big1 // => Q _; rewrite big1 // => P _; rewrite big1 // => z1 _; rewrite big1 // => z2 _.
  by rewrite big1 // => z3 _; rewrite big1 // => z4 _; rewrite !mulr0 mul0r.
have Ya := gauged_back I1 He1; have Yb := gauged_back I2 He2.
have D2 : len2 n p p (shifted n (lower n N) d) (fun P Q y x => state D e1 e2 P Q y x - goal P Q y x) = dist2 n D p p N' g' y.1 y.2.
  by rewrite -(frame_dist _ _ HF Ht'); apply: dist_ext.
have L : len2 n p p (shifted n (lower n N) d) (fun P Q y x => state D e1 e2 P Q y x - goal P Q y x) <= 0.
  by rewrite D2 -Z0; apply: B; rewrite /= (proj1 Gx).
have Es P Q z z' : (P < p)%N -> (Q < p)%N -> (z < n)%N -> (z' < n)%N -> state D e1 e2 P Q z z' = goal P Q z z'.
  by move=> HP HQ Hz Hz'; apply/eqP; rewrite -subr_eq0; apply/eqP; apply: (above_zero cp Hab L HP HQ Hz Hz').
case: (C46_balance Se1 Se2 HD Sq Sf) => [[Z _]|[b1 [b2 [c' [w [-> [Sb1 Sb2] [c'0 Hc] Tot Hw]]]]]].
  by move: N0; rewrite -Es // Z // eqxx.
exists b1, b2, c'; split=> //; last by split=> //; exists w.
by split=> // z z' P Q Hz Hz' HP HQ; rewrite Hc // Es.
Qed.

(** C67: in particular a gate which is the identity leaves the state of the pair
    as it is, up to the normalisation *)
Corollary C67_identity_gate n D p (a1 a2 N gate : tensor) fuel : (0 < n)%N -> (0 < p)%N -> (D <= n * p)%N ->
  shape a1 = [:: n; D; p] -> shape a2 = [:: n; D; p] -> shape N = [:: n; n; n; n] -> shape gate = [:: p; p; p; p] ->
  (use_gauge_fix cfg -> 0 < gauge_fix_atol cfg /\ gauge_fix_atol cfg ^+ 2 < cutoff *+ n) ->
  0 < cutoff -> exact_method leigh lchol cfg -> (0 < als_niter cfg)%N ->
  real_svd fsvd -> real_qr lqr -> real_eigh leigh -> real4 n N -> identity_gate p gate ->
  (forall P Q y x, (P < p)%N -> (Q < p)%N -> (y < n)%N -> (x < n)%N -> state D a1 a2 P Q y x \is Num.real) ->
  (exists P Q y x, [/\ (P < p)%N, (Q < p)%N, (y < n)%N, (x < n)%N & state D a1 a2 P Q y x != 0]) ->
  exists2 r, update_reduced_tensors lqr lsvd fsvd leigh lchol rtol cfg fuel.+1 a1 a2 N gate = Some r &
  (r = Err RuntimeError /\ als_method cfg = "cholesky") \/
  exists b1 b2 c, [/\ r = Ok (b1, b2), shape b1 = [:: n; D; p] /\ shape b2 = [:: n; D; p],
    0 < c /\ (forall y x P Q, (y < n)%N -> (x < n)%N -> (P < p)%N -> (Q < p)%N -> state D b1 b2 P Q y x = c * state D a1 a2 P Q y x) &
    balanced n D p b1 b2].
Proof using Sq Ss Sf Se Hm tot c0.
move=> n0 p0 HD S1 S2 SN Sg HG cp Hex ni Rs Rq Re RN Hi Rg [P0 [Q0 [y0 [x0 [HP0 HQ0 Hy0 Hx0 N0]]]]].
have Eg P Q y x : (P < p)%N -> (Q < p)%N -> (y < n)%N -> (x < n)%N -> gated D p a1 a2 gate P Q y x = state D a1 a2 P Q y x.
  by move=> HP HQ _ _; apply: gated_id.
have [| |r Er Hr] := C67_exact fuel n0 p0 HD S1 S2 SN Sg HG cp Hex ni Rs Rq Re RN _ Eg.
- by move=> P Q y x HP HQ Hy Hx; rewrite Eg // Rg.
- by exists P0, Q0, y0, x0; rewrite Eg.
exists r => //; case: Hr => [E|[b1 [b2 [c [E S [c1 H] B]]]]]; [by left|right; exists b1, b2, c; split=> //; split=> //].
by move=> y x P Q Hy Hx HP HQ; rewrite H // Eg.
Qed.

(** C67: with real data and exact solves the update is never worse than a plain
    truncation of the state after the gate (stated without gauge fixing; with it,
    the truncation is the one in the basis of the solver) *)
Theorem C67_no_worse n D p (a1 a2 N gate : tensor) fuel : (0 < n)%N -> (0 < p)%N -> (D <= n * p)%N ->
  shape a1 = [:: n; D; p] -> shape a2 = [:: n; D; p] -> shape N = [:: n; n; n; n] -> shape gate = [:: p; p; p; p] ->
  use_gauge_fix cfg = false -> exact_method leigh lchol cfg -> (0 < als_niter cfg)%N -> real_svd fsvd ->
  let goal := gated D p a1 a2 gate in
  (forall P Q y x, (P < p)%N -> (Q < p)%N -> (y < n)%N -> (x < n)%N -> goal P Q y x \is Num.real) ->
  exists d t, let M := shifted n (lower n N) d in
   [/\ [/\ 0 <= d, P18_Positive.above n M cutoff & P18_Positive.above n (lower n N) cutoff -> d = 0],
    closest n D p goal t &
    exists2 r, update_reduced_tensors lqr lsvd fsvd leigh lchol rtol cfg fuel.+1 a1 a2 N gate = Some r &
    r = Err ZeroNorm \/ r = Err RuntimeError \/
    exists b1 b2 e1 e2 c, [/\ r = Ok (b1, b2), 0 < c,
      forall y x P Q, (y < n)%N -> (x < n)%N -> (P < p)%N -> (Q < p)%N -> state D b1 b2 P Q y x = c * state D e1 e2 P Q y x &
      len2 n p p M (fun P Q y x => state D e1 e2 P Q y x - goal P Q y x) <= len2 n p p M (fun P Q y x => t P Q y x - goal P Q y x)]].
Proof using Sq Ss Sf Se Hm tot c0.
move=> n0 p0 HD S1 S2 SN Sg NG Hex ni Rs goal Rg.
have HG : use_gauge_fix cfg -> 0 < gauge_fix_atol cfg /\ gauge_fix_atol cfg ^+ 2 < cutoff *+ n by rewrite NG.
have [d [nz [g [N' [g' [W1 [W2 [V1 [V2 [n12g [[d0 Hab Hd _ _] [I1 I2 HF Heye] [SN' Sg' PN' Eg] [Sg0 Hg Ht _] [r Er Hr]]]]]]]]]]]] :=
  core fuel n0 p0 HD S1 S2 SN Sg HG.
have [EW1 EW2] := Heye NG.
have Hde v : smat n (dress n W1 W2 v) = smat n v by rewrite smat_dress EW1 EW2 !mx_eye mul1mx trmx1 mulmx1.
have Ht' P Q : smat n (target g' P Q) = smat n (dress n W1 W2 (goal P Q)).
  by rewrite Ht !smat_dress; congr (_ *m _ *m _); apply/matrixP => i j; rewrite !mxE Hg.
have Et P Q y x : (y < n)%N -> (x < n)%N -> target g' P Q y x = goal P Q y x.
  by move=> Hy Hx; have /matrixP/(_ (Ordinal Hy) (Ordinal Hx)) := Ht' P Q; rewrite Hde !mxE.
have EF v : nform n N' v v = nform n (shifted n (lower n N) d) v v.
  rewrite -HF; apply: nform_ext => // y x Hy Hx.
  by have /matrixP/(_ (Ordinal Hy) (Ordinal Hx)) := Hde v; rewrite !mxE.
have np : (0 < n * p)%N by rewrite muln_gt0 n0 p0.
have Rt P Q y x : (P < p)%N -> (Q < p)%N -> (y < n)%N -> (x < n)%N -> target g' P Q y x \is Num.real.
  by move=> HP HQ Hy Hx; rewrite Et // Rg.
have [t [Hc Hi]] := C66_real_guess Sf Sg' np HD Rs Rt.
exists d, t; split=> //.
  have ES f : size2 n p (fun r s y x => goal r s y x - f r s y x) = size2 n p (fun r s y x => target g' r s y x - f r s y x).
    by apply: eq_sumn => y Hy; apply: eq_sumn => R HR; apply: eq_sumn => x Hx; apply: eq_sumn => S HS; rewrite Et.
  by move=> b1 b2; rewrite !ES; apply: Hc.
exists r => //; case: Hr => [[_ ->]|[x [EI Gx [k k0]]]]; first by left.
case=> [[_ ->]|[y [e1 [e2 [Ey [T1 T2] -> [Se1 Se2] [He1 He2]]]]]]; first by right; left.
case: (C46_balance Se1 Se2 HD Sq Sf) => [[_ ->]|[b1 [b2 [c [w [-> [Sb1 Sb2] [c1 Hcc] Tot Hw]]]]]]; [by left|right; right].
exists b1, b2, e1, e2, c; split=> //.
have {k0} k0 := k0 ni; case: k k0 Ey => // k _ Ey.
case: Hi => [[_ E]|[u1 [u2 [cc [EI' cc0 Hu]]]]]; first by rewrite E in EI.
move: EI; rewrite EI' => -[Ex]; rewrite -{}Ex /= in Gx Ey *.
have Y1 := gauged_back I1 He1; have Y2 := gauged_back I2 He2.
have D2 : len2 n p p (shifted n (lower n N) d) (fun P Q y x => state D e1 e2 P Q y x - goal P Q y x) = dist2 n D p p N' g' y.1 y.2.
  by rewrite -(frame_dist _ _ HF Ht'); apply: dist_ext.
rewrite D2; apply: Order.POrderTheory.le_trans (beats_guess Hm SN' Sg' PN' Eg (x := (u1, u2)) Hex Gx Ey (b := tscale cc^-1 u1) _) _.
  by rewrite /= (proj1 Gx).
rewrite /dist2 /=; have -> : len2 n p p (shifted n (lower n N) d) (fun P Q y x => t P Q y x - goal P Q y x) =
    len2 n p p N' (fun P Q y x => t P Q y x - goal P Q y x) by apply: eq_sumn => Q HQ; apply: eq_sumn => P HP; rewrite EF.
rewrite [X in X <= _](_ : _ = len2 n p p N' (fun P Q y x => t P Q y x - goal P Q y x)) //; apply: len2_ext => // P Q z z' HP HQ Hz Hz'.
by rewrite state_scale Hu // mulKf ?Et // Order.POrderTheory.gt_eqF.
Qed.
End Reduced.

(** ---- a complex case, and concrete ones ---- *)
Section Cases.
Variable C : numClosedFieldType.
Notation tensor := (tensor C).

(** the identity as a two-site gate *)
Definition id_gate p : tensor := Tensor [:: p; p; p; p] (fun i => ((nth 0 i 0 == nth 0 i 2) && (nth 0 i 1 == nth 0 i 3))%N%:R).
Lemma id_gateP p : identity_gate p (id_gate p).
Proof. by move=> P Q r s _ _ _ _. Qed.

Lemma shift1 d (v : nat -> nat -> C) : nform 1 (shifted 1 (lower 1 (id4 C 1)) d) v v = (1 + d) * `|v 0%N 0%N| ^+ 2.
Proof.
rewrite /nform /sumn !big_ord1 /=; have /Creal_ReP -> : (1 : C) \is Num.real by exact: rpred1.
by rewrite mulr1n normCK mulrA.
Qed.

(** C67: with complex data the update can fail on a state it should not change: a
    product state, the identity as gate, the identity as norm tensor.  The guess of
    the solver is orthogonal to the state (C66) and the second solve fails, for
    every decomposition and every regularisation strength. *)
Theorem C67_complex_refuted : identity_gate 2 (id_gate 2) /\
  forall (lqr : qr_fun C) (lsvd : thin_svd_fun C) (fsvd : full_svd_fun C) (leigh : eigh_fun C) (lchol : chol_fun C) rtol (cfg : econfig C) fuel, qr_spec lqr -> thin_svd_spec lsvd -> full_svd_spec fsvd -> eigh_spec leigh -> chol_spec lchol ->
    (forall m (A : 'M[C]_m), leigh m A) -> 0 <= positive_approx_cutoff cfg -> use_gauge_fix cfg = false ->
    als_method cfg = "cholesky" -> 0 <= als_epsilon cfg -> (0 < als_niter cfg)%N ->
    update_reduced_tensors lqr lsvd fsvd leigh lchol rtol cfg fuel.+1 (up C) (ri C) (id4 C 1) (id_gate 2) = Some (Err RuntimeError).
Proof.
split; first exact: id_gateP.
move=> lqr lsvd fsvd leigh lchol rtol cfg fuel Sq Ss Sf Se Sc tot c0 NG Hm He Hn.
have HG : use_gauge_fix cfg -> 0 < gauge_fix_atol cfg /\ gauge_fix_atol cfg ^+ 2 < positive_approx_cutoff cfg *+ 1 by rewrite NG.
have [d [nz [g [N' [g' [W1 [W2 [V1 [V2 [n12g [[d0 _ _ _ _] [I1 I2 HF Heye] [SN' Sg' PN' Eg] [Sg0 Hg Ht _] [r -> Hr]]]]]]]]]]]] :=
  core lchol rtol Sq Ss Sf Se (or_introl Hm) tot c0 fuel (isT : (0 < 1)%N) (isT : (0 < 2)%N) (isT : (1 <= 1 * 2)%N)
   (erefl : shape (up C) = [:: 1; 1; 2]%N) (erefl : shape (ri C) = [:: 1; 1; 2]%N) (erefl : shape (id4 C 1) = [:: 1; 1; 1; 1]%N)
   (erefl : shape (id_gate 2) = [:: 2; 2; 2; 2]%N) HG.
congr Some; have [EW1 EW2] := Heye NG.
have Hde v : smat 1 (dress 1 W1 W2 v) = smat 1 v by rewrite smat_dress EW1 EW2 !mx_eye mul1mx trmx1 mulmx1.
have Sk : is_skew g'.
  split=> // P Q HP HQ; have /matrixP/(_ 0 0) := Ht P Q; rewrite Hde !mxE /= Hg (gated_id _ _ _ _ _ (@id_gateP 2) HP HQ).
  by move=> ->; rewrite /state /sumn big_ord1 /target /=; case: (P == 0%N); rewrite ?mul1r ?mul0r.
have [u1 [u2 [EI [S1 S2] N2 E2]]] := skew_guess Sf Sk.
have Hs : sweep leigh lchol cfg N' n12g (u1, u2) = Err RuntimeError.
  have m0 : 0 < 1 + d by rewrite ltr_paddr.
  apply: (skew_sweep leigh u1 SN' PN' m0 _ Sk Eg S2 N2 E2) => // v.
  rewrite -(shift1 d v) -HF; apply: nform_ext => // y x Hy Hx.
  by have /matrixP/(_ (Ordinal Hy) (Ordinal Hx)) := Hde v; rewrite !mxE.
case: Hr => [[E _]|[x [EI' _ [k /(_ Hn) k0]]]]; first by rewrite E in EI.
move: EI'; rewrite EI => -[Ex]; rewrite -{}Ex.
have -> : sweeps leigh lchol cfg N' n12g (u1, u2) k = Err RuntimeError.
  case: k k0 => // k _; elim: k => [|k IH]; first exact: Hs.
  by rewrite [LHS]/= -/(sweeps leigh lchol cfg _ _ _ k.+1) IH.
by case=> [[_ ->]|[y [? [? []]]]].
Qed.

(** the Bell pair, with gauge fixing: a pseudoinverse solve leaves it alone *)
Definition cfg_full : econfig C := EConfig "pinv" 0 0 3 true (2%:R^-1) 1.
Example C67_bell rtol : exists b1 b2 c, [/\
  update_reduced_tensors (@some_qr C) (@some_thin_svd C) (@some_full_svd C) (@some_eigh C) (fun _ _ => None) rtol cfg_full 1 (half C) (half C) (id4 C 1) (id_gate 2) = Some (Ok (b1, b2)),
  0 < c, state 2 b1 b2 0 0 0 0 = c, state 2 b1 b2 1 1 0 0 = c & state 2 b1 b2 0 1 0 0 = 0].
Proof.
have c0 : 0 <= positive_approx_cutoff cfg_full by rewrite ler01.
have Hs P Q : state 2 (half C) (half C) P Q 0 0 = ((P == Q) && (P < 2))%N%:R.
  by rewrite /state /sumn !big_ord_recl big_ord0 /=; case: P => [|[|P]]; case: Q => [|[|Q]] /=; rewrite ?(mulr1, mulr0, mul0r, addr0, add0r) // andbF.
have [| | | | |r Er] := C67_identity_gate (lchol := fun _ _ => None) (cfg := cfg_full) rtol (@some_qr_spec C) (@some_thin_svd_spec C) (@some_full_svd_spec C) (@some_eigh_spec C) (or_intror erefl)
  (fun _ _ => isT) c0 0 (isT : (0 < 1)%N) (isT : (0 < 2)%N) (isT : (2 <= 1 * 2)%N)
  (erefl : shape (half C) = [:: 1; 2; 2]%N) (erefl : shape (half C) = [:: 1; 2; 2]%N) (erefl : shape (id4 C 1) = [:: 1; 1; 1; 1]%N)
  (erefl : shape (id_gate 2) = [:: 2; 2; 2; 2]%N) _ ltr01 _ (isT : (0 < 3)%N) (@some_full_svd_real C) (@some_qr_real C) (@some_eigh_real C) _ (@id_gateP 2).
- move=> _ /=; rewrite invr_gt0 ltr0n; split=> //; rewrite expr2 -invfM invf_lt1 ?mulr_gt0 ?ltr0n // -natrM ltr1n //.
- by split=> //; right; split=> //; apply: some_eigh_spec.
- by move=> y x Y X _ _ _ _; rewrite realn.
- by move=> P Q [|//] [|//] _ _ _ _; rewrite Hs realn.
- by exists 0%N, 0%N, 0%N, 0%N; rewrite Hs /= oner_eq0.
case=> [[_ //]|[b1 [b2 [c [E _ [c1 H] _]]]]]; exists b1, b2, c; split=> //; first by rewrite Er E.
1-3: by rewrite H // Hs /= ?mulr1 ?mulr0.
Qed.
End Cases.

Print Assumptions C67_reduced.
Print Assumptions C67_exact.
Print Assumptions C67_identity_gate.
Print Assumptions C67_no_worse.
Print Assumptions C67_complex_refuted.
