(** C40 on tensors and C66: the loop of the alternating least squares solver and
    its initial guess (acetn/evolution/als_solver.py). *)
From Coq Require Import String Ascii.
From mathcomp Require Import all_ssreflect all_algebra.
From Verif Require Import Base Lattice Mover Tensor TN Rdm RdmFacts FullUpdate Linalg Mat Rsvd RsvdFacts Renorm RenormFacts Spectral ProjFacts Psd Als AlsFacts EighChol UpdFacts P09_Rdm P16_Als P17_Reduced Eckart P20_Simple P22_SimpleUpdate.
Set Implicit Arguments.
Unset Strict Implicit.
Unset Printing Implicit Defensive.
Import GRing.Theory Num.Theory.
Local Open Scope ring_scope.
Local Open Scope string_scope.

(** ---- the loop ---- *)
Section Loop.
Variable C : numClosedFieldType.
Notation tensor := (tensor C).
Variable fsvd : full_svd_fun C.
Variable leigh : eigh_fun C.
Variable lchol : chol_fun C.
Variable cfg : econfig C.
Notation solve1 := (solve_a1r leigh lchol cfg).
Notation solve2 := (solve_a2r leigh lchol cfg).

(** one sweep: the first reduced tensor for the old second one, then the second
    one for the new first one; and [j] sweeps *)
Definition sweep (N n12g : tensor) (x : tensor * tensor) : res (tensor * tensor) :=
  let! a1 := solve1 N n12g x.2 in let! a2 := solve2 N n12g a1 in Ok (a1, a2).
Fixpoint sweeps (N n12g : tensor) (x : tensor * tensor) (j : nat) : res (tensor * tensor) :=
  match j with 0 => Ok x | j.+1 => let! y := sweeps N n12g x j in sweep N n12g y end.

(** the step from x to y changed the squared distance from the target by less
    than the tolerance, relative to the squared distance without the constant
    squared length of the target *)
Definition settled n D p (N g : tensor) (x y : tensor * tensor) : Prop :=
  let cost z := dist2 n D p p N g z.1 z.2 - len2 n p p N (target g) in
  0 < `|cost x| /\ `|dist2 n D p p N g y.1 y.2 - dist2 n D p p N g x.1 x.2| < als_tol cfg * `|cost x|.

(** outcomes of the linear solve on arguments of the right shapes *)
Lemma solve_ar_total n D p (R S : tensor) : shape R = [:: n; D; n; D] -> shape S = [:: n; D; p] ->
  (exists2 X, solve_ar leigh lchol cfg R S = Ok X & shape X = [:: n; D; p]) \/
  solve_ar leigh lchol cfg R S = Err RuntimeError \/
  (als_method cfg <> "cholesky" /\ als_method cfg <> "pinv" /\ solve_ar leigh lchol cfg R S = Err UnboundLocalError).
Proof.
move=> HR HS; rewrite /solve_ar HS.
have nD : (n * D)%N = numel [:: n; D] by rewrite /= muln1.
have pE : p = numel [:: p] by rewrite /= muln1.
have [S2 [-> SS2 _]] := @reshape2 C [:: n; D] [:: p] (n * D) p S HS nD pE; rewrite [bind (Ok S2) _]/bind.
have [R2 [-> SR2 _]] := @reshape2 C [:: n; D] [:: n; D] (n * D) (n * D) R HR nD nD; rewrite [bind (Ok R2) _]/bind.
have [aS _] := adjointE SR2.
have [R3 [-> SR3]] : exists R3, [/\ tadd R2 (adjoint R2) = Ok R3 & shape R3 = [:: n * D; n * D]%N].
  by rewrite /tadd SR2 aS eqxx; eexists; split.
rewrite [bind (Ok R3) _]/bind; set R4 := tscale _ _.
have back (X : tensor) : shape X = [:: n * D; p]%N -> exists Y, [/\ reshape X [:: n; D; p] = Ok Y & shape Y = [:: n; D; p]].
  by move=> HX; have [Y [EY SY _]] := @reshape_split C [:: n; D] [:: p] (n * D) p X HX nD pE; exists Y.
case E1: (String.eqb _ _).
  have [R5 [-> SR5]] : exists R5, [/\ tadd R4 (tscale (als_epsilon cfg * absmax R4) (eye C (n * D))) = Ok R5 & shape R5 = [:: n * D; n * D]%N].
    by rewrite /tadd /= SR3 eqxx; eexists; split.
  rewrite [bind (Ok R5) _]/bind; case E: (bind (cholesky _ _) _) => [Y|e].
    have SY : shape Y = [:: n * D; p]%N.
      move: E; rewrite /cholesky SR5 eqxx; case: (lchol _) => [L|//]; rewrite [bind (Ok _) _]/bind /=.
      rewrite /solve_triangular /= SS2 !eqxx /=; case: ifP => //= _; rewrite !eqxx /=; case: ifP => // _ [<-] //.
    by left; rewrite [bind (Ok Y) _]/bind; have [Z [EZ SZ]] := back _ SY; exists Z.
  rewrite /solve SR5 SS2 !eqxx /=; case: ifP => // _; last by right; left.
  rewrite [bind (Ok _) _]/bind; have [|Z [EZ SZ]] := back (of_mx (invmx (mx_of (n * D) (n * D) R5) *m mx_of (n * D) p S2)); first by [].
  by left; exists Z.
case E2: (String.eqb _ _).
  rewrite /herm_pinv SR3 eqxx; case: (leigh _) => [[w V]|]; last by right; left.
  rewrite [bind (Ok _) _]/bind; set T := of_mx _.
  have [Y [-> SY _]] := @matmulE C _ _ _ T S2 (erefl _) SS2.
  by rewrite [bind (Ok Y) _]/bind; have [Z [EZ SZ]] := back _ SY; left; exists Z.
right; right; split; first by move=> /String.eqb_eq; rewrite E1.
by split=> // /String.eqb_eq; rewrite E2.
Qed.

Section Fixed.
Variables (n D p : nat) (N g n12g : tensor).
Hypotheses (SN : shape N = [:: n; n; n; n]) (Sg : shape g = [:: n; n; p; p]) (HN : norm_herm n N).
Hypothesis Eg : einsum "yxYX,yxpq->YXpq" [:: N; g] = Ok n12g.
Notation good x := (shape x.1 = [:: n; D; p] /\ shape x.2 = [:: n; D; p]).

Lemma solve1_total a2 : shape a2 = [:: n; D; p] ->
  (exists2 a1, solve1 N n12g a2 = Ok a1 & shape a1 = [:: n; D; p]) \/ solve1 N n12g a2 = Err RuntimeError \/
  (als_method cfg <> "cholesky" /\ als_method cfg <> "pinv" /\ solve1 N n12g a2 = Err UnboundLocalError).
Proof using SN Sg Eg.
move=> S2; have [a1 S1 _] := rmatP (0 : 'M[C]_(n * D, p)).
have [g' Eg' [Sg' [R [S [ER ES SR SS _]]]]] := costE SN Sg S1 S2.
move: Eg' ES; rewrite Eg => -[<-] ES; rewrite /solve_a1r ES ER !/bind; exact: solve_ar_total.
Qed.
Lemma solve2_total a1 : shape a1 = [:: n; D; p] ->
  (exists2 a2, solve2 N n12g a1 = Ok a2 & shape a2 = [:: n; D; p]) \/ solve2 N n12g a1 = Err RuntimeError \/
  (als_method cfg <> "cholesky" /\ als_method cfg <> "pinv" /\ solve2 N n12g a1 = Err UnboundLocalError).
Proof using SN Sg Eg.
move=> S1; have [a2 S2 _] := rmatP (0 : 'M[C]_(n * D, p)).
have [g' Eg' [R [S [ER ES SR SS _]]]] := costE2 SN Sg S1 S2.
move: Eg' ES; rewrite Eg => -[<-] ES; rewrite /solve_a2r ES ER !/bind; exact: solve_ar_total.
Qed.

Lemma sweep_total x : good x ->
  (exists2 y, sweep N n12g x = Ok y & good y) \/ sweep N n12g x = Err RuntimeError \/
  (als_method cfg <> "cholesky" /\ als_method cfg <> "pinv" /\ sweep N n12g x = Err UnboundLocalError).
Proof using SN Sg Eg.
case=> _ S2; rewrite /sweep; case: (solve1_total S2) => [[a1 -> S1]|[->|[M1 [M2 ->]]]]; [|by right; left|by right; right].
rewrite [bind (Ok _) _]/bind; case: (solve2_total S1) => [[b2 -> T2]|[->|[M1 [M2 ->]]]]; [|by right; left|by right; right].
by left; exists (a1, b2).
Qed.

Lemma sweeps_good x j y : good x -> sweeps N n12g x j = Ok y -> good y.
Proof using SN Sg Eg.
move=> Gx; elim: j y => [|j IH] y /=; first by case=> <-.
case E: (sweeps _ _ _ _) => [z|//]; rewrite [bind (Ok _) _]/bind; have Gz := IH _ E.
by case: (sweep_total Gz) => [[w -> Gw] [<-]|[->|[_ [_ ->]]]].
Qed.

(** the cost of a pair as the solver sees it *)
Definition pcost (x : tensor * tensor) : C := dist2 n D p p N g x.1 x.2 - len2 n p p N (target g).
Lemma pcostE x : good x -> calculate_cost x.1 x.2 g N = Ok (pcost x).
Proof using SN Sg HN.
case=> S1 S2; have [c -> E] := C43_cost_is_distance SN Sg S1 S2 HN; by rewrite /pcost E addrK.
Qed.

Lemma settledE x y : (pcost x != 0) && (`|pcost y - pcost x| / `|pcost x| < als_tol cfg) <-> settled n D p N g x y.
Proof using.
rewrite /settled -/(pcost x); have -> : dist2 n D p p N g y.1 y.2 - dist2 n D p p N g x.1 x.2 = pcost y - pcost x.
  by rewrite /pcost opprB addrA subrK.
rewrite -normr_gt0; split=> [/andP[c0]|[c0 H]]; last by rewrite c0 /= ltr_pdivr_mulr.
by rewrite ltr_pdivr_mulr.
Qed.

Lemma loopS k i x d : good x -> als_loop leigh lchol cfg N n12g g k.+1 i x.1 x.2 d =
  let! y := sweep N n12g x in
  if [&& d != 0, `|pcost y - d| / `|d| < als_tol cfg & (1 < i)%N] then Ok y
  else als_loop leigh lchol cfg N n12g g k i.+1 y.1 y.2 (pcost y).
Proof using SN Sg HN Eg.
move=> Gx; have := sweep_total Gx; rewrite /sweep /= -/(als_loop leigh lchol cfg N n12g g).
case: (solve1 _ _ _) => [a1|e] //; rewrite [bind (Ok a1) _]/bind [bind (Ok a1) _]/bind.
case: (solve2 _ _ _) => [a2|e] //; rewrite [bind (Ok a2) _]/bind [bind (Ok a2) _]/bind => H.
have Gy : good (a1, a2) by case: H => [[w [<-]]|[|[_ [_]]]].
by rewrite (pcostE Gy).
Qed.

Lemma loopE x0 : good x0 -> forall k i x d, sweeps N n12g x0 i = Ok x -> ((2 <= i)%N -> d = pcost x) ->
  exists j, [/\ (i <= j <= i + k)%N, als_loop leigh lchol cfg N n12g g k i x.1 x.2 d = sweeps N n12g x0 j,
    (forall l y z, (i < l < j)%N -> (3 <= l)%N -> sweeps N n12g x0 l.-1 = Ok y -> sweeps N n12g x0 l = Ok z -> ~ settled n D p N g y z) &
    (j < i + k)%N -> (exists e, sweeps N n12g x0 j = Err e) \/
      ((3 <= j)%N /\ exists y z, [/\ sweeps N n12g x0 j.-1 = Ok y, sweeps N n12g x0 j = Ok z & settled n D p N g y z])].
Proof using SN Sg HN Eg.
move=> G0; elim=> [|k IH] i x d Ex Hd.
  exists i; rewrite addn0 leqnn ltnn Ex /=; split=> // [|l y z /andP[H1 H2]]; first by case: (x).
  by have := ltn_trans H1 H2; rewrite ltnn.
have Gx := sweeps_good G0 Ex.
have ES : sweeps N n12g x0 i.+1 = sweep N n12g x by rewrite /= Ex.
have nol l : (i < l < i.+1)%N -> False by case/andP=> H1 H2; move: (leq_trans H2 H1); rewrite ltnn.
rewrite loopS //; case E: (sweep _ _ _) => [y|e]; last first.
  exists i.+1; rewrite [bind (Err _) _]/bind ES E leqnSn -addSnnS leq_addr; split=> // [l y z /nol //|_].
  by left; exists e.
rewrite [bind (Ok _) _]/bind; case: ifP => Ht.
  exists i.+1; rewrite ES E leqnSn -addSnnS leq_addr; split=> // [l u z /nol //|_].
  right; case/and3P: Ht => d0 Hd' i2; split=> //; exists x, y; split=> //.
  by apply/settledE; move: d0 Hd'; rewrite Hd // => -> ->.
have [j [/andP[J1 J2] J3 J4 J5]] := IH i.+1 y (pcost y) (etrans ES E) (fun _ => erefl).
exists j; rewrite J3; split=> //; first by rewrite (ltnW J1) -addSnnS.
  move=> l u z /andP[L1 L2] L3; case: (ltngtP l i.+1) => [L|L|El]; first by rewrite ltnNge L1 in L.
    by apply: J4 => //; rewrite L.
  rewrite El [i.+1.-1]/= Ex ES E => -[<-] [<-] /settledE; have i2 : (1 < i)%N by rewrite El in L3.
  by rewrite -Hd //; move: Ht; rewrite i2 andbT => ->.
by rewrite -addSnnS.
Qed.
End Fixed.

(** C40: whatever the oracles, the solver either fails with its initial guess or
    returns the result of a number k <= als_niter of sweeps of it (possibly an
    error in the last one).  It stops before als_niter only if a sweep fails or
    if at least three sweeps have been made and the last one changed the distance
    by less than als_tol; it does not go on after such a sweep. *)
Theorem C40_solver n D p (N g : tensor) : shape N = [:: n; n; n; n] -> shape g = [:: n; n; p; p] -> norm_herm n N ->
  let run := als_solve fsvd leigh lchol cfg N g n D p in
  exists2 n12g, einsum "yxYX,yxpq->YXpq" [:: N; g] = Ok n12g &
  match initialize_reduced_tensors fsvd g n D p with
  | Err e => run = Err e
  | Ok x => exists k, [/\ (k <= als_niter cfg)%N, run = sweeps N n12g x k,
      (k < als_niter cfg)%N -> (exists e, sweeps N n12g x k = Err e) \/
        ((3 <= k)%N /\ exists y z, [/\ sweeps N n12g x k.-1 = Ok y, sweeps N n12g x k = Ok z & settled n D p N g y z]) &
      forall l y z, (3 <= l < k)%N -> sweeps N n12g x l.-1 = Ok y -> sweeps N n12g x l = Ok z -> ~ settled n D p N g y z]
  end.
Proof.
move=> SN Sg HN; rewrite /als_solve.
have [n12g [Eg _ _]] := normE SN Sg; exists n12g => //.
case Ei: (initialize_reduced_tensors _ _ _ _ _) => [[a1 a2]|e] //; rewrite [bind (Ok _) _]/bind Eg [bind (Ok _) _]/bind.
have [S1 S2] := init_shape Ei.
have G0 : shape (a1, a2).1 = [:: n; D; p] /\ shape (a1, a2).2 = [:: n; D; p] by [].
rewrite (pcostE SN Sg HN G0) [bind (Ok _) _]/bind.
have [//|j [J1 J2 J3 J4]] := @loopE n D p N g n12g SN Sg HN Eg (a1, a2) G0 (als_niter cfg) 0%N (a1, a2) `|pcost n D p N g (a1, a2)| erefl.
exists j; split=> //.
move=> l y z /andP[L1 L2]; apply: J3 => //; by rewrite L2 (leq_trans _ L1).
Qed.

End Loop.

(** ---- the initial guess ---- *)
Section Guess.
Variable C : numClosedFieldType.
Notation tensor := (tensor C).
Notation pair := (nat -> nat -> nat -> nat -> C).
Variable fsvd : full_svd_fun C.
Hypothesis Sf : full_svd_spec fsvd.

(** the singular vectors of a real matrix are real, as they are for a real dtype *)
Definition real_svd : Prop := forall m n (A : 'M[C]_(m, n)), rl A -> rl (fsvd A).1.1 /\ rl (fsvd A).2.

Lemma guessE n D p (g : tensor) : shape g = [:: n; n; p; p] -> (0 < n * p)%N -> forall HD : (D <= n * p)%N,
  exists (U Vh : 'M[C]_(n * p)) (s : seq C),
   [/\ adj U *m U = 1%:M, Vh *m adj Vh = 1%:M, (forall i, 0 <= nth 0 s i) /\ (forall i j, (i <= j)%N -> nth 0 s j <= nth 0 s i),
       stmat n p (target g) = full U Vh (nth 0 s) /\ (real_svd -> rl (stmat n p (target g)) -> rl U /\ rl Vh) &
       if nth 0 s 0 == 0 then initialize_reduced_tensors fsvd g n D p = Err ZeroNorm else
       let W := diag_mx (\row_(i < D) sqrtC (nth 0 s i / nth 0 s 0)) in
       exists b1 b2, [/\ initialize_reduced_tensors fsvd g n D p = Ok (b1, b2), shape b1 = [:: n; D; p] /\ shape b2 = [:: n; D; p],
         amat n D p b1 = (\matrix_(i, j) U i (widen_ord HD j)) *m W & amat n D p b2 = (\matrix_(i, j) (Vh (widen_ord HD j) i)^* ) *m W]].
Proof using Sf.
move=> Hg np0 HD; rewrite /initialize_reduced_tensors.
have [t1 [-> T1 ET1]] : exists t, [/\ einsum "yxpq->ypxq" [:: g] = Ok t, shape t = [:: n; p; n; p] &
    forall y P x Q, at_ t [:: y; P; x; Q] = target g P Q y x].
  by rewrite /einsum /= Hg /= /dims_ok /= ?eqxx /=; eexists; split.
rewrite [bind (Ok t1) _]/bind.
have np : (n * p)%N = numel [:: n; p] by rewrite /= muln1.
have DE : D = numel [:: D] by rewrite /= muln1.
have [m1 [-> M1 EM1]] := @reshape2 C [:: n; p] [:: n; p] (n * p) (n * p) t1 T1 np np; rewrite [bind (Ok m1) _]/bind.
have [u [s [vh [Es [SU SV] Hs [IU IV s0 sm EU]]]]] := svd_square M1 Sf; rewrite Es [bind (Ok _) _]/bind.
exists (mx_of (n * p) (n * p) u), (mx_of (n * p) (n * p) vh), s; split=> //.
  suff Em : stmat n p (target g) = mx_of (n * p) (n * p) m1.
    split=> [|Rs]; first by rewrite /full -EU Em.
    rewrite Em => /Rs [RU RV]; move: Es RU RV; rewrite /svd_full M1.
    by case: (fsvd _) => [[U' s'] V'] [<- _ <-] /=; rewrite !mx_ofK.
  rewrite EM1; apply/matrixP => i j; rewrite !mxE.
  have [y [r [_ _ -> _]]] := unravel2 (ltn_ord i); have [x [q [_ _ -> _]]] := unravel2 (ltn_ord j).
  by rewrite /= ET1.
have -> : (match s with [::] => Err IndexError | s0 :: _ => sqrt_weights s D s0 end) = sqrt_weights s D (nth 0 s 0).
  by move: (Hs); case: (s) => [E|//]; rewrite -E in np0.
have St : size (take D s) = D by rewrite size_takel // Hs.
case: eqVneq => [->|Nn]; first by rewrite /sqrt_weights eqxx.
have [w [-> Sw Ew]] : exists w, [/\ sqrt_weights s D (nth 0 s 0) = Ok w, shape w = [:: D] & forall i, at_ w [:: i] = sqrtC (nth 0 s i / nth 0 s 0)].
  by rewrite /sqrt_weights (negbTE Nn); eexists; split=> //; rewrite /= St.
rewrite [bind (Ok w) _]/bind.
have mD : minn D (n * p) = D by apply/minn_idPl.
have [SA EA] := adjointE SV.
have Sc : shape (cols u D) = [:: n * p; D]%N by rewrite /cols SU /= mD.
have Sr : shape (cols (adjoint vh) D) = [:: n * p; D]%N by rewrite /cols SA /= mD.
have [c1 [Ec1 C1 EC1]] := @reshape_split C [:: n; p] [:: D] (n * p) D _ Sc np DE.
have [c2 [Ec2 C2 EC2]] := @reshape_split C [:: n; p] [:: D] (n * p) D _ Sr np DE.
rewrite [cat _ _]/= in Ec1 C1 Ec2 C2; rewrite Ec1 [bind (Ok c1) _]/bind Ec2 [bind (Ok c2) _]/bind.
have [b1 [-> B1 EB1]] : exists t, [/\ einsum "ypu,u->yup" [:: c1; w] = Ok t, shape t = [:: n; D; p] &
    forall y a P, at_ t [:: y; a; P] = at_ c1 [:: y; P; a] * at_ w [:: a]].
  by rewrite /einsum /= C1 Sw /= /dims_ok /= ?eqxx /=; eexists; split.
rewrite [bind (Ok b1) _]/bind.
have [b2 [-> B2 EB2]] : exists t, [/\ einsum "xqv,v->xvq" [:: c2; w] = Ok t, shape t = [:: n; D; p] &
    forall y a P, at_ t [:: y; a; P] = at_ c2 [:: y; P; a] * at_ w [:: a]].
  by rewrite /einsum /= C2 Sw /= /dims_ok /= ?eqxx /=; eexists; split.
exists b1, b2; split=> //.
  apply/matrixP => i j; rewrite mul_mx_diag !mxE EB1 Ew //; congr (_ * _).
  by have /matrixP/(_ i j) := EC1; rewrite !mxE unravel1.
apply/matrixP => i j; rewrite mul_mx_diag !mxE EB2 Ew //; congr (_ * _).
by have /matrixP/(_ i j) := EC2; rewrite !mxE unravel1.
Qed.

(** entrywise conjugate *)
Definition cnj (a : tensor) : tensor := Tensor (shape a) (fun i => (at_ a i)^* ).

(** C66: the initial guess.  A zero target divides by zero.  Otherwise the first
    tensor and the conjugate of the second describe a best approximation of the
    target with D bond states, up to a positive factor; both tensors have
    orthogonal columns with the same, ordered weights, the first of which is one. *)
Theorem C66_guess n D p (g : tensor) : shape g = [:: n; n; p; p] -> (0 < n * p)%N -> (D <= n * p)%N ->
  exists t, closest n D p (target g) t /\
  ((size2 n p (target g) = 0 /\ initialize_reduced_tensors fsvd g n D p = Err ZeroNorm) \/
   exists a1 a2 c w, [/\ initialize_reduced_tensors fsvd g n D p = Ok (a1, a2), shape a1 = [:: n; D; p] /\ shape a2 = [:: n; D; p],
    0 < c /\ (forall P Q y x, (P < p)%N -> (Q < p)%N -> (y < n)%N -> (x < n)%N -> state D a1 (cnj a2) P Q y x = c * t P Q y x),
    forall u v, (u < D)%N -> (v < D)%N -> gram n p a1 u v = w u *+ (u == v) /\ gram n p a2 u v = w u *+ (u == v) &
    [/\ w 0%N = 1, forall u, (u < D)%N -> 0 <= w u, forall u v, (u <= v)%N -> (v < D)%N -> w v <= w u &
      real_svd -> (forall P Q y x, (P < p)%N -> (Q < p)%N -> (y < n)%N -> (x < n)%N -> target g P Q y x \is Num.real) -> forall x u Q, (x < n)%N -> (u < D)%N -> (Q < p)%N -> at_ a2 [:: x; u; Q] \is Num.real]]).
Proof using Sf.
move=> Hg np0 HD.
have [U [Vh [s [IU IV [s0 sm] [EG RG] H]]]] := guessE Hg np0 HD.
pose T := trunc D U Vh (nth 0 s).
pose t r q y x := if (insub (ravel [:: n; p] [:: y; r]), insub (ravel [:: n; p] [:: x; q])) is (Some i, Some j) then T i j else 0.
have tE (i j : 'I_(n * p)) y r x q : unravel [:: n; p] i = [:: y; r] -> unravel [:: n; p] j = [:: x; q] -> t r q y x = T i j.
  move=> Ei Ej; rewrite /t -Ei -Ej !unravelK ?valK //= muln1 //.
have Mt : stmat n p t = T.
  apply/matrixP => i j; rewrite mxE; apply: tE.
    by have [y [r [_ _ -> _]]] := unravel2 (ltn_ord i).
  by have [y [r [_ _ -> _]]] := unravel2 (ltn_ord j).
exists t; split.
  move=> b1 b2; rewrite !size2E.
  have B f h : stmat n p (fun r q y x => f r q y x - h r q y x) = stmat n p f - stmat n p h by apply/matrixP => i j; rewrite !mxE.
  rewrite !B Mt EG stmat_state; exact: eckart_young.
pose Ud : 'M[C]_(n * p, D) := \matrix_(i, j) U i (widen_ord HD j).
pose Vd : 'M[C]_(n * p, D) := \matrix_(i, j) Vh (widen_ord HD j) i.
pose dD := diag_mx (\row_(i < D) nth 0 s i).
have ET : T = Ud *m dD *m Vd^T.
  apply/matrixP => i j; rewrite /T /trunc /dD !mul_mx_diag !mxE.
  transitivity (\sum_(k < n * p | (k < D)%N) U i k * nth 0 s k * Vh k j).
    by rewrite [RHS]big_mkcond /=; apply: eq_bigr => k _; rewrite !mxE; case: (k < D)%N; rewrite ?mulr1n // mulr0n mulr0 mul0r.
  by rewrite (big_ord_narrow HD); apply: eq_bigr => k _; rewrite !mxE.
have UU : adj Ud *m Ud = 1%:M.
  apply/matrixP => i j; have /matrixP/(_ (widen_ord HD i) (widen_ord HD j)) := IU.
  by rewrite !mxE => E; rewrite -[RHS]E; apply: eq_bigr => k _; rewrite !mxE.
pose Vc : 'M[C]_(n * p, D) := \matrix_(i, j) (Vh (widen_ord HD j) i)^*.
have VV : adj Vc *m Vc = 1%:M.
  apply/matrixP => i j; have /matrixP/(_ (widen_ord HD i) (widen_ord HD j)) := IV.
  by rewrite !mxE => E; rewrite -[RHS]E; apply: eq_bigr => k _; rewrite adjE !mxE conjCK.
have [r Er] : exists r, r = nth 0 s 0 by eexists.
move: H; rewrite -Er; case: eqVneq => [r_0 E|rn].
  left; split=> //; rewrite size2E EG fro_full // big1 // => i _; suff -> : nth 0 s i = 0 by rewrite expr0n.
  by apply/eqP; rewrite Order.POrderTheory.eq_le s0 andbT; have := sm 0%N i (leq0n _); rewrite -Er r_0.
have {}rn : 0 < r by rewrite lt0r rn Er s0.
move=> /= -[b1 [b2 [E [B1 B2] M1 M2]]]; right; exists b1, b2, r^-1, (fun u => nth 0 s u / r).
pose W := diag_mx (\row_(i < D) sqrtC (nth 0 s i / r)); rewrite -/W -/Ud in M1; rewrite -/W -/Vc in M2.
have W2 : W *m W = r^-1 *: dD.
  apply/matrixP => i j; rewrite mul_mx_diag !mxE; case: (eqVneq i j) => [->|]; last by rewrite !mulr0n mulr0 mul0r.
  by rewrite !mulr1n -expr2 sqrtCK mulrC.
have Wa : adj W = W.
  apply/matrixP => i j; rewrite adjE !mxE eq_sym; case: (eqVneq i j) => [->|]; last by rewrite !mulr0n conjC0.
  by rewrite !mulr1n geC0_conj // sqrtC_ge0 divr_ge0 // Order.POrderTheory.ltW.
have dE (A : 'M[C]_(n * p, D)) : adj A *m A = 1%:M -> adj (A *m W) *m (A *m W) = r^-1 *: dD.
  by move=> A1; rewrite adjM Wa mulmxA -(mulmxA _ (adj A)) A1 mulmx1 W2.
have gE b : adj (amat n D p b) *m amat n D p b = r^-1 *: dD -> forall u v, (u < D)%N -> (v < D)%N -> gram n p b u v = nth 0 s u / r *+ (u == v).
  move=> Eb u v Hu Hv; have [i [j [Ei Ej Eg]]] := amat_gram n p b Hu Hv.
  rewrite /gram -{}Eg Eb !mxE -Ei -Ej val_eqE; case: (i == j); last by rewrite !mulr0n mulr0.
  by rewrite !mulr1n mulrC.
have Mc : amat n D p (cnj b2) = Vd *m W.
  apply/matrixP => i j; have /matrixP/(_ i j) := M2; have /matrixP/(_ j j) := Wa.
  rewrite !mul_mx_diag adjE !mxE eqxx !mulr1n /= => Ej ->.
  by rewrite rmorphM Ej conjCK.
split=> //.
- split; first by rewrite invr_gt0.
  move=> P Q y x HP HQ Hy Hx; have [i Ei] := pair_ord Hy HP; have [j Ej] := pair_ord Hx HQ.
  rewrite (tE _ _ _ _ _ _ Ei Ej) ET.
  have /matrixP/(_ i j) := stmat_state n D p b1 (cnj b2); rewrite {1}/stmat mxE Ei Ej /= => ->.
  rewrite M1 Mc trmx_mul tr_diag_mx mulmxA -[in LHS](mulmxA Ud) W2 -scalemxAr -scalemxAl mxE //.
- by move=> u v Hu Hv; rewrite !gE // ?M1 ?M2 dE.
split=> [||u v Huv Hv|Rs Rt x u Q Hx Hu HQ]; first by rewrite -Er divff // Order.POrderTheory.gt_eqF.
- by move=> u _; rewrite divr_ge0 // Order.POrderTheory.ltW.
- by rewrite ler_wpmul2r ?invr_ge0 ?(Order.POrderTheory.ltW rn) // sm.
have [|_ RV] := RG Rs.
  move=> i j; rewrite mxE; have [y [r1 [Hy Hr -> _]]] := unravel2 (ltn_ord i); have [x' [q [Hx' Hq -> _]]] := unravel2 (ltn_ord j).
  exact: Rt.
have [i Ei] := pair_ord Hx HQ; have /matrixP/(_ i (Ordinal Hu)) := M2.
rewrite mul_mx_diag !mxE Ei /= => ->; rewrite rpredM ?rl_conj //.
by rewrite ger0_real // sqrtC_ge0 divr_ge0 // Order.POrderTheory.ltW.
Qed.

(** a target that D bond states can describe is described exactly, up to the
    conjugation of the second tensor *)
Theorem C66_representable n D p (g b1 b2 : tensor) : shape g = [:: n; n; p; p] -> (0 < n * p)%N -> (D <= n * p)%N ->
  (forall P Q y x, (P < p)%N -> (Q < p)%N -> (y < n)%N -> (x < n)%N -> target g P Q y x = state D b1 b2 P Q y x) ->
  (exists P Q y x, [/\ (P < p)%N, (Q < p)%N, (y < n)%N, (x < n)%N & target g P Q y x != 0]) ->
  exists a1 a2 c, [/\ initialize_reduced_tensors fsvd g n D p = Ok (a1, a2), shape a1 = [:: n; D; p] /\ shape a2 = [:: n; D; p], 0 < c &
    forall P Q y x, (P < p)%N -> (Q < p)%N -> (y < n)%N -> (x < n)%N -> state D a1 (cnj a2) P Q y x = c * target g P Q y x].
Proof using Sf.
move=> Hg np0 HD Hb [P0 [Q0 [y0 [x0 [HP HQ Hy Hx N0]]]]].
have [t [Ht]] := C66_guess Hg np0 HD; case=> [[Z _]|[a1 [a2 [c [w [E S [c0 H] _ _]]]]]].
  have Z' : size2 n p (target g) <= 0 by rewrite Z.
  by rewrite (size2_eq0 Z' HP HQ Hy Hx) eqxx in N0.
exists a1, a2, c; split=> // P Q y x h1 h2 h3 h4; rewrite H //; congr (_ * _).
have Z : size2 n p (fun r s y x => target g r s y x - t r s y x) <= 0.
  apply: Order.POrderTheory.le_trans (Ht b1 b2) _.
  rewrite [X in X <= _](_ : _ = 0) //; rewrite /size2 /sumn big1 // => i _; rewrite big1 // => j _; rewrite big1 // => k _; rewrite big1 // => l _.
  by rewrite Hb // subrr normr0 expr0n.
by have /esym/eqP := size2_eq0 Z h1 h2 h3 h4; rewrite eq_sym subr_eq0 => /eqP.
Qed.

(** with a real target and real singular vectors the two tensors themselves
    describe a best approximation, up to a positive factor *)
Theorem C66_real_guess n D p (g : tensor) : shape g = [:: n; n; p; p] -> (0 < n * p)%N -> (D <= n * p)%N ->
  real_svd -> (forall P Q y x, (P < p)%N -> (Q < p)%N -> (y < n)%N -> (x < n)%N -> target g P Q y x \is Num.real) ->
  exists t, closest n D p (target g) t /\
  ((size2 n p (target g) = 0 /\ initialize_reduced_tensors fsvd g n D p = Err ZeroNorm) \/
   exists a1 a2 c, [/\ initialize_reduced_tensors fsvd g n D p = Ok (a1, a2), 0 < c &
     forall P Q y x, (P < p)%N -> (Q < p)%N -> (y < n)%N -> (x < n)%N -> state D a1 a2 P Q y x = c * t P Q y x]).
Proof using Sf.
move=> Hg np0 HD Rs Rt; have [t [Ht]] := C66_guess Hg np0 HD; case=> [Z|[a1 [a2 [c [w [E S [c0 H] _ [_ _ _ R]]]]]]].
  by exists t; split=> //; left.
exists t; split=> //; right; exists a1, a2, c; split=> // P Q y x HP HQ Hy Hx; rewrite -H //.
by apply: eq_sumn => u Hu; rewrite /cnj /= conj_Creal // R.
Qed.

(** the same for a target that D bond states can describe *)
Theorem C66_real_representable n D p (g b1 b2 : tensor) : shape g = [:: n; n; p; p] -> (0 < n * p)%N -> (D <= n * p)%N ->
  real_svd -> (forall P Q y x, (P < p)%N -> (Q < p)%N -> (y < n)%N -> (x < n)%N -> target g P Q y x \is Num.real) ->
  (forall P Q y x, (P < p)%N -> (Q < p)%N -> (y < n)%N -> (x < n)%N -> target g P Q y x = state D b1 b2 P Q y x) ->
  (exists P Q y x, [/\ (P < p)%N, (Q < p)%N, (y < n)%N, (x < n)%N & target g P Q y x != 0]) ->
  exists a1 a2 c, [/\ initialize_reduced_tensors fsvd g n D p = Ok (a1, a2), 0 < c &
    forall P Q y x, (P < p)%N -> (Q < p)%N -> (y < n)%N -> (x < n)%N -> state D a1 a2 P Q y x = c * target g P Q y x].
Proof using Sf.
move=> Hg np0 HD Rs Rt Hb N0; have [a1 [a2 [c [E S c0 H]]]] := C66_representable Hg np0 HD Hb N0.
have [t [_]] := C66_guess Hg np0 HD; case=> [[_ Z]|[a1' [a2' [c' [w [E' _ _ _ [_ _ _ R]]]]]]]; first by rewrite Z in E.
move: E'; rewrite E => -[_ E2]; rewrite -{}E2 in R.
exists a1, a2, c; split=> // P Q y x HP HQ Hy Hx; rewrite -H //.
by apply: eq_sumn => u Hu; rewrite /cnj /= conj_Creal // R.
Qed.
End Guess.
(** ---- a target the solver cannot handle ---- *)
Section Crash.
Variable C : numClosedFieldType.
Notation tensor := (tensor C).

(** the normal equations with a zero matrix are not solved *)
Lemma solve_ar_zero (leigh : eigh_fun C) (lchol : chol_fun C) (cfg : econfig C) n D p (R S : tensor) :
  shape R = [:: n; D; n; D] -> shape S = [:: n; D; p] -> mat (n * D) (n * D) [:: n; D] [:: n; D] R = 0 -> (0 < n * D)%N ->
  als_method cfg = "cholesky" -> chol_spec lchol -> solve_ar leigh lchol cfg R S = Err RuntimeError.
Proof.
move=> HR HS HM HnD Hm Sc; rewrite /solve_ar HS.
have nD : (n * D)%N = numel [:: n; D] by rewrite /= muln1.
have pE : p = numel [:: p] by rewrite /= muln1.
have [S2 [-> SS2 _]] := @reshape2 C [:: n; D] [:: p] (n * D) p S HS nD pE; rewrite [bind (Ok S2) _]/bind.
have [R2 [-> SR2 ER2]] := @reshape2 C [:: n; D] [:: n; D] (n * D) (n * D) R HR nD nD; rewrite [bind (Ok R2) _]/bind.
rewrite HM in ER2; have [aS aE] := adjointE SR2.
have [R3 [-> SR3 ER3]] : exists R3, [/\ tadd R2 (adjoint R2) = Ok R3, shape R3 = [:: n * D; n * D]%N & mx_of (n * D) (n * D) R3 = 0].
  rewrite /tadd SR2 aS eqxx; eexists; split=> //.
  transitivity (mx_of (n * D) (n * D) R2 + mx_of (n * D) (n * D) (adjoint R2)); first by apply/matrixP => i j; rewrite !mxE.
  by rewrite aE ER2; apply/matrixP => i j; rewrite !mxE conjC0 addr0.
rewrite [bind (Ok R3) _]/bind; have [R4 ER4] : exists R4, R4 = tscale 2%:R^-1 R3 by eexists.
rewrite -ER4; have SR4 : shape R4 = [:: n * D; n * D]%N by rewrite ER4.
have MR4 : mx_of (n * D) (n * D) R4 = 0 by rewrite ER4 mx_tscale ER3 scaler0.
have a0 : absmax R4 = 0.
  have [_ _ /(_ HnD) [i [j]]] := absmax_mx SR4; by rewrite MR4 mxE normr0.
rewrite Hm /= a0 mulr0.
have [R5 [-> SR5 ER5]] : exists R5, [/\ tadd R4 (tscale 0 (eye C (n * D))) = Ok R5, shape R5 = [:: n * D; n * D]%N & mx_of (n * D) (n * D) R5 = 0].
  rewrite /tadd /= SR4 eqxx; eexists; split=> //; apply/matrixP => i j; rewrite !mxE /= mul0r addr0.
  by have /matrixP/(_ i j) := MR4; rewrite !mxE.
rewrite [bind (Ok R5) _]/bind /cholesky SR5 eqxx ER5.
have i0 : 'I_(n * D) by exists 0%N.
have -> : lchol (n * D)%N 0 = None.
  have := Sc _ (0 : 'M[C]_(n * D)); case: (lchol _ _) => [L [_ Ld EL]|//].
  have /matrixP/(_ i0 i0) := EL; rewrite !mxE /=.
  rewrite ltnn ?mxE raddf0 => E; have : 0 < \sum_j L i0 j * adj L j i0.
    rewrite (bigD1 i0) //= adjE mulrC -normCKC ltr_paddr //; last by rewrite exprn_gt0 // normr_gt0 Order.POrderTheory.gt_eqF.
    by apply: sumr_ge0 => j _; rewrite adjE mulrC -normCKC exprn_ge0.
  by rewrite -E Order.POrderTheory.ltxx.
rewrite [bind (Err _) _]/bind /solve SR5 SS2 !eqxx /= ER5.
case: ifP => // /mulVmx; rewrite mulmx0 => /matrixP/(_ i0 i0); rewrite !mxE eqxx => /esym/eqP; by rewrite oner_eq0.
Qed.

(** the product of (1, 0) and (1, i) *)
Definition skew : tensor := Tensor [:: 1; 1; 2; 2]%N (fun j => if nth 0%N j 2 == 0%N then (if nth 0%N j 3 == 0%N then 1 else 'i) else 0).
Definition up : tensor := Tensor [:: 1; 1; 2]%N (fun j => if nth 0%N j 2 == 0%N then 1 else 0).
Definition ri : tensor := Tensor [:: 1; 1; 2]%N (fun j => if nth 0%N j 2 == 0%N then 1 else 'i).

Definition is_skew (g : tensor) : Prop := shape g = [:: 1; 1; 2; 2]%N /\
  forall P Q, (P < 2)%N -> (Q < 2)%N -> target g P Q 0 0 = target skew P Q 0 0.

Lemma skew_guess (fsvd : full_svd_fun C) g : full_svd_spec fsvd -> is_skew g ->
  exists a1 a2, [/\ initialize_reduced_tensors fsvd g 1 1 2 = Ok (a1, a2), shape a1 = [:: 1; 1; 2]%N /\ shape a2 = [:: 1; 1; 2]%N,
    at_ a2 [:: 0; 0; 0]%N != 0 & at_ a2 [:: 0; 0; 1]%N = - 'i * at_ a2 [:: 0; 0; 0]%N].
Proof.
move=> Sf [Sg Eg].
have Hs P Q y x : (P < 2)%N -> (Q < 2)%N -> (y < 1)%N -> (x < 1)%N -> target g P Q y x = state 1 up ri P Q y x.
  by move: y x => [|//] [|//] HP HQ _ _; rewrite Eg // /state /sumn big_ord1 /target /=; case: (P == 0%N); rewrite ?mul1r ?mul0r.
have He : exists P Q y x, [/\ (P < 2)%N, (Q < 2)%N, (y < 1)%N, (x < 1)%N & target g P Q y x != 0].
  by exists 0%N, 0%N, 0%N, 0%N; rewrite Eg // /target /= oner_eq0.
have [a1 [a2 [c [E S c0 H]]]] := @C66_representable C fsvd Sf 1 1 2 g up ri Sg isT isT Hs He.
exists a1, a2; split=> //.
  apply/eqP => Z; have := H 0%N 0%N 0%N 0%N isT isT isT isT.
  rewrite Eg // /state /sumn big_ord1 /target /= Z conjC0 mulr0 mulr1 => /esym Ec; by rewrite Ec Order.POrderTheory.ltxx in c0.
have := H 0%N 0%N 0%N 0%N isT isT isT isT; have := H 0%N 1%N 0%N 0%N isT isT isT isT.
rewrite !Eg // /state /sumn !big_ord1 /target /= mulr1 => E1 E0.
have N1 : at_ a1 [:: 0; 0; 0]%N != 0.
  by apply/eqP => Z; move: E0; rewrite Z mul0r => /esym Ec; rewrite Ec Order.POrderTheory.ltxx in c0.
have : at_ a1 [:: 0; 0; 0]%N * (at_ a2 [:: 0; 0; 1]%N)^* = at_ a1 [:: 0; 0; 0]%N * ('i * (at_ a2 [:: 0; 0; 0]%N)^* ).
  by rewrite E1 -E0 mulrC mulrCA.
move/(mulfI N1)/(congr1 (fun z => z^* )); by rewrite conjCK rmorphM conjCK conjCi.
Qed.

Lemma skew_orth (a2 : tensor) P : at_ a2 [:: 0; 0; 1]%N = - 'i * at_ a2 [:: 0; 0; 0]%N -> (P < 2)%N ->
  sumn 2 (fun Q => (target skew P Q 0 0)^* * at_ a2 [:: 0; 0; Q]%N) = 0.
Proof.
move=> E2; case: P => [|[|//]] _; rewrite /sumn !big_ord_recl big_ord0 /target /= ?conjC0 ?mul0r ?addr0 //.
by rewrite conjC1 mul1r E2 conjCi mulrA mulrNN -expr2 sqrCi mulN1r subrr.
Qed.

(** the first sweep fails, whatever the scale of the norm tensor *)
Lemma skew_sweep leigh lchol (cfg : econfig C) (N g n12g a1 a2 : tensor) (m : C) : shape N = [:: 1; 1; 1; 1]%N -> norm_psd 1 N ->
  0 < m -> (forall v, nform 1 N v v = m * `|v 0%N 0%N| ^+ 2) -> is_skew g -> einsum "yxYX,yxpq->YXpq" [:: N; g] = Ok n12g ->
  shape a2 = [:: 1; 1; 2]%N -> at_ a2 [:: 0; 0; 0]%N != 0 -> at_ a2 [:: 0; 0; 1]%N = - 'i * at_ a2 [:: 0; 0; 0]%N ->
  chol_spec lchol -> als_method cfg = "cholesky" -> 0 <= als_epsilon cfg ->
  sweep leigh lchol cfg N n12g (a1, a2) = Err RuntimeError.
Proof.
move=> SN PN m0 EN [Sg Hg] Eg S2 N2 E2 Sc Hm He.
have O P : (P < 2)%N -> sumn 2 (fun Q => (target g P Q 0 0)^* * at_ a2 [:: 0; 0; Q]%N) = 0.
  by move=> HP; rewrite -[RHS](skew_orth E2 HP); apply: eq_sumn => Q HQ; rewrite Hg.
rewrite /sweep /=; have [[b1 Eb1 Sb1]|[->//|[]//]] := solve1_total leigh lchol cfg SN Sg Eg S2.
rewrite Eb1 [bind (Ok _) _]/bind.
have [d [d0 _ _] [Hc _]] := @chol_step1 C leigh lchol cfg 1 1 2 2 N g SN Sg PN n12g Eg a2 S2 Hm Sc He.
have [_ L] := Hc _ Eb1.
pose z := Tensor [:: 1; 1; 2]%N (fun _ => 0 : C).
pose A : C := sumn 2 (fun Q => `|at_ a2 [:: 0; 0; Q]%N| ^+ 2).
pose T : C := m * sumn 2 (fun P => sumn 2 (fun Q => `|target g P Q 0 0| ^+ 2)).
have dE b : dist2 1 1 2 2 N g b a2 = m * sumn 2 (fun P => `|at_ b [:: 0; 0; P]%N| ^+ 2 * A) + T.
  rewrite /dist2 /len2 sumnC /T -mulrDr /sumn -big_split /= mulr_sumr; apply: eq_bigr => P _.
  have OP := O P (ltn_ord P).
  have -> : \sum_(Q < 2) `|target g P Q 0 0| ^+ 2 = \sum_(Q < 2) `|target g P Q 0 0| ^+ 2 -
     at_ b [:: 0; 0; P : nat]%N * sumn 2 (fun Q => (target g P Q 0 0)^* * at_ a2 [:: 0; 0; Q]%N) -
     (at_ b [:: 0; 0; P : nat]%N * sumn 2 (fun Q => (target g P Q 0 0)^* * at_ a2 [:: 0; 0; Q]%N))^*.
    by rewrite OP mulr0 conjC0 !subr0.
  rewrite /A !sumn_mull sumn_conj /sumn -!sumrB -big_split /= mulr_sumr; apply: eq_bigr => Q _.
  rewrite EN; congr (_ * _); rewrite /state /sumn big_ord1 -exprMn -normrM mulrCA.
  move: (target g P Q 0 0) (_ * at_ a2 _) => q u.
  rewrite !normCK rmorphB rmorphM conjCK mulrBl !mulrBr opprB -!addrA; congr (_ + _).
  by rewrite addrCA (mulrC u).
have {L} := L z erefl; rewrite !dE.
have A0 : 0 < A.
  by rewrite /A /sumn big_ord_recl ltr_paddr ?exprn_gt0 ?normr_gt0 // sumr_ge0 // => i _; rewrite exprn_ge0.
have -> : sq3 1 1 2 z = 0 by rewrite /sq3 /sumn big1 // => i _; rewrite big1 // => j _; rewrite big1 // => k' _; rewrite /= normr0 expr0n.
rewrite mulr0 addr0 [X in _ <= _ * X + _](_ : _ = 0); last by rewrite /sumn big1 // => i _; rewrite /= normr0 expr0n mul0r.
rewrite mulr0 add0r -addrA addrCA -[X in _ <= X]addr0 ler_add2l => L.
have B0 P : (P < 2)%N -> at_ b1 [:: 0; 0; P]%N = 0.
  move=> HP; have H0 i : 0 <= `|at_ b1 [:: 0; 0; i]%N| ^+ 2 * A by rewrite mulr_ge0 ?exprn_ge0 // Order.POrderTheory.ltW.
  have Lz : sumn 2 (fun P => `|at_ b1 [:: 0; 0; P]%N| ^+ 2 * A) <= 0.
    rewrite -(pmulr_rle0 _ m0); apply: Order.POrderTheory.le_trans L; rewrite ler_addl mulr_ge0 ?mulr_ge0 //.
    by apply: sumr_ge0 => ? _; apply: sumr_ge0 => ? _; apply: sumr_ge0 => ? _; rewrite exprn_ge0.
  by have /eqP := sumn_le0 H0 Lz HP; rewrite mulf_eq0 (Order.POrderTheory.gt_eqF A0) orbF sqrf_eq0 normr_eq0 => /eqP.
have [n12g' Eg' [R [S [ER ES SR SS _]]]] := costE2 SN Sg Sb1 S2; move: Eg'; rewrite Eg => -[En]; rewrite -{}En in ES.
rewrite /solve_a2r ES ER [bind (Ok _) _]/bind [bind (Ok _) _]/bind (solve_ar_zero leigh SR SS _ isT Hm Sc) //.
apply/matrixP => i j; rewrite !mxE.
have [y [u [_ _ -> _]]] := unravel2 (ltn_ord i); have [x [v [Hx Hv -> _]]] := unravel2 (ltn_ord j).
rewrite (normal2E SN Sb1 ER) /normal2 /sumn big1 // => P _; rewrite big1 // => Y _; rewrite big1 // => k' _.
by move: v Hv (k') => [|//] _ [[|//] /= _]; rewrite B0 // mulr0 mul0r.
Qed.

(** C66: a product state whose second factor is complex.  For every SVD the guess
    is orthogonal to it; with the identity as norm tensor the first solve gives a
    zero tensor and the second one fails, for every regularisation strength. *)
Theorem C66_complex_guess_refuted :
  [/\ shape skew = [:: 1; 1; 2; 2]%N, (forall P Q y x, target skew P Q y x = state 1 up ri P Q y x) &
  forall fsvd leigh lchol (cfg : econfig C), full_svd_spec fsvd -> chol_spec lchol ->
    als_method cfg = "cholesky" -> 0 <= als_epsilon cfg -> (0 < als_niter cfg)%N ->
    (exists a1 a2, initialize_reduced_tensors fsvd skew 1 1 2 = Ok (a1, a2) /\
       sumn 2 (fun P => sumn 2 (fun Q => (target skew P Q 0 0)^* * state 1 a1 a2 P Q 0 0)) = 0) /\
    als_solve fsvd leigh lchol cfg (id4 C 1) skew 1 1 2 = Err RuntimeError].
Proof.
split=> //.
  by move=> P Q y x; rewrite /state /sumn big_ord1 /target /=; case: (P == 0%N); rewrite ?mul1r ?mul0r.
move=> fsvd leigh lchol cfg Sf Sc Hm He Hn.
have Sk : is_skew skew by [].
have [a1 [a2 [E [S1 S2] N2 E2]]] := skew_guess Sf Sk.
split.
  exists a1, a2; split=> //.
  rewrite /sumn big1 // => P _; transitivity (at_ a1 [:: 0; 0; P : nat]%N * sumn 2 (fun Q => (target skew P Q 0 0)^* * at_ a2 [:: 0; 0; Q]%N)).
    by rewrite sumn_mull; apply: eq_bigr => Q _; rewrite /state /sumn big_ord1 mulrCA.
  by rewrite skew_orth ?mulr0.
have SN : shape (id4 C 1) = [:: 1; 1; 1; 1]%N by [].
have Sg : shape skew = [:: 1; 1; 2; 2]%N by [].
have [n12g Eg] := @C40_solver C fsvd leigh lchol cfg 1 1 2 (id4 C 1) skew SN Sg (@id4_herm C 1).
rewrite E => -[k [_ -> Hk _]].
have Hs : sweep leigh lchol cfg (id4 C 1) n12g (a1, a2) = Err RuntimeError.
  apply: (skew_sweep leigh a1 SN (@id4_psd C 1) (@ltr01 C) _ Sk Eg S2 N2 E2) => // v.
  by rewrite id4_form /sumn !big_ord1 normCK mul1r.
case: k Hk => [/(_ Hn) [[e //]|[]//]|k _]; elim: k => [|k IH]; first exact: Hs.
by rewrite [LHS]/= -/(sweeps leigh lchol cfg _ _ _ k.+1) IH.
Qed.
End Crash.

(** ---- concrete cases ---- *)
Section Cases.
Variable C : numClosedFieldType.
Notation tensor := (tensor C).

(** a Bell pair is its own best approximation with two bond states: the guess is
    proportional to it *)
Definition bell : tensor := Tensor [:: 1; 1; 2; 2]%N (fun j => (nth 0%N j 2 == nth 0%N j 3)%:R).
Definition half : tensor := Tensor [:: 1; 2; 2]%N (fun j => (nth 0%N j 1 == nth 0%N j 2)%:R).
Example C66_example : exists a1 a2 c, [/\ initialize_reduced_tensors (@some_full_svd C) bell 1 2 2 = Ok (a1, a2), 0 < c,
    state 2 a1 a2 0 0 0 0 = c, state 2 a1 a2 1 1 0 0 = c & state 2 a1 a2 0 1 0 0 = 0].
Proof.
have Hb P Q y x : (P < 2)%N -> (Q < 2)%N -> (y < 1)%N -> (x < 1)%N -> target bell P Q y x = state 2 half half P Q y x.
  by case: P => [|[|//]] _; case: Q => [|[|//]] _ _ _; rewrite /state /sumn !big_ord_recl big_ord0 /target /= ?(mulr1, mulr0, mul0r, addr0, add0r).
have He : exists P Q y x, [/\ (P < 2)%N, (Q < 2)%N, (y < 1)%N, (x < 1)%N & target bell P Q y x != 0].
  by exists 0%N, 0%N, 0%N, 0%N; rewrite /target /= oner_eq0.
have [|a1 [a2 [c [E c0 H]]]] := @C66_real_representable C _ (@some_full_svd_spec C) 1 2 2 bell half half erefl isT isT (@some_full_svd_real C) _ Hb He.
  by move=> P Q y x; rewrite realn.
by exists a1, a2, c; split=> //; rewrite H // /target /= ?mulr1 ?mulr0.
Qed.

(** with a zero tolerance all sweeps are made, unless one of them fails *)
Example C40_solver_example fsvd leigh lchol (cfg : econfig C) n D p (N g : tensor) x :
  shape N = [:: n; n; n; n] -> shape g = [:: n; n; p; p] -> norm_herm n N -> als_tol cfg = 0 ->
  initialize_reduced_tensors fsvd g n D p = Ok x ->
  exists n12g, (exists e, als_solve fsvd leigh lchol cfg N g n D p = Err e) \/
    als_solve fsvd leigh lchol cfg N g n D p = sweeps leigh lchol cfg N n12g x (als_niter cfg).
Proof.
move=> SN Sg HN T0 E; have [n12g _] := @C40_solver C fsvd leigh lchol cfg n D p N g SN Sg HN.
rewrite E => -[k [L -> Hk _]]; exists n12g.
move: L; rewrite leq_eqVlt => /predU1P[->|/Hk [[e ->]|[_ [y [z [_ _ [_]]]]]]]; [by right|by left; exists e|].
by rewrite T0 mul0r normr_lt0.
Qed.
End Cases.

Print Assumptions C40_solver.
Print Assumptions C66_guess.
Print Assumptions C66_representable.
Print Assumptions C66_real_guess.
Print Assumptions C66_complex_guess_refuted.
