(** Facts about the ALS solver: the normal equations as matrices. *)
From Coq Require Import String Ascii.
From mathcomp Require Import all_ssreflect all_algebra.
From Verif Require Import Base Lattice Mover Tensor TN Rdm RdmFacts FullUpdate Linalg Mat Rsvd RsvdFacts Renorm RenormFacts Spectral Psd Als.
Set Implicit Arguments.
Unset Strict Implicit.
Unset Printing Implicit Defensive.
Import GRing.Theory Num.Theory.
Local Open Scope ring_scope.
Local Open Scope string_scope.

Lemma unravel2 n D i : (i < n * D)%N -> exists y u, [/\ (y < n)%N, (u < D)%N, unravel [:: n; D] i = [:: y; u] & ravel [:: n; D] [:: y; u] = i].
Proof.
have -> : (n * D)%N = numel [:: n; D] by rewrite /= muln1.
move=> H; move: (unravel_range H) (unravelK H).
case: (unravel _ i) => [|y [|u [|? ?]]]; rewrite [in_range _ _]/= ?andbF // => /andP[Hy /andP[Hu _]] E.
by exists y, u.
Qed.

Lemma unravel1 p i : (i < p)%N -> unravel [:: p] i = [:: i].
Proof. by move=> H; rewrite /= divn1. Qed.

Section Sums.
Variable C : numClosedFieldType.

Lemma sum2 n D (F : seq nat -> C) : \sum_(i < n * D) F (unravel [:: n; D] i) = sumn n (fun y => sumn D (fun u => F [:: y; u])).
Proof.
rewrite -(@sum_unravel C [:: n; D]) ?numelE; last by rewrite !big_cons big_nil muln1.
by rewrite !indices_cons; apply: eq_sumn => y _; rewrite indices_cons; apply: eq_sumn => u _; rewrite big_seq1.
Qed.

Lemma sum1 p (F : seq nat -> C) : \sum_(i < p) F (unravel [:: p] i) = sumn p (fun y => F [:: y]).
Proof. by apply: eq_bigr => i _; rewrite unravel1. Qed.

Lemma sumnC n m (F : nat -> nat -> C) : sumn n (fun i => sumn m (F i)) = sumn m (fun j => sumn n (fun i => F i j)).
Proof. exact: exchange_big. Qed.

Lemma sumn_mulr n (F : nat -> C) a : sumn n F * a = sumn n (fun i => F i * a).
Proof. exact: mulr_suml. Qed.
Lemma sumn_mull n (F : nat -> C) a : a * sumn n F = sumn n (fun i => a * F i).
Proof. exact: mulr_sumr. Qed.
Lemma sumn_conj n (F : nat -> C) : (sumn n F)^* = sumn n (fun i => (F i)^* ).
Proof. exact: rmorph_sum. Qed.

(** a sum with one non-zero term *)
Lemma sumn_delta n k (F : nat -> C) : (k < n)%N -> sumn n (fun i => F i *+ (i == k)) = F k.
Proof.
move=> Hk; rewrite /sumn (bigD1 (Ordinal Hk)) //= eqxx big1 ?addr0 // => i.
by rewrite -val_eqE /= => /negbTE ->.
Qed.
End Sums.

Section Normal.
Variable C : numClosedFieldType.
Notation tensor := (tensor C).

(** the norm tensor as a matrix, conjugated legs as rows *)
Definition nmat n (n12 : tensor) : 'M[C]_(n * n) := (mat (n * n) (n * n) [:: n; n] [:: n; n] n12)^T.
(** reduced tensor with legs y, u as rows *)
Definition rmat n D p (a : tensor) : 'M[C]_(n * D, p) := mat (n * D) p [:: n; D] [:: p] a.
(** two-site tensor at the second physical index Q *)
Definition tmat n p (Q : nat) (t : tensor) : 'M[C]_(n * n, p) :=
  \matrix_(i, j) at_ t (cat (unravel [:: n; n] i) [:: nat_of_ord j; Q]).
(** the linear map from the first reduced tensor to the two-site product *)
Definition bmat n D (Q : nat) (a2r : tensor) : 'M[C]_(n * n, n * D) :=
  \matrix_(i, j) (at_ a2r [:: nth 0 (unravel [:: n; n] i) 1; nth 0 (unravel [:: n; D] j) 1; Q]%N
     *+ (nth 0 (unravel [:: n; n] i) 0 == nth 0 (unravel [:: n; D] j) 0)%N).

Lemma nmatE n n12 i j : nmat n n12 i j = at_ n12 (cat (unravel [:: n; n] j) (unravel [:: n; n] i)).
Proof. by rewrite !mxE. Qed.

Lemma adjB_mul n D Q a2r m (f : seq nat -> 'I_m -> C) (X : 'M[C]_(n * n, m)) (i : 'I_(n * D)) (j : 'I_m) y u :
  (forall i j, X i j = f (unravel [:: n; n] i) j) -> unravel [:: n; D] i = [:: y; u] -> (y < n)%N ->
  (adj (bmat n D Q a2r) *m X) i j = sumn n (fun x => (at_ a2r [:: x; u; Q])^* * f [:: y; x] j).
Proof.
move=> HX Ei Hy; rewrite mxE.
pose F v := (at_ a2r [:: nth 0 v 1; u; Q]%N *+ (nth 0 v 0 == y)%N)^* * f v j.
transitivity (\sum_(k < n * n) F (unravel [:: n; n] k)).
  by apply: eq_bigr => k _; rewrite adjE HX mxE Ei.
rewrite sum2 /F /= (eq_sumn (G := fun y' => sumn n (fun x => (at_ a2r [:: x; u; Q])^* * f [:: y'; x] j) *+ (y' == y))).
  by rewrite sumn_delta.
move=> y' _; rewrite /sumn; case: eqP => [->|_]; first by apply: eq_bigr => x _; rewrite mulr1n.
by rewrite big1 // => x _; rewrite mulr0n rmorph0 mul0r.
Qed.

Lemma mulB n D Q a2r m (f : 'I_m -> seq nat -> C) (X : 'M[C]_(m, n * n)) (i : 'I_m) (j : 'I_(n * D)) y u :
  (forall i j, X i j = f i (unravel [:: n; n] j)) -> unravel [:: n; D] j = [:: y; u] -> (y < n)%N ->
  (X *m bmat n D Q a2r) i j = sumn n (fun x => f i [:: y; x] * at_ a2r [:: x; u; Q]).
Proof.
move=> HX Ej Hy; rewrite mxE.
pose F v := f i v * (at_ a2r [:: nth 0 v 1; u; Q]%N *+ (nth 0 v 0 == y)%N).
transitivity (\sum_(k < n * n) F (unravel [:: n; n] k)).
  by apply: eq_bigr => k _; rewrite HX mxE Ej.
rewrite sum2 /F /= (eq_sumn (G := fun y' => sumn n (fun x => f i [:: y'; x] * at_ a2r [:: x; u; Q]) *+ (y' == y))).
  by rewrite sumn_delta.
move=> y' _; rewrite /sumn; case: eqP => [->|_]; first by apply: eq_bigr => x _; rewrite mulr1n.
by rewrite big1 // => x _; rewrite mulr0n mulr0.
Qed.

Section Dims.
Variables (n D p q : nat) (n12 a12g a1r a2r : tensor).
Hypotheses (Hn : shape n12 = [:: n; n; n; n]) (Hg : shape a12g = [:: n; n; p; q])
  (H1 : shape a1r = [:: n; D; p]) (H2 : shape a2r = [:: n; D; q]).

Lemma a12nE : exists W, [/\ einsum "yup,xuq->yxpq" [:: a1r; a2r] = Ok W, shape W = [:: n; n; p; q] &
  forall y x P Q, at_ W [:: y; x; P; Q] = sumn D (fun u => at_ a1r [:: y; u; P] * at_ a2r [:: x; u; Q])].
Proof.
rewrite /einsum /= H1 H2 /= /dims_ok /= !eqxx /=; eexists; split=> //.
Qed.

Lemma bmatP W Q : (forall y x P Q, at_ W [:: y; x; P; Q] = sumn D (fun u => at_ a1r [:: y; u; P] * at_ a2r [:: x; u; Q])) ->
  bmat n D Q a2r *m rmat n D p a1r = tmat n p Q W.
Proof.
move=> HW; apply/matrixP => i j; rewrite !mxE.
have [y [x [Hy Hx Ei _]]] := unravel2 (ltn_ord i); rewrite Ei /= HW.
pose F v := at_ a2r [:: x; nth 0 v 1; Q]%N *+ (y == nth 0 v 0)%N * at_ a1r (cat v [:: nat_of_ord j]).
transitivity (\sum_(k < n * D) F (unravel [:: n; D] k)).
  apply: eq_bigr => k _; rewrite !mxE Ei /=; congr (_ * at_ _ _).
  by have [y' [u [_ _ Ek _]]] := unravel2 (ltn_ord k); rewrite !divn1.
rewrite sum2 /F /= (eq_sumn (G := fun y' => (sumn D (fun u => at_ a1r [:: y'; u; nat_of_ord j] * at_ a2r [:: x; u; Q])) *+ (y' == y))).
  by rewrite sumn_delta.
move=> y' _; rewrite eq_sym /sumn; case: eqP => _; first by apply: eq_bigr => u _; rewrite mulr1n mulrC.
by rewrite big1 // => u _; rewrite mul0r.
Qed.

Lemma normE t : shape t = [:: n; n; p; q] -> exists d, [/\ einsum "yxYX,yxpq->YXpq" [:: n12; t] = Ok d, shape d = [:: n; n; p; q] &
  forall Q, tmat n p Q d = nmat n n12 *m tmat n p Q t].
Proof using Hn.
move=> Ht; rewrite /einsum /= Hn Ht /= /dims_ok /= !eqxx /=; eexists; split=> //.
move=> Q; apply/matrixP => i j; rewrite [RHS]mxE.
have [Y [X [HY HX Ei _]]] := unravel2 (ltn_ord i); rewrite !mxE Ei /=.
pose F v := at_ n12 (cat v [:: Y; X]) * at_ t (cat v [:: nat_of_ord j; Q]).
transitivity (\sum_(k < n * n) F (unravel [:: n; n] k)); first by rewrite sum2.
by apply: eq_bigr => k _; rewrite nmatE Ei !mxE.
Qed.

Lemma pairE d w : shape d = [:: n; n; p; q] -> shape w = [:: n; n; p; q] ->
  exists2 e, einsum "YXpq,YXpq->" [:: d; conj w] = Ok e &
    at_ e [::] = \sum_(Q < q) \tr (adj (tmat n p Q w) *m tmat n p Q d).
Proof using.
move=> Hd Hw; rewrite /einsum /= Hd Hw /= /dims_ok /= !eqxx /=; eexists=> //=.
rewrite /factor /=; transitivity (sumn q (fun Q => sumn p (fun P => sumn n (fun Y => sumn n (fun X => (at_ w [:: Y; X; P; Q])^* * at_ d [:: Y; X; P; Q]))))).
  rewrite (eq_sumn (G := fun Y => sumn q (fun Q => sumn p (fun P => sumn n (fun X => (at_ w [:: Y; X; P; Q])^* * at_ d [:: Y; X; P; Q]))))).
    by rewrite sumnC; apply: eq_sumn => Q _; rewrite sumnC.
  move=> Y _; rewrite (eq_sumn (G := fun X => sumn q (fun Q => sumn p (fun P => (at_ w [:: Y; X; P; Q])^* * at_ d [:: Y; X; P; Q])))).
    by rewrite sumnC; apply: eq_sumn => Q _; rewrite sumnC.
  by move=> X _; rewrite sumnC; apply: eq_sumn => Q _; apply: eq_sumn => P _; rewrite mulrC.
apply: eq_bigr => Q _; apply: eq_bigr => P _; rewrite mxE.
pose F v := (at_ w (cat v [:: nat_of_ord P; nat_of_ord Q]))^* * at_ d (cat v [:: nat_of_ord P; nat_of_ord Q]).
transitivity (\sum_(k < n * n) F (unravel [:: n; n] k)); first by rewrite sum2.
by apply: eq_bigr => k _; rewrite adjE !mxE.
Qed.

Lemma s1E n12g : shape n12g = [:: n; n; p; q] -> exists S, [/\ build_s1 n12g a2r = Ok S, shape S = [:: n; D; p] &
  rmat n D p S = \sum_(Q < q) adj (bmat n D Q a2r) *m tmat n p Q n12g].
Proof using H2.
move=> Hs; rewrite /build_s1 /einsum /= Hs H2 /= /dims_ok /= !eqxx /=; eexists; split=> //.
apply/matrixP => i j; rewrite summxE !mxE.
have [y [u [Hy Hu Ei _]]] := unravel2 (ltn_ord i); rewrite Ei unravel1 //= /factor /= sumnC.
apply: eq_bigr => Q _; rewrite (@adjB_mul _ _ _ _ _ (fun v (j : 'I_p) => at_ n12g (cat v [:: nat_of_ord j; nat_of_ord Q])) _ _ _ y u) //=.
  by apply: eq_bigr => X _; rewrite mulrC.
by move=> i' j'; rewrite mxE.
Qed.

Lemma r1E : exists R, [/\ build_r1 n12 a2r = Ok R, shape R = [:: n; D; n; D] &
  mat (n * D) (n * D) [:: n; D] [:: n; D] R = \sum_(Q < q) adj (bmat n D Q a2r) *m nmat n n12 *m bmat n D Q a2r].
Proof using Hn H2.
rewrite /build_r1.
have [T [-> HT ET]] : exists T, [/\ einsum "yxYX,xuq->yYXuq" [:: n12; a2r] = Ok T, shape T = [:: n; n; n; D; q] &
    forall y Y X u Q, at_ T [:: y; Y; X; u; Q] = sumn n (fun x => at_ n12 [:: y; x; Y; X] * at_ a2r [:: x; u; Q])].
  by rewrite /einsum /= Hn H2 /= /dims_ok /= !eqxx /=; eexists; split.
rewrite [bind _ _]/bind /einsum /= HT H2 /= /dims_ok /= !eqxx /=; eexists; split=> //.
apply/matrixP => i j; rewrite summxE !mxE.
have [Y [U [HY HU Ei _]]] := unravel2 (ltn_ord i); have [y [u [Hy Hu Ej _]]] := unravel2 (ltn_ord j).
rewrite Ei Ej /= /factor /= sumnC; apply: eq_bigr => Q _; rewrite -mulmxA.
pose f v (j : 'I_(n * D)) := sumn n (fun x => at_ n12 (cat [:: nth 0 (unravel [:: n; D] j) 0; x]%N v) * at_ a2r [:: x; nth 0 (unravel [:: n; D] j) 1; nat_of_ord Q]%N).
rewrite (@adjB_mul _ _ _ _ _ f _ _ _ Y U) //.
  by apply: eq_bigr => X _; rewrite ET /f Ej /= mulrC.
move=> i' j'; have [y' [u' [Hy' Hu' Ej' _]]] := unravel2 (ltn_ord j').
rewrite (@mulB _ _ _ _ _ (fun i v => at_ n12 (cat v (unravel [:: n; n] (nat_of_ord i)))) _ _ _ y' u') //.
  by rewrite /f Ej'.
by move=> i2 j2; rewrite nmatE.
Qed.

(** the cost as a quadratic function of the first reduced tensor *)
Lemma costE : exists2 n12g, einsum "yxYX,yxpq->YXpq" [:: n12; a12g] = Ok n12g &
  shape n12g = [:: n; n; p; q] /\ exists R S, [/\ build_r1 n12 a2r = Ok R, build_s1 n12g a2r = Ok S,
    shape R = [:: n; D; n; D], shape S = [:: n; D; p] &
    let Rm := mat (n * D) (n * D) [:: n; D] [:: n; D] R in let Sm := rmat n D p S in
    [/\ calculate_cost a1r a2r a12g n12 = Ok (qcost Rm Sm (rmat n D p a1r)),
       psd (nmat n n12) -> psd Rm &
       psd (nmat n n12) -> forall x : 'cV_(n * D), Rm *m x = 0 -> adj x *m Sm = 0]].
Proof using Hn Hg H1 H2.
have [g [Eg Sg Hgg]] := normE Hg; exists g => //; split=> //.
have [R [ER SR HR]] := r1E; have [S [ES SS HS]] := s1E Sg.
exists R, S; split=> //=; rewrite HR HS; split.
- rewrite /calculate_cost.
  have [W [-> SW HW]] := a12nE; rewrite [bind (Ok _) _]/bind.
  have [d [-> Sd Hd]] := normE SW; rewrite [bind (Ok _) _]/bind.
  have [e1 -> He1] := pairE Sd SW; rewrite [bind (Ok _) _]/bind Eg [bind (Ok _) _]/bind.
  have [e2 -> He2] := pairE Sg SW; rewrite [bind (Ok _) _]/bind He1 He2 /qcost; congr (Ok ('Re _ - _ * 'Re _)).
    rewrite mulmx_sumr mulmx_suml raddf_sum; apply: eq_bigr => Q _.
    by rewrite Hd -(bmatP Q HW) adjM !mulmxA.
  rewrite mulmx_sumr raddf_sum; apply: eq_bigr => Q _.
  by rewrite -(bmatP Q HW) adjM !mulmxA.
- move=> P x; rewrite mulmx_sumr mulmx_suml summxE; apply: sumr_ge0 => Q _.
  by have := P (bmat n D Q a2r *m x); rewrite adjM !mulmxA.
move=> P x Hx; rewrite mulmx_sumr big1 // => Q _.
have : \sum_(Q < q) (adj (bmat n D Q a2r *m x) *m nmat n n12 *m (bmat n D Q a2r *m x)) 0 0 = 0.
  transitivity ((adj x *m (\sum_(Q < q) adj (bmat n D Q a2r) *m nmat n n12 *m bmat n D Q a2r *m x)) 0 0).
    by rewrite mulmx_sumr summxE; apply: eq_bigr => Q' _; rewrite adjM !mulmxA.
  by rewrite -mulmx_suml Hx mulmx0 mxE.
move=> /eqP; rewrite psumr_eq0 => [/allP /(_ Q (mem_index_enum Q)) /eqP E|Q' _]; last exact: P.
have K := psd_ker P E; rewrite Hgg.
by rewrite mulmxA -adjM -[nmat n n12](psd_herm P) mulmxA -adjM K adj0 mul0mx.
Qed.
End Dims.
End Normal.

(** ---- the linear solvers ---- *)
Section Solve.
Variable C : numClosedFieldType.
Notation tensor := (tensor C).

Lemma lowherm_herm n (A : 'M[C]_n) : adj A = A -> lowherm A = A.
Proof.
move=> H; apply/matrixP => i j; rewrite mxE; case: ltnP => // Hij; case: ltnP => Hji.
  by rewrite -{1}H adjE conjCK.
have -> : j = i by apply/val_inj/eqP; rewrite eqn_leq Hij Hji.
by apply/Creal_ReP; rewrite CrealE -{2}H adjE.
Qed.

Lemma lower_unit n (L : 'M[C]_n) : (forall i j : 'I_n, (i < j)%N -> L i j = 0) -> (forall i, 0 < L i i) -> L \in unitmx.
Proof.
move=> HL Hd; rewrite unitmxE det_trig; last by apply/is_trig_mxP.
by rewrite unitfE; apply/prodf_neq0 => i _; rewrite lt0r_neq0.
Qed.

Lemma tril_lower n (L : 'M[C]_n) : (forall i j : 'I_n, (i < j)%N -> L i j = 0) -> tril L = L.
Proof. by move=> H; apply/matrixP => i j; rewrite mxE; case: leqP => // /H. Qed.
Lemma triu_adj n (L : 'M[C]_n) : (forall i j : 'I_n, (i < j)%N -> L i j = 0) -> triu (adj L) = adj L.
Proof. by move=> H; apply/matrixP => i j; rewrite mxE; case: leqP => // /H; rewrite adjE => ->; rewrite rmorph0. Qed.

Lemma chol_solve n p (chol : chol_fun C) (R : tensor) (S : tensor) :
  chol_spec chol -> shape R = [:: n; n] -> shape S = [:: n; p] -> adj (mx_of n n R) = mx_of n n R ->
  forall X, (let! L := cholesky chol R in let! Y := solve_triangular false L S in solve_triangular true (adjoint L) Y) = Ok X ->
  shape X = [:: n; p] /\ mx_of n n R *m mx_of n p X = mx_of n p S.
Proof.
move=> Sc HR HS HH X; rewrite /cholesky HR eqxx; case E: (chol n _) => [L|] //.
have := Sc _ (mx_of n n R); rewrite E (lowherm_herm HH) => -[L0 L1 EL].
have uL := lower_unit L0 L1.
rewrite [bind (Ok _) _]/bind /solve_triangular HS /= !eqxx /= mx_ofK tril_lower // uL /= !eqxx /=.
rewrite mx_ofK.
have -> : mx_of n n (adjoint (of_mx L)) = adj L by have [_ ->] := @adjointE C n n (of_mx L) (erefl _); rewrite mx_ofK.
rewrite triu_adj //; case: ifP => // uA [<-]; split=> //.
by rewrite mx_ofK EL -!mulmxA (mulmxA (adj L)) mulmxV // mul1mx mulmxA mulmxV // mul1mx.
Qed.

Lemma solveE n p (R S X : tensor) : shape R = [:: n; n] -> shape S = [:: n; p] -> solve R S = Ok X ->
  shape X = [:: n; p] /\ mx_of n n R *m mx_of n p X = mx_of n p S.
Proof.
move=> HR HS; rewrite /solve HR HS !eqxx /=; case: ifP => // u [<-]; split=> //.
by rewrite mx_ofK mulmxA mulmxV // mul1mx.
Qed.

Lemma solve_ok n p (R S : tensor) : shape R = [:: n; n] -> shape S = [:: n; p] -> mx_of n n R \in unitmx -> exists X, solve R S = Ok X.
Proof. by move=> HR HS u; rewrite /solve HR HS !eqxx /= u; eexists. Qed.

(** the symmetrised matrix *)
Definition hpart n (M : 'M[C]_n) : 'M[C]_n := 2%:R^-1 *: (M + adj M).
Lemma hpart_herm n (M : 'M[C]_n) : adj (hpart M) = hpart M.
Proof. by rewrite /hpart adjZ adjD adjK fmorphV rmorph_nat addrC. Qed.
Lemma hpart_id n (M : 'M[C]_n) : adj M = M -> hpart M = M.
Proof. by move=> H; rewrite /hpart H -mulr2n -scaler_nat scalerA mulVf ?scale1r // pnatr_eq0. Qed.

(** the largest absolute value of the entries *)
Definition mxmax n (M : 'M[C]_n) (c : C) : Prop :=
  [/\ 0 <= c, forall i j, `|M i j| <= c & (0 < n)%N -> exists i j, `|M i j| = c].

Lemma absmax_mx n (R : tensor) : shape R = [:: n; n] -> mxmax (mx_of n n R) (absmax R).
Proof.
move=> HR; split; first exact: absmax_ge0.
  by move=> i j; rewrite mxE; apply: absmax_le; rewrite HR /= !ltn_ord.
move=> n0; rewrite /absmax.
have Hl : {subset indices (shape R) <= indices [:: n; n]} by rewrite HR.
have Ne : indices (shape R) != [::].
  by rewrite -size_eq0 size_indices HR /= muln1 muln_eq0 negb_or -!lt0n n0.
have key i : in_range [:: n; n] i -> exists a b : 'I_n, `|at_ R i| = `|mx_of n n R a b|.
  by move=> /in_range_mx [a [b ->]]; exists a, b; rewrite mxE.
elim: (indices _) Hl Ne => // i l IH Hl _ /=.
have Hi : in_range [:: n; n] i by rewrite -mem_indices; apply: Hl; rewrite mem_head.
have [a [b Eab]] := key _ Hi; rewrite /maxC; case: ifP => H; last by exists a, b.
case: (l =P [::]) => [El|/eqP Nl]; last first.
  by apply: IH => // x Hx; apply: Hl; rewrite inE Hx orbT.
move: H; rewrite El /= => H0; exists a, b; rewrite -Eab; apply/eqP.
by rewrite Order.POrderTheory.eq_le H0 normr_ge0.
Qed.

Variables (leigh : eigh_fun C) (lchol : chol_fun C) (cfg : econfig C).

Lemma solve_arE n D p (R S : tensor) : shape R = [:: n; D; n; D] -> shape S = [:: n; D; p] ->
  let M := hpart (mat (n * D) (n * D) [:: n; D] [:: n; D] R) in let Sm := rmat n D p S in
  exists2 c, mxmax M c &
  [/\ String.eqb (als_method cfg) "cholesky" -> chol_spec lchol -> als_epsilon cfg \is Num.real ->
        (forall X, solve_ar leigh lchol cfg R S = Ok X -> shape X = [:: n; D; p] /\ (M + (als_epsilon cfg * c)%:M) *m rmat n D p X = Sm) /\
        ((M + (als_epsilon cfg * c)%:M) \in unitmx -> exists X, solve_ar leigh lchol cfg R S = Ok X) &
      String.eqb (als_method cfg) "cholesky" = false -> String.eqb (als_method cfg) "pinv" ->
        (forall X, solve_ar leigh lchol cfg R S = Ok X -> exists w V, [/\ leigh M = Some (w, V), shape X = [:: n; D; p] &
           rmat n D p X = V *m diag_mx (\row_i if als_epsilon cfg * row_max w < `|w 0 i| then (w 0 i)^-1 else 0) *m adj V *m Sm]) /\
        (leigh M -> exists X, solve_ar leigh lchol cfg R S = Ok X)].
Proof.
move=> HR HS M Sm.
have nD : (n * D)%N = numel [:: n; D] by rewrite /= muln1.
have pE : p = numel [:: p] by rewrite /= muln1.
have [S2 [ES2 SS2 HS2]] := @reshape2 C [:: n; D] [:: p] (n * D) p S HS nD pE.
have [R2 [ER2 SR2 HR2]] := @reshape2 C [:: n; D] [:: n; D] (n * D) (n * D) R HR nD nD.
have [aS aE] := adjointE SR2.
have [R3 [ER3 SR3 HR3]] : exists R3, [/\ tadd R2 (adjoint R2) = Ok R3, shape R3 = [:: n * D; n * D]%N & mx_of (n * D) (n * D) R3 = mx_of (n * D) (n * D) R2 + mx_of (n * D) (n * D) (adjoint R2)].
  by rewrite /tadd SR2 aS eqxx; eexists; split=> //; apply/matrixP => i j; rewrite !mxE.
pose R4 := tscale 2%:R^-1 R3.
have HR4 : mx_of (n * D) (n * D) R4 = M by rewrite mx_tscale HR3 aE HR2.
exists (absmax R4); first by have := @absmax_mx (n * D) R4 SR3; rewrite HR4.
have [R5 [ER5 SR5 HR5]] : exists R5, [/\ tadd R4 (tscale (als_epsilon cfg * absmax R4) (eye C (n * D))) = Ok R5, shape R5 = [:: n * D; n * D]%N & mx_of (n * D) (n * D) R5 = M + (als_epsilon cfg * absmax R4)%:M].
  rewrite /tadd /= SR3 eqxx; eexists; split=> //; rewrite -HR4; apply/matrixP => i j; rewrite !mxE -val_eqE /=.
  by rewrite mulr_natr.
have HH5 : als_epsilon cfg \is Num.real -> adj (mx_of (n * D) (n * D) R5) = mx_of (n * D) (n * D) R5.
  move=> He; rewrite HR5 adjD hpart_herm adj_scalar conj_Creal // realM //; exact: absmax_real.
have back (X : tensor) : shape X = [:: n * D; p]%N -> exists Y, [/\ reshape X [:: n; D; p] = Ok Y, shape Y = [:: n; D; p] & rmat n D p Y = mx_of (n * D) p X].
  by move=> HX; have := @reshape_split C [:: n; D] [:: p] (n * D) p X HX nD pE.
rewrite /solve_ar HS ES2 [bind (Ok S2) _]/bind ER2 [bind (Ok R2) _]/bind ER3 [bind (Ok R3) _]/bind -/R4.
split.
  move=> -> Sc er; rewrite ER5 [bind (Ok R5) _]/bind; split.
    move=> X; case E: (bind (cholesky _ _) _) => [Y|e].
      have [SY EY] := chol_solve Sc SR5 SS2 (HH5 er) E.
      rewrite [bind (Ok Y) _]/bind; have [Z [-> SZ HZ]] := back _ SY => -[<-].
      by rewrite HZ -HR5 EY.
    case E2: (solve _ _) => [Y|//]; have [SY EY] := solveE SR5 SS2 E2.
    rewrite [bind (Ok Y) _]/bind; have [Z [-> SZ HZ]] := back _ SY => -[<-].
    by rewrite HZ -HR5 EY.
  move=> u; case E: (bind (cholesky _ _) _) => [Y|e].
    by have [SY _] := chol_solve Sc SR5 SS2 (HH5 er) E; have [Z [EZ _ _]] := back _ SY; exists Z.
  rewrite -HR5 in u; have [Y EY] := solve_ok SR5 SS2 u; rewrite EY.
  by have [SY _] := solveE SR5 SS2 EY; have [Z [EZ _ _]] := back _ SY; exists Z.
move=> -> ->; rewrite /herm_pinv SR3 eqxx HR4.
case E: (leigh M) => [[w V]|]; last by split=> [X|].

have [Y [EY SY HY]] : exists Y, [/\ matmul (of_mx (V *m diag_mx (\row_i if als_epsilon cfg * row_max w < `|w 0 i| then (w 0 i)^-1 else 0) *m adj V)) S2 = Ok Y,
  shape Y = [:: n * D; p]%N & mx_of (n * D) p Y = V *m diag_mx (\row_i if als_epsilon cfg * row_max w < `|w 0 i| then (w 0 i)^-1 else 0) *m adj V *m Sm].
  have [Y [EY SY HY]] := @matmulE C _ _ _ (of_mx (V *m diag_mx (\row_i if als_epsilon cfg * row_max w < `|w 0 i| then (w 0 i)^-1 else 0) *m adj V)) S2 (erefl _) SS2.
  by exists Y; split=> //; rewrite HY mx_ofK HS2.
have [Z [EZ SZ HZ]] := back _ SY.
rewrite [bind (Ok _) _]/bind EY [bind (Ok _) _]/bind EZ; split; last by exists Z.
by move=> X [<-]; exists w, V; rewrite HZ.
Qed.
End Solve.

(** ---- exchanging the two sites ---- *)
Section Swap.
Variable C : numClosedFieldType.
Notation tensor := (tensor C).
Definition swap (t : tensor) : tensor := permute t [:: 1; 0; 3; 2]%N.

Variables (n D p q : nat) (n12 a12g a1r a2r : tensor).
Hypotheses (Hn : shape n12 = [:: n; n; n; n]) (Hg : shape a12g = [:: n; n; p; q])
  (H1 : shape a1r = [:: n; D; p]) (H2 : shape a2r = [:: n; D; q]).

Ltac tn_swap a :=
  match goal with
  | H : rep ?ds ?atoms ?c a ?N |- _ =>
      let R := fresh "R" in
      let N' := eval vm_compute in (perm_net [:: 1; 0; 3; 2]%N N) in
      have R : rep ds atoms c (swap a) N' by exact (@rep_permute _ _ _ _ _ _ [:: 1; 0; 3; 2]%N H isT isT)
  end.

Lemma swapE : exists n12g m12g, [/\ einsum "yxYX,yxpq->YXpq" [:: n12; a12g] = Ok n12g,
  einsum "yxYX,yxpq->YXpq" [:: swap n12; swap a12g] = Ok m12g,
  calculate_cost a1r a2r a12g n12 = calculate_cost a2r a1r (swap a12g) (swap n12) &
  exists R R' S S', [/\ build_r2 n12 a1r = Ok R, build_r1 (swap n12) a1r = Ok R', teq R R',
    build_s2 n12g a1r = Ok S & build_s1 m12g a1r = Ok S' /\ teq S S']].
Proof using Hn Hg H1 H2.
tn_setup [:: n; D; p; q] [:: n12; a12g; a1r; a2r].
tn_swap n12; tn_swap a12g.
tn_einsum; tn_einsum; eexists _, _; split; [reflexivity|reflexivity| |].
  rewrite /calculate_cost; repeat tn_einsum.
  match goal with |- Ok ('Re (at_ ?a _) - _ * 'Re (at_ ?b _)) = Ok ('Re (at_ ?c _) - _ * 'Re (at_ ?d _)) =>
    (have T1 : teq a c by tn_teq); (have T2 : teq b d by tn_teq) end.
  match goal with |- Ok ('Re (at_ ?a _) - _ * 'Re (at_ ?b _)) = _ =>
    (have S1 : shape a = [::] by match goal with H : rep _ _ _ a _ |- _ => case: H => -> end);
    (have S2 : shape b = [::] by match goal with H : rep _ _ _ b _ |- _ => case: H => -> end) end.
  by rewrite T1.2 ?S1 // T2.2 ?S2.
rewrite /build_r2 /build_r1 /build_s1 /build_s2; repeat tn_einsum.
eexists _, _, _, _; split; [reflexivity|reflexivity|tn_teq|reflexivity|split; [reflexivity|tn_teq]].
Qed.

Lemma permuteE (t : tensor) y x Y X : at_ (swap t) [:: y; x; Y; X] = at_ t [:: x; y; X; Y].
Proof. by []. Qed.

Lemma swap_shape a b c d (t : tensor) : shape t = [:: a; b; c; d] -> shape (swap t) = [:: b; a; d; c].
Proof. by rewrite /= => ->. Qed.

(** the cost as a quadratic function of the second reduced tensor *)
Lemma costE2 : exists2 n12g, einsum "yxYX,yxpq->YXpq" [:: n12; a12g] = Ok n12g &
  exists R S, [/\ build_r2 n12 a1r = Ok R, build_s2 n12g a1r = Ok S,
    shape R = [:: n; D; n; D], shape S = [:: n; D; q] &
    let Rm := mat (n * D) (n * D) [:: n; D] [:: n; D] R in let Sm := rmat n D q S in
    [/\ calculate_cost a1r a2r a12g n12 = Ok (qcost Rm Sm (rmat n D q a2r)),
       psd (nmat n (swap n12)) -> psd Rm &
       psd (nmat n (swap n12)) -> forall x : 'cV_(n * D), Rm *m x = 0 -> adj x *m Sm = 0]].
Proof using Hn Hg H1 H2.
have [g [m [Eg Em -> [R [R' [S [S' [ER ER' TR ES [ES' TS]]]]]]]]] := swapE.
have [m' Em' [Sm' [R2 [S2 [E1 E2 SR SS H]]]]] := @costE C n D q p _ _ _ _ (swap_shape Hn) (swap_shape Hg) H2 H1.
move: Em'; rewrite Em => -[E]; subst m'; move: E1 E2; rewrite ER' ES' => -[?] [?]; subst R2 S2.
exists g => //; exists R, S.
have SR' : shape R = [:: n; D; n; D] by rewrite (proj1 TR).
have SS' : shape S = [:: n; D; q] by rewrite (proj1 TS).
have nD : (n * D)%N = numel [:: n; D] by rewrite /= muln1.
have qE : q = numel [:: q] by rewrite /= muln1.
split=> //; rewrite (@mat_teq C _ _ [:: n; D] [:: n; D] _ _ TR SR' nD nD).
by rewrite /rmat (@mat_teq C _ _ [:: n; D] [:: q] _ _ TS SS' nD qE).
Qed.
End Swap.

(** ---- one half-step ---- *)
Section Half.
Variable C : numClosedFieldType.
Notation tensor := (tensor C).

Lemma qcost_reg n p (M : 'M[C]_n) (S A : 'M[C]_(n, p)) (d : C) : d \is Num.real ->
  qcost (M + d%:M) S A = qcost M S A + d * \tr (adj A *m A).
Proof.
move=> Hd; rewrite /qcost mulmxDr mulmxDl mul_mx_scalar -scalemxAl !raddfD /= -!addrA; congr (_ + _).
rewrite addrC; congr (_ + _); rewrite linearZ /= ReMl //; congr (_ * _).
apply/Creal_ReP; apply: ger0_real; rewrite -[adj A]mulmx1; apply: psd_trace => x; rewrite mulmx1.
rewrite -{2}[x]adjK; exact: sq_ge0.
Qed.

Lemma Re_ge0 (x : C) : 0 <= x -> 0 <= 'Re x.
Proof. by move=> H; rewrite (Creal_ReP _ _) // ger0_real. Qed.

Lemma psd_reg n (M : 'M[C]_n) (d : C) : psd M -> 0 <= d -> psd (M + d%:M).
Proof.
move=> HM Hd x; rewrite mulmxDr mulmxDl mxE; apply: addr_ge0; first exact: HM.
rewrite mul_mx_scalar -scalemxAl mxE; apply: mulr_ge0 => //; rewrite -{2}[x]adjK; exact: sq_ge0.
Qed.

Lemma psd_reg_unit n (M : 'M[C]_n) (d : C) : psd M -> 0 < d -> (M + d%:M) \in unitmx.
Proof.
move=> HM Hd; rewrite -row_free_unit -kermx_eq0; apply/eqP/row_matrixP => i; rewrite row0.
have [v Ev] : exists v, v = row i (kermx (M + d%:M)) by eexists.
have K : v *m (M + d%:M) = 0 by rewrite Ev -row_mul mulmx_ker row0.
rewrite -Ev; apply/eqP; apply: contraTT (Order.POrderTheory.lexx (0 : C)) => N.
have Q : 0 < (v *m (M + d%:M) *m adj v) 0 0.
  rewrite mulmxDr mulmxDl mxE; apply: ltr_paddl; first by rewrite -{1}[v]adjK; apply: HM.
  by rewrite mul_mx_scalar -scalemxAl mxE; apply: mulr_gt0 => //; apply: sq_gt0.
by move: Q; rewrite K mul0mx mxE Order.POrderTheory.ltxx.
Qed.

Lemma reg_min n p (M : 'M[C]_n) (S X B : 'M[C]_(n, p)) (d : C) : psd M -> 0 <= d -> (M + d%:M) *m X = S ->
  qcost M S X + d * \tr (adj X *m X) <= qcost M S B + d * \tr (adj B *m B).
Proof.
move=> HM Hd HX; have dR := ger0_real Hd; rewrite -!qcost_reg //.
have HP := psd_reg HM Hd.
by rewrite (qcost_min B (psd_herm HP) HX) ler_addl; apply: Re_ge0; apply: psd_trace.
Qed.

Lemma pinv_solve n p (M V : 'M[C]_n) (w w' : 'rV[C]_n) (S : 'M[C]_(n, p)) :
  adj V *m V = 1%:M -> M = V *m diag_mx w *m adj V -> (forall i, w' 0 i = if w 0 i == 0 then 0 else (w 0 i)^-1) ->
  (forall x : 'cV_n, M *m x = 0 -> adj x *m S = 0) ->
  M *m (V *m diag_mx w' *m adj V *m S) = S.
Proof.
move=> V1 EM Hw K; have V2 := mulmx1C V1.
rewrite {1}EM !mulmxA -(mulmxA _ (adj V) V) V1 mulmx1 -(mulmxA V) mulmx_diag -2!mulmxA.
rewrite -[RHS]mul1mx -V2 -mulmxA; congr (_ *m _); apply/row_matrixP => i.
rewrite row_mul row_diag_mx -scalemxAl -rowE !mxE Hw.
case: eqVneq => [Z|N]; last by rewrite mulfV // scale1r.
rewrite mulr0 scale0r; apply/esym.
have := K (V *m delta_mx i 0); rewrite adjM.
have -> : adj (delta_mx i 0 : 'cV[C]_n) = delta_mx 0 i.
  by apply/matrixP => a b; rewrite adjE !mxE andbC rmorph_nat.
rewrite -mulmxA -rowE; apply; rewrite EM -!mulmxA (mulmxA (adj V)) V1 mul1mx.
have -> : diag_mx w *m (delta_mx i 0 : 'cV[C]_n) = 0; last by rewrite mulmx0.
apply/matrixP => a b; rewrite mul_diag_mx !mxE; case: eqVneq => [->|]; rewrite ?mulr0 //=.
by rewrite Z mul0r.
Qed.

Variable leigh : eigh_fun C.
Variable lchol : chol_fun C.
Variable cfg : econfig C.

Section Step.
Variables (n D p : nat) (R S : tensor).
Hypothesis HR : shape R = [:: n; D; n; D].
Hypothesis HS : shape S = [:: n; D; p].
Let M := mat (n * D) (n * D) [:: n; D] [:: n; D] R.
Let Sm := rmat n D p S.
Hypothesis HM : psd M.

Lemma half_chol : String.eqb (als_method cfg) "cholesky" -> chol_spec lchol -> 0 <= als_epsilon cfg ->
  exists2 c, mxmax M c &
   (forall X, solve_ar leigh lchol cfg R S = Ok X -> shape X = [:: n; D; p] /\
     forall B : 'M_(n * D, p), qcost M Sm (rmat n D p X) + als_epsilon cfg * c * \tr (adj (rmat n D p X) *m rmat n D p X) <= qcost M Sm B + als_epsilon cfg * c * \tr (adj B *m B)) /\
   (0 < als_epsilon cfg * c -> exists X, solve_ar leigh lchol cfg R S = Ok X).
Proof using HR HS HM.
move=> Hm Sc e0; have [c] := solve_arE leigh lchol cfg HR HS; rewrite (hpart_id (psd_herm HM)) => Hc [H _].
have [H1 H2] := H Hm Sc (ger0_real e0); exists c => //; split.
  move=> X /H1 [SX EX]; split=> // B; apply: reg_min => //; apply: mulr_ge0 => //; by case: Hc.
by move=> P; apply: H2; apply: psd_reg_unit.
Qed.

Lemma half_pinv : String.eqb (als_method cfg) "pinv" -> eigh_spec leigh ->
  (forall x : 'cV_(n * D), M *m x = 0 -> adj x *m Sm = 0) ->
  (forall w V, leigh M = Some (w, V) -> forall i, w 0 i != 0 -> als_epsilon cfg * row_max w < `|w 0 i|) -> 0 <= als_epsilon cfg ->
  forall X, solve_ar leigh lchol cfg R S = Ok X -> shape X = [:: n; D; p] /\
     forall B : 'M_(n * D, p), qcost M Sm (rmat n D p X) <= qcost M Sm B.
Proof using HR HS HM.
move=> Hm Se K Hx e0 X EX; have [c] := solve_arE leigh lchol cfg HR HS; rewrite (hpart_id (psd_herm HM)) => _ [_ H].
have Nc : String.eqb (als_method cfg) "cholesky" = false by move/String.eqb_eq: Hm => ->.
have [/(_ _ EX) [w [V [Ee SX ->]]] _] := H Nc Hm; split=> // B.
have := Se _ M; rewrite Ee lowherm_herm ?(psd_herm HM) // => -[V1 _ _ EM].
have rm0 : 0 <= row_max w by rewrite /row_max; elim: (enum _) => //= i l IH; rewrite /maxC; case: ifP.
have Ew i : (\row_i if als_epsilon cfg * row_max w < `|w 0 i| then (w 0 i)^-1 else 0) 0 i = if w 0 i == 0 then 0 else (w 0 i)^-1.
  rewrite mxE; case: eqVneq => [->|N]; last by rewrite (Hx _ _ Ee).
  rewrite normr0 Order.POrderTheory.le_gtF //; exact: mulr_ge0.
rewrite (qcost_min B (psd_herm HM) (pinv_solve V1 EM Ew K)) ler_addl.
by apply: Re_ge0; apply: psd_trace.
Qed.
End Step.
End Half.
