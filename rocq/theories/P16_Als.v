(** C41, C42, C43: the alternating least squares solver
    (acetn/evolution/als_solver.py). *)
From Coq Require Import String Ascii.
From mathcomp Require Import all_ssreflect all_algebra.
From Verif Require Import Base Lattice Mover Tensor TN Rdm RdmFacts FullUpdate Linalg Mat Rsvd RsvdFacts Renorm RenormFacts Spectral Psd Als AlsFacts EighChol.
Set Implicit Arguments.
Unset Strict Implicit.
Unset Printing Implicit Defensive.
Import GRing.Theory Num.Theory.
Local Open Scope ring_scope.
Local Open Scope string_scope.

(** ---- specification: entries only, no matrices ---- *)
Section Spec.
Variable C : numClosedFieldType.
Notation tensor := (tensor C).

(** the sesquilinear form of the norm tensor, N[y,x,Y,X] *)
Definition nform n (N : tensor) (u v : nat -> nat -> C) : C :=
  sumn n (fun y => sumn n (fun x => sumn n (fun Y => sumn n (fun X =>
    at_ N [:: y; x; Y; X] * u y x * (v Y X)^* )))).
Definition norm_psd n (N : tensor) : Prop := forall v, 0 <= nform n N v v.
Definition norm_herm n (N : tensor) : Prop := forall y x Y X, (y < n)%N -> (x < n)%N -> (Y < n)%N -> (X < n)%N ->
  at_ N [:: Y; X; y; x] = (at_ N [:: y; x; Y; X])^*.

(** two-site state of a pair of reduced tensors *)
Definition state D (a1 a2 : tensor) (P Q y x : nat) : C :=
  sumn D (fun u => at_ a1 [:: y; u; P] * at_ a2 [:: x; u; Q]).
Definition target (g : tensor) (P Q y x : nat) : C := at_ g [:: y; x; P; Q].

(** squared length of a two-site state in the metric of the norm tensor *)
Definition len2 n p q (N : tensor) (v : nat -> nat -> nat -> nat -> C) : C :=
  sumn q (fun Q => sumn p (fun P => nform n N (v P Q) (v P Q))).
(** squared distance of the pair (a1, a2) from the target *)
Definition dist2 n D p q (N g a1 a2 : tensor) : C :=
  len2 n p q N (fun P Q y x => state D a1 a2 P Q y x - target g P Q y x).
(** sum of |entry|^2 of a reduced tensor *)
Definition sq3 n D p (a : tensor) : C :=
  sumn n (fun y => sumn D (fun u => sumn p (fun P => `|at_ a [:: y; u; P]| ^+ 2))).

(** matrix of the normal equations for the first (second) reduced tensor *)
Definition normal1 n q (N a2 : tensor) (Y U y u : nat) : C :=
  sumn q (fun Q => sumn n (fun X => sumn n (fun x =>
    at_ N [:: y; x; Y; X] * at_ a2 [:: x; u; Q] * (at_ a2 [:: X; U; Q])^* ))).
Definition normal2 n p (N a1 : tensor) (X V x v : nat) : C :=
  sumn p (fun P => sumn n (fun Y => sumn n (fun y =>
    at_ N [:: y; x; Y; X] * at_ a1 [:: y; v; P] * (at_ a1 [:: Y; V; P])^* ))).
(** c is the largest modulus of an entry *)
Definition largest n D (f : nat -> nat -> nat -> nat -> C) (c : C) : Prop :=
  [/\ 0 <= c,
      forall Y U y u, (Y < n)%N -> (U < D)%N -> (y < n)%N -> (u < D)%N -> `|f Y U y u| <= c &
      (0 < n * D)%N -> exists Y U y u, [/\ (Y < n)%N, (U < D)%N, (y < n)%N, (u < D)%N & `|f Y U y u| = c]].
(** l is an eigenvalue of the n D x n D matrix f *)
Definition eigval n D (f : nat -> nat -> nat -> nat -> C) (l : C) : Prop := exists2 v : nat -> nat -> C,
  exists y u, [/\ (y < n)%N, (u < D)%N & v y u != 0] &
  forall Y U, (Y < n)%N -> (U < D)%N -> sumn n (fun y => sumn D (fun u => f Y U y u * v y u)) = l * v Y U.
(** all non-zero eigenvalues are above the relative cutoff e *)
Definition gap n D (f : nat -> nat -> nat -> nat -> C) (e : C) : Prop :=
  forall l m, eigval n D f l -> eigval n D f m -> m != 0 -> e * `|l| < `|m|.
End Spec.

(** ---- from entries to the matrices of AlsFacts ---- *)
Section Bridge.
Variable C : numClosedFieldType.
Notation tensor := (tensor C).

Definition vec n (v : nat -> nat -> C) : 'cV[C]_(n * n) :=
  \col_i v (nth 0 (unravel [:: n; n] i) 0)%N (nth 0 (unravel [:: n; n] i) 1)%N.

Lemma nformE n N u v : nform n N u v = (adj (vec n v) *m nmat n N *m vec n u) 0 0.
Proof.
rewrite mxE; pose G w := (adj (vec n v) *m nmat n N *m vec n u) 0 0.
pose F w := (sumn n (fun Y => sumn n (fun X => at_ N (cat w [:: Y; X]) * (v Y X)^* ))) * u (nth 0 w 0)%N (nth 0 w 1)%N.
transitivity (\sum_(k < n * n) F (unravel [:: n; n] k)).
  rewrite sum2 /F /=; apply: eq_sumn => y _; apply: eq_sumn => x _.
  by rewrite sumn_mulr; apply: eq_sumn => Y _; rewrite sumn_mulr; apply: eq_sumn => X _; rewrite mulrAC.
apply: eq_bigr => k _; rewrite /F [vec n u _ _]mxE; congr (_ * _); rewrite mxE.
pose H w := at_ N (cat (unravel [:: n; n] (nat_of_ord k)) w) * (v (nth 0 w 0)%N (nth 0 w 1)%N)^*.
transitivity (\sum_(l < n * n) H (unravel [:: n; n] l)); first by rewrite sum2.
by apply: eq_bigr => l _; rewrite /H adjE nmatE [vec n v _ _]mxE mulrC.
Qed.

Lemma vecP n (x : 'cV[C]_(n * n)) : exists v, x = vec n v.
Proof.
exists (fun y z => if insub (ravel [:: n; n] [:: y; z]) is Some i then x i 0 else 0).
apply/matrixP => i j; rewrite ord1 mxE; have [y [z [_ _ -> E]]] := unravel2 (ltn_ord i).
by rewrite [nth _ _ 0]/= [nth _ _ 1]/= E valK.
Qed.

Lemma norm_psdE n (N : tensor) : norm_psd n N <-> psd (nmat n N).
Proof.
split=> [H x|H v]; last by rewrite nformE.
by have [v ->] := vecP x; rewrite -nformE.
Qed.

Lemma norm_hermE n (N : tensor) : norm_herm n N -> adj (nmat n N) = nmat n N.
Proof.
move=> H; apply/matrixP => i j; rewrite adjE !nmatE.
have [y [x [Hy Hx -> _]]] := unravel2 (ltn_ord i); have [Y [X [HY HX -> _]]] := unravel2 (ltn_ord j).
by rewrite /= -H.
Qed.

Lemma psd_norm_herm n (N : tensor) : norm_psd n N -> adj (nmat n N) = nmat n N.
Proof. by move/norm_psdE/psd_herm. Qed.

(** the swapped norm tensor has the form with the two legs exchanged *)
Lemma norm_psd_swap n (N : tensor) : norm_psd n N -> psd (nmat n (swap N)).
Proof.
move=> H; apply/norm_psdE => v; have := H (fun y x => v x y); rewrite /nform => E.
rewrite sumnC (eq_sumn (G := fun y => sumn n (fun x => sumn n (fun Y => sumn n (fun X => at_ N [:: y; x; Y; X] * v x y * (v X Y)^* ))))) //.
by move=> y _; apply: eq_sumn => x _; rewrite sumnC.
Qed.

Lemma len2E n p q (N : tensor) v t : (forall P Q y x, at_ t [:: y; x; P; Q] = v P Q y x) ->
  len2 n p q N v = \sum_(Q < q) \tr (adj (tmat n p Q t) *m nmat n N *m tmat n p Q t).
Proof.
move=> H; rewrite /len2 /sumn; apply: eq_bigr => Q _; rewrite col_form; apply: eq_bigr => P _.
have -> : col P (tmat n p Q t) = vec n (v P Q); last by rewrite nformE.
apply/matrixP => i j; rewrite !mxE; have [y [x [_ _ -> _]]] := unravel2 (ltn_ord i).
by rewrite /= H.
Qed.

Lemma tr_sq m p (A : 'M[C]_(m, p)) : \tr (adj A *m A) = \sum_(i < m) \sum_(j < p) `|A i j| ^+ 2.
Proof.
rewrite exchange_big; apply: eq_bigr => j _; rewrite mxE; apply: eq_bigr => i _.
by rewrite adjE normCK mulrC.
Qed.

Lemma sq3E n D p (a : tensor) : sq3 n D p a = \tr (adj (rmat n D p a) *m rmat n D p a).
Proof.
rewrite tr_sq; pose F v := sumn p (fun P => `|at_ a (cat v [:: P])| ^+ 2).
transitivity (\sum_(i < n * D) F (unravel [:: n; D] i)); first by rewrite sum2.
by apply: eq_bigr => i _; apply: eq_bigr => j _; rewrite mxE unravel1.
Qed.

(** a reduced tensor with a given matrix *)
Lemma rmatP n D p (B : 'M[C]_(n * D, p)) : exists2 b : tensor, shape b = [:: n; D; p] & rmat n D p b = B.
Proof.
exists (Tensor [:: n; D; p] (fun idx => if insub (ravel [:: n; D] (take 2 idx)) is Some i then
  if insub (nth 0 idx 2)%N is Some j then B i j else 0 else 0)) => //.
apply/matrixP => i j; have [y [u [_ _ E1 E2]]] := unravel2 (ltn_ord i).
by rewrite mxE E1 unravel1 // /at_ [take _ _]/= E2 valK [nth _ _ _]/= valK.
Qed.
End Bridge.

(** ---- C43 ---- *)
Section C43.
Variable C : numClosedFieldType.
Notation tensor := (tensor C).

Lemma dist_cost n D p q (N g a1 a2 : tensor) : shape N = [:: n; n; n; n] -> shape g = [:: n; n; p; q] ->
  shape a1 = [:: n; D; p] -> shape a2 = [:: n; D; q] -> adj (nmat n N) = nmat n N ->
  exists2 c, calculate_cost a1 a2 g N = Ok c & dist2 n D p q N g a1 a2 = c + len2 n p q N (target g).
Proof.
move=> SN Sg S1 S2 HN; rewrite /calculate_cost.
have [W [-> SW HW]] := a12nE S1 S2; rewrite [bind (Ok _) _]/bind.
have [d [-> Sd Hd]] := normE SN SW; rewrite [bind (Ok _) _]/bind.
have [e1 -> He1] := pairE Sd SW; rewrite [bind (Ok _) _]/bind.
have [h [-> Sh Hh]] := normE SN Sg; rewrite [bind (Ok _) _]/bind.
have [e2 -> He2] := pairE Sh SW; rewrite [bind (Ok _) _]/bind He1 He2.
eexists=> //; rewrite (@len2E _ _ _ _ _ (target g) g) // /dist2.
rewrite (@len2E _ _ _ _ _ _ (Tensor [:: n; n; p; q] (fun i => at_ W i - at_ g i))); last by move=> P Q y x; rewrite /= HW.
rewrite !raddf_sum mulr_sumr -!sumrB -big_split; apply: eq_bigr => Q _ /=.
have -> : tmat n p Q (Tensor [:: n; n; p; q] (fun i => at_ W i - at_ g i)) = tmat n p Q W - tmat n p Q g.
  by apply/matrixP => i j; rewrite !mxE.
rewrite Hd Hh; set A := tmat n p Q W; set G := tmat n p Q g; set M := nmat n N.
have := qcost_min A HN (erefl (M *m G)); rewrite /qcost !mulmxA => E.
have R (X : 'M[C]_(n * n, p)) : 'Re (\tr (adj X *m M *m X)) = \tr (adj X *m M *m X).
  apply/Creal_ReP; rewrite CrealE -adj_trace !adjM adjK HN mulmxA //.
rewrite -[LHS]R -(addKr ('Re (\tr (adj G *m M *m G)) - 2%:R * 'Re (\tr (adj G *m M *m G))) ('Re _)) -E.
rewrite addrC; congr (_ + _); rewrite R opprB mulr_natl mulr2n addrK //.
Qed.

(** C43: the cost the solver evaluates is, up to the squared length of the
    target, which does not depend on the reduced tensors, the squared distance
    between the two-site state of the reduced tensors and the gate-applied
    target, in the metric of the norm tensor.  All dimensions, all Hermitian
    norm tensors, positive or not. *)
Theorem C43_cost_is_distance n D p q (N g a1 a2 : tensor) :
  shape N = [:: n; n; n; n] -> shape g = [:: n; n; p; q] -> shape a1 = [:: n; D; p] -> shape a2 = [:: n; D; q] ->
  norm_herm n N ->
  exists2 c, calculate_cost a1 a2 g N = Ok c & dist2 n D p q N g a1 a2 = c + len2 n p q N (target g).
Proof. by move=> SN Sg S1 S2 /norm_hermE HN; apply: dist_cost. Qed.

End C43.

(** ---- entries of the normal equations ---- *)
Section Entries.
Variable C : numClosedFieldType.
Notation tensor := (tensor C).

Lemma normal1E n D q (N a2 R : tensor) : shape N = [:: n; n; n; n] -> shape a2 = [:: n; D; q] -> build_r1 N a2 = Ok R ->
  forall Y U y u, at_ R [:: Y; U; y; u] = normal1 n q N a2 Y U y u.
Proof.
move=> Hn H2; rewrite /build_r1.
have [T [-> HT ET]] : exists T, [/\ einsum "yxYX,xuq->yYXuq" [:: N; a2] = Ok T, shape T = [:: n; n; n; D; q] &
    forall y Y X u Q, at_ T [:: y; Y; X; u; Q] = sumn n (fun x => at_ N [:: y; x; Y; X] * at_ a2 [:: x; u; Q])].
  by rewrite /einsum /= Hn H2 /= /dims_ok /= !eqxx /=; eexists; split.
rewrite [bind _ _]/bind /einsum /= HT H2 /= /dims_ok /= !eqxx /= => -[<-] Y U y u.
rewrite /= /factor /= sumnC; apply: eq_sumn => Q _; apply: eq_sumn => X _.
by rewrite ET sumn_mulr.
Qed.

Lemma normal2E n D p (N a1 R : tensor) : shape N = [:: n; n; n; n] -> shape a1 = [:: n; D; p] -> build_r2 N a1 = Ok R ->
  forall X V x v, at_ R [:: X; V; x; v] = normal2 n p N a1 X V x v.
Proof.
move=> Hn H1; rewrite /build_r2.
have [T [-> HT ET]] : exists T, [/\ einsum "yxYX,yvp->xYXvp" [:: N; a1] = Ok T, shape T = [:: n; n; n; D; p] &
    forall x Y X v P, at_ T [:: x; Y; X; v; P] = sumn n (fun y => at_ N [:: y; x; Y; X] * at_ a1 [:: y; v; P])].
  by rewrite /einsum /= Hn H1 /= /dims_ok /= !eqxx /=; eexists; split.
rewrite [bind _ _]/bind /einsum /= HT H1 /= /dims_ok /= !eqxx /= => -[<-] X V x v.
rewrite /= /factor /= sumnC; apply: eq_sumn => P _; apply: eq_sumn => Y _.
by rewrite ET sumn_mulr.
Qed.

Lemma largestE n D (R : tensor) f c : (forall Y U y u, at_ R [:: Y; U; y; u] = f Y U y u) ->
  mxmax (mat (n * D) (n * D) [:: n; D] [:: n; D] R) c -> largest n D f c.
Proof.
move=> H [c0 le ex].
have key Y U y u : (Y < n)%N -> (U < D)%N -> (y < n)%N -> (u < D)%N ->
    exists i j, mat (n * D) (n * D) [:: n; D] [:: n; D] R i j = f Y U y u.
  move=> HY HU Hy Hu.
  have HI a b : (a < n)%N -> (b < D)%N -> in_range [:: n; D] [:: a; b] by move=> Ha Hb; rewrite /= Ha Hb.
  have Hi a b : (a < n)%N -> (b < D)%N -> (ravel [:: n; D] [:: a; b] < n * D)%N.
    by move=> Ha Hb; have := ravel_lt (HI _ _ Ha Hb); rewrite [numel _]/= muln1.
  exists (Ordinal (Hi _ _ HY HU)), (Ordinal (Hi _ _ Hy Hu)); rewrite mxE.
  change (at_ R (cat (unravel [:: n; D] (ravel [:: n; D] [:: Y; U])) (unravel [:: n; D] (ravel [:: n; D] [:: y; u]))) = f Y U y u).
  by rewrite !ravelK ?HI //= H.
split=> // [Y U y u HY HU Hy Hu|n0]; first by have [i [j <-]] := key _ _ _ _ HY HU Hy Hu; apply: le.
have [i [j <-]] := ex n0; have [Y [U [HY HU Ei _]]] := unravel2 (ltn_ord i); have [y [u [Hy Hu Ej _]]] := unravel2 (ltn_ord j).
by exists Y, U, y, u; rewrite mxE Ei Ej /= H.
Qed.
End Entries.

(** ---- C41, C42 ---- *)
Section Steps.
Variable C : numClosedFieldType.
Notation tensor := (tensor C).
Variable leigh : eigh_fun C.
Variable lchol : chol_fun C.
Variable cfg : econfig C.
Notation solve1 := (solve_a1r leigh lchol cfg).
Notation solve2 := (solve_a2r leigh lchol cfg).

Lemma cost_le n D p q (N g a1 a2 b1 b2 : tensor) (x y : C) : shape N = [:: n; n; n; n] -> shape g = [:: n; n; p; q] ->
  shape a1 = [:: n; D; p] -> shape a2 = [:: n; D; q] -> shape b1 = [:: n; D; p] -> shape b2 = [:: n; D; q] ->
  norm_psd n N -> forall ca cb, calculate_cost a1 a2 g N = Ok ca -> calculate_cost b1 b2 g N = Ok cb -> ca + x <= cb + y ->
  dist2 n D p q N g a1 a2 + x <= dist2 n D p q N g b1 b2 + y.
Proof.
move=> SN Sg S1 S2 T1 T2 /psd_norm_herm HN ca cb Ea Eb L.
have [ca' Ea' ->] := dist_cost SN Sg S1 S2 HN; have [cb' Eb' ->] := dist_cost SN Sg T1 T2 HN.
move: Ea' Eb'; rewrite Ea Eb => -[<-] [<-].
by rewrite !(addrAC _ (len2 _ _ _ _ _)) ler_add2r.
Qed.

Section Fixed.
Variables (n D p q : nat) (N g : tensor).
Hypotheses (SN : shape N = [:: n; n; n; n]) (Sg : shape g = [:: n; n; p; q]) (HN : norm_psd n N).
Variable n12g : tensor.
Hypothesis Eg : einsum "yxYX,yxpq->YXpq" [:: N; g] = Ok n12g.

Definition reg_step1 (a2 a1' : tensor) (d : C) : Prop := shape a1' = [:: n; D; p] /\
  forall b, shape b = [:: n; D; p] -> dist2 n D p q N g a1' a2 + d * sq3 n D p a1' <= dist2 n D p q N g b a2 + d * sq3 n D p b.
Definition reg_step2 (a1 a2' : tensor) (d : C) : Prop := shape a2' = [:: n; D; q] /\
  forall b, shape b = [:: n; D; q] -> dist2 n D p q N g a1 a2' + d * sq3 n D q a2' <= dist2 n D p q N g a1 b + d * sq3 n D q b.

Lemma chol_step1 a2 : shape a2 = [:: n; D; q] -> als_method cfg = "cholesky" -> chol_spec lchol -> 0 <= als_epsilon cfg ->
  exists2 c, largest n D (normal1 n q N a2) c &
    (forall a1', solve1 N n12g a2 = Ok a1' -> reg_step1 a2 a1' (als_epsilon cfg * c)) /\
    (0 < als_epsilon cfg * c -> exists a1', solve1 N n12g a2 = Ok a1').
Proof using SN Sg HN Eg.
move=> S2 /String.eqb_eq Hm Sc e0.
have [a1 S1 _] := rmatP (0 : 'M[C]_(n * D, p)).
have [g' Eg' [Sg' [R [S [ER ES SR SS [_ HP _]]]]]] := costE SN Sg S1 S2.
move: Eg' ES; rewrite Eg => -[<-] ES; have PN := (norm_psdE n N).1 HN.
have [c Hc [H1 H2]] := half_chol leigh SR SS (HP PN) Hm Sc e0.
exists c; first by apply: largestE Hc; apply: normal1E SN S2 ER.
rewrite /solve_a1r ER ES; split; last exact: H2.
move=> a1' /H1 [S1' Hmin]; split=> // b Sb; rewrite !sq3E.
have cost t : shape t = [:: n; D; p] -> calculate_cost t a2 g N = Ok (qcost (mat (n * D) (n * D) [:: n; D] [:: n; D] R) (rmat n D p S) (rmat n D p t)).
  move=> St; have [g2 Eg2 [_ [R2 [S2' [ER2 ES2 _ _ [E _ _]]]]]] := costE SN Sg St S2.
  by move: Eg2 ER2 ES2 E; rewrite Eg ER => -[<-] [<-]; rewrite ES => -[<-].
by apply: (cost_le SN Sg S1' S2 Sb S2 HN (cost _ S1') (cost _ Sb)).
Qed.

Lemma chol_step2 a1 : shape a1 = [:: n; D; p] -> als_method cfg = "cholesky" -> chol_spec lchol -> 0 <= als_epsilon cfg ->
  exists2 c, largest n D (normal2 n p N a1) c &
    (forall a2', solve2 N n12g a1 = Ok a2' -> reg_step2 a1 a2' (als_epsilon cfg * c)) /\
    (0 < als_epsilon cfg * c -> exists a2', solve2 N n12g a1 = Ok a2').
Proof using SN Sg HN Eg.
move=> S1 /String.eqb_eq Hm Sc e0.
have [a2 S2 _] := rmatP (0 : 'M[C]_(n * D, q)).
have [g' Eg' [R [S [ER ES SR SS [_ HP _]]]]] := costE2 SN Sg S1 S2.
move: Eg' ES; rewrite Eg => -[<-] ES; have PN := norm_psd_swap HN.
have [c Hc [H1 H2]] := half_chol leigh SR SS (HP PN) Hm Sc e0.
exists c; first by apply: largestE Hc; apply: normal2E SN S1 ER.
rewrite /solve_a2r ER ES; split; last exact: H2.
move=> a2' /H1 [S2' Hmin]; split=> // b Sb; rewrite !sq3E.
have cost t : shape t = [:: n; D; q] -> calculate_cost a1 t g N = Ok (qcost (mat (n * D) (n * D) [:: n; D] [:: n; D] R) (rmat n D q S) (rmat n D q t)).
  move=> St; have [g2 Eg2 [R2 [S2'' [ER2 ES2 _ _ [E _ _]]]]] := costE2 SN Sg S1 St.
  by move: Eg2 ER2 ES2 E; rewrite Eg ER => -[<-] [<-]; rewrite ES => -[<-].
by apply: (cost_le SN Sg S1 S2' S1 Sb HN (cost _ S2') (cost _ Sb)).
Qed.

Lemma eigval_mx D' (R : tensor) f (V : 'M[C]_(n * D')) w i : (forall Y U y u, at_ R [:: Y; U; y; u] = f Y U y u) ->
  mat (n * D') (n * D') [:: n; D'] [:: n; D'] R = V *m diag_mx w *m adj V -> adj V *m V = 1%:M -> eigval n D' f (w 0 i).
Proof using.
move=> Hf EM V1; have [v Ev] : exists v, v = col i V by eexists.
have Mv : mat (n * D') (n * D') [:: n; D'] [:: n; D'] R *m v = w 0 i *: v.
  rewrite EM Ev colE -!mulmxA (mulmxA (adj V)) V1 mul1mx.
  have -> : diag_mx w *m (delta_mx i 0 : 'cV[C]_(n * D')) = w 0 i *: delta_mx i 0; last by rewrite -scalemxAr.
  by apply/matrixP => a b; rewrite mul_diag_mx !mxE; case: eqVneq => [->|]; rewrite ?mulr0.
have vN : v != 0.
  apply/eqP => v0; have /matrixP/(_ 0 0) : adj v *m v = 1%:M :> 'M[C]_1.
    apply/matrixP => a b; rewrite !ord1 Ev; have /matrixP/(_ i i) := V1; rewrite !mxE !eqxx => <-.
    by apply: eq_bigr => k _; rewrite !adjE !mxE.
  by rewrite v0 mulmx0 !mxE /= => /eqP; rewrite eq_sym oner_eq0.
pose vf y u := if insub (ravel [:: n; D'] [:: y; u]) is Some k then v k 0 else 0.
have vfE (k : 'I_(n * D')) y u : unravel [:: n; D'] k = [:: y; u] -> ravel [:: n; D'] [:: y; u] = k -> vf y u = v k 0.
  by move=> _ E; rewrite /vf E valK.
exists vf.
  have /matrix0Pn [k [z Hk]] := vN; have [y [u [Hy Hu E1 E2]]] := unravel2 (ltn_ord k).
  by exists y, u; rewrite (vfE k) //; split=> //; rewrite -(ord1 z).
move=> Y U HY HU.
have HI : in_range [:: n; D'] [:: Y; U] by rewrite /= HY HU.
have Hk : (ravel [:: n; D'] [:: Y; U] < n * D')%N by have := ravel_lt HI; rewrite [numel _]/= muln1.
have /matrixP/(_ (Ordinal Hk) 0) := Mv; rewrite [RHS]mxE -(vfE (Ordinal Hk) Y U) ?ravelK // => <-.
rewrite mxE; pose F x := f Y U (nth 0 x 0)%N (nth 0 x 1)%N * vf (nth 0 x 0)%N (nth 0 x 1)%N.
transitivity (\sum_(k < n * D') F (unravel [:: n; D'] k)); first by rewrite sum2.
apply: eq_bigr => k _; have [y [u [Hy Hu E1 E2]]] := unravel2 (ltn_ord k); rewrite /F E1 -(vfE k y u) //.
rewrite mxE E1.
by change (unravel [:: n; D'] (Ordinal Hk)) with (unravel [:: n; D'] (ravel [:: n; D'] [:: Y; U])); rewrite ravelK //= Hf.
Qed.

Lemma row_maxP m (w : 'rV[C]_m) : row_max w = 0 \/ exists i, row_max w = `|w 0 i|.
Proof using.
rewrite /row_max; elim: (enum _) => [|i l IH] /=; first by left.
by rewrite {1 3}/maxC; case: ifP => // _; right; exists i.
Qed.

Lemma gap_keeps D' (R : tensor) f : (forall Y U y u, at_ R [:: Y; U; y; u] = f Y U y u) -> gap n D' f (als_epsilon cfg) ->
  eigh_spec leigh -> let M := mat (n * D') (n * D') [:: n; D'] [:: n; D'] R in psd M ->
  forall w V, leigh M = Some (w, V) -> forall i, w 0 i != 0 -> als_epsilon cfg * row_max w < `|w 0 i|.
Proof using.
move=> Hf G Se M PM w V E i Ni; have := Se _ M; rewrite E lowherm_herm ?(psd_herm PM) // => -[V1 _ _ EM].
have ev j := eigval_mx j Hf EM V1.
case: (row_maxP w) => [->|[j ->]]; last exact: G.
by rewrite mulr0 normr_gt0.
Qed.

Lemma pinv_step1 a2 : shape a2 = [:: n; D; q] -> als_method cfg = "pinv" -> eigh_spec leigh -> 0 <= als_epsilon cfg ->
  gap n D (normal1 n q N a2) (als_epsilon cfg) ->
  forall a1', solve1 N n12g a2 = Ok a1' -> reg_step1 a2 a1' 0.
Proof using SN Sg HN Eg.
move=> S2 /String.eqb_eq Hm Sc e0 Gp.
have [a1 S1 _] := rmatP (0 : 'M[C]_(n * D, p)).
have [g' Eg' [Sg' [R [S [ER ES SR SS [_ HP HK]]]]]] := costE SN Sg S1 S2.
move: Eg' ES; rewrite Eg => -[<-] ES; have PN := (norm_psdE n N).1 HN.
have G := gap_keeps (normal1E SN S2 ER) Gp Sc (HP PN).
have H1 := half_pinv (leigh := leigh) (lchol := lchol) SR SS (HP PN) Hm Sc (HK PN) G e0.
rewrite /solve_a1r ER ES.
move=> a1' /H1 [S1' Hmin]; split=> // b Sb; rewrite !mul0r.
have cost t : shape t = [:: n; D; p] -> calculate_cost t a2 g N = Ok (qcost (mat (n * D) (n * D) [:: n; D] [:: n; D] R) (rmat n D p S) (rmat n D p t)).
  move=> St; have [g2 Eg2 [_ [R2 [S2' [ER2 ES2 _ _ [E _ _]]]]]] := costE SN Sg St S2.
  by move: Eg2 ER2 ES2 E; rewrite Eg ER => -[<-] [<-]; rewrite ES => -[<-].
by apply: (cost_le SN Sg S1' S2 Sb S2 HN (cost _ S1') (cost _ Sb)); rewrite !addr0.
Qed.

Lemma pinv_step2 a1 : shape a1 = [:: n; D; p] -> als_method cfg = "pinv" -> eigh_spec leigh -> 0 <= als_epsilon cfg ->
  gap n D (normal2 n p N a1) (als_epsilon cfg) ->
  forall a2', solve2 N n12g a1 = Ok a2' -> reg_step2 a1 a2' 0.
Proof using SN Sg HN Eg.
move=> S1 /String.eqb_eq Hm Sc e0 Gp.
have [a2 S2 _] := rmatP (0 : 'M[C]_(n * D, q)).
have [g' Eg' [R [S [ER ES SR SS [_ HP HK]]]]] := costE2 SN Sg S1 S2.
move: Eg' ES; rewrite Eg => -[<-] ES; have PN := norm_psd_swap HN.
have G := gap_keeps (normal2E SN S1 ER) Gp Sc (HP PN).
have H1 := half_pinv (leigh := leigh) (lchol := lchol) SR SS (HP PN) Hm Sc (HK PN) G e0.
rewrite /solve_a2r ER ES.
move=> a2' /H1 [S2' Hmin]; split=> // b Sb; rewrite !mul0r.
have cost t : shape t = [:: n; D; q] -> calculate_cost a1 t g N = Ok (qcost (mat (n * D) (n * D) [:: n; D] [:: n; D] R) (rmat n D q S) (rmat n D q t)).
  move=> St; have [g2 Eg2 [R2 [S2'' [ER2 ES2 _ _ [E _ _]]]]] := costE2 SN Sg S1 St.
  by move: Eg2 ER2 ES2 E; rewrite Eg ER => -[<-] [<-]; rewrite ES => -[<-].
by apply: (cost_le SN Sg S1 S2' S1 Sb HN (cost _ S2') (cost _ Sb)); rewrite !addr0.
Qed.

Lemma gap0 D' f : als_epsilon cfg = 0 -> gap n D' f (als_epsilon cfg).
Proof using. by move=> -> l m _ _ H; rewrite mul0r normr_gt0. Qed.
End Fixed.

(** the two methods without regularisation *)
Definition exact_method : Prop :=
  als_epsilon cfg = 0 /\ ((als_method cfg = "cholesky" /\ chol_spec lchol) \/ (als_method cfg = "pinv" /\ eigh_spec leigh)).

(** C41: with a positive semidefinite norm tensor and als_epsilon = 0, the new
    first reduced tensor is a best approximation of the target among all tensors
    of its shape, the second one being fixed; likewise with the roles exchanged.
    No assumption is made on the rank of the normal equations. *)
Theorem C41_half_step1 n D p q (N g n12g a2 a1' : tensor) :
  shape N = [:: n; n; n; n] -> shape g = [:: n; n; p; q] -> shape a2 = [:: n; D; q] -> norm_psd n N -> exact_method ->
  einsum "yxYX,yxpq->YXpq" [:: N; g] = Ok n12g -> solve1 N n12g a2 = Ok a1' ->
  shape a1' = [:: n; D; p] /\
  forall b, shape b = [:: n; D; p] -> dist2 n D p q N g a1' a2 <= dist2 n D p q N g b a2.
Proof.
move=> SN Sg S2 HN [e0 Hm] Eg E.
have : reg_step1 n D p q N g a2 a1' 0.
  case: Hm => -[Hm Sc].
    have [|c _ [H _]] := chol_step1 SN Sg HN Eg S2 Hm Sc; first by rewrite e0.
    by have := H _ E; rewrite e0 mul0r.
  by apply: (pinv_step1 SN Sg HN Eg S2 Hm Sc _ _ E); [rewrite e0|apply: gap0].
by case=> S1 H; split=> // b /H; rewrite !mul0r !addr0.
Qed.

Theorem C41_half_step2 n D p q (N g n12g a1 a2' : tensor) :
  shape N = [:: n; n; n; n] -> shape g = [:: n; n; p; q] -> shape a1 = [:: n; D; p] -> norm_psd n N -> exact_method ->
  einsum "yxYX,yxpq->YXpq" [:: N; g] = Ok n12g -> solve2 N n12g a1 = Ok a2' ->
  shape a2' = [:: n; D; q] /\
  forall b, shape b = [:: n; D; q] -> dist2 n D p q N g a1 a2' <= dist2 n D p q N g a1 b.
Proof.
move=> SN Sg S1 HN [e0 Hm] Eg E.
have : reg_step2 n D p q N g a1 a2' 0.
  case: Hm => -[Hm Sc].
    have [|c _ [H _]] := chol_step2 SN Sg HN Eg S1 Hm Sc; first by rewrite e0.
    by have := H _ E; rewrite e0 mul0r.
  by apply: (pinv_step2 SN Sg HN Eg S1 Hm Sc _ _ E); [rewrite e0|apply: gap0].
by case=> S2 H; split=> // b /H; rewrite !mul0r !addr0.
Qed.

(** the pseudoinverse with a positive cutoff is still exact if every non-zero
    eigenvalue of the normal equations is above the cutoff *)
Theorem C41_pinv_gap n D p q (N g n12g : tensor) :
  shape N = [:: n; n; n; n] -> shape g = [:: n; n; p; q] -> norm_psd n N ->
  als_method cfg = "pinv" -> eigh_spec leigh -> 0 <= als_epsilon cfg ->
  einsum "yxYX,yxpq->YXpq" [:: N; g] = Ok n12g ->
  (forall a2 a1', shape a2 = [:: n; D; q] -> gap n D (normal1 n q N a2) (als_epsilon cfg) -> solve1 N n12g a2 = Ok a1' ->
     forall b, shape b = [:: n; D; p] -> dist2 n D p q N g a1' a2 <= dist2 n D p q N g b a2) /\
  (forall a1 a2', shape a1 = [:: n; D; p] -> gap n D (normal2 n p N a1) (als_epsilon cfg) -> solve2 N n12g a1 = Ok a2' ->
     forall b, shape b = [:: n; D; q] -> dist2 n D p q N g a1 a2' <= dist2 n D p q N g a1 b).
Proof.
move=> SN Sg HN Hm Sc e0 Eg; split.
  move=> a2 a1' S2 Gp E b Sb; have [_ /(_ b Sb)] := pinv_step1 SN Sg HN Eg S2 Hm Sc e0 Gp E.
  by rewrite !mul0r !addr0.
move=> a1 a2' S1 Gp E b Sb; have [_ /(_ b Sb)] := pinv_step2 SN Sg HN Eg S1 Hm Sc e0 Gp E.
by rewrite !mul0r !addr0.
Qed.

(** C42: with a regularisation als_epsilon >= 0, a half-step minimises the squared
    distance plus delta times the sum of squares of the new tensor, where delta is
    als_epsilon times the largest modulus in the normal equations; and if delta is
    positive the solve never fails. *)
Theorem C42_half_step1 n D p q (N g n12g a2 : tensor) :
  shape N = [:: n; n; n; n] -> shape g = [:: n; n; p; q] -> shape a2 = [:: n; D; q] -> norm_psd n N ->
  als_method cfg = "cholesky" -> chol_spec lchol -> 0 <= als_epsilon cfg ->
  einsum "yxYX,yxpq->YXpq" [:: N; g] = Ok n12g ->
  exists2 c, largest n D (normal1 n q N a2) c &
    let delta := als_epsilon cfg * c in
    (forall a1', solve1 N n12g a2 = Ok a1' -> shape a1' = [:: n; D; p] /\
       forall b, shape b = [:: n; D; p] ->
         dist2 n D p q N g a1' a2 <= dist2 n D p q N g b a2 + delta * (sq3 n D p b - sq3 n D p a1')) /\
    (0 < delta -> exists a1', solve1 N n12g a2 = Ok a1').
Proof.
move=> SN Sg S2 HN Hm Sc e0 Eg.
have [c Hc [H1 H2]] := chol_step1 SN Sg HN Eg S2 Hm Sc e0; exists c => //; split=> // a1' /H1 [S1 H].
by split=> // b /H; rewrite -ler_subr_addr -addrA -mulrBr.
Qed.

Theorem C42_half_step2 n D p q (N g n12g a1 : tensor) :
  shape N = [:: n; n; n; n] -> shape g = [:: n; n; p; q] -> shape a1 = [:: n; D; p] -> norm_psd n N ->
  als_method cfg = "cholesky" -> chol_spec lchol -> 0 <= als_epsilon cfg ->
  einsum "yxYX,yxpq->YXpq" [:: N; g] = Ok n12g ->
  exists2 c, largest n D (normal2 n p N a1) c &
    let delta := als_epsilon cfg * c in
    (forall a2', solve2 N n12g a1 = Ok a2' -> shape a2' = [:: n; D; q] /\
       forall b, shape b = [:: n; D; q] ->
         dist2 n D p q N g a1 a2' <= dist2 n D p q N g a1 b + delta * (sq3 n D q b - sq3 n D q a2')) /\
    (0 < delta -> exists a2', solve2 N n12g a1 = Ok a2').
Proof.
move=> SN Sg S1 HN Hm Sc e0 Eg.
have [c Hc [H1 H2]] := chol_step2 SN Sg HN Eg S1 Hm Sc e0; exists c => //; split=> // a2' /H1 [S2 H].
by split=> // b /H; rewrite -ler_subr_addr -addrA -mulrBr.
Qed.

(** C41: over the sweeps the squared distance never increases, whatever the
    number of sweeps, the tolerance and the moment the loop stops. *)
Theorem C41_sweeps n D p q (N g n12g : tensor) :
  shape N = [:: n; n; n; n] -> shape g = [:: n; n; p; q] -> norm_psd n N -> exact_method ->
  einsum "yxYX,yxpq->YXpq" [:: N; g] = Ok n12g ->
  forall k i a1 a2 d a1' a2', shape a1 = [:: n; D; p] -> shape a2 = [:: n; D; q] ->
  als_loop leigh lchol cfg N n12g g k i a1 a2 d = Ok (a1', a2') ->
  [/\ shape a1' = [:: n; D; p], shape a2' = [:: n; D; q],
      dist2 n D p q N g a1' a2' <= dist2 n D p q N g a1 a2 &
      (0 < k)%N -> forall b, shape b = [:: n; D; q] -> dist2 n D p q N g a1' a2' <= dist2 n D p q N g a1' b].
Proof.
move=> SN Sg HN Hx Eg; elim=> [|k IH] i a1 a2 d a1' a2' S1 S2 /=; first by case=> <- <-.
case E1: (solve_a1r _ _ _ _ _ _) => [b1|//]; rewrite [bind (Ok _) _]/bind.
have [T1 L1] := C41_half_step1 SN Sg S2 HN Hx Eg E1.
case E2: (solve_a2r _ _ _ _ _ _) => [b2|//]; rewrite [bind (Ok _) _]/bind.
have [T2 L2] := C41_half_step2 SN Sg T1 HN Hx Eg E2.
have L : dist2 n D p q N g b1 b2 <= dist2 n D p q N g a1 a2.
  exact: Order.POrderTheory.le_trans (L2 _ S2) (L1 _ S1).
case: (calculate_cost _ _ _ _) => [c|//]; rewrite [bind (Ok _) _]/bind; case: ifP => _; first by case=> <- <-.
case: k IH => [_ [<- <-]|k IH E]; first by split.
have [U1 U2 L' Lo] := IH _ _ _ _ _ _ T1 T2 E; split=> //; exact: Order.POrderTheory.le_trans L' L.
Qed.

Lemma einsum_shape5 (t w r : tensor) a b c : shape t = [:: a; b; c] -> einsum "ypu,u->yup" [:: t; w] = Ok r -> shape r = [:: a; c; b].
Proof.
move=> Ht; rewrite /einsum /= Ht; case Ew: (shape w) => [|c' [|? ?]] //=; rewrite /dims_ok /= !eqxx /=.
by case: ifP => // _ [<-].
Qed.
Lemma einsum_shape6 (t w r : tensor) a b c : shape t = [:: a; b; c] -> einsum "xqv,v->xvq" [:: t; w] = Ok r -> shape r = [:: a; c; b].
Proof.
move=> Ht; rewrite /einsum /= Ht; case Ew: (shape w) => [|c' [|? ?]] //=; rewrite /dims_ok /= !eqxx /=.
by case: ifP => // _ [<-].
Qed.

Lemma init_shape (fsvd : full_svd_fun C) (g : tensor) n D p a1 a2 :
  initialize_reduced_tensors fsvd g n D p = Ok (a1, a2) -> shape a1 = [:: n; D; p] /\ shape a2 = [:: n; D; p].
Proof.
rewrite /initialize_reduced_tensors.
case: (einsum _ _) => [t|//]; rewrite [bind (Ok _) _]/bind; case: (reshape _ _) => [t'|//]; rewrite [bind (Ok _) _]/bind.
case: (svd_full _ _) => [[[U sv] Vh]|//]; rewrite [bind (Ok _) _]/bind.
case: (match sv with [::] => _ | _ => _ end) => [w|//]; rewrite [bind (Ok _) _]/bind.
case E1: (reshape _ _) => [U'|//]; rewrite [bind (Ok _) _]/bind.
case E2: (reshape _ _) => [V'|//]; rewrite [bind (Ok _) _]/bind.
case E3: (einsum _ _) => [b1|//]; rewrite [bind (Ok _) _]/bind.
case E4: (einsum _ _) => [b2|//]; rewrite [bind (Ok _) _]/bind => -[<- <-].
have R (x y : tensor) sh : reshape x sh = Ok y -> shape y = sh by rewrite /reshape; case: ifP => // _ [<-].
by split; [apply: einsum_shape5 E3; apply: R E1|apply: einsum_shape6 E4; apply: R E2].
Qed.

(** C41: the pair the solver returns is never further from the target than the
    initial guess, and the second tensor is optimal for the first. *)
Theorem C41_solve (fsvd : full_svd_fun C) n D p (N g a1' a2' : tensor) :
  shape N = [:: n; n; n; n] -> shape g = [:: n; n; p; p] -> norm_psd n N -> exact_method ->
  als_solve fsvd leigh lchol cfg N g n D p = Ok (a1', a2') ->
  exists a1 a2, initialize_reduced_tensors fsvd g n D p = Ok (a1, a2) /\
  [/\ shape a1' = [:: n; D; p], shape a2' = [:: n; D; p],
      dist2 n D p p N g a1' a2' <= dist2 n D p p N g a1 a2 &
      (0 < als_niter cfg)%N -> forall b, shape b = [:: n; D; p] -> dist2 n D p p N g a1' a2' <= dist2 n D p p N g a1' b].
Proof.
move=> SN Sg HN Hx; rewrite /als_solve.
case E: (initialize_reduced_tensors _ _ _ _ _) => [[a1 a2]|//]; rewrite [bind (Ok _) _]/bind.
have [S1 S2] := init_shape E.
case Eg: (einsum _ _) => [n12g|//]; rewrite [bind (Ok _) _]/bind; case: (calculate_cost _ _ _ _) => [c|//]; rewrite [bind (Ok _) _]/bind => L.
by exists a1, a2; split=> //; apply: (C41_sweeps SN Sg HN Hx Eg S1 S2 L).
Qed.
End Steps.

(** ---- concrete cases ---- *)
Section Examples.
Variable C : numClosedFieldType.
Notation tensor := (tensor C).

(** the identity norm tensor: an orthonormal environment *)
Definition id4 n : tensor := Tensor [:: n; n; n; n] (fun i =>
  ((nth 0 i 0 == nth 0 i 2) && (nth 0 i 1 == nth 0 i 3))%N%:R).

Lemma id4_form n u v : nform n (id4 n) u v = sumn n (fun y => sumn n (fun x => u y x * (v y x)^* )).
Proof.
rewrite /nform; apply: eq_sumn => y Hy; apply: eq_sumn => x Hx.
rewrite -[RHS](@sumn_delta C n y (fun Y => u y x * (v Y x)^* )) //; apply: eq_sumn => Y _.
rewrite -[in RHS](@sumn_delta C n x (fun X => u y x * (v Y X)^* )) // /sumn -sumrMnl; apply: eq_bigr => X _ /=.
rewrite [y == Y]eq_sym [x == _]eq_sym; case: (Y == y); case: (nat_of_ord X == x); rewrite /= ?mulr1n ?mulr0n ?mul1r ?mul0r //.
Qed.

Lemma id4_psd n : norm_psd n (id4 n).
Proof.
move=> v; rewrite id4_form; apply: sumr_ge0 => y _; apply: sumr_ge0 => x _.
by rewrite -normCK exprn_ge0.
Qed.
Lemma id4_herm n : norm_herm n (id4 n).
Proof. by move=> y x Y X _ _ _ _ /=; rewrite rmorph_nat [Y == _]eq_sym [X == _]eq_sym. Qed.

Definition cfg_pinv : econfig C := EConfig "pinv" 0 0 3 false 0 0.
Definition cfg_chol (e : C) : econfig C := EConfig "cholesky" e 0 3 false 0 0.

Lemma sumn_le0 n (F : nat -> C) i : (forall i, 0 <= F i) -> sumn n F <= 0 -> (i < n)%N -> F i = 0.
Proof.
move=> H L Hi; have : sumn n F = 0 by apply/eqP; rewrite Order.POrderTheory.eq_le L /= sumr_ge0.
by move/eqP; rewrite psumr_eq0 // => /allP /(_ (Ordinal Hi) (mem_index_enum _)) /eqP.
Qed.

(** if the target can be reached with the given second tensor, the half-step
    reaches it, and it does return a tensor *)
Example C41_example n D p q (a1 a2 g n12g : tensor) : shape a1 = [:: n; D; p] -> shape a2 = [:: n; D; q] ->
  einsum "yup,xuq->yxpq" [:: a1; a2] = Ok g -> einsum "yxYX,yxpq->YXpq" [:: id4 n; g] = Ok n12g ->
  exists a1', solve_a1r (@some_eigh C) (@some_chol C) cfg_pinv (id4 n) n12g a2 = Ok a1' /\
    forall y x P Q, (y < n)%N -> (x < n)%N -> (P < p)%N -> (Q < q)%N -> state D a1' a2 P Q y x = state D a1 a2 P Q y x.
Proof.
move=> S1 S2 E0 Eg.
have [W [EW SW HW]] := a12nE S1 S2; move: EW; rewrite E0 => -[EW]; rewrite -{}EW in SW HW.
have SN : shape (id4 n) = [:: n; n; n; n] by [].
have [g' Eg' [Sg' [R [S [ER ES SR SS _]]]]] := costE SN SW S1 S2.
move: Eg' ES; rewrite Eg => -[<-] ES.
have [c _ [_ H]] := solve_arE (@some_eigh C) (@some_chol C) cfg_pinv SR SS.
have [a1' E1] := (H erefl erefl).2 isT; exists a1'; rewrite {1}/solve_a1r ES ER; split=> //.
have E1' : solve_a1r (@some_eigh C) (@some_chol C) cfg_pinv (id4 n) n12g a2 = Ok a1' by rewrite /solve_a1r ES ER.
have Hex : exact_method (@some_eigh C) (@some_chol C) cfg_pinv.
  by split=> //; right; split=> //; apply: some_eigh_spec.
have [S1' L] := C41_half_step1 SN SW S2 (@id4_psd n) Hex Eg E1'.
have Z : dist2 n D p q (id4 n) g a1 a2 = 0.
  apply: big1 => Q _; apply: big1 => P _; rewrite id4_form; apply: big1 => y _; apply: big1 => x _.
  by rewrite /target HW subrr mul0r.
have := L _ S1; rewrite Z /dist2 /len2 => L0 y x P Q Hy Hx HP HQ.
have nn P' Q' y' x' : 0 <= (state D a1' a2 P' Q' y' x' - target g P' Q' y' x') * (state D a1' a2 P' Q' y' x' - target g P' Q' y' x')^*.
  by rewrite -normCK exprn_ge0.
have nf P' Q' : 0 <= nform n (id4 n) (fun y x => state D a1' a2 P' Q' y x - target g P' Q' y x) (fun y x => state D a1' a2 P' Q' y x - target g P' Q' y x).
  by apply: id4_psd.
have L1 := sumn_le0 (fun Q => sumr_ge0 _ (fun i _ => nf (nat_of_ord i) Q)) L0 HQ.
have le0 (z : C) : z = 0 -> z <= 0 by move=> ->.
have := sumn_le0 (fun P => nf P Q) (le0 _ L1) HP; rewrite id4_form => L2.
have L3 := sumn_le0 (fun y => sumr_ge0 _ (fun i _ => nn P Q y (nat_of_ord i))) (le0 _ L2) Hy.
have := sumn_le0 (fun x => nn P Q y x) (le0 _ L3) Hx.
by move/eqP; rewrite mulf_eq0 conjC_eq0 orbb subr_eq0 /target HW => /eqP.
Qed.

(** with a positive als_epsilon the Cholesky solve returns a tensor as soon as the
    fixed tensor is not zero *)
Example C42_example D p q (g n12g a2 : tensor) n (e : C) : 0 < e -> shape a2 = [:: n; D; q] -> shape g = [:: n; n; p; q] ->
  (exists x u Q, [/\ (x < n)%N, (u < D)%N, (Q < q)%N & at_ a2 [:: x; u; Q] != 0]) ->
  einsum "yxYX,yxpq->YXpq" [:: id4 n; g] = Ok n12g ->
  exists a1', solve_a1r (@some_eigh C) (@some_chol C) (cfg_chol e) (id4 n) n12g a2 = Ok a1' /\ shape a1' = [:: n; D; p].
Proof.
move=> e0 S2 Sg [x [u [Q [Hx Hu HQ N]]]] Eg.
have [c [c0 le _] [H1 H2]] := C42_half_step1 (@some_eigh C) (cfg := cfg_chol e) (erefl : shape (id4 n) = _) Sg S2 (@id4_psd n) erefl (@some_chol_spec C) (Order.POrderTheory.ltW e0) Eg.
have [|a1' E] := H2; last by exists a1'; split=> //; case: (H1 _ E).
rewrite mulr_gt0 // lt0r c0 andbT; apply: contra_neq N => Z.
have := le x u x u Hx Hu Hx Hu; rewrite Z normr_le0 => /eqP E.
have : sumn q (fun Q => sumn n (fun x => `|at_ a2 [:: x; u; Q]| ^+ 2)) <= 0.
  rewrite -E /normal1 Order.POrderTheory.le_eqVlt; apply/orP; left; apply/eqP; apply: eq_sumn => Q' _; apply: eq_sumn => X HX.
  rewrite -(@sumn_delta C n X (fun x' => `|at_ a2 [:: x'; u; Q']| ^+ 2)) //; apply: eq_sumn => x' _ /=.
  rewrite eqxx /=; case: eqP => [->|_]; last by rewrite !mul0r.
  by rewrite mul1r -normCK.
have nn Q' x' : 0 <= `|at_ a2 [:: x'; u; Q']| ^+ 2 by rewrite exprn_ge0.
move=> L; have L1 := sumn_le0 (fun Q => sumr_ge0 _ (fun i _ => nn Q (nat_of_ord i))) L HQ.
have le0 (z : C) : z = 0 -> z <= 0 by move=> ->.
by have /eqP := sumn_le0 (fun x => nn Q x) (le0 _ L1) Hx; rewrite expf_eq0 /= normr_eq0 => /eqP.
Qed.

(** the distance of the zero pair from a target is the squared length of the
    target, and the cost is zero *)
Example C43_example n D p q (g : tensor) : shape g = [:: n; n; p; q] ->
  let z1 : tensor := Tensor [:: n; D; p] (fun=> 0) in let z2 : tensor := Tensor [:: n; D; q] (fun=> 0) in
  calculate_cost z1 z2 g (id4 n) = Ok 0 /\ dist2 n D p q (id4 n) g z1 z2 = len2 n p q (id4 n) (target g).
Proof.
move=> Sg z1 z2.
have [c E Ed] := C43_cost_is_distance (erefl : shape (id4 n) = _) Sg (erefl : shape z1 = _) (erefl : shape z2 = _) (@id4_herm n).
have Ed' : dist2 n D p q (id4 n) g z1 z2 = len2 n p q (id4 n) (target g).
  apply: eq_sumn => Q _; apply: eq_sumn => P _; rewrite !id4_form; apply: eq_sumn => y _; apply: eq_sumn => x _.
  by rewrite {1 2}/state !/sumn !big1 ?sub0r ?rmorphN ?mulrNN // => u _; rewrite mul0r.
split=> //; rewrite E; congr Ok; apply: (@addIr _ (len2 n p q (id4 n) (target g))); by rewrite -Ed Ed' add0r.
Qed.
End Examples.

Print Assumptions C41_half_step1.
Print Assumptions C41_half_step2.
Print Assumptions C41_pinv_gap.
Print Assumptions C41_sweeps.
Print Assumptions C41_solve.
Print Assumptions C42_half_step1.
Print Assumptions C42_half_step2.
Print Assumptions C43_cost_is_distance.
Print Assumptions some_eigh_spec.
Print Assumptions some_chol_spec.
Print Assumptions some_chol_ok.
