(** C44: the positive approximation of the norm tensor
    (acetn/evolution/full_update.py, positive_approx). *)
From Coq Require Import String Ascii.
From mathcomp Require Import all_ssreflect all_algebra.
From Verif Require Import Base Lattice Mover Tensor TN Rdm RdmFacts FullUpdate Linalg Mat Rsvd RsvdFacts Renorm RenormFacts Spectral ProjFacts Psd Als AlsFacts EighChol UpdFacts P16_Als.
Set Implicit Arguments.
Unset Strict Implicit.
Unset Printing Implicit Defensive.
Import GRing.Theory Num.Theory.
Local Open Scope ring_scope.
Local Open Scope string_scope.

Section Spec.
Variable C : numClosedFieldType.
Notation tensor := (tensor C).

(** squared Euclidean length of a pair vector *)
Definition vlen n (v : nat -> nat -> C) : C := sumn n (fun y => sumn n (fun x => `|v y x| ^+ 2)).
(** the norm tensor a square root t stands for *)
Definition square n (t : tensor) : tensor := Tensor [:: n; n; n; n] (fun i =>
  sumn (n ^ 2) (fun z => at_ t [:: nth 0 i 0; nth 0 i 1; z]%N * (at_ t [:: nth 0 i 2; nth 0 i 3; z]%N)^* )).
(** the norm tensor plus d times the identity *)
Definition shifted n (N : tensor) (d : C) : tensor := Tensor [:: n; n; n; n] (fun i =>
  at_ N i + d *+ ((nth 0 i 0 == nth 0 i 2) && (nth 0 i 1 == nth 0 i 3))%N).
(** the Hermitian tensor with the lower triangle of N, pairs of legs being
    ordered lexicographically; it is N if N is Hermitian *)
Definition before (y x Y X : nat) : bool := (y < Y)%N || (y == Y) && (x < X)%N.
Definition lower n (N : tensor) : tensor := Tensor [:: n; n; n; n] (fun i =>
  let: (y, x, Y, X) := (nth 0 i 0, nth 0 i 1, nth 0 i 2, nth 0 i 3)%N in
  if before Y X y x then at_ N [:: y; x; Y; X] else
  if before y x Y X then (at_ N [:: Y; X; y; x])^* else 'Re (at_ N [:: y; x; y; x])).
(** all eigenvalues are at least c *)
Definition above n (N : tensor) (c : C) : Prop := forall v, c * vlen n v <= nform n N v v.
(** product of two norm tensors as matrices *)
Definition nprod n (A B : tensor) : tensor := Tensor [:: n; n; n; n] (fun i =>
  sumn n (fun y => sumn n (fun x => at_ A [:: nth 0 i 0; nth 0 i 1; y; x]%N * at_ B [:: y; x; nth 0 i 2; nth 0 i 3]%N))).
End Spec.

Section C44.
Variable C : numClosedFieldType.
Notation tensor := (tensor C).
Variable fsvd : full_svd_fun C.
Variable leigh : eigh_fun C.
Variables (n k : nat).
Hypothesis Ek : k.+1 = (n ^ 2)%N.
Notation M := (mat k.+1 k.+1 [:: n; n] [:: n; n]).

Lemma knn : k.+1 = numel [:: n; n]. Proof. by rewrite Ek /= muln1 expnS expn1. Qed.
Lemma kn2 (i : 'I_k.+1) : (i < n * n)%N. Proof. by have := ltn_ord i; rewrite {2}knn /= muln1. Qed.

Lemma ordP y x : (y < n)%N -> (x < n)%N -> exists i : 'I_k.+1, unravel [:: n; n] i = [:: y; x].
Proof.
move=> Hy Hx; have HI : in_range [:: n; n] [:: y; x] by rewrite /= Hy Hx.
have Hi : (ravel [:: n; n] [:: y; x] < k.+1)%N by rewrite knn ravel_lt.
by exists (Ordinal Hi); change (unravel [:: n; n] (ravel [:: n; n] [:: y; x]) = [:: y; x]); rewrite ravelK.
Qed.

Definition cvec (v : nat -> nat -> C) : 'cV[C]_k.+1 :=
  \col_i (v (nth 0 (unravel [:: n; n] i) 0)%N (nth 0 (unravel [:: n; n] i) 1)%N)^*.

Lemma sum2k (F : seq nat -> C) : \sum_(i < k.+1) F (unravel [:: n; n] i) = sumn n (fun y => sumn n (fun x => F [:: y; x])).
Proof. by have -> : k.+1 = (n * n)%N; [rewrite knn /= muln1 | rewrite sum2]. Qed.

Lemma cvecP (x : 'cV[C]_k.+1) : exists v, x = cvec v.
Proof.
exists (fun y z => if insub (ravel [:: n; n] [:: y; z]) is Some i then (x i 0)^* else 0).
apply/matrixP => i j; rewrite ord1 mxE; have [y [z [_ _ -> E]]] := unravel2 (kn2 i).
by rewrite [nth _ _ 0]/= [nth _ _ 1]/= E valK conjCK.
Qed.

Lemma formE (N : tensor) v : (adj (cvec v) *m M N *m cvec v) 0 0 = nform n N v v.
Proof.
rewrite mxE; pose G w j := v (nth 0 w 0)%N (nth 0 w 1)%N * at_ N (cat w j).
pose F j := sumn n (fun y => sumn n (fun x => G [:: y; x] j)) * (v (nth 0 j 0)%N (nth 0 j 1)%N)^*.
transitivity (\sum_(j < k.+1) F (unravel [:: n; n] j)).
  apply: eq_bigr => j _; rewrite /F [cvec v j _]mxE; congr (_ * _); rewrite mxE.
  rewrite -(sum2k (fun w => G w (unravel [:: n; n] j))).
  by apply: eq_bigr => i _; rewrite /G adjE !mxE conjCK.
rewrite sum2k /F /G /nform /=.
transitivity (sumn n (fun Y => sumn n (fun X => sumn n (fun y => sumn n (fun x => at_ N [:: y; x; Y; X] * v y x * (v Y X)^* ))))).
  apply: eq_sumn => Y _; apply: eq_sumn => X _; rewrite sumn_mulr; apply: eq_sumn => y _; rewrite sumn_mulr; apply: eq_sumn => x _.
  by rewrite [v y x * _]mulrC.
rewrite (eq_sumn (G := fun Y => sumn n (fun y => sumn n (fun x => sumn n (fun X => at_ N [:: y; x; Y; X] * v y x * (v Y X)^* ))))); last first.
  by move=> Y _; rewrite sumnC; apply: eq_sumn => y _; rewrite sumnC.
by rewrite sumnC; apply: eq_sumn => y _; rewrite sumnC.
Qed.

Lemma vlenE v : (adj (cvec v) *m cvec v) 0 0 = vlen n v.
Proof.
rewrite col_norm; pose F j := `|v (nth 0 j 0)%N (nth 0 j 1)%N| ^+ 2.
transitivity (\sum_(j < k.+1) F (unravel [:: n; n] j)); last by rewrite sum2k.
by apply: eq_bigr => j _; rewrite mxE norm_conjC.
Qed.

Lemma hermM (N : tensor) : norm_herm n N -> adj (M N) = M N.
Proof.
move=> H; apply/matrixP => i j; rewrite adjE !mxE.
have [y [x [Hy Hx -> _]]] := unravel2 (kn2 i); have [Y [X [HY HX -> _]]] := unravel2 (kn2 j).
by rewrite /= -H.
Qed.

Lemma squareE (t : tensor) : M (square n t) = mat k.+1 k.+1 [:: n; n] [:: k.+1] t *m adj (mat k.+1 k.+1 [:: n; n] [:: k.+1] t).
Proof.
apply/matrixP => i j; rewrite !mxE /= -Ek; apply: eq_bigr => z _; rewrite adjE !mxE !unravel1 //.
Qed.

Lemma shiftedE (N : tensor) d : M (shifted n N d) = M N + d%:M.
Proof.
apply/matrixP => i j; rewrite !mxE.
have [y [x [Hy Hx Ei Ri]]] := unravel2 (kn2 i); have [Y [X [HY HX Ej Rj]]] := unravel2 (kn2 j) => //.
rewrite Ei Ej /=; congr (_ + d *+ nat_of_bool _); rewrite -val_eqE /= -Ri -Rj; apply/idP/idP => [/andP[/eqP -> /eqP ->] //|/eqP E].
by have := congr1 (unravel [:: n; n]) E; rewrite !ravelK ?in_rangeE //= ?Hy ?Hx ?HY ?HX // => -[-> ->]; rewrite !eqxx.
Qed.

Lemma before_ravel y x Y X : (x < n)%N -> (X < n)%N ->
  (ravel [:: n; n] [:: y; x] < ravel [:: n; n] [:: Y; X])%N = before y x Y X.
Proof.
move=> Hx HX; rewrite /before /= !muln1 !addn0; case: (ltngtP y Y) => [H|H|->] /=; last by rewrite ltn_add2l.
  apply: leq_trans (leq_addr _ _); apply: leq_trans (leq_mul H (leqnn n)); by rewrite mulSn [(n + _)%N]addnC -addnS leq_add2l.
apply/negbTE; rewrite -leqNgt; apply: leq_trans (leq_addr _ _); apply: leq_trans (leq_mul H (leqnn n)).
by rewrite mulSn [(n + _)%N]addnC leq_add2l ltnW.
Qed.

Lemma lowerE (N : tensor) : M (lower n N) = lowherm (M N).
Proof.
apply/matrixP => i j; rewrite !mxE.
have [y [x [Hy Hx Ei Ri]]] := unravel2 (kn2 i); have [Y [X [HY HX Ej Rj]]] := unravel2 (kn2 j).
rewrite !Ei !Ej -Ri -Rj !before_ravel //.
Qed.

Lemma matI (A B : tensor) : shape A = [:: n; n; n; n] -> shape B = [:: n; n; n; n] -> M A = M B -> teq A B.
Proof.
move=> SA SB E; split=> [|v]; first by rewrite SA.
rewrite SA; case: v => [|y [|x [|Y [|X [|? ?]]]]] //=; rewrite ?andbF //; case/and5P => Hy Hx HY HX _.
have [i Ei] := ordP Hy Hx; have [j Ej] := ordP HY HX; have /matrixP/(_ i j) := E.
by rewrite !mxE Ei Ej.
Qed.

Hypothesis Se : eigh_spec leigh.
Hypothesis Ss : full_svd_spec fsvd.

Lemma lowherm_herm m (A : 'M[C]_m) : adj A = A -> lowherm A = A.
Proof.
move=> H; apply/matrixP => i j; rewrite mxE; case: (ltngtP j i) => // [Hij|/val_inj ->].
  by rewrite -[in RHS]H adjE.
by apply/Creal_ReP; rewrite CrealE; apply/eqP; rewrite -[in RHS]H adjE.
Qed.

Lemma sqrt_gram m (V : 'M[C]_m) (w : 'rV[C]_m) : (forall i, 0 <= w 0 i) ->
  (V *m diag_mx (\row_i sqrtC (w 0 i))) *m adj (V *m diag_mx (\row_i sqrtC (w 0 i))) = V *m diag_mx w *m adj V.
Proof.
move=> Hw; rewrite adjM adj_rdiag => [|i]; last by rewrite mxE ger0_real ?sqrtC_ge0.
rewrite mulmxA -(mulmxA V) mulmx_diag; congr (_ *m diag_mx _ *m _).
by apply/matrixP => a i; rewrite !mxE -expr2 sqrtCK (ord1 a).
Qed.

Lemma aboveE (N : tensor) c : above n N c <-> forall x : 'cV[C]_k.+1, c * (adj x *m x) 0 0 <= (adj x *m M N *m x) 0 0.
Proof.
split=> [H x|H v]; last by rewrite -formE -vlenE.
by have [v ->] := cvecP x; rewrite formE vlenE.
Qed.

Lemma total_run (N : tensor) cutoff fuel : shape N = [:: n; n; n; n] -> 0 <= cutoff ->
  (forall m (A : 'M[C]_m), leigh A) ->
  exists t d, [/\ positive_approx fsvd leigh fuel.+1 cutoff N = Some (Ok t), shape t = [:: n; n; n ^ 2]%N, 0 <= d,
    teq (square n t) (shifted n (lower n N) d) & above n (shifted n (lower n N) d) cutoff /\ (above n (lower n N) cutoff -> d = 0)].
Proof.
move=> SN c0 tot.
have [d [N' [w [V [E [EN El d0 L H0]]]]]] := @one_shift C fsvd leigh cutoff Se Ss k fuel (M N) tot (ger0_real c0).
have [_ /(_ _ _ _ E) [t [Et St Mt]]] := @posE C fsvd leigh cutoff n k N fuel.+1 Ek SN.
have := Se N'; rewrite El => -[V1 wr wm EV].
rewrite EN lowherm_shift ?ger0_real // in EV.
have w0 i : 0 <= w 0 i by apply: Order.POrderTheory.le_trans (wm 0 i (leq0n i)); apply: Order.POrderTheory.le_trans L.
exists t, d; split=> //; rewrite ?St ?Ek //.
  by apply: matI => //; rewrite squareE Mt sqrt_gram // -EV shiftedE lowerE.
split; last by move/aboveE; rewrite lowerE.
apply/aboveE => x; rewrite shiftedE lowerE EV.
apply: Order.POrderTheory.le_trans (min_form x V1 (fun i => wm 0 i (leq0n i))).
by rewrite ler_wpmul2r // col_norm sumr_ge0 // => i _; rewrite exprn_ge0.
Qed.

Lemma lower_herm (N : tensor) : shape N = [:: n; n; n; n] -> norm_herm n N -> teq (lower n N) N.
Proof. by move=> SN HN; apply: matI => //; rewrite lowerE lowherm_herm // hermM. Qed.

Lemma nprodE (A B : tensor) : M (nprod n A B) = M A *m M B.
Proof.
apply/matrixP => i j; rewrite !mxE.
have [y [x [Hy Hx Ei Ri]]] := unravel2 (kn2 i); have [Y [X [HY HX Ej Rj]]] := unravel2 (kn2 j).
rewrite Ei Ej /=; pose F w := at_ A (cat [:: y; x] w) * at_ B (cat w [:: Y; X]).
transitivity (\sum_(l < k.+1) F (unravel [:: n; n] l)); first by rewrite sum2k.
by apply: eq_bigr => l _; rewrite /F !mxE Ei Ej.
Qed.

Lemma any_run (N : tensor) cutoff fuel r : shape N = [:: n; n; n; n] -> norm_herm n N -> 0 <= cutoff ->
  positive_approx fsvd leigh fuel cutoff N = Some r ->
  exists t d, [/\ r = Ok t, shape t = [:: n; n; n ^ 2]%N, 0 <= d,
    teq (nprod n (square n t) (square n t)) (nprod n (shifted n N d) (shifted n N d)) & above n (square n t) cutoff].
Proof.
move=> SN HN c0; have [Hn Hs] := @posE C fsvd leigh cutoff n k N fuel Ek SN.
case E: (shift_loop fsvd leigh cutoff fuel (M N)) => [[N' [w V]]|]; last by rewrite Hn.
have [t [-> St Mt]] := Hs _ _ _ E; case=> <-.
have [d d0 [EN Ee L]] := shift_loopE Se Ss E c0.
have := eig_or_svdE Se Ss N'; rewrite Ee => -[V1 wr wm He].
have HM := hermM HN; have dr : d^* = d by rewrite conj_Creal ?ger0_real.
have HM' : adj N' = N' by rewrite EN adjD HM adj_scalar dr.
have w0 i : 0 <= w 0 i by apply: Order.POrderTheory.le_trans (wm 0 i (leq0n i)); apply: Order.POrderTheory.le_trans L.
exists t, d; split=> //; rewrite ?St ?Ek //.
  apply: matI => //; rewrite !nprodE squareE Mt sqrt_gram // shiftedE -EN; move: He; rewrite /eig_of.
  by case: (leigh N') => [_ ->|[_ ->]]; rewrite ?lowherm_herm // HM'.
apply/aboveE => x; rewrite squareE Mt sqrt_gram //.
apply: Order.POrderTheory.le_trans (min_form x V1 (fun i => wm 0 i (leq0n i))).
by rewrite ler_wpmul2r // col_norm sumr_ge0 // => i _; rewrite exprn_ge0.
Qed.
End C44.

Section Theorems.
Variable C : numClosedFieldType.
Notation tensor := (tensor C).
Variable fsvd : full_svd_fun C.
Variable leigh : eigh_fun C.
Hypothesis Se : eigh_spec leigh.
Hypothesis Ss : full_svd_spec fsvd.

(** C44: with an eigh that does not fail, the loop ends after at most one shift
    and returns a square root of the Hermitian tensor eigh sees (the lower
    triangle) plus a non-negative multiple of the identity, all of whose
    eigenvalues are at least the cutoff; nothing is added if they already are. *)
Theorem C44_positive n (N : tensor) cutoff fuel : (0 < n)%N -> shape N = [:: n; n; n; n] -> 0 <= cutoff ->
  (forall m (A : 'M[C]_m), leigh A) ->
  exists t d, [/\ positive_approx fsvd leigh fuel.+1 cutoff N = Some (Ok t), shape t = [:: n; n; n ^ 2]%N, 0 <= d,
    teq (square n t) (shifted n (lower n N) d) & above n (shifted n (lower n N) d) cutoff /\ (above n (lower n N) cutoff -> d = 0)].
Proof using Se Ss.
move=> n0 SN c0 tot; have Hk : (n ^ 2).-1.+1 = (n ^ 2)%N by rewrite prednK // expn_gt0 n0.
by have := @total_run C fsvd leigh n _ Hk Se Ss N cutoff fuel SN c0 tot.
Qed.

(** the tensor eigh sees is the norm tensor itself if that is Hermitian *)
Theorem C44_hermitian n (N : tensor) cutoff fuel : (0 < n)%N -> shape N = [:: n; n; n; n] -> norm_herm n N -> 0 <= cutoff ->
  (forall m (A : 'M[C]_m), leigh A) ->
  exists t d, [/\ positive_approx fsvd leigh fuel.+1 cutoff N = Some (Ok t), shape t = [:: n; n; n ^ 2]%N, 0 <= d,
    teq (square n t) (shifted n N d) & above n (shifted n N d) cutoff /\ (above n N cutoff -> d = 0)].
Proof using Se Ss.
move=> n0 SN HN c0 tot; have [t [d [E St d0 [E1 E2] [A1 A2]]]] := C44_positive fuel n0 SN c0 tot.
have Hk : (n ^ 2).-1.+1 = (n ^ 2)%N by rewrite prednK // expn_gt0 n0.
have [L1 L2] := lower_herm Hk SN HN.
have F v : nform n (lower n N) v v = nform n N v v.
  by apply: eq_sumn => y Hy; apply: eq_sumn => x Hx; apply: eq_sumn => Y HY; apply: eq_sumn => X HX; rewrite L2 //= Hy Hx HY HX.
have G v : nform n (shifted n (lower n N) d) v v = nform n (shifted n N d) v v.
  by apply: eq_sumn => y Hy; apply: eq_sumn => x Hx; apply: eq_sumn => Y HY; apply: eq_sumn => X HX; rewrite /shifted /at_ -/(at_ N _) -/(at_ (lower n N) _) L2 //= Hy Hx HY HX.
exists t, d; split=> //; first by split=> // v Hv; rewrite E2 // /shifted /at_ -/(at_ N _) -/(at_ (lower n N) _) L2.
split=> [v|H]; first by rewrite -G.
by apply: A2 => v; rewrite F.
Qed.

(** if eigh fails the SVD is used; whenever the loop ends, it has not raised, and
    the result is a square root of a tensor whose eigenvalues are at least the
    cutoff and whose square is that of the shifted norm tensor *)
Theorem C44_any_eigh n (N : tensor) cutoff fuel r : (0 < n)%N -> shape N = [:: n; n; n; n] -> norm_herm n N -> 0 <= cutoff ->
  positive_approx fsvd leigh fuel cutoff N = Some r ->
  exists t d, [/\ r = Ok t, shape t = [:: n; n; n ^ 2]%N, 0 <= d,
    teq (nprod n (square n t) (square n t)) (nprod n (shifted n N d) (shifted n N d)) & above n (square n t) cutoff].
Proof using Se Ss.
move=> n0 SN HN c0 E; have Hk : (n ^ 2).-1.+1 = (n ^ 2)%N by rewrite prednK // expn_gt0 n0.
by have := @any_run C fsvd leigh n _ Hk Se Ss N cutoff fuel r SN HN c0 E.
Qed.
End Theorems.

Section Examples.
Variable C : numClosedFieldType.
Notation tensor := (tensor C).
Let one (x : C) : tensor := Tensor [:: 1; 1; 1; 1]%N (fun _ => x).

Lemma one_form x v : nform 1 (one x) v v = x * `|v 0%N 0%N| ^+ 2.
Proof. by rewrite /nform /sumn !big_ord_recl !big_ord0 /= !addr0 -mulrA normCK. Qed.
Lemma one_len (v : nat -> nat -> C) : vlen 1 v = `|v 0%N 0%N| ^+ 2.
Proof. by rewrite /vlen /sumn !big_ord_recl !big_ord0 /= !addr0. Qed.

(** a negative norm is shifted above the cutoff, a positive one is kept *)
Example C44_example (x : C) : x \is Num.real -> exists t, positive_approx (@some_full_svd C) (@some_eigh C) 1 2%:R (one x) = Some (Ok t) /\
  [/\ shape t = [:: 1; 1; 1]%N, 2%:R <= `|at_ t [:: 0; 0; 0]%N| ^+ 2 & 2%:R <= x -> `|at_ t [:: 0; 0; 0]%N| ^+ 2 = x].
Proof.
move=> xr; have Hx : norm_herm 1 (one x) by move=> y u Y U *; rewrite /= conj_Creal.
have [t [d [E St d0 [_ H] [A1 A2]]]] := C44_hermitian (@some_eigh_spec C) (@some_full_svd_spec C) 0 (n := 1) (N := one x) isT erefl Hx (ler0n _ 2) (fun m A => erefl).
have K : `|at_ t [:: 0; 0; 0]%N| ^+ 2 = x + d.
  by have := H [:: 0; 0; 0; 0]%N isT; rewrite /= /sumn big_ord_recl big_ord0 addr0 normCK.
exists t; rewrite K; split=> //; split=> //.
  have := A1 (fun _ _ => 1); rewrite one_len /nform /sumn !big_ord_recl !big_ord0 /= !addr0 normr1 expr1n !mulr1.
  by rewrite rmorph1 mulr1.
move=> L; rewrite A2 ?addr0 // => v; rewrite one_len one_form ler_wpmul2r ?exprn_ge0 //.
Qed.

(** for a norm tensor that is not Hermitian the result does not reproduce it,
    whatever the shift *)
Example C44_hermitian_needed_refuted : exists t, positive_approx (@some_full_svd C) (@some_eigh C) 1 1 (one 'i) = Some (Ok t) /\
  forall d, 0 <= d -> ~ teq (square 1 t) (shifted 1 (one 'i) d).
Proof.
have [t [d [E St d0 [_ H] _]]] := C44_positive (@some_eigh_spec C) (@some_full_svd_spec C) 0 (n := 1) (N := one 'i) isT erefl ler01 (fun m A => erefl).
exists t; split=> // d' d0' [_ H']; have := H [:: 0; 0; 0; 0]%N isT; rewrite H' //= Re_i add0r.
move/(congr1 (fun z => 'Im z)); rewrite raddfD /= !mulr1n Im_i !(Creal_ImP _ _) ?ger0_real // addr0 => /eqP.
by rewrite oner_eq0.
Qed.
End Examples.

Print Assumptions C44_positive.
Print Assumptions C44_hermitian.
Print Assumptions C44_any_eigh.
