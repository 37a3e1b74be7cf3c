(** Routines meeting the specifications of eigh and cholesky exist: eigh succeeds
    on every matrix, cholesky exactly on those whose Hermitian part seen by LAPACK
    is positive definite. *)
From Coq Require Import String Ascii.
From mathcomp Require Import all_ssreflect all_algebra.
From Verif Require Import Base Tensor Linalg Mat RsvdFacts Spectral Psd Als.
Set Implicit Arguments.
Unset Strict Implicit.
Unset Printing Implicit Defensive.
Import GRing.Theory Num.Theory.
Local Open Scope ring_scope.

Section EighChol.
Variable C : numClosedFieldType.

Lemma lowherm_adj n (A : 'M[C]_n) : adj (lowherm A) = lowherm A.
Proof.
apply/matrixP => i j; rewrite adjE !mxE; case: (ltngtP i j) => [H|H|/val_inj ->] //.
  by rewrite conjCK.
by rewrite conj_Creal ?Creal_Re.
Qed.

Lemma rl_lowherm n (A : 'M[C]_n) : rl A -> rl (lowherm A).
Proof. by move=> H i j; rewrite mxE; case: ltngtP => _; rewrite ?rl_conj ?Creal_Re. Qed.

Definition eigh_b n (A : 'M[C]_n) (x : 'rV[C]_n * 'M[C]_n) : bool :=
  let: (w, V) := x in
  [&& adj V *m V == 1%:M, [forall i, w 0 i \is Num.real],
      [forall i : 'I_n, forall j : 'I_n, (i <= j)%N ==> (w 0 i <= w 0 j)], lowherm A == V *m diag_mx w *m adj V & mxreal A ==> mxreal V].

Lemma eigh_ex n (A : 'M[C]_n) : exists x, eigh_b A x.
Proof.
have [U [f [U1 fr fm [E RU]]]] := eigh_exists (lowherm_adj A); exists (\row_i f i, U); rewrite /eigh_b U1 -E !eqxx /=.
apply/and3P; split; [| |by apply/implyP => /mxrealP/rl_lowherm/RU/mxrealP]; first by apply/forallP => i; rewrite mxE fr.
by apply/forallP => i; apply/forallP => j; apply/implyP => Hij; rewrite !mxE fm.
Qed.
Definition some_eigh : eigh_fun C := fun n A => Some (xchoose (eigh_ex A)).

Theorem some_eigh_spec : eigh_spec some_eigh.
Proof.
move=> n A; have := xchooseP (eigh_ex A); rewrite /some_eigh; case: (xchoose _) => w V /and5P[/eqP HV /forallP Hw Hm /eqP HA _].
split=> // i j Hij; have /forallP /(_ i) /forallP /(_ j) := Hm; by rewrite Hij.
Qed.

(** for a real matrix the eigenvectors are real *)
Theorem some_eigh_real n (A : 'M[C]_n) w V : rl A -> some_eigh A = Some (w, V) -> rl V.
Proof.
move=> /mxrealP RA; have := xchooseP (eigh_ex A); rewrite /some_eigh; case: (xchoose _) => w' V' /and5P[_ _ _ _ H] [_ <-].
by move: H; rewrite RA /= => /mxrealP.
Qed.

(** positive definite *)
Definition pd n (M : 'M[C]_n) : Prop := forall x : 'cV[C]_n, x != 0 -> 0 < (adj x *m M *m x) 0 0.

Lemma pd_psd n (M : 'M[C]_n) : pd M -> psd M.
Proof.
move=> H x; case: (eqVneq x 0) => [->|N]; first by rewrite mulmx0 mxE.
exact: Order.POrderTheory.ltW (H _ N).
Qed.

Lemma chol_exists n (M : 'M[C]_n) : pd M ->
  exists L : 'M[C]_n, [/\ forall i j : 'I_n, (i < j)%N -> L i j = 0, forall i, 0 < L i i & M = L *m adj L].
Proof.
move=> H; have [Z EZ] := psd_gram (pd_psd H).
have nn : n = minn n n by rewrite minnn.
have [Q [R [HQ EQ HR _]]] := @qr_exists C n n n (adj Z) nn.
have EM : M = adj R *m R.
  by rewrite EZ -{1}[Z]adjK EQ adjM mulmxA -(mulmxA (adj R)) HQ mulmx1.
have Ru : R \in unitmx.
  rewrite -unitmx_tr -row_free_unit -kermx_eq0; apply/eqP/row_matrixP => i; rewrite row0.
  have [v Ev] : exists v, v = row i (kermx R^T) by eexists.
  have K : R *m v^T = 0 by apply: trmx_inj; rewrite trmx_mul trmxK trmx0 Ev -row_mul mulmx_ker row0.
  rewrite -Ev; apply: trmx_inj; rewrite trmx0; apply/eqP; apply: contraTT (Order.POrderTheory.lexx (0 : C)) => N.
  by have := H _ N; rewrite EM -!mulmxA K !mulmx0 mxE Order.POrderTheory.ltxx.
have Rn i : R i i != 0.
  move: Ru; rewrite unitmxE unitfE -det_tr det_trig.
    by move/prodf_neq0 => /(_ i isT); rewrite mxE.
  by apply/is_trig_mxP => a b Hab; rewrite mxE HR.
exists (adj R *m diag_mx (\row_i (R i i / `|R i i|))); split.
- by move=> i j Hij; rewrite mul_mx_diag mxE adjE HR // rmorph0 mul0r.
- move=> i; rewrite mul_mx_diag mxE adjE mxE mulrA [_^* * _]mulrC -normCK expr2 mulfK ?normr_eq0 // normr_gt0.
  exact: Rn.
rewrite EM adjM adjK mulmxA -(mulmxA (adj R)); congr (_ *m _).
rewrite -[LHS]mulmx1; congr (_ *m _); apply/matrixP => i j; rewrite mul_diag_mx !mxE.
case: eqVneq => [->|N]; last by rewrite ?mulr0n ?rmorph0 mulr0.
by rewrite !mulr1n -normCK normf_div normr_id divff ?normr_eq0 // expr1n.
Qed.

Definition chol_b n (M : 'M[C]_n) (L : 'M[C]_n) : bool :=
  [&& [forall i : 'I_n, forall j : 'I_n, (i < j)%N ==> (L i j == 0)], [forall i, 0 < L i i] & M == L *m adj L].

Lemma pd_eig n (M V : 'M[C]_n) (w : 'rV[C]_n) : adj V *m V = 1%:M -> M = V *m diag_mx w *m adj V ->
  reflect (pd M) [forall i, 0 < w 0 i].
Proof.
move=> V1 EM; apply: (iffP forallP) => [H x Nx|H i].
  have [y Ey] : exists y, y = adj V *m x by eexists.
  have Ny : y != 0.
    apply: contraNneq Nx => y0; rewrite -[x]mul1mx -(mulmx1C V1) -mulmxA -Ey y0 mulmx0 //.
  have -> : (adj x *m M *m x) 0 0 = \sum_i w 0 i * `|y i 0| ^+ 2.
    rewrite EM !mulmxA -mulmxA -Ey -(mulmxA _ (diag_mx w)).
    have -> : adj x *m V = adj y by rewrite Ey adjM adjK.
    rewrite mxE; apply: eq_bigr => i _; rewrite mul_diag_mx !mxE normCK.
    by rewrite mulrCA [y i 0 * _]mulrC.
  have /matrix0Pn [i [z Ni]] := Ny; rewrite ord1 in Ni.
  rewrite (bigD1 i) //=; apply: ltr_paddr; last by rewrite mulr_gt0 // exprn_gt0 ?normr_gt0.
  by apply: sumr_ge0 => j _; rewrite mulr_ge0 ?exprn_ge0 // Order.POrderTheory.ltW.
have := H (col i V).
have Dc : V *m (delta_mx i 0 : 'cV[C]_n) = col i V by rewrite colE.
have -> : (adj (col i V) *m M *m col i V) 0 0 = w 0 i.
  rewrite -Dc adjM EM !mulmxA -(mulmxA _ (adj V) V) V1 mulmx1 -(mulmxA _ (adj V) V) V1 mulmx1.
  have -> : adj (delta_mx i 0 : 'cV[C]_n) = delta_mx 0 i.
    by apply/matrixP => a b; rewrite adjE !mxE andbC rmorph_nat.
  by rewrite -rowE -colE !mxE eqxx mulr1n.
apply; apply/eqP => Z; have /matrixP/(_ i i) := V1; rewrite !mxE eqxx big1 => [/eqP|k _].
  by rewrite eq_sym oner_eq0.
by have /matrixP/(_ k 0) := Z; rewrite !mxE => ->; rewrite mulr0.
Qed.

Lemma pd_dec n (A : 'M[C]_n) : decidable (pd (lowherm A)).
Proof.
have := xchooseP (eigh_ex A); case: (xchoose _) => w V /and5P[/eqP HV _ _ /eqP HA _].
exact: decP (pd_eig HV HA).
Qed.

Lemma chol_ex n (M : 'M[C]_n) : pd M -> exists L, chol_b M L.
Proof.
move=> /chol_exists [L [H1 H2 H3]]; exists L; rewrite /chol_b -H3 eqxx andbT; apply/andP; split; last by apply/forallP.
by apply/forallP => i; apply/forallP => j; apply/implyP => /H1 ->.
Qed.

Definition some_chol : chol_fun C := fun n A =>
  match pd_dec A with left H => Some (xchoose (chol_ex H)) | right _ => None end.

Theorem some_chol_spec : chol_spec some_chol.
Proof.
move=> n A; rewrite /some_chol; case: (pd_dec A) => // H.
have := xchooseP (chol_ex H); case/and3P => HL /forallP Hd /eqP E; split=> // i j Hij.
by have /forallP /(_ i) /forallP /(_ j) := HL; rewrite Hij => /eqP.
Qed.

Theorem some_chol_ok n (A : 'M[C]_n) : some_chol A <> None <-> pd (lowherm A).
Proof. by rewrite /some_chol; case: (pd_dec A). Qed.
End EighChol.
