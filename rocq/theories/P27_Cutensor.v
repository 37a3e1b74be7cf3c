(** C70, C71: the contractions of the compiled backend (csrc/linalg) and its
    alternating least squares solver (csrc/evolution). *)
From Coq Require Import String Ascii.
From mathcomp Require Import all_ssreflect all_algebra.
From Verif Require Import Base Lattice Mover Tensor TN Rdm RdmFacts FullUpdate Linalg Mat Rsvd RsvdFacts Renorm RenormFacts Spectral ProjFacts Psd Als AlsFacts EighChol UpdFacts P09_Rdm P16_Als P17_Reduced Eckart P20_Simple P22_SimpleUpdate P23_Solver P24_FullUpdate P26_SiteUpdate Strides AlsLoop Cutensor CutensorFacts.
Set Implicit Arguments.
Unset Strict Implicit.
Unset Printing Implicit Defensive.
Import GRing.Theory Num.Theory.
Local Open Scope ring_scope.
Local Open Scope string_scope.

(** ---- C70 ---- *)
Section C70.
Variable C : numClosedFieldType.
Notation tensor := (tensor C).

(** C70: for every expression la,lb->lc in which no label is repeated within an
    operand or within the output, and for all shapes: the compiled backend makes a
    plan exactly if torch's einsum accepts the operands; the contraction then
    leaves the entries of the einsum in the output buffer, in row-major order, and
    changes nothing behind them; it depends on the operands' buffers only through
    their entries.  The conjugation flags have an effect for complex dtypes only. *)
Theorem C70_contract (cplx : bool) la lb lc (A B : tensor) (bufA bufB out : mem C) ca cb :
  plain la lb lc -> distinct la -> distinct lb -> distinct lc -> holds bufA A -> holds bufB B ->
  match create_contraction_plan cplx (expression la lb lc) (shape A) (shape B) ca cb,
        einsum (expression la lb lc) [:: opt_conj (ca && cplx) A; opt_conj (cb && cplx) B] with
  | Ok p, Ok T => holds (contract p bufA bufB out) T /\ forall a, (numel (shape T) <= a)%N -> contract p bufA bufB out a = out a
  | Err e, Err _ => e = RuntimeError
  | _, _ => False
  end.
Proof.
move=> Hp Da Db Dc HA HB; have := @contractE C cplx la lb lc A B bufA bufB out ca cb.
rewrite create_planE // einsum2 // !shape_opt; case: ifP => // _ /(_ _ Hp Da Db Dc HA HB erefl).
by case=> T [<-].
Qed.

Lemma for_each_err T U (l : seq T) (f : T -> U -> res U) u e e0 : (forall x u e, f x u = Err e -> e = e0) -> for_each l f u = Err e -> e = e0.
Proof.
move=> H; elim: l u => [//|x l IH] u /=; case E : (f x u) => [u'|e'] /=; first exact: IH.
by move=> [<-]; exact: H E.
Qed.

Lemma parse_err expr shA shB e : parseEinsumExpression expr shA shB = Err e -> e = RuntimeError.
Proof.
rewrite /parseEinsumExpression; case: (find_arrow _) => [[l lc]|[]//]; case: (find_char _ _) => [[la lb]|[]//].
case: ifP => [_ []//|_]; case: ifP => [_ []//|_]; case: lc => // c lc.
case E : (for_each (zip lb shB) _ _) => [m|e'].
  rewrite [bind (Ok m) _]/bind; case E' : (for_each (c :: lc) _ _) => [x//|e'] [<-].
  by apply: for_each_err E' => x u e''; case: (map_find _ _) => // -[].
by move=> [<-]; apply: for_each_err E => -[l' d] u e''; case: (map_find _ _) => // d'; case: ifP => // _ [].
Qed.

(** an expression with a label twice within an operand or within the output is
    refused, though torch's einsum takes diagonals; whatever the expression, a
    failure is a RuntimeError *)
Theorem C70_refused (cplx : bool) la lb lc shA shB ca cb : plain la lb lc -> ~~ [&& distinct la, distinct lb & distinct lc] ->
  create_contraction_plan cplx (expression la lb lc) shA shB ca cb = Err RuntimeError.
Proof.
move=> Hp Nd; rewrite /create_contraction_plan; case E : (parseEinsumExpression _ _ _) => [m|e]; last by rewrite (parse_err E).
rewrite [bind (Ok m) _]/bind /library_accepts.
have [Ea Eb Ec] : [/\ modeA m = la, modeB m = lb & modeC m = lc].
  move: E; rewrite /parseEinsumExpression; have [-> ->] := cparseE Hp; case: ifP => // _; case: ifP => // _.
  case: (lc) => [[<-]//|c l]; case: (for_each _ _ _) => [u|//]; rewrite [bind (Ok u) _]/bind.
  by case: (for_each _ _ _) => [v|//]; rewrite [bind (Ok v) _]/bind => -[<-].
by rewrite [p_modes _]/= Ea Eb Ec; move: Nd; case: (distinct la); case: (distinct lb); case: (distinct lc).
Qed.
Theorem C70_only_runtime_error (cplx : bool) expr shA shB ca cb e :
  create_contraction_plan cplx expr shA shB ca cb = Err e -> e = RuntimeError.
Proof.
rewrite /create_contraction_plan; case E : (parseEinsumExpression _ _ _) => [m|e'] /=; last by move=> [<-]; exact: parse_err E.
by case: ifP => // _ [].
Qed.
End C70.

(** ---- the linear solver on buffers ---- *)
Section Solve.
Variable C : numClosedFieldType.
Notation tensor := (tensor C).
Variables (potrf : potrf_fun C) (potrs : potrs_fun C) (leigh : eigh_fun C).
Hypothesis Sf : potrf_spec potrf.
Hypothesis Ss : potrs_spec potrs.

Lemma view_mx (buf : mem C) (R : tensor) s1 s2 m k : shape R = (s1 ++ s2)%SEQ -> m = numel s1 -> k = numel s2 -> holds buf R ->
  mx_of m k (view [:: m; k] buf) = mat m k s1 s2 R.
Proof.
move=> SR Em Ek H; apply/matrixP => i j; rewrite !mxE /= muln1 addn0.
have Hi : in_range s1 (unravel s1 i) by apply: unravel_range; rewrite -Em.
have Hj : in_range s2 (unravel s2 j) by apply: unravel_range; rewrite -Ek.
rewrite -H; last by rewrite SR TN.in_range_cat ?Hi ?Hj // size_unravel.
by rewrite SR ravel_cat // !unravelK -?Em -?Ek // muln1.
Qed.

Lemma lapackE n m (t : tensor) : shape t = [:: n; m] -> lapack_mx n m n (column_major t) = mx_of n m t.
Proof.
move=> St; apply/matrixP => i j; rewrite !mxE /column_major St /=.
by rewrite modnMDl modn_small // divnMDl ?(leq_ltn_trans _ (ltn_ord i)) // divn_small // addn0.
Qed.

Lemma csolveE n D p (t : als_tensors C) (R S : tensor) : nD_ t = n -> bD_ t = D -> pD_ t = p ->
  shape R = [:: n; D; n; D] -> shape S = [:: n; D; p] -> holds (R_ t) R -> holds (S_ t) S ->
  let M := hpart (mat (n * D) (n * D) [:: n; D] [:: n; D] R) in let Sm := rmat n D p S in
  exists2 c, mxmax M c & forall eps,
   (eps \is Num.real -> pd (M + (eps * c)%:M) -> exists X, [/\ csolve_ar potrf potrs leigh Cholesky eps t = Ok X,
       shape X = [:: n; D; p] & (M + (eps * c)%:M) *m rmat n D p X = Sm]) /\
   (if leigh M is Some (w, V) then exists X, [/\ csolve_ar potrf potrs leigh Pinv eps t = Ok X, shape X = [:: n; D; p] &
       rmat n D p X = V *m diag_mx (\row_i if eps * row_max w < `|w 0 i| then (w 0 i)^-1 else 0) *m adj V *m Sm]
    else csolve_ar potrf potrs leigh Pinv eps t = Err RuntimeError).
Proof using Sf Ss.
move=> Hn HD Hp SR SS HR HS M Sm; rewrite /csolve_ar Hn HD Hp.
have nD : (n * D)%N = numel [:: n; D] by rewrite /= muln1.
have pE : p = numel [:: p] by rewrite /= muln1.
have HS2 : mx_of (n * D) p (view [:: n * D; p]%N (S_ t)) = Sm by apply: view_mx.
have HR2 : mx_of (n * D) (n * D) (view [:: n * D; n * D]%N (R_ t)) = mat (n * D) (n * D) [:: n; D] [:: n; D] R by apply: view_mx.
have SR2 : shape (view [:: n * D; n * D]%N (R_ t)) = [:: n * D; n * D]%N by [].
have SS2 : shape (view [:: n * D; p]%N (S_ t)) = [:: n * D; p]%N by [].
move: (view [:: n * D; n * D]%N (R_ t)) SR2 HR2 => R2 SR2 HR2.
move: (view [:: n * D; p]%N (S_ t)) SS2 HS2 => S2 SS2 HS2.
have [aS aE] := adjointE SR2.
have [R3 [ER3 SR3 HR3]] : exists R3, [/\ tadd R2 (adjoint R2) = Ok R3, shape R3 = [:: n * D; n * D]%N & mx_of (n * D) (n * D) R3 = mx_of (n * D) (n * D) R2 + mx_of (n * D) (n * D) (adjoint R2)].
  by rewrite /tadd SR2 aS eqxx; eexists; split=> //; apply/matrixP => i j; rewrite !mxE.
have [R4 ER4] : exists R4, tscale 2%:R^-1 R3 = R4 by eexists.
have HR4 : mx_of (n * D) (n * D) R4 = M by rewrite -ER4 mx_tscale HR3 aE HR2.
have SR4 : shape R4 = [:: n * D; n * D]%N by rewrite -ER4.
exists (absmax R4); first by have := @absmax_mx C (n * D) R4 SR4; rewrite HR4.
have back (X : tensor) : shape X = [:: n * D; p]%N -> exists Y, [/\ reshape X [:: n; D; p] = Ok Y, shape Y = [:: n; D; p] & rmat n D p Y = mx_of (n * D) p X].
  by move=> HX; have := @reshape_split C [:: n; D] [:: p] (n * D) p X HX nD pE.
move=> eps; rewrite ER3; split; rewrite [bind (Ok R3) _]/bind ER4.
  move=> er HP.
  have [R5 [-> SR5 HR5]] : exists R5, [/\ tadd R4 (tscale (eps * absmax R4) (eye C (n * D))) = Ok R5, shape R5 = [:: n * D; n * D]%N & mx_of (n * D) (n * D) R5 = M + (eps * absmax R4)%:M].
    rewrite /tadd /= SR4 eqxx; eexists; split=> //; rewrite -HR4; apply/matrixP => i j; rewrite !mxE -val_eqE /=.
    by rewrite mulr_natr.
  have HH5 : adj (mx_of (n * D) (n * D) R5) = mx_of (n * D) (n * D) R5.
    rewrite HR5 adjD hpart_herm adj_scalar conj_Creal // realM //; exact: absmax_real.
  rewrite [bind (Ok R5) _]/bind /cholesky_solve SR5 SS2 /= !lapackE // HS2.
  have [L [L1 L2 L3]] := chol_exists HP.
  have := Sf (mx_of (n * D) (n * D) R5); case: (potrf _) => F ok [F1 F2] /=.
  have Hok : ok by apply: (F2 L L1 L2); rewrite lowherm_herm // HR5.
  have [d0 EF] := F1 Hok; rewrite lowherm_herm // HR5 in EF.
  have [Y [-> SY HY]] := back (of_mx (potrs F Sm)) erefl; exists Y; split=> //.
  by rewrite HY mx_ofK EF Ss.
rewrite /herm_pinv SR4 eqxx HR4; case: (leigh M) => [[w V]|] //.
rewrite [bind (Ok _) _]/bind; set P := V *m _ *m _.
have [Y [-> SY HY]] := @matmulE C _ _ _ (of_mx P) S2 (erefl _) SS2; rewrite [bind (Ok Y) _]/bind.
have [Z [-> SZ HZ]] := back _ SY; exists Z; split=> //; by rewrite HZ HY mx_ofK HS2.
Qed.

Lemma mxmax_uniq n (M : 'M[C]_n) c c' e : mxmax M c -> mxmax M c' -> M + (e * c)%:M = M + (e * c')%:M.
Proof.
case: n M => [|n] M [_ H1 H1'] [_ H2 H2']; first by apply/matrixP => -[].
have [i [j Eij]] := H1' isT; have [k [l Ekl]] := H2' isT.
suff -> : c = c' by []. apply/eqP; rewrite Order.POrderTheory.eq_le -{1}Eij H2 -Ekl H1 //.
Qed.

Lemma psd_unit_pd n (M : 'M[C]_n) : psd M -> M \in unitmx -> pd M.
Proof.
move=> H u x x0; have [Z EZ] := psd_gram H; rewrite Order.POrderTheory.lt_def H andbT.
apply: contraNneq x0 => E; have Zx : adj Z *m x = 0.
  have : (adj (adj Z *m x) *m (adj Z *m x)) 0 0 = 0 by rewrite adjM adjK !mulmxA -(mulmxA _ Z) -EZ.
  rewrite mxE => /eqP; rewrite psumr_eq0 => [/allP K|i _]; last by rewrite adjE mulrC -normCK exprn_ge0.
  apply/matrixP => i j; rewrite ord1 [RHS]mxE; have := K i (mem_index_enum _); rewrite adjE mulrC -normCK.
  by rewrite sqrf_eq0 normr_eq0 => /eqP.
by rewrite -[x]mul1mx -(mulVmx u) -mulmxA EZ -(mulmxA Z) Zx !mulmx0.
Qed.

Lemma pd_unit n (M : 'M[C]_n) : pd M -> M \in unitmx.
Proof.
by move=> /chol_exists [L [L1 L2 ->]]; have u := lower_unit L1 L2; rewrite unitmx_mul u /adj ?unitmx_tr ?map_unitmx ?unitmx_tr.
Qed.
End Solve.

(** ---- the two solvers side by side ---- *)
Section Sim.
Variable C : numClosedFieldType.
Notation tensor := (tensor C).
Variable cplx : bool.
Variables (potrf : potrf_fun C) (potrs : potrs_fun C) (leigh : eigh_fun C) (lchol : chol_fun C).
Variable cfg : econfig C.
Hypothesis Sf : potrf_spec potrf.
Hypothesis Ss : potrs_spec potrs.
Notation eps := (als_epsilon cfg).

Lemma solve_ar_unit n D p (R S X : tensor) c : shape R = [:: n; D; n; D] -> shape S = [:: n; D; p] ->
  als_method cfg = "cholesky" -> chol_spec lchol -> eps \is Num.real ->
  let M := hpart (mat (n * D) (n * D) [:: n; D] [:: n; D] R) in mxmax M c ->
  solve_ar leigh lchol cfg R S = Ok X -> (M + (eps * c)%:M) \in unitmx.
Proof.
move=> HR HS Em Sc er M Hc; rewrite /solve_ar HS Em /=.
have nD : (n * D)%N = numel [:: n; D] by rewrite /= muln1.
have pE : p = numel [:: p] by rewrite /= muln1.
have [S2 [-> SS2 HS2]] := @reshape2 C [:: n; D] [:: p] (n * D) p S HS nD pE; rewrite [bind (Ok S2) _]/bind.
have [R2 [-> SR2 HR2]] := @reshape2 C [:: n; D] [:: n; D] (n * D) (n * D) R HR nD nD; rewrite [bind (Ok R2) _]/bind.
have [aS aE] := adjointE SR2.
have [R3 [-> SR3 HR3]] : exists R3, [/\ tadd R2 (adjoint R2) = Ok R3, shape R3 = [:: n * D; n * D]%N & mx_of (n * D) (n * D) R3 = mx_of (n * D) (n * D) R2 + mx_of (n * D) (n * D) (adjoint R2)].
  by rewrite /tadd SR2 aS eqxx; eexists; split=> //; apply/matrixP => i j; rewrite !mxE.
rewrite [bind (Ok R3) _]/bind; move ER4 : (tscale 2%:R^-1 R3) => R4.
have HR4 : mx_of (n * D) (n * D) R4 = M by rewrite -ER4 mx_tscale HR3 aE HR2.
have SR4 : shape R4 = [:: n * D; n * D]%N by rewrite -ER4.
have [R5 [-> SR5 HR5]] : exists R5, [/\ tadd R4 (tscale (eps * absmax R4) (eye C (n * D))) = Ok R5, shape R5 = [:: n * D; n * D]%N & mx_of (n * D) (n * D) R5 = M + (eps * c)%:M].
  rewrite /tadd /= SR4 eqxx; eexists; split=> //.
  have := @absmax_mx C (n * D) R4 SR4; rewrite HR4 => Hc'; rewrite -(mxmax_uniq eps Hc' Hc) -HR4.
  by apply/matrixP => i j; rewrite !mxE -val_eqE /= mulr_natr.
have HH5 : adj (mx_of (n * D) (n * D) R5) = mx_of (n * D) (n * D) R5.
  by rewrite HR5 adjD hpart_herm adj_scalar conj_Creal // realM //; case: Hc => /ger0_real.
rewrite [bind (Ok R5) _]/bind -HR5; case E: (bind (cholesky _ _) _) => [Y|e].
  move: E; rewrite /cholesky SR5 eqxx; case: (lchol _) (Sc _ (mx_of (n * D) (n * D) R5)) => [L|//] [L1 L2 L3] _ _.
  rewrite lowherm_herm // in L3; by rewrite L3; have u := lower_unit L1 L2; rewrite unitmx_mul u /adj ?map_unitmx ?unitmx_tr.
by rewrite /solve SR5 SS2 !eqxx /=; case: ifP.
Qed.

Lemma rl_conj m n (A : 'M[C]_(m, n)) : rl A <-> map_mx (fun x : C => x^* ) A = A.
Proof.
split=> [H|E i j]; first by apply/matrixP => i j; rewrite mxE conj_Creal.
by rewrite CrealE; have /matrixP/(_ i j) := E; rewrite mxE => ->.
Qed.
Lemma rl_solution n p (A : 'M[C]_n) (B X : 'M[C]_(n, p)) : rl A -> rl B -> A \in unitmx -> A *m X = B -> rl X.
Proof.
move=> /rl_conj HA /rl_conj HB u E; apply/rl_conj.
have E' : A *m map_mx (fun x : C => x^* ) X = B by rewrite -{1}HA -map_mxM E HB.
by rewrite -[LHS]mul1mx -(mulVmx u) -mulmxA E' -E mulmxA mulVmx // mul1mx.
Qed.

Lemma mat_rl n p (S : tensor) s1 s2 : shape S = (s1 ++ s2)%SEQ -> n = numel s1 -> p = numel s2 -> entries_real S -> rl (mat n p s1 s2 S).
Proof.
move=> SS En Ep H i j; rewrite mxE; apply: H; rewrite SS TN.in_range_cat ?size_unravel //.
by rewrite !unravel_range -?En -?Ep.
Qed.
Lemma rl_mat n p (S : tensor) s1 s2 : shape S = (s1 ++ s2)%SEQ -> n = numel s1 -> p = numel s2 -> rl (mat n p s1 s2 S) -> entries_real S.
Proof.
move=> SS En Ep H v; rewrite SS => Hv; have Hz : size v = (size s1 + size s2)%N by rewrite (in_range_size Hv) size_cat.
move: Hv; rewrite -(cat_take_drop (size s1) v) TN.in_range_cat => [/andP[H1 H2]|]; last by rewrite size_takel // Hz leq_addr.
have L1 : (ravel s1 (take (size s1) v) < n)%N by rewrite En ravel_lt.
have L2 : (ravel s2 (drop (size s1) v) < p)%N by rewrite Ep ravel_lt.
by have := H (Ordinal L1) (Ordinal L2); rewrite mxE /= !ravelK.
Qed.

(** the method, its preconditions *)
Definition method_of (m : method) : Prop := match m with
  | Cholesky => [/\ als_method cfg = "cholesky", chol_spec lchol & 0 <= eps]
  | Pinv => als_method cfg = "pinv"
  end.
Lemma solve_sim m n D p (t : als_tensors C) (R S X : tensor) : method_of m -> nD_ t = n -> bD_ t = D -> pD_ t = p ->
  shape R = [:: n; D; n; D] -> shape S = [:: n; D; p] -> holds (R_ t) R -> holds (S_ t) S ->
  (m = Cholesky -> psd (mat (n * D) (n * D) [:: n; D] [:: n; D] R)) -> solve_ar leigh lchol cfg R S = Ok X ->
  shape X = [:: n; D; p] /\ exists2 X', csolve_ar potrf potrs leigh m eps t = Ok X' & teq X X'.
Proof using Sf Ss.
move=> Hm Hn HD Hp SR SS HR HS Hpsd EX.
have nD : (n * D)%N = numel [:: n; D] by rewrite /= muln1.
have pE : p = numel [:: p] by rewrite /= muln1.
have [c Hc H] := @csolveE C potrf potrs leigh Sf Ss n D p t R S Hn HD Hp SR SS HR HS.
have [c' Hc' [H1 H2]] := solve_arE leigh lchol cfg SR SS.
case: m Hm Hpsd => [[Em Sc e0]|Em] Hpsd.
  have [H3 _] := H1 (introT (String.eqb_spec _ _) Em) Sc (ger0_real e0).
  have [SX EqX] := H3 _ EX; split=> //.
  have HM := psd_herm (Hpsd erefl).
  have u := solve_ar_unit SR SS Em Sc (ger0_real e0) Hc EX.
  rewrite (mxmax_uniq eps Hc' Hc) in EqX.
  have P : pd (hpart (mat (n * D) (n * D) [:: n; D] [:: n; D] R) + (eps * c)%:M).
    apply: psd_unit_pd u; rewrite hpart_id //; apply: psd_reg; first exact: Hpsd.
    by rewrite mulr_ge0 //; case: Hc.
  have [X' [EX' SX' EqX']] := (H eps).1 (ger0_real e0) P; exists X' => //.
  apply: (@teq_mat C _ _ [:: n; D] [:: p]) SX SX' nD pE _.
  by rewrite -[LHS]mul1mx -[RHS]mul1mx -(mulVmx u) -!mulmxA EqX EqX'.
have Nc : String.eqb (als_method cfg) "cholesky" = false by rewrite Em.
have Yp : String.eqb (als_method cfg) "pinv" by rewrite Em.
have [H3 _] := H2 Nc Yp; have [w [V [El SX EqX]]] := H3 _ EX; split=> //.
have := (H eps).2; rewrite El => -[X' [EX' SX' EqX']]; exists X' => //.
by apply: (@teq_mat C _ _ [:: n; D] [:: p]) SX SX' nD pE _; rewrite -/(rmat n D p X) EqX -EqX'.
Qed.

Lemma solve_fail n D p (t : als_tensors C) (R S : tensor) e : als_method cfg = "pinv" -> nD_ t = n -> bD_ t = D -> pD_ t = p ->
  shape R = [:: n; D; n; D] -> shape S = [:: n; D; p] -> holds (R_ t) R -> holds (S_ t) S ->
  solve_ar leigh lchol cfg R S = Err e -> csolve_ar potrf potrs leigh Pinv eps t = Err RuntimeError.
Proof using Sf Ss.
move=> Em Hn HD Hp SR SS HR HS EX.
have [c Hc H] := @csolveE C potrf potrs leigh Sf Ss n D p t R S Hn HD Hp SR SS HR HS.
have [c' Hc' [_ H2]] := solve_arE leigh lchol cfg SR SS.
have Nc : String.eqb (als_method cfg) "cholesky" = false by rewrite Em.
have Yp : String.eqb (als_method cfg) "pinv" by rewrite Em.
have [_ H3] := H2 Nc Yp; have := (H eps).2; case: (leigh _) H3 => [wV H3|//].
by have [X] := H3 isT; rewrite EX.
Qed.

Lemma rlD m n (A B : 'M[C]_(m, n)) : rl A -> rl B -> rl (A + B).
Proof. by move=> HA HB i j; rewrite mxE realD. Qed.

Lemma solve_real m n D p (R S X : tensor) : method_of m -> eigh_spec leigh -> real_eigh leigh ->
  shape R = [:: n; D; n; D] -> shape S = [:: n; D; p] -> entries_real R -> entries_real S ->
  solve_ar leigh lchol cfg R S = Ok X -> entries_real X.
Proof.
move=> Hm Se Re SR SS RR RS EX.
have nD : (n * D)%N = numel [:: n; D] by rewrite /= muln1.
have pE : p = numel [:: p] by rewrite /= muln1.
have [c Hc [H1 H2]] := solve_arE leigh lchol cfg SR SS.
have RM : rl (hpart (mat (n * D) (n * D) [:: n; D] [:: n; D] R)).
  have K : rl (mat (n * D) (n * D) [:: n; D] [:: n; D] R) by exact: (@mat_rl _ _ R [:: n; D] [:: n; D] SR nD nD RR).
  by apply: rlZ; [rewrite realV ?realn|apply: rlD => //; apply: rl_adj].
have RSm : rl (rmat n D p S) by exact: (@mat_rl _ _ S [:: n; D] [:: p] SS nD pE RS).
case: m Hm => [[Em Sc e0]|Em].
  have [H3 _] := H1 (introT (String.eqb_spec _ _) Em) Sc (ger0_real e0).
  have [SX EqX] := H3 _ EX; have u := solve_ar_unit SR SS Em Sc (ger0_real e0) Hc EX.
  apply: (@rl_mat _ _ X [:: n; D] [:: p] SX nD pE); apply: rl_solution RSm u EqX.
  by apply: rlD => //; apply: rl_scalar; rewrite realM ?ger0_real //; case: Hc.
have Nc : String.eqb (als_method cfg) "cholesky" = false by rewrite Em.
have Yp : String.eqb (als_method cfg) "pinv" by rewrite Em.
have [H3 _] := H2 Nc Yp; have [w [V [El SX EqX]]] := H3 _ EX.
have RV := Re _ _ _ _ RM El; have := Se _ (hpart (mat (n * D) (n * D) [:: n; D] [:: n; D] R)); rewrite El => -[_ Hw _ _].
apply: (@rl_mat _ _ X [:: n; D] [:: p] SX nD pE); rewrite -/(rmat n D p X) EqX; apply: rlM RSm; apply: rlM (rl_adj RV); apply: rlM => // i j.
rewrite !mxE; case: eqP => _; rewrite ?mulr0n ?rpred0 //= mulr1n; case: ifP => _; rewrite ?rpred0 // realV; exact: Hw.
Qed.

Lemma runE (t : als_tensors C) key la lb lc cb (A B T : tensor) (bufA bufB out : mem C) :
  cached (plan_cache_ t) key = create_contraction_plan cplx (expression la lb lc) (shape A) (shape B) false cb ->
  plain la lb lc -> distinct la -> distinct lb -> distinct lc -> holds bufA A -> holds bufB B -> (cb -> cplx \/ entries_real B) ->
  einsum (expression la lb lc) [:: A; if cb then conj B else B] = Ok T ->
  exists2 buf, run t key bufA bufB out = Ok buf & holds buf T.
Proof.
move=> Ec Hp Da Db Dc HA HB Hr ET.
have [B' [SB' HB' EB']] : exists B' : tensor, [/\ shape B' = shape B, holds bufB B' & opt_conj (cb && cplx) B' = if cb then conj B else B].
  case: cb Hr {Ec ET} => [/(_ isT)|_]; last by exists B.
  rewrite /opt_conj /=; case: (cplx) => Hr; first by exists B.
  exists (conj B); split=> // idx Hi; rewrite HB //= conj_Creal //; by case: Hr => // Hr; apply: Hr.
rewrite -SB' in Ec; have := @C70_contract C cplx la lb lc A B' bufA bufB out false cb Hp Da Db Dc HA HB'.
rewrite -Ec EB' [opt_conj _ A]/= ET /run; case: (cached _ _) => [p|//] [H _] /=; by eexists.
Qed.

Section Fixed.
Variables (n D p : nat) (N g n12g : tensor).
Hypotheses (SN : shape N = [:: n; n; n; n]) (Sg : shape g = [:: n; n; p; p]).
Hypothesis Eg : einsum "yxYX,yxpq->YXpq" [:: N; g] = Ok n12g.
Variable m : method.
Hypothesis Hm : method_of m.
Hypothesis HN : m = Cholesky -> norm_psd n N.
Hypothesis HR : cplx \/ [/\ eigh_spec leigh, real_eigh leigh, entries_real N & entries_real g].

Lemma shape_n12g : shape n12g = [:: n; n; p; p].
Proof. by have [d [E S _]] := normE SN Sg; move: Eg; rewrite E => -[<-]. Qed.

Definition cache_ok (c : seq (string * plan)) : Prop :=
  let sA := [:: n; D; p] in let sG := [:: n; n; p; p] in let sN := [:: n; n; n; n] in let sI := [:: n; n; n; D; p] in
  [/\ cached c "S1" = create_contraction_plan cplx "YXpQ,XUQ->YUp" sG sA false true,
      cached c "S2" = create_contraction_plan cplx "YXPq,YVP->XVq" sG sA false true,
      cached c "R1_intm" = create_contraction_plan cplx "yxYX,xuq->yYXuq" sN sA false false,
      cached c "R1" = create_contraction_plan cplx "yYXuQ,XUQ->YUyu" sI sA false true &
  [/\ cached c "R2_intm" = create_contraction_plan cplx "yxYX,yvp->xYXvp" sN sA false false,
      cached c "R2" = create_contraction_plan cplx "xYXvP,YVP->XVxv" sI sA false true,
      cached c "a12n" = create_contraction_plan cplx "yup,xuq->yxpq" sA sA false false,
      cached c "d_intm" = create_contraction_plan cplx "yxYX,yxpq->YXpq" sN sG false false &
      cached c "d" = create_contraction_plan cplx "YXpq,YXpq->" sG sG false true]].

Record sim (t : als_tensors C) (x : tensor * tensor) : Prop := Sim {
  sim_dims : [/\ nD_ t = n, bD_ t = D & pD_ t = p];
  sim_shape : shape x.1 = [:: n; D; p] /\ shape x.2 = [:: n; D; p];
  sim_real : cplx \/ entries_real x.1 /\ entries_real x.2;
  sim_a1 : holds (a1r_ t) x.1; sim_a2 : holds (a2r_ t) x.2;
  sim_ng : holds (n12g_ t) n12g; sim_n : holds (n12_ t) N; sim_g : holds (a12g_ t) g;
  sim_cache : cache_ok (plan_cache_ t) }.

Lemma n12g_real : cplx \/ entries_real n12g.
Proof.
by case: HR => [->|[_ _ H1 H2]]; [left | right; apply: (einsum_real (ts := [:: N; g])) Eg].
Qed.

Lemma S1_sim t x Sm : sim t x -> build_s1 n12g x.2 = Ok Sm -> exists2 b, cbuild_S1 t = Ok (set_S b t) & holds b Sm.
Proof.
case=> _ [S1 S2] Rx H1 H2 Hng Hn Hg [c1 c2 c3 c4 [c5 c6 c7 c8 c9]] E.
have [||b Eb Hb] := @runE t "S1" (list_ascii_of_string "YXpQ") (list_ascii_of_string "XUQ") (list_ascii_of_string "YUp") true n12g x.2 Sm (n12g_ t) (a2r_ t) (S_ t) _ isT isT isT isT Hng H2 _ E.
- by rewrite shape_n12g S2.
- by move=> _; case: Rx => [|[]]; [left|right].
by exists b => //; rewrite /cbuild_S1 Eb.
Qed.
Lemma S2_sim t x Sm : sim t x -> build_s2 n12g x.1 = Ok Sm -> exists2 b, cbuild_S2 t = Ok (set_S b t) & holds b Sm.
Proof.
case=> _ [S1 S2] Rx H1 H2 Hng Hn Hg [c1 c2 c3 c4 [c5 c6 c7 c8 c9]] E.
have [||b Eb Hb] := @runE t "S2" (list_ascii_of_string "YXPq") (list_ascii_of_string "YVP") (list_ascii_of_string "XVq") true n12g x.1 Sm (n12g_ t) (a1r_ t) (S_ t) _ isT isT isT isT Hng H1 _ E.
- by rewrite shape_n12g S1.
- by move=> _; case: Rx => [|[]]; [left|right].
by exists b => //; rewrite /cbuild_S2 Eb.
Qed.
Lemma R1_sim t x R : sim t x -> build_r1 N x.2 = Ok R -> exists b b', cbuild_R1 t = Ok (set_R b (set_R_intm b' t)) /\ holds b R.
Proof.
case=> _ [S1 S2] Rx H1 H2 Hng Hn Hg [c1 c2 c3 c4 [c5 c6 c7 c8 c9]]; rewrite /build_r1.
case E1 : (einsum _ _) => [I|//]; rewrite [bind (Ok I) _]/bind => E2.
have SI : shape I = [:: n; n; n; D; p].
  by move: E1; rewrite /einsum /= SN S2 /= /dims_ok /= !eqxx /= => -[<-].
have [||b' Eb' Hb'] := @runE t "R1_intm" (list_ascii_of_string "yxYX") (list_ascii_of_string "xuq") (list_ascii_of_string "yYXuq") false N x.2 I (n12_ t) (a2r_ t) (R_intm_ t) _ isT isT isT isT Hn H2 _ E1.
- by rewrite SN S2.
- by [].
have [||b Eb Hb] := @runE (set_R_intm b' t) "R1" (list_ascii_of_string "yYXuQ") (list_ascii_of_string "XUQ") (list_ascii_of_string "YUyu") true I x.2 R b' (a2r_ t) (R_ t) _ isT isT isT isT Hb' H2 _ E2.
- by rewrite SI S2.
- by move=> _; case: Rx => [|[]]; [left|right].
by exists b, b'; split=> //; rewrite /cbuild_R1 Eb' [bind (Ok b') _]/bind /= Eb.
Qed.
Lemma R2_sim t x R : sim t x -> build_r2 N x.1 = Ok R -> exists b b', cbuild_R2 t = Ok (set_R b (set_R_intm b' t)) /\ holds b R.
Proof.
case=> _ [S1 S2] Rx H1 H2 Hng Hn Hg [c1 c2 c3 c4 [c5 c6 c7 c8 c9]]; rewrite /build_r2.
case E1 : (einsum _ _) => [I|//]; rewrite [bind (Ok I) _]/bind => E2.
have SI : shape I = [:: n; n; n; D; p].
  by move: E1; rewrite /einsum /= SN S1 /= /dims_ok /= !eqxx /= => -[<-].
have [||b' Eb' Hb'] := @runE t "R2_intm" (list_ascii_of_string "yxYX") (list_ascii_of_string "yvp") (list_ascii_of_string "xYXvp") false N x.1 I (n12_ t) (a1r_ t) (R_intm_ t) _ isT isT isT isT Hn H1 _ E1.
- by rewrite SN S1.
- by [].
have [||b Eb Hb] := @runE (set_R_intm b' t) "R2" (list_ascii_of_string "xYXvP") (list_ascii_of_string "YVP") (list_ascii_of_string "XVxv") true I x.1 R b' (a1r_ t) (R_ t) _ isT isT isT isT Hb' H1 _ E2.
- by rewrite SI S1.
- by move=> _; case: Rx => [|[]]; [left|right].
by exists b, b'; split=> //; rewrite /cbuild_R2 Eb' [bind (Ok b') _]/bind /= Eb.
Qed.

Lemma cost_sim t x d : sim t x -> calculate_cost x.1 x.2 g N = Ok d -> exists2 t', ccost cplx t = Ok (d, t') & sim t' x.
Proof using HR Eg SN Sg.
case=> Hd [S1 S2] Rx H1 H2 Hng Hn Hg Hc; case: (Hc) => [c1 c2 c3 c4 [c5 c6 c7 c8 c9]]; rewrite /calculate_cost.
case E1 : (einsum _ _) => [W|//]; rewrite [bind (Ok W) _]/bind.
have SW : shape W = [:: n; n; p; p] by move: E1; rewrite /einsum /= S1 S2 /= /dims_ok /= !eqxx /= => -[<-].
have RW : cplx \/ entries_real W.
  case: Rx => [|[R1 R2]]; [by left | right]; exact: (einsum_real (ts := [:: x.1; x.2])) E1.
case E2 : (einsum _ _) => [d2|//]; rewrite [bind (Ok d2) _]/bind.
have S2' : shape d2 = [:: n; n; p; p] by move: E2; rewrite /einsum /= SN SW /= /dims_ok /= !eqxx /= => -[<-].
case E3 : (einsum _ _) => [e2|//]; rewrite [bind (Ok e2) _]/bind Eg [bind (Ok n12g) _]/bind.
have Se2 : shape e2 = [::] by move: E3; rewrite /einsum /= S2' SW /= /dims_ok /= !eqxx /= => -[<-].
case E4 : (einsum _ _) => [e3|//]; rewrite [bind (Ok e3) _]/bind => -[<-].
have Sg' := shape_n12g.
have Se3 : shape e3 = [::] by move: E4; rewrite /einsum /= Sg' SW /= /dims_ok /= !eqxx /= => -[<-].
have [||b1 Eb1 Hb1] := @runE t "a12n" (list_ascii_of_string "yup") (list_ascii_of_string "xuq") (list_ascii_of_string "yxpq") false x.1 x.2 W (a1r_ t) (a2r_ t) (a12n_ t) _ isT isT isT isT H1 H2 _ E1.
- by rewrite S1 S2.
- by [].
have [||b2 Eb2 Hb2] := @runE (set_a12n b1 t) "d_intm" (list_ascii_of_string "yxYX") (list_ascii_of_string "yxpq") (list_ascii_of_string "YXpq") false N W d2 (n12_ t) b1 (d_intm_ t) _ isT isT isT isT Hn Hb1 _ E2.
- by rewrite SN SW.
- by [].
have [||b3 Eb3 Hb3] := @runE (set_d_intm b2 (set_a12n b1 t)) "d" (list_ascii_of_string "YXpq") (list_ascii_of_string "YXpq") [::] true d2 W e2 b2 b1 (d2_ t) _ isT isT isT isT Hb2 Hb1 _ E3.
- by rewrite S2' SW.
- by [].
have [||b4 Eb4 Hb4] := @runE (set_d2 b3 (set_d_intm b2 (set_a12n b1 t))) "d_intm" (list_ascii_of_string "yxYX") (list_ascii_of_string "yxpq") (list_ascii_of_string "YXpq") false N g n12g (n12_ t) (a12g_ t) b2 _ isT isT isT isT Hn Hg _ Eg.
- by rewrite SN Sg.
- by [].
have [||b5 Eb5 Hb5] := @runE (set_d_intm b4 (set_d2 b3 (set_d_intm b2 (set_a12n b1 t)))) "d" (list_ascii_of_string "YXpq") (list_ascii_of_string "YXpq") [::] true n12g W e3 b4 b1 (d3_ t) _ isT isT isT isT Hb4 Hb1 _ E4.
- by rewrite Sg' SW.
- by [].
exists (set_d3 b5 (set_d_intm b4 (set_d2 b3 (set_d_intm b2 (set_a12n b1 t))))); last by split.
rewrite /ccost Eb1 [bind (Ok b1) _]/bind /= Eb2 [bind (Ok b2) _]/bind /= Eb3 [bind (Ok b3) _]/bind /= Eb4 [bind (Ok b4) _]/bind /= Eb5 [bind (Ok b5) _]/bind /=.
have <- : at_ e2 [::] = b3 0%N by rewrite -Hb3 Se2.
have <- : at_ e3 [::] = b5 0%N by rewrite -Hb5 Se3.
rewrite /real_scalar; case: (boolP cplx) => // /negP cx; congr (Ok (_ - _ * _, _)).
- case: RW HR => // RW [//|[_ _ RN Rg]].
  have Rd2 : entries_real d2 by apply: (einsum_real (ts := [:: N; W])) E2.
  have Re2 : entries_real e2 by apply: (einsum_real (ts := [:: d2; conj W])) E3; do !split=> //; apply: conj_real.
  by apply/esym/Creal_ReP; apply: Re2; rewrite Se2.
- case: RW HR => // RW [//|[_ _ RN Rg]].
  have Rd2 : entries_real n12g by apply: (einsum_real (ts := [:: N; g])) Eg.
  have Re2 : entries_real e3 by apply: (einsum_real (ts := [:: n12g; conj W])) E4; do !split=> //; apply: conj_real.
  by apply/esym/Creal_ReP; apply: Re2; rewrite Se3.
Qed.

Lemma holds_data (a X : tensor) : teq a X -> holds (data X) a.
Proof.
move=> [Es Ea] idx Hi; rewrite /data -Es ravelK // -Ea //.
Qed.

Lemma half1_sim t x : sim t x ->
  match solve_a1r leigh lchol cfg N n12g x.2 with
  | Ok y => exists t1 t2 X, [/\ cbuild_S1 t = Ok t1, cbuild_R1 t1 = Ok t2, csolve_ar potrf potrs leigh m eps t2 = Ok X & sim (set_a1r (data X) t2) (y, x.2)]
  | Err _ => m = Pinv -> exists t1 t2, [/\ cbuild_S1 t = Ok t1, cbuild_R1 t1 = Ok t2 & csolve_ar potrf potrs leigh m eps t2 = Err RuntimeError]
  end.
Proof using Sf Ss HR HN Hm Eg SN Sg.
move=> Hs; have [Hd [S1 S2] Rx _ H2 Hng Hn Hg Hc] := Hs.
have [n12g' Eg' [Sg' [R [Sm [E2 E1 SR SS [_ Hp _]]]]]] := costE SN Sg S1 S2.
move: Eg' E1 Sg'; rewrite Eg => -[<-] E1 Sg'.
rewrite /solve_a1r E1 [bind (Ok Sm) _]/bind E2 [bind (Ok R) _]/bind.
have [b1 F1 Hb1] := S1_sim Hs E1.
have Hs1 : sim (set_S b1 t) x by case: Hs.
have [b2 [b3 [F2 Hb2]]] := R1_sim Hs1 E2.
case: (Hd) => dn dD dp.
case EX : (solve_ar _ _ _ _ _) => [y|e]; last first.
  move=> Em; exists (set_S b1 t), (set_R b2 (set_R_intm b3 (set_S b1 t))); split=> //; rewrite Em.
  by apply: (@solve_fail n D p _ R Sm e) => //; move: Hm; rewrite Em.
have [SX [X EX' TX]] := @solve_sim m n D p (set_R b2 (set_R_intm b3 (set_S b1 t))) R Sm y Hm dn dD dp SR SS Hb2 Hb1 (fun e => Hp (proj1 (norm_psdE n N) (HN e))) EX.
exists (set_S b1 t), (set_R b2 (set_R_intm b3 (set_S b1 t))), X; split=> //.
split=> //=; last exact: holds_data.
case: Rx => [|[Rx1 Rx2]]; first by left.
case: HR n12g_real => [|[Se Re RN Rg]] ; first by left.
case=> [|Rng]; first by left.
right; split=> //.
have RS : entries_real Sm by apply: (einsum_real (ts := [:: n12g; conj x.2])) E1; do !split=> //; apply: conj_real.
have RR : entries_real R.
  move: E2; rewrite /build_r1; case EI : (einsum _ _) => [I|//]; rewrite [bind (Ok I) _]/bind => ER.
  apply: (einsum_real (ts := [:: I; conj x.2])) ER; do !split=> //; last exact: conj_real.
  by apply: (einsum_real (ts := [:: N; x.2])) EI.
exact: (solve_real Hm Se Re SR SS RR RS EX).
Qed.

Lemma half2_sim t x : sim t x ->
  match solve_a2r leigh lchol cfg N n12g x.1 with
  | Ok y => exists t1 t2 X, [/\ cbuild_S2 t = Ok t1, cbuild_R2 t1 = Ok t2, csolve_ar potrf potrs leigh m eps t2 = Ok X & sim (set_a2r (data X) t2) (x.1, y)]
  | Err _ => m = Pinv -> exists t1 t2, [/\ cbuild_S2 t = Ok t1, cbuild_R2 t1 = Ok t2 & csolve_ar potrf potrs leigh m eps t2 = Err RuntimeError]
  end.
Proof using Sf Ss HR HN Hm Eg SN Sg.
move=> Hs; have [Hd [S1 S2] Rx H1 _ Hng Hn Hg Hc] := Hs.
have [n12g' Eg' [R [Sm [E2 E1 SR SS [_ Hp _]]]]] := costE2 SN Sg S1 S2.
move: Eg' E1; rewrite Eg => -[<-] E1.
rewrite /solve_a2r E1 [bind (Ok Sm) _]/bind E2 [bind (Ok R) _]/bind.
have [b1 F1 Hb1] := S2_sim Hs E1.
have Hs1 : sim (set_S b1 t) x by case: Hs.
have [b2 [b3 [F2 Hb2]]] := R2_sim Hs1 E2.
case: (Hd) => dn dD dp.
case EX : (solve_ar _ _ _ _ _) => [y|e]; last first.
  move=> Em; exists (set_S b1 t), (set_R b2 (set_R_intm b3 (set_S b1 t))); split=> //; rewrite Em.
  by apply: (@solve_fail n D p _ R Sm e) => //; move: Hm; rewrite Em.
have [SX [X EX' TX]] := @solve_sim m n D p (set_R b2 (set_R_intm b3 (set_S b1 t))) R Sm y Hm dn dD dp SR SS Hb2 Hb1 (fun e => Hp (norm_psd_swap (HN e))) EX.
exists (set_S b1 t), (set_R b2 (set_R_intm b3 (set_S b1 t))), X; split=> //.
split=> //=; last exact: holds_data.
case: Rx => [|[Rx1 Rx2]]; first by left.
case: HR n12g_real => [|[Se Re RN Rg]] ; first by left.
case=> [|Rng]; first by left.
right; split=> //.
have RS : entries_real Sm by apply: (einsum_real (ts := [:: n12g; conj x.1])) E1; do !split=> //; apply: conj_real.
have RR : entries_real R.
  move: E2; rewrite /build_r2; case EI : (einsum _ _) => [I|//]; rewrite [bind (Ok I) _]/bind => ER.
  apply: (einsum_real (ts := [:: I; conj x.1])) ER; do !split=> //; last exact: conj_real.
  by apply: (einsum_real (ts := [:: N; x.1])) EI.
exact: (solve_real Hm Se Re SR SS RR RS EX).
Qed.

Lemma cost_total x : shape x.1 = [:: n; D; p] /\ shape x.2 = [:: n; D; p] -> exists d, calculate_cost x.1 x.2 g N = Ok d.
Proof using Sg SN.
by case=> S1 S2; have [? _ [_ [? [? [_ _ _ _ [-> _ _]]]]]] := costE SN Sg S1 S2; eexists.
Qed.

(** k iterations of the two loops, from iteration i; a first cost of the other
    sign makes no difference, since it is looked at only from iteration 2 on *)
Lemma loop_sim k : forall i t x d d', sim t x -> ((1 < i)%N -> d = d') ->
  match als_loop leigh lchol cfg N n12g g k i x.1 x.2 d with
  | Ok y => exists2 t', cloop cplx potrf potrs leigh m eps (als_tol cfg) k i d' t = Ok t' & sim t' y
  | Err _ => m = Pinv -> cloop cplx potrf potrs leigh m eps (als_tol cfg) k i d' t = Err RuntimeError
  end.
Proof using Sf Ss HR HN Hm Eg SN Sg.
elim: k => [|k IH] i t x d d' Hs Hd /=; first by exists t; last by case: x Hs.
have := half1_sim Hs; case E1 : (solve_a1r _ _ _ _ _ _) => [a1|e]; last first.
  by move=> H Em; rewrite /cupdate; have [t1 [t2 [-> ]]] := H Em; rewrite [bind (Ok t1) _]/bind => ->; rewrite [bind (Ok t2) _]/bind => ->.
move=> [t1 [t2 [X [F1 F2 F3 Hs1]]]]; rewrite [bind (Ok a1) _]/bind.
rewrite /cupdate F1 [bind (Ok t1) _]/bind F2 [bind (Ok t2) _]/bind F3 [bind (Ok X) _]/bind.
have := half2_sim Hs1; rewrite [(a1, x.2).1]/=; case E2 : (solve_a2r _ _ _ _ _ _) => [a2|e]; last first.
  by move=> H Em; have [t3 [t4 [-> ]]] := H Em; rewrite [bind (Ok t3) _]/bind => ->; rewrite [bind (Ok t4) _]/bind => ->.
move=> [t3 [t4 [Y [F4 F5 F6 Hs2]]]]; rewrite [bind (Ok a2) _]/bind.
rewrite F4 [bind (Ok t3) _]/bind F5 [bind (Ok t4) _]/bind F6 [bind (Ok Y) _]/bind.
have [d2 Ed] := cost_total (sim_shape Hs2); have [t5 F7 Hs3] := cost_sim Hs2 Ed.
move: Ed; rewrite /= => ->; rewrite F7 /=.
have -> : (1 < i)%N && match (if d' == 0 then None else Some (`|d2 - d'| / `|d'|)) with Some e => e < als_tol cfg | None => false end =
   [&& d != 0, `|d2 - d| / `|d| < als_tol cfg & (1 < i)%N].
  case: (1 < i)%N Hd => [/(_ isT) ->|_]; last by rewrite !andbF.
  by rewrite andbT; case: eqP.
case: ifP => _; first by exists t5.
exact: (IH i.+1 t5 (a1, a2) d2 d2 Hs3).
Qed.

Lemma make_plans empty a1 a2 : shape a1 = [:: n; D; p] -> shape a2 = [:: n; D; p] ->
  exists2 t, make_als_tensors cplx empty a1 a2 n12g N g = Ok t & (cplx \/ entries_real a1 /\ entries_real a2 -> sim t (a1, a2)) /\
    [/\ nD_ t = n, bD_ t = D & pD_ t = p] /\
    forall k, List.In k [:: "S1"; "S2"; "R1_intm"; "R1"; "R2_intm"; "R2"; "a12n"; "d_intm"; "d"] -> exists q, cached (plan_cache_ t) k = Ok q.
Proof using Eg SN Sg.
move=> S1 S2; rewrite /make_als_tensors S1 S2 SN shape_n12g /add_plan.
have [p1 P1] : exists q, create_contraction_plan cplx "YXpQ,XUQ->YUp" [:: n; n; p; p] [:: n; D; p] false true = Ok q.
  rewrite (@create_planE cplx (list_ascii_of_string "YXpQ") (list_ascii_of_string "XUQ") (list_ascii_of_string "YUp") _ _ _ _ isT isT isT isT).
  by rewrite /= /dims_ok /= !eqxx /=; eexists.
have [p2 P2] : exists q, create_contraction_plan cplx "YXPq,YVP->XVq" [:: n; n; p; p] [:: n; D; p] false true = Ok q.
  rewrite (@create_planE cplx (list_ascii_of_string "YXPq") (list_ascii_of_string "YVP") (list_ascii_of_string "XVq") _ _ _ _ isT isT isT isT).
  by rewrite /= /dims_ok /= !eqxx /=; eexists.
have [p3 P3] : exists q, create_contraction_plan cplx "yxYX,xuq->yYXuq" [:: n; n; n; n] [:: n; D; p] false false = Ok q.
  rewrite (@create_planE cplx (list_ascii_of_string "yxYX") (list_ascii_of_string "xuq") (list_ascii_of_string "yYXuq") _ _ _ _ isT isT isT isT).
  by rewrite /= /dims_ok /= !eqxx /=; eexists.
have [p4 P4] : exists q, create_contraction_plan cplx "yYXuQ,XUQ->YUyu" [:: n; n; n; D; p] [:: n; D; p] false true = Ok q.
  rewrite (@create_planE cplx (list_ascii_of_string "yYXuQ") (list_ascii_of_string "XUQ") (list_ascii_of_string "YUyu") _ _ _ _ isT isT isT isT).
  by rewrite /= /dims_ok /= !eqxx /=; eexists.
have [p5 P5] : exists q, create_contraction_plan cplx "yxYX,yvp->xYXvp" [:: n; n; n; n] [:: n; D; p] false false = Ok q.
  rewrite (@create_planE cplx (list_ascii_of_string "yxYX") (list_ascii_of_string "yvp") (list_ascii_of_string "xYXvp") _ _ _ _ isT isT isT isT).
  by rewrite /= /dims_ok /= !eqxx /=; eexists.
have [p6 P6] : exists q, create_contraction_plan cplx "xYXvP,YVP->XVxv" [:: n; n; n; D; p] [:: n; D; p] false true = Ok q.
  rewrite (@create_planE cplx (list_ascii_of_string "xYXvP") (list_ascii_of_string "YVP") (list_ascii_of_string "XVxv") _ _ _ _ isT isT isT isT).
  by rewrite /= /dims_ok /= !eqxx /=; eexists.
have [p7 P7] : exists q, create_contraction_plan cplx "yup,xuq->yxpq" [:: n; D; p] [:: n; D; p] false false = Ok q.
  rewrite (@create_planE cplx (list_ascii_of_string "yup") (list_ascii_of_string "xuq") (list_ascii_of_string "yxpq") _ _ _ _ isT isT isT isT).
  by rewrite /= /dims_ok /= !eqxx /=; eexists.
have [p8 P8] : exists q, create_contraction_plan cplx "yxYX,yxpq->YXpq" [:: n; n; n; n] [:: n; n; p; p] false false = Ok q.
  rewrite (@create_planE cplx (list_ascii_of_string "yxYX") (list_ascii_of_string "yxpq") (list_ascii_of_string "YXpq") _ _ _ _ isT isT isT isT).
  by rewrite /= /dims_ok /= !eqxx /=; eexists.
have [p9 P9] : exists q, create_contraction_plan cplx "YXpq,YXpq->" [:: n; n; p; p] [:: n; n; p; p] false true = Ok q.
  rewrite (@create_planE cplx (list_ascii_of_string "YXpq") (list_ascii_of_string "YXpq") (list_ascii_of_string "") _ _ _ _ isT isT isT isT).
  by rewrite /= /dims_ok /= !eqxx /=; eexists.
rewrite P1 P2 P3 P4 P5 P6 P7 P8 P9.
eexists; first by [].
split; first by split=> //=; try exact: holds_data.
by split=> // k; case=> [<-|[<-|[<-|[<-|[<-|[<-|[<-|[<-|[<-|[]]]]]]]]]]; eexists.
Qed.
Lemma make_sim empty a1 a2 : shape a1 = [:: n; D; p] -> shape a2 = [:: n; D; p] -> (cplx \/ entries_real a1 /\ entries_real a2) ->
  exists2 t, make_als_tensors cplx empty a1 a2 n12g N g = Ok t & sim t (a1, a2).
Proof using Eg SN Sg. by move=> S1 S2 Rx; have [t E [H _]] := make_plans empty S1 S2; exists t; last exact: H. Qed.
End Fixed.
End Sim.

(** ---- C71 ---- *)
Section C71.
Variable C : numClosedFieldType.
Notation tensor := (tensor C).

Lemma guess_real (fsvd : full_svd_fun C) (g : tensor) n D p a1 a2 : full_svd_spec fsvd -> real_svd fsvd -> entries_real g ->
  initialize_reduced_tensors fsvd g n D p = Ok (a1, a2) -> entries_real a1 /\ entries_real a2.
Proof.
move=> Sv Rv Rg; rewrite /initialize_reduced_tensors.
case E0 : (einsum _ _) => [t|//]; rewrite [bind (Ok t) _]/bind; case E1 : (reshape _ _) => [t'|//]; rewrite [bind (Ok t') _]/bind.
have Rt : entries_real t' by apply: reshape_real E1; apply: (einsum_real (ts := [:: g])) E0.
case E2 : (svd_full _ _) => [[[U sv] Vh]|//]; rewrite [bind (Ok _) _]/bind.
have [RU [Rs RV]] : (forall i, at_ U i \is Num.real) /\ (forall i, 0 <= nth 0 sv i) /\ (forall i, at_ (adjoint Vh) i \is Num.real).
  move: E2; rewrite /svd_full; have St : shape t' = [:: n * p; n * p]%N by move: E1; rewrite /reshape; case: ifP => // _ [<-].
  rewrite St; have Rm : rl (mx_of (n * p) (n * p) t').
    by move=> i j; rewrite mxE; apply: Rt; rewrite St /= !ltn_ord.
  have := Rv _ _ _ Rm; have := Sv _ _ (mx_of (n * p) (n * p) t'); case: (fsvd _) => [[U' s'] V'] /= [_ _ [s0 _] _] [RU RV] [<- <- <-].
  split; first by move=> i; exact: of_mx_real.
  split; last by move=> i; rewrite /adjoint CrealE conjCK; apply/eqP/esym/CrealP; exact: of_mx_real.
  have /(all_nthP 0) As : all (fun x => 0 <= x) [seq s' 0 i | i <- enum 'I_(minn (n * p) (n * p))] by apply/allP => x /mapP[k _ ->].
  by move=> i; case: (ltnP i (size [seq s' 0 i | i <- enum 'I_(minn (n * p) (n * p))])) => Hi; [exact: As|rewrite nth_default].
have sqr (x y : C) : 0 <= x -> 0 <= y -> sqrtC (x / y) \is Num.real by move=> x0 y0; rewrite ger0_real // sqrtC_ge0 divr_ge0.
case E3 : (match sv with [::] => _ | _ => _ end) => [w|//]; rewrite [bind (Ok _) _]/bind.
have Rw : entries_real w.
  case: (sv) E3 Rs => [//|s0 sv']; rewrite /sqrt_weights; case: ifP => // _ [<-] Rs i _ /=.
  by apply: sqr; [exact: Rs|exact: (Rs 0%N)].
case F1: (reshape _ _) => [U'|//]; rewrite [bind (Ok _) _]/bind.
case F2: (reshape _ _) => [V'|//]; rewrite [bind (Ok _) _]/bind.
have RU' : entries_real U' by apply: reshape_real F1 => i _; exact: RU.
have RV' : entries_real V' by apply: reshape_real F2 => i _; exact: RV.
case F3: (einsum _ _) => [b1|//]; rewrite [bind (Ok _) _]/bind.
case F4: (einsum _ _) => [b2|//]; rewrite [bind (Ok _) _]/bind => -[<- <-].
by split; [apply: (einsum_real (ts := [:: U'; w])) F3 | apply: (einsum_real (ts := [:: V'; w])) F4].
Qed.

(** a real dtype: real arguments, and spectral routines that stay real *)
Definition real_dtype (fsvd : full_svd_fun C) (leigh : eigh_fun C) (N g : tensor) : Prop :=
  [/\ full_svd_spec fsvd /\ real_svd fsvd, eigh_spec leigh, real_eigh leigh, entries_real N & entries_real g].

Lemma teq_view (t : als_tensors C) n D p (x : tensor) buf : [/\ nD_ t = n, bD_ t = D & pD_ t = p] -> shape x = [:: n; D; p] -> holds buf x ->
  teq x (view [:: nD_ t; bD_ t; pD_ t] buf).
Proof. by case=> -> -> -> Sx Hx; split=> // idx Hi; rewrite -(Hx _ Hi) Sx. Qed.

(** C71: the alternating least squares solver of the compiled backend, working
    in place on memory whose initial content is arbitrary, returns the entries
    the torch backend returns, whatever their number of iterations: with the
    Cholesky method for a positive semi-definite norm tensor and a shift that is
    not negative, whenever the torch backend returns; with the pseudo-inverse for
    every norm tensor, and then it also fails when the torch backend fails. *)
Theorem C71_backends (cplx : bool) (empty : nat -> mem C) (potrf : potrf_fun C) (potrs : potrs_fun C)
    (fsvd : full_svd_fun C) (leigh : eigh_fun C) (lchol : chol_fun C) (cfg : econfig C) n D p (N g : tensor) :
  potrf_spec potrf -> potrs_spec potrs -> shape N = [:: n; n; n; n] -> shape g = [:: n; n; p; p] ->
  [/\ als_method cfg = "cholesky", chol_spec lchol, 0 <= als_epsilon cfg & norm_psd n N] \/ als_method cfg = "pinv" ->
  cplx \/ real_dtype fsvd leigh N g ->
  match als_solve fsvd leigh lchol cfg N g n D p with
  | Ok (y1, y2) => exists z1 z2, [/\ als_solve_cutensor cplx empty potrf potrs leigh fsvd cfg N g n D p = Ok (z1, z2), teq y1 z1 & teq y2 z2]
  | Err _ => als_method cfg = "pinv" -> exists e, als_solve_cutensor cplx empty potrf potrs leigh fsvd cfg N g n D p = Err e
  end.
Proof.
move=> Sf Ss SN Sg Hm HR; rewrite /als_solve /als_solve_cutensor.
have [m [Hmm Hpm HN Hpi]] : exists m, [/\ method_of lchol cfg m, parse_solver_method (als_method cfg) = Ok m, m = Cholesky -> norm_psd n N & als_method cfg = "pinv" -> m = Pinv].
  by case: Hm => [[E Sc e0 HN]|E]; [exists Cholesky | exists Pinv]; split=> //; rewrite E.
case Ei : (initialize_reduced_tensors _ _ _ _ _) => [[a1 a2]|e]; last by move=> _; exists e.
have [S1 S2] := init_shape Ei.
have [n12g Eg _] := costE SN Sg S1 S2; rewrite Eg.
have -> : (let! (a1r, a2r) := Ok (a1, a2) in let! n12g := Ok n12g in let! d1 := calculate_cost a1r a2r g N in
    als_loop leigh lchol cfg N n12g g (als_niter cfg) 0 a1r a2r `|d1|) =
  let! d1 := calculate_cost a1 a2 g N in als_loop leigh lchol cfg N n12g g (als_niter cfg) 0 a1 a2 `|d1| by [].
have -> : (let! (a1r, a2r) := Ok (a1, a2) in let! n12g := Ok n12g in
    cals_solve cplx empty potrf potrs leigh a1r a2r n12g N g (als_niter cfg) (als_tol cfg) (als_method cfg) (als_epsilon cfg)) =
  cals_solve cplx empty potrf potrs leigh a1 a2 n12g N g (als_niter cfg) (als_tol cfg) (als_method cfg) (als_epsilon cfg) by [].
rewrite /cals_solve.
have Rx : cplx \/ entries_real a1 /\ entries_real a2.
  by case: HR => [|[[Sv Rv] _ _ _ Rg]]; [left | right; apply: guess_real Ei].
have HR' : cplx \/ [/\ eigh_spec leigh, real_eigh leigh, entries_real N & entries_real g] by case: HR => [|[]]; [left|right].
rewrite Hpm [bind (Ok m) _]/bind.
have [t0 -> Hs0] := @make_sim C cplx n D p N g n12g SN Sg Eg empty a1 a2 S1 S2 Rx; rewrite [bind (Ok t0) _]/bind.
have [d Ed] := cost_total SN Sg (sim_shape Hs0).
have [t1 F1 Hs1] := cost_sim SN Sg Eg HR' Hs0 Ed; rewrite [calculate_cost _ _ _ _]Ed [bind (Ok d) _]/bind F1 [bind (Ok (d, t1)) _]/bind.
have := @loop_sim C cplx potrf potrs leigh lchol cfg Sf Ss n D p N g n12g SN Sg Eg m Hmm HN HR' (als_niter cfg) 0 t1 (a1, a2) `|d| d Hs1.
rewrite /=; case: (als_loop _ _ _ _ _ _ _ _ _ _ _) => [[y1 y2] H|e H Ep]; last first.
  by exists RuntimeError; rewrite H // Hpi.
have [//|t2 -> Hs2] := H; have [_ [T1 T2] _ B1 B2 _ _ _ _] := Hs2.
by eexists; eexists; split; [reflexivity| exact: teq_view (sim_dims Hs2) T1 B1 | exact: teq_view (sim_dims Hs2) T2 B2].
Qed.

(** ---- the compiled Cholesky solve never reports a failure ---- *)
Section Total.
Variables (cplx : bool) (potrf : potrf_fun C) (potrs : potrs_fun C) (leigh : eigh_fun C).
Variables (n D p : nat).
Definition ready (t : als_tensors C) : Prop := [/\ nD_ t = n, bD_ t = D & pD_ t = p] /\
  forall k, List.In k [:: "S1"; "S2"; "R1_intm"; "R1"; "R2_intm"; "R2"; "a12n"; "d_intm"; "d"] -> exists q, cached (plan_cache_ t) k = Ok q.

Lemma ready_run t k A B out : ready t -> List.In k [:: "S1"; "S2"; "R1_intm"; "R1"; "R2_intm"; "R2"; "a12n"; "d_intm"; "d"] ->
  exists b, run t k A B out = Ok b.
Proof. by case=> _ H /H[q Eq]; rewrite /run Eq; eexists. Qed.

Lemma ready_solve t eps : ready t -> exists2 X, csolve_ar potrf potrs leigh Cholesky eps t = Ok X & shape X = [:: n; D; p].
Proof.
case=> -[Hn HD Hp] _; rewrite /csolve_ar Hn HD Hp /tadd /adjoint /= eqxx /= eqxx /= /reshape /= !muln1 mulnA eqxx.
by eexists.
Qed.

Ltac key := by simpl; tauto.
Lemma ready_S1 t : ready t -> exists2 t', cbuild_S1 t = Ok t' & ready t'.
Proof. by move=> Hr; rewrite /cbuild_S1; have [b ->] := @ready_run t "S1" (n12g_ t) (a2r_ t) (S_ t) Hr ltac:(key); exists (set_S b t). Qed.
Lemma ready_S2 t : ready t -> exists2 t', cbuild_S2 t = Ok t' & ready t'.
Proof. by move=> Hr; rewrite /cbuild_S2; have [b ->] := @ready_run t "S2" (n12g_ t) (a1r_ t) (S_ t) Hr ltac:(key); exists (set_S b t). Qed.
Lemma ready_R1 t : ready t -> exists2 t', cbuild_R1 t = Ok t' & ready t'.
Proof.
move=> Hr; rewrite /cbuild_R1; have [b ->] := @ready_run t "R1_intm" (n12_ t) (a2r_ t) (R_intm_ t) Hr ltac:(key).
rewrite [bind (Ok b) _]/bind; have [b' ->] := @ready_run (set_R_intm b t) "R1" b (a2r_ t) (R_ t) Hr ltac:(key).
by exists (set_R b' (set_R_intm b t)).
Qed.
Lemma ready_R2 t : ready t -> exists2 t', cbuild_R2 t = Ok t' & ready t'.
Proof.
move=> Hr; rewrite /cbuild_R2; have [b ->] := @ready_run t "R2_intm" (n12_ t) (a1r_ t) (R_intm_ t) Hr ltac:(key).
rewrite [bind (Ok b) _]/bind; have [b' ->] := @ready_run (set_R_intm b t) "R2" b (a1r_ t) (R_ t) Hr ltac:(key).
by exists (set_R b' (set_R_intm b t)).
Qed.
Lemma ready_cost t : ready t -> exists c t', ccost cplx t = Ok (c, t') /\ ready t'.
Proof.
move=> Hr; rewrite /ccost; have [b1 ->] := @ready_run t "a12n" (a1r_ t) (a2r_ t) (a12n_ t) Hr ltac:(key); rewrite [bind (Ok b1) _]/bind.
pose t1 := set_a12n b1 t; have R1 : ready t1 by [].
have [b2 ->] := @ready_run t1 "d_intm" (n12_ t1) (a12n_ t1) (d_intm_ t1) R1 ltac:(key); rewrite [bind (Ok b2) _]/bind.
pose t2 := set_d_intm b2 t1; have R2 : ready t2 by [].
have [b3 ->] := @ready_run t2 "d" (d_intm_ t2) (a12n_ t2) (d2_ t2) R2 ltac:(key); rewrite [bind (Ok b3) _]/bind.
pose t3 := set_d2 b3 t2; have R3 : ready t3 by [].
have [b4 ->] := @ready_run t3 "d_intm" (n12_ t3) (a12g_ t3) (d_intm_ t3) R3 ltac:(key); rewrite [bind (Ok b4) _]/bind.
pose t4 := set_d_intm b4 t3; have R4 : ready t4 by [].
have [b5 ->] := @ready_run t4 "d" (d_intm_ t4) (a12n_ t4) (d3_ t4) R4 ltac:(key).
by eexists; exists (set_d3 b5 t4).
Qed.

Lemma ready_update t eps c : ready t -> exists e c' t', cupdate cplx potrf potrs leigh Cholesky eps c t = Ok (e, c', t') /\ ready t'.
Proof.
move=> Hr; rewrite /cupdate.
have [t1 -> R1] := ready_S1 Hr; rewrite [bind (Ok t1) _]/bind; have [t2 -> R2] := ready_R1 R1; rewrite [bind (Ok t2) _]/bind.
have [X -> _] := ready_solve eps R2; rewrite [bind (Ok X) _]/bind; have R3 : ready (set_a1r (data X) t2) by [].
have [t4 -> R4] := ready_S2 R3; rewrite [bind (Ok t4) _]/bind; have [t5 -> R5] := ready_R2 R4; rewrite [bind (Ok t5) _]/bind.
have [Y -> _] := ready_solve eps R5; rewrite [bind (Ok Y) _]/bind; have R6 : ready (set_a2r (data Y) t5) by [].
have [c' [t6 [-> R7]]] := ready_cost R6; rewrite [bind (Ok (c', t6)) _]/bind.
by eexists; eexists; exists t6.
Qed.

Lemma ready_loop eps tol k : forall i c t, ready t -> exists2 t', cloop cplx potrf potrs leigh Cholesky eps tol k i c t = Ok t' & ready t'.
Proof.
elim: k => [|k IH] i c t Hr /=; first by exists t.
have [e [c' [t' [-> R']]]] := ready_update eps c Hr; rewrite [bind (Ok (e, c', t')) _]/bind.
by case: ifP => _; [exists t' | exact: IH].
Qed.
End Total.

(** C71: with the Cholesky method the compiled solver returns a pair of the right
    shapes whenever the initial guess exists: whatever the factorisation
    routine reports, the norm tensor and the target are *)
Theorem C71_never_fails (cplx : bool) (empty : nat -> mem C) (potrf : potrf_fun C) (potrs : potrs_fun C)
    (fsvd : full_svd_fun C) (leigh : eigh_fun C) (cfg : econfig C) n D p (N g : tensor) x :
  shape N = [:: n; n; n; n] -> shape g = [:: n; n; p; p] -> als_method cfg = "cholesky" ->
  initialize_reduced_tensors fsvd g n D p = Ok x ->
  exists z1 z2, [/\ als_solve_cutensor cplx empty potrf potrs leigh fsvd cfg N g n D p = Ok (z1, z2),
    shape z1 = [:: n; D; p] & shape z2 = [:: n; D; p]].
Proof.
move=> SN Sg Em; case: x => a1 a2 Ei; have [S1 S2] := init_shape Ei; rewrite /als_solve_cutensor Ei.
have [n12g Eg _] := costE SN Sg S1 S2; rewrite Eg.
have -> : (let! (a1r, a2r) := Ok (a1, a2) in let! n12g := Ok n12g in
    cals_solve cplx empty potrf potrs leigh a1r a2r n12g N g (als_niter cfg) (als_tol cfg) (als_method cfg) (als_epsilon cfg)) =
  cals_solve cplx empty potrf potrs leigh a1 a2 n12g N g (als_niter cfg) (als_tol cfg) (als_method cfg) (als_epsilon cfg) by [].
rewrite /cals_solve Em; have -> : parse_solver_method "cholesky" = Ok Cholesky by [].
rewrite [bind (Ok Cholesky) _]/bind.
have [t0 -> [_ Hr]] := make_plans cplx SN Sg Eg empty S1 S2; rewrite [bind (Ok t0) _]/bind.
have [c [t1 [-> R1]]] := ready_cost cplx (Hr : ready n D p t0); rewrite [bind (Ok (c, t1)) _]/bind.
have [t2 -> [[Hn HD Hp] _]] := ready_loop cplx potrf potrs leigh (als_epsilon cfg) (als_tol cfg) (als_niter cfg) 0 c R1.
by rewrite [bind (Ok t2) _]/bind Hn HD Hp; eexists; eexists; split; first by [].
Qed.

(** C71: the failure the torch backend reports is lost.  For the complex product
    state of C66 the torch solver raises, for every decomposition; the compiled one
    returns a pair, for every decomposition and factorisation routine. *)
Theorem C71_lost_failure_refuted (empty : nat -> mem C) (potrf : potrf_fun C) (potrs : potrs_fun C)
    (fsvd : full_svd_fun C) (leigh : eigh_fun C) (lchol : chol_fun C) (cfg : econfig C) :
  full_svd_spec fsvd -> chol_spec lchol -> als_method cfg = "cholesky" -> 0 <= als_epsilon cfg -> (0 < als_niter cfg)%N ->
  norm_psd 1 (id4 C 1) /\ als_solve fsvd leigh lchol cfg (id4 C 1) (skew C) 1 1 2 = Err RuntimeError /\
  exists z1 z2, als_solve_cutensor true empty potrf potrs leigh fsvd cfg (id4 C 1) (skew C) 1 1 2 = Ok (z1, z2).
Proof.
move=> Sv Sc Em e0 k0; split; first exact: id4_psd.
have [_ _ /(_ fsvd leigh lchol cfg Sv Sc Em e0 k0) [[a1 [a2 [Ei _]]] ->]] := C66_complex_guess_refuted C; split=> //.
have [z1 [z2 [E _ _]]] := @C71_never_fails true empty potrf potrs fsvd leigh cfg 1 1 2 (id4 C 1) (skew C) _ erefl erefl Em Ei.
by exists z1, z2.
Qed.
End C71.

(** ---- concrete cases ---- *)
Section Cases.
Variable C : numClosedFieldType.
Notation tensor := (tensor C).

(** the two routines exist *)
Definition some_potrf : potrf_fun C := fun n A => if some_chol A is Some L then (L, true) else (A, false).
Definition some_potrs : potrs_fun C := fun n p F B => invmx (tril F *m adj (tril F)) *m B.
Lemma some_potrf_spec : potrf_spec some_potrf.
Proof.
move=> n A; rewrite /some_potrf; have := some_chol_spec A; case E : (some_chol A) => [L|].
  by move=> [HL Hd EL]; split=> // _; rewrite tril_lower.
move=> _; split=> // L HL Hd EL; move: E; rewrite /some_chol; case: (pd_dec _) => // H _; case: H.
rewrite EL => x Nx; have uL := lower_unit HL Hd.
have [y Ey] : exists y, y = adj L *m x by eexists.
have Ny : y != 0.
  apply: contraNneq Nx => y0; have ua : adj L \in unitmx.
    have /mulmx1_unit [] // : adj L *m adj (invmx L) = 1%:M.
    by rewrite -adjM mulVmx // adj1.
  by rewrite -[x]mul1mx -(mulVmx ua) -mulmxA -Ey y0 mulmx0.
have -> : adj x *m (L *m adj L) *m x = adj y *m y by rewrite Ey adjM adjK !mulmxA.
have /matrix0Pn [i [z Ni]] := Ny; rewrite ord1 in Ni.
have sq (j : 'I_n) : adj y 0 j * y j 0 = `|y j 0| ^+ 2 by rewrite adjE mulrC -normCK.
rewrite mxE (bigD1 i) //= sq; apply: ltr_paddr; last by rewrite exprn_gt0 ?normr_gt0.
by apply: sumr_ge0 => j _; rewrite sq exprn_ge0.
Qed.
Lemma some_potrs_spec : potrs_spec some_potrs.
Proof.
move=> n p F B Hd; rewrite /some_potrs mulmxA mulmxV ?mul1mx //.
have uL : tril F \in unitmx by apply: lower_unit => [i j Hij|i]; rewrite mxE ?leqnn // leqNgt Hij.
rewrite unitmx_mul uL /=; have /mulmx1_unit [] // : adj (tril F) *m adj (invmx (tril F)) = 1%:M.
by rewrite -adjM mulVmx // adj1.
Qed.

(** a complex dtype, method "pinv": both solvers return the same pair for every
    target the guess exists for *)
Lemma pinv_sweep n D p (N g n12g : tensor) x : shape N = [:: n; n; n; n] -> shape g = [:: n; n; p; p] -> einsum "yxYX,yxpq->YXpq" [:: N; g] = Ok n12g ->
  shape x.1 = [:: n; D; p] /\ shape x.2 = [:: n; D; p] -> forall j, exists2 y, P23_Solver.sweeps (@some_eigh C) (@some_chol C) (cfg_pinv C) N n12g x j = Ok y & shape y.1 = [:: n; D; p] /\ shape y.2 = [:: n; D; p].
Proof.
move=> SN Sg Eg Sx; elim=> [|j [y E [S1 S2]]]; first by exists x.
rewrite /= E [bind (Ok y) _]/bind /P23_Solver.sweep /solve_a1r /solve_a2r.
have [g' Eg' [_ [R [S [ER ES SR SS _]]]]] := costE SN Sg S1 S2; move: Eg' ES; rewrite Eg => -[<-] ES.
have [c _ [_ H]] := solve_arE (@some_eigh C) (@some_chol C) (cfg_pinv C) SR SS.
have [a1 E1] := (H erefl erefl).2 isT; have [w [V [_ T1 _]]] := (H erefl erefl).1 _ E1.
rewrite ES [bind (Ok S) _]/bind ER [bind (Ok R) _]/bind E1 [bind (Ok a1) _]/bind.
have [g2 Eg2 [R' [S' [ER' ES' SR' SS' _]]]] := costE2 SN Sg T1 S2; move: Eg2 ES'; rewrite Eg => -[<-] ES'.
have [c' _ [_ H']] := solve_arE (@some_eigh C) (@some_chol C) (cfg_pinv C) SR' SS'.
have [a2 E2] := (H' erefl erefl).2 isT; have [w' [V' [_ T2 _]]] := (H' erefl erefl).1 _ E2.
rewrite ES' [bind (Ok S') _]/bind ER' [bind (Ok R') _]/bind E2 [bind (Ok a2) _]/bind.
by exists (a1, a2).
Qed.

Example C71_example (empty : nat -> mem C) : exists y1 y2 z1 z2,
  [/\ als_solve (@some_full_svd C) (@some_eigh C) (@some_chol C) (cfg_pinv C) (id4 C 1) (bell C) 1 2 2 = Ok (y1, y2),
     als_solve_cutensor true empty some_potrf some_potrs (@some_eigh C) (@some_full_svd C) (cfg_pinv C) (id4 C 1) (bell C) 1 2 2 = Ok (z1, z2),
     teq y1 z1 & teq y2 z2].
Proof.
have [b1 [b2 [c [Ei _ _ _ _]]]] := C66_example C.
have SN : shape (id4 C 1) = [:: 1; 1; 1; 1]%N by [].
have Sg : shape (bell C) = [:: 1; 1; 2; 2]%N by [].
have [y1 [y2 E]] : exists y1 y2, als_solve (@some_full_svd C) (@some_eigh C) (@some_chol C) (cfg_pinv C) (id4 C 1) (bell C) 1 2 2 = Ok (y1, y2).
  have [n12g Eg] := @C40_solver C (@some_full_svd C) (@some_eigh C) (@some_chol C) (cfg_pinv C) 1 2 2 (id4 C 1) (bell C) SN Sg (@id4_herm C 1).
  rewrite Ei => -[k [_ -> _ _]].
  by have [[y1 y2] -> _] := @pinv_sweep 1 2 2 _ _ n12g (b1, b2) SN Sg Eg (init_shape Ei) k; exists y1, y2.
have := @C71_backends C true empty _ _ (@some_full_svd C) (@some_eigh C) (@some_chol C) (cfg_pinv C) 1 2 2 (id4 C 1) (bell C) some_potrf_spec some_potrs_spec SN Sg (or_intror erefl) (or_introl isT).
by rewrite E => -[z1 [z2 [E' T1 T2]]]; exists y1, y2, z1, z2.
Qed.

(** a contraction with one summed label: a plan is made and the output buffer
    holds the matrix product of the first operand and the conjugate of the second,
    in row-major order *)
Example C70_example (A B : tensor) bufA bufB out : shape A = [:: 2; 3]%N -> shape B = [:: 4; 3]%N -> holds bufA A -> holds bufB B ->
  exists2 q, create_contraction_plan true "ab,cb->ca" [:: 2; 3]%N [:: 4; 3]%N false true = Ok q &
  forall c a, (c < 4)%N -> (a < 2)%N -> contract q bufA bufB out (c * 2 + a)%N = \sum_(b < 3) bufA (a * 3 + b)%N * (bufB (c * 3 + b)%N)^*.
Proof.
move=> SA SB HA HB.
have := @C70_contract C true (list_ascii_of_string "ab") (list_ascii_of_string "cb") (list_ascii_of_string "ca") A B bufA bufB out false true isT isT isT isT HA HB.
rewrite SA SB -[expression _ _ _]/"ab,cb->ca".
have [T [-> ST HT]] : exists T, [/\ einsum "ab,cb->ca" [:: opt_conj (false && true) A; opt_conj (true && true) B] = Ok T, shape T = [:: 4; 2]%N &
   forall c a, at_ T [:: c; a] = \sum_(b < 3) at_ A [:: a; b : nat] * (at_ B [:: c; b : nat])^*].
  rewrite /einsum /= SA SB /= /dims_ok /= ?eqxx /=; eexists; by [].
case: (create_contraction_plan _ _ _ _ _ _) => [q [H _]|//]; exists q => // c a Hc Ha.
have rv (x y d e : nat) : ravel [:: d; e] [:: x; y] = (x * e + y)%N by rewrite /= !muln1 addn0.
have := H [:: c; a]; rewrite ST rv /= Hc Ha => /(_ isT) ->; rewrite HT; apply: eq_bigr => b _.
have := HA [:: a; b : nat]; rewrite SA rv /= Ha ltn_ord => /(_ isT) ->.
by have := HB [:: c; b : nat]; rewrite SB rv /= Hc ltn_ord => /(_ isT) ->.
Qed.
(** a trace *)
Example C70_trace : create_contraction_plan true "aa,b->b" [:: 2; 2]%N [:: 3]%N false false = Err RuntimeError /\
  exists T, einsum "aa,b->b" [:: Tensor [:: 2; 2]%N (fun=> 1); Tensor [:: 3]%N (fun=> 1 : C)] = Ok T.
Proof. by split; [apply: (@C70_refused true (list_ascii_of_string "aa") (list_ascii_of_string "b") (list_ascii_of_string "b"))|eexists]. Qed.
End Cases.

Print Assumptions C70_contract.
Print Assumptions C70_refused.
Print Assumptions C70_only_runtime_error.
Print Assumptions C71_backends.
Print Assumptions C71_never_fails.
Print Assumptions C71_lost_failure_refuted.
