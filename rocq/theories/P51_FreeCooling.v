(** C100: without interactions the reported energy never rises. *)
From Coq Require Import String Ascii Permutation.
From mathcomp Require Import all_ssreflect all_algebra.
From Verif Require Import Base Lattice LatticeFacts Mover Gate GateSum P04_GateSum Tensor TN Rdm Measure MeasureFacts FullUpdate Linalg Mat Rsvd Renorm Spectral ProjFacts Als EighChol Dist Lambda Evolve P11_Measure P26_SiteUpdate Session P29_Session Ring ProductFacts P30_Product FreeCount P36_Free P46_Cooling UpdFacts.
Set Implicit Arguments.
Unset Strict Implicit.
Unset Printing Implicit Defensive.
Import Order.POrderTheory GRing.Theory Num.Theory.
Local Open Scope ring_scope.
Local Open Scope string_scope.

(** ---- one vector ---- *)
Section Vector.
Variable C : numClosedFieldType.
Variable n : nat.
Variables h G : 'M[C]_n.

(** the expectation value of a row vector *)
Definition value (v : 'rV[C]_n) : C := 'Re ((v *m h *m adj v) 0 0) / (v *m adj v) 0 0.
Definition eigenvalue_of (a : C) : Prop := exists2 w : 'rV[C]_n, w != 0 & w *m h = a *: w.

Lemma diag_form (c d : 'rV[C]_n) : (c *m diag_mx d *m adj c) 0 0 = \sum_i `|c 0 i| ^+ 2 * d 0 i.
Proof.
rewrite mul_mx_diag mxE; apply: eq_bigr => i _; rewrite mxE adjE normCK mulrAC //.
Qed.

Lemma cooling (e : C -> C) (v : 'rV[C]_n) : adj h = h ->
  (forall (w : 'rV[C]_n) a, w *m h = a *: w -> w *m G = e a *: w) ->
  (forall a c, eigenvalue_of a -> eigenvalue_of c -> a <= c -> 0 < e c <= e a) ->
  value (v *m G) <= value v.
Proof.
move=> Hh HG He; have [U [f [U1 fr _ [Eh _]]]] := eigh_exists Hh.
have U2 := unitC U1; pose D := \row_i f i : 'rV[C]_n; pose E := \row_i e (f i) : 'rV[C]_n.
have rowd (d : 'rV[C]_n) (i : 'I_n) (M : 'M[C]_n) : row i (diag_mx d *m M) = d 0 i *: row i M.
  by rewrite mul_diag_mx; apply/rowP => j; rewrite !mxE.
have WD : adj U *m h = diag_mx D *m adj U by rewrite Eh !mulmxA U1 mul1mx.
have ev (i : 'I_n) : row i (adj U) *m h = f i *: row i (adj U).
  by rewrite -row_mul WD rowd mxE.
have ei (i : 'I_n) : eigenvalue_of (f i).
  exists (row i (adj U)); last exact: ev.
  apply/eqP => Z; have := congr1 (fun M : 'M_n => M i i) U1; rewrite !mxE eqxx (eq_bigr (fun=> 0)); last first.
    by move=> k _; have := congr1 (fun r : 'rV_n => r 0 k) Z; rewrite [in X in (X -> _)]mxE => ->; rewrite mxE mul0r.
  by rewrite big1 // => /eqP; rewrite eq_sym oner_eq0.
have e0 (i : 'I_n) : 0 < e (f i) by have /andP[] := He _ _ (ei i) (ei i) (lexx _).
have WG : adj U *m G = diag_mx E *m adj U.
  by apply/row_matrixP => i; rewrite row_mul (HG _ _ (ev i)) rowd mxE.
have [c Ev] : exists c, v = c *m adj U by exists (v *m U); rewrite -mulmxA U2 mulmx1.
have Er i : E 0 i \is Num.real by rewrite mxE gtr0_real.
have aE : adj (diag_mx E) = diag_mx E by apply: adj_rdiag.
pose q i := `|c 0 i| ^+ 2; pose w (i : 'I_n) := e (f i) ^+ 2.
have N0 : (v *m adj v) 0 0 = \sum_i q i.
  rewrite Ev adjM adjK -mulmxA [adj U *m _]mulmxA U1 mul1mx mxE; apply: eq_bigr => i _; by rewrite adjE -normCK.
have Q0 : (v *m h *m adj v) 0 0 = \sum_(i < n) q i * f i.
  rewrite Ev adjM adjK -!mulmxA [adj U *m (h *m _)]mulmxA WD -!mulmxA [adj U *m (U *m _)]mulmxA U1 mul1mx mulmxA diag_form.
  by apply: eq_bigr => i _; rewrite mxE.
have Evg : v *m G = c *m diag_mx E *m adj U by rewrite {1}Ev -!mulmxA WG.
have dd (a b : 'rV[C]_n) : diag_mx a *m diag_mx b = diag_mx (\row_i (a 0 i * b 0 i)).
  by rewrite mul_diag_mx; apply/matrixP => i j; rewrite !mxE mulrnAr.
have N1 : (v *m G *m adj (v *m G)) 0 0 = \sum_(i < n) q i * w i.
  rewrite Evg !adjM adjK aE -!mulmxA [adj U *m (U *m _)]mulmxA U1 mul1mx [diag_mx E *m (_ *m _)]mulmxA dd mulmxA diag_form.
  by apply: eq_bigr => i _; rewrite !mxE expr2.
have Q1 : (v *m G *m h *m adj (v *m G)) 0 0 = \sum_(i < n) q i * w i * f i.
  rewrite Evg !adjM adjK aE -!mulmxA [adj U *m (h *m _)]mulmxA WD -!mulmxA [adj U *m (U *m _)]mulmxA U1 mul1mx.
  rewrite [diag_mx D *m (_ *m _)]mulmxA dd [diag_mx E *m (_ *m _)]mulmxA dd mulmxA diag_form.
  by apply: eq_bigr => i _; rewrite !mxE /w expr2 -!mulrA [f i * _]mulrC.
have q0 i : 0 <= q i by rewrite exprn_ge0.
have w0 i : 0 < w i by rewrite exprn_gt0.
have rf : \sum_(i < n) q i * f i \is Num.real by apply: rpred_sum => i _; rewrite rpredM ?fr // ger0_real.
have rwf : \sum_(i < n) q i * w i * f i \is Num.real by apply: rpred_sum => i _; rewrite rpredM ?fr // ger0_real ?mulr_ge0 // ltW.
rewrite /value N0 N1 Q0 Q1 !(Creal_ReP _ _) //.
have [Z|Z] := eqVneq (\sum_i q i) 0.
  have q00 i : q i = 0.
    by apply/eqP; have := psumr_eq0P (fun i _ => q0 i) Z (i := i) isT => ->.
  by rewrite [X in X / _ <= _]big1 ?[X in _ <= X / _]big1 ?mul0r // => i _; rewrite q00 ?mul0r.
have P0 : 0 < \sum_i q i by rewrite lt_neqAle eq_sym Z sumr_ge0.
have P1 : 0 < \sum_i q i * w i.
  rewrite lt_neqAle sumr_ge0 ?andbT; last by move=> i _; rewrite mulr_ge0 // ltW.
  apply/eqP => /esym Y; move/eqP: Z; apply; apply: big1 => i _.
  have := psumr_eq0P (fun i _ => mulr_ge0 (q0 i) (ltW (w0 i))) Y (i := i) isT => /eqP.
  by rewrite mulf_eq0 [w i == 0]gt_eqF // orbF => /eqP.
rewrite ler_pdivr_mulr // mulrAC ler_pdivl_mulr //.
have := @chebyshev C _ q (fun i => f i) w (fun i => - f i) q0 (fun i => fr i (ltn_ord i)) _ _.
have -> : \sum_i q i * - f i = - \sum_(i < n) q i * f i by rewrite -sumrN; apply: eq_bigr => i _; rewrite mulrN.
have -> : \sum_i q i * w i * - f i = - \sum_(i < n) q i * w i * f i by rewrite -sumrN; apply: eq_bigr => i _; rewrite mulrN.
rewrite !mulNr ler_opp2; apply => i j Hij; last by rewrite ler_opp2.
by have /andP[A B] := He _ _ (ei i) (ei j) Hij; rewrite /w ler_expn2r // nnegrE ltW.
Qed.

(** no vector vanishes *)
Lemma keeps (e : C -> C) (v : 'rV[C]_n) : adj h = h ->
  (forall (w : 'rV[C]_n) a, w *m h = a *: w -> w *m G = e a *: w) ->
  (forall a, eigenvalue_of a -> 0 < e a) -> v *m G = 0 -> v = 0.
Proof.
move=> Hh HG He; have [U [f [U1 fr _ [Eh _]]]] := eigh_exists Hh.
have U2 := unitC U1; pose D := \row_i f i : 'rV[C]_n; pose E := \row_i e (f i) : 'rV[C]_n.
have rowd (d : 'rV[C]_n) (i : 'I_n) (M : 'M[C]_n) : row i (diag_mx d *m M) = d 0 i *: row i M.
  by rewrite mul_diag_mx; apply/rowP => j; rewrite !mxE.
have WD : adj U *m h = diag_mx D *m adj U by rewrite Eh !mulmxA U1 mul1mx.
have ev (i : 'I_n) : row i (adj U) *m h = f i *: row i (adj U).
  by rewrite -row_mul WD rowd mxE.
have e0 (i : 'I_n) : 0 < e (f i).
  apply: He; exists (row i (adj U)); last exact: ev.
  apply/eqP => Z; have := congr1 (fun M : 'M_n => M i i) U1; rewrite !mxE eqxx (eq_bigr (fun=> 0)); last first.
    by move=> k _; have := congr1 (fun r : 'rV_n => r 0 k) Z; rewrite [in X in (X -> _)]mxE => ->; rewrite mxE mul0r.
  by rewrite big1 // => /eqP; rewrite eq_sym oner_eq0.
have WG : adj U *m G = diag_mx E *m adj U.
  by apply/row_matrixP => i; rewrite row_mul (HG _ _ (ev i)) rowd mxE.
have [c ->] : exists c, v = c *m adj U by exists (v *m U); rewrite -mulmxA U2 mulmx1.
rewrite -mulmxA WG mulmxA => Z.
have {}Z : c *m diag_mx E = 0 by rewrite -[LHS]mulmx1 -U1 mulmxA Z mul0mx.
suff -> : c = 0 by rewrite mul0mx.
apply/rowP => i; have := congr1 (fun r : 'rV_n => r 0 i) Z; rewrite mul_mx_diag !mxE => /eqP.
by rewrite mulf_eq0 [e _ == 0]gt_eqF // orbF => /eqP.
Qed.
End Vector.

(** ---- the gates of a model without interactions ---- *)
Section Gates.
Variable C : numClosedFieldType.
Notation tensor := (tensor C).
Variable mexp : forall n, 'M[C]_n -> 'M[C]_n.
Variable u : setup C.
Notation nx := (u_nx u).
Notation ny := (u_ny u).
Notation p := (u_phys u).
Notation vectors := (site -> nat -> C).
Variable one : site -> option tensor.
Notation term := (term u one).

(** What is used of the matrix exponential, for the terms of the model and one time
    step: it is 1 at 0, it turns the sum of terms on the two ends of a bond into the
    product, and on eigenvectors of a term it is a positive and growing function of
    the eigenvalue. *)
Definition cooling_law (dtau : C) : Prop := let a := - dtau / 4%:R in
  [/\ mexp (0 : 'M[C]_(p * p)) = 1%:M,
      forall x y, in_cell nx ny x -> in_cell nx ny y ->
        mexp (a *: (kmx (term x) 1%:M + kmx 1%:M (term y))) = kmx (mexp (a *: term x)) (mexp (a *: term y)) &
      exists e : C -> C, forall x, in_cell nx ny x ->
        (forall (v : 'rV[C]_p) c, v *m (a *: term x) = c *: v -> v *m mexp (a *: term x) = e c *: v) /\
        (forall c d, eigenvalue_of (a *: term x) c -> eigenvalue_of (a *: term x) d -> c <= d -> 0 < e c <= e d)].
(** the terms are Hermitian *)
Definition hermitian : Prop := forall x, in_cell nx ny x -> adj (term x) = term x.

Hypothesis Sh : forall x h, one x = Some h -> shape h = [:: p; p].

Lemma law_splits dtau two b : cooling_law dtau -> List.In b (build_bond_list nx ny) -> no_bonds u two ->
  splits p (factors mexp u one dtau b).1 (factors mexp u one dtau b).2 (bond_gate mexp p dtau (bond_generator p one two b)).
Proof using Sh.
move=> [L0' L2 _] Hb H2; have [S1 [S2 _]] := bond_list_adjacent _ _ _ Hb.
rewrite /bond_gate /reshape /calculate_gate.
have -> : numel [:: p; p; p; p] == numel (shape (of_mx (mexp (mx_of (p * p) (p * p) (tscale (- dtau) (bond_generator p one two b)))))).
  by rewrite /numel /= !muln1 -!mulnA.
rewrite (generator_mx Sh dtau Hb H2).
set M := mexp _.
have E i j r s : (i < p)%N -> (j < p)%N -> (r < p)%N -> (s < p)%N -> ent M (i * p + j) (r * p + s) = (factors mexp u one dtau b).1 i r * (factors mexp u one dtau b).2 j s.
{ move=> Hi Hj Hr Hs.
  have p0 : (0 < p)%N by apply: leq_ltn_trans Hi.
  have lt a c : (a < p)%N -> (c < p)%N -> (a * p + c < p * p)%N.
    by move=> Ha Hc; apply: (@leq_trans (a.+1 * p)); rewrite ?leq_pmul2r // mulSn addnC ltn_add2r.
  rewrite -[(i * p + j)%N]/(nat_of_ord (Ordinal (lt _ _ Hi Hj))) -[(r * p + s)%N]/(nat_of_ord (Ordinal (lt _ _ Hr Hs))) ent_ord /M /factors.
  have dv a c : (c < p)%N -> (((a * p + c) %/ p) = a)%N /\ (((a * p + c) %% p) = c)%N.
    by move=> Hc; rewrite divnMDl // divn_small // addn0 modnMDl modn_small.
  case: ifP => _ /=.
    by rewrite L2 // mxE /= !(proj1 (dv _ _ _)) ?(proj2 (dv _ _ _)).
  rewrite L0' mxE -val_eqE /=.
  have e1 a b' : (a < p)%N -> (b' < p)%N -> ent (1%:M : 'M[C]_p) a b' = (a == b')%:R.
    by move=> Ha Hb'; rewrite -[a]/(nat_of_ord (Ordinal Ha)) -[b']/(nat_of_ord (Ordinal Hb')) ent_ord mxE.
  rewrite !e1 // -natrM mulnb; congr (_%:R); congr (nat_of_bool _).
  apply/eqP/andP => [X|[/eqP-> /eqP->] //].
  split; apply/eqP.
    by rewrite -(proj1 (dv i j Hj)) X (proj1 (dv r s Hs)).
  by rewrite -(proj2 (dv i j Hj)) X (proj2 (dv r s Hs)). }
split=> // i j r s Hi Hj Hr Hs; rewrite -E //.
have lt a c : (a < p)%N -> (c < p)%N -> (a * p + c < p * p)%N.
  have p0 : (0 < p)%N by apply: leq_ltn_trans Hi.
  by move=> Ha Hc; apply: (@leq_trans (a.+1 * p)); rewrite ?leq_pmul2r // mulSn addnC ltn_add2r.
have R : unravel [:: (p * p)%N; (p * p)%N] (ravel [:: p; p; p; p] [:: i; j; r; s]) = [:: (i * p + j)%N; (r * p + s)%N].
{ have -> : ravel [:: p; p; p; p] [:: i; j; r; s] = ravel [:: (p * p)%N; (p * p)%N] [:: (i * p + j)%N; (r * p + s)%N].
    by rewrite /ravel /numel /= !muln1 !addn0 mulnDl !addnA !mulnA.
  by rewrite ravelK //= !lt. }
by rewrite -[at_ _ _]/(at_ (of_mx M) (unravel [:: (p * p)%N; (p * p)%N] (ravel [:: p; p; p; p] [:: i; j; r; s]))) R.
Qed.

Lemma law_gates dtau two th bl : cooling_law dtau -> (forall b, List.In b (build_bond_list nx ny) -> List.In b bl) -> no_bonds u two ->
  let g := model_gates mexp p (Gate.Model tensor one (Gate.Fresh tensor two)) dtau bl (build_site_list nx ny) th in
  gates_split u (factors mexp u one dtau) g /\ forall x, List.In x (build_bond_list nx ny) -> shape (g_two g x) = [:: p; p; p; p].
Proof using Sh.
case: th => t h L Hbl H2 g.
have S : gates_split u (factors mexp u one dtau) g.
  by move=> b Hb; rewrite /g /model_gates /= C02_generator_is_gate; [exact: law_splits|exact: Hbl].
by split=> // x Hx; have [] := S x Hx.
Qed.

(** ---- the energy of a site ---- *)
Definition rowv (w : nat -> C) : 'rV[C]_p := \row_j w j.
Lemma rowv_act (M : 'M[C]_p) w : rowv (act p (ent M) w) = rowv w *m M.
Proof using Type. by apply/rowP => j; rewrite !mxE /act; apply: eq_bigr => i _; rewrite ent_ord mxE. Qed.

Lemma pexp1_value (v : vectors) s (h : tensor) : pexp1 p v s h = value (mx_of p p h) (rowv (v s)).
Proof using Type.
rewrite /pexp1 /value; congr ('Re _ / _).
  rewrite mxE; apply: eq_bigr => i _; rewrite !mxE mulr_suml; apply: eq_bigr => j _.
  by rewrite !mxE mulrC [_^* * _]mulrC mulrA.
by rewrite mxE; apply: eq_bigr => q _; rewrite !mxE normCK.
Qed.

Definition site_energy (v : vectors) (x : site) : C := if one x is Some h then pexp1 p v x h else 0.

Lemma factor_cools dtau x w : 0 <= dtau -> cooling_law dtau -> hermitian -> in_cell nx ny x ->
  value (term x) (rowv w *m mexp ((- dtau / 4%:R) *: term x)) <= value (term x) (rowv w).
Proof using Type.
move=> d0 [_ _ [e He]] Hh Hx; have [E1 E2] := He x Hx; set a := - dtau / 4%:R in E1 E2 *.
have a0 : a <= 0 by rewrite /a mulNr oppr_le0 divr_ge0 ?ler0n.
have sc (w' : 'rV[C]_p) c : w' *m term x = c *: w' -> w' *m (a *: term x) = (a * c) *: w'.
  by move=> E; rewrite -scalemxAr E scalerA.
apply: (@cooling C p (term x) _ (fun c => e (a * c)) (rowv w) (Hh x Hx)).
  by move=> w' c /sc E; apply: E1.
move=> c d [w1 N1 W1] [w2 N2 W2] Hcd; apply: E2; [by exists w2 => //; apply: sc|by exists w1 => //; apply: sc|exact: ler_wnmul2l].
Qed.

Lemma step_cools dtau (g : gates C) b v x : 0 <= dtau -> cooling_law dtau -> hermitian -> in_cell nx ny x -> g_one g = None ->
  site_energy (pstep u (factors mexp u one dtau) g b v) x <= site_energy v x.
Proof using Type.
move=> d0 L Hh Hx G; rewrite /site_energy; case Eh: (one x) => [h|] //.
have T : mx_of p p h = term x by rewrite /P36_Free.term Eh.
rewrite !pexp1_value T /pstep /local G /factors.
case: (site_eq_dec x (b_s2 b)) => [E2|N2].
  by rewrite /= -{}E2; case: ifP => _ /=; rewrite rowv_act ?mulmx1 //; apply: factor_cools.
case: (site_eq_dec x (b_s1 b)) => [E1|N1] //.
by rewrite /= -{}E1; case: ifP => _ /=; rewrite rowv_act ?mulmx1 //; apply: factor_cools.
Qed.

Lemma evolve_cools dtau (g : gates C) bl steps v x : 0 <= dtau -> cooling_law dtau -> hermitian -> in_cell nx ny x -> g_one g = None ->
  site_energy (pevolve u (factors mexp u one dtau) g bl steps v) x <= site_energy v x.
Proof using Type.
move=> d0 L Hh Hx G; rewrite /pevolve; elim: (schedule _ _ _) v => [|b l IH] v //=.
by apply: le_trans (IH _) _; apply: step_cools.
Qed.

Lemma law_nonzero dtau x w : cooling_law dtau -> hermitian -> dtau \is Num.real -> in_cell nx ny x -> nonzero u w ->
  nonzero u (act p (ent (mexp ((- dtau / 4%:R) *: term x))) w).
Proof using Type.
move=> [_ _ [e He]] Hh Hd Hx Hw; have [E1 E2] := He x Hx; set a := - dtau / 4%:R in E1 E2 *.
have [//|N] := nonzero_dec u (act p (ent (mexp (a *: term x))) w).
case: Hw => q Hq; case/eqP.
have ah : adj (a *: term x) = a *: term x.
  by rewrite adjZ Hh // (CrealP _) // /a rpredM ?rpredN ?rpredV ?rpred_nat.
have Z : rowv w *m mexp (a *: term x) = 0.
  apply/rowP => j; rewrite -rowv_act !mxE.
  have [//|Y] := eqVneq (act p (ent (mexp (a *: term x))) w j) 0.
  by case: N; exists (nat_of_ord j).
have := keeps ah E1 (fun c Hc => proj1 (andP (E2 c c Hc Hc (lexx _)))) Z.
by move/(congr1 (fun r : 'rV_p => r 0 (Ordinal Hq))); rewrite !mxE.
Qed.
End Gates.

(** ---- sessions ---- *)
Section Sessions.
Variable C : numClosedFieldType.
Notation tensor := (tensor C).
Variable R : Type.
Variable randn : R -> forall n q : nat, 'M[C]_(n, q) * R.
Variable trand : R -> nat -> nat -> tensor * R.
Variable lqr : qr_fun C.
Variable lsvd : thin_svd_fun C.
Variable fsvd : full_svd_fun C.
Variable leigh : eigh_fun C.
Variable lchol : chol_fun C.
Variable rtol : nat -> nat -> C.
Variables (lcut noise : C).
Variable fuel : nat.
Variable empty : nat -> tensor.
Variable mexp : forall n, 'M[C]_n -> 'M[C]_n.
Variable u : setup C.
Notation nx := (u_nx u).
Notation ny := (u_ny u).
Notation p := (u_phys u).
Notation cfg := (u_evo u).
Notation state := (Session.state C R).
Variable one : site -> option tensor.
Variable two : bond -> tensor.
Hypothesis Sq : qr_spec lqr.
Hypothesis Ss : thin_svd_spec lsvd.
Hypothesis Sf : full_svd_spec fsvd.
Hypothesis Se : eigh_spec leigh.
Hypothesis tot : forall m (A : 'M[C]_m), leigh A.
Hypothesis Srand : forall r, shape (trand r 1%N p).1 = [:: 1; 1; 1; 1; p]%N.
Hypothesis Hm : als_method cfg = "cholesky" \/ als_method cfg = "pinv".
Hypothesis c0 : 0 <= positive_approx_cutoff cfg.
Hypothesis a0 : use_gauge_fix cfg -> 0 < gauge_fix_atol cfg.
Hypothesis l0 : 0 < lcut.
Hypotheses (nx0 : (0 < nx)%N) (ny0 : (0 < ny)%N) (p0 : (0 < p)%N).
Hypothesis b1 : u_bond u = 1%N.
Hypothesis ni : u_type u = "full" -> (0 < als_niter cfg)%N.
Hypothesis Hp : u_ptype u = Half \/ svd_type (u_ctm u) = "full-rank".
Hypothesis Sh : forall x h, one x = Some h -> shape h = [:: p; p].
Hypothesis H2 : no_bonds u two.
Hypothesis Hh : hermitian u one.

Notation perform := (Session.perform randn trand lqr lsvd fsvd leigh lchol rtol lcut noise fuel.+1 empty u).
Notation session := (Session.session randn trand lqr lsvd fsvd leigh lchol rtol lcut noise fuel.+1 empty u).
Notation call_of := (call_of mexp u one two).

(** what is asked between the measurements: anything, evolutions with steps that are
    not negative *)
Definition forward (r : request C) : Prop := request_ok u r /\
  if r is AskEvolve _ _ _ dtau _ then 0 <= dtau /\ cooling_law mexp u one dtau else True.
(** the model that is measured has the terms of the model that is evolved *)
Definition measures (m : model C) : Prop :=
  [/\ model_ok u m, names_ok nx ny m, forall x, in_cell nx ny x -> one_site_hamiltonian m x = one x & no_bonds u (two_site_hamiltonian m)].

Lemma forward_ask r : forward r -> ask_ok u (split_as mexp u one r) (call_of r).
Proof using Sh H2.
case: r => [chi|| th bl st dtau steps|m] [] //= [HP Hst] [d0 L].
have Hbl b : List.In b (build_bond_list nx ny) -> List.In b bl by apply: Permutation_in; exact: Permutation_sym.
by have [G1 G2] := law_gates Sh th L Hbl H2; split=> //; split.
Qed.

Lemma perform_cools r ps (s s' : state) out : p_init ps -> product u ps s -> forward r -> perform (call_of r) s = Some (Ok (s', out)) ->
  exists2 ps', product u ps' s' /\ p_init ps' & forall x, in_cell nx ny x -> site_energy u one (p_vec ps') x <= site_energy u one (p_vec ps) x.
Proof using Sq Ss Sf Se Hm tot c0 a0 p0 ni Hp l0 b1 Srand nx0 ny0 Sh H2 Hh.
move=> Hi Ps Hr E; have [ps' [sp [Hc P' _]]] := perform_product Sq Ss Sf Se tot Srand Hm c0 a0 l0 nx0 ny0 p0 b1 ni Hp Ps (forward_ask Hr) E.
have [I' D] : p_init ps' /\ forall x, in_cell nx ny x -> site_energy u one (p_vec ps') x <= site_energy u one (p_vec ps) x.
  case: r Hr E Hc => [chi|| th bl st dtau steps|m] [Hr Hd] E /=; try by case=> ->.
  case=> s1 []; rewrite Hi => -> -> _; split=> // x Hx; have [d0 L] := Hd; exact: evolve_cools.
by exists ps'.
Qed.

Lemma energy_value m (v : site -> nat -> C) d : measures m -> product_values nx ny p m v d ->
  dget "Energy" d = Some ((\sum_(x <- build_site_list nx ny) site_energy u one v x) / (nx * ny)%:R).
Proof using p0.
move=> [_ _ M1 M2] [-> _ _ _]; congr (Some (_ / _)); rewrite [X in _ + X](eq_big_In (G := fun=> 0)) ?big1_eq ?addr0.
  by apply: eq_big_In => x /in_site_list Hx; rewrite /site_energy M1.
move=> b Hb; have [_ Z] := M2 b Hb.
rewrite /pexp2 big1 ?raddf0 ?mul0r // => i _; rewrite big1 // => i' _; rewrite big1 // => j _; rewrite big1 // => j' _.
have lt (a c : 'I_p) : (a * p + c < p * p)%N.
  by apply: (@leq_trans (a.+1 * p)); rewrite ?leq_pmul2r // mulSn addnC ltn_add2r.
have := congr1 (fun M : 'M_(p * p) => M (Ordinal (lt j j')) (Ordinal (lt i i'))) Z; rewrite !mxE /= => ->.
by rewrite mulr0 mul0r.
Qed.

(** C100.  Bond dimension 1, Hermitian one-site terms and no interactions: whatever is
    asked between two measurements, the energy reported by the second is not above
    that of the first. *)
Theorem C100_session m rs (s s' : state) out : alone u s -> s_init s -> measures m -> (forall r, List.In r rs -> forward r) ->
  session (map call_of (AskMeasure m :: rcons rs (AskMeasure m))) s = Some (Ok (s', out)) ->
  exists d out' d' E E', [/\ out = d :: rcons out' d', dget "Energy" d = Some E, dget "Energy" d' = Some E' & E' <= E].
Proof using Sq Ss Sf Se Hm tot c0 a0 p0 ni Hp l0 b1 Srand nx0 ny0 Sh H2 Hh.
move=> As Ii Mm Hrs; have [M1 M2 _ _] := Mm.
have Hmeas : forward (AskMeasure m) by split.
rewrite [map _ _]/=; cbn [Session.session].
have /alone_product Ps := As.
case E1: Session.perform => [[[s1 o1]|e]|] //; case E2: Session.session => [[[s2 o2]|e]|] // -[Es <-]; subst s2.
have [ps1 [sp1 [[Ep Eo] P1 R1]]] := perform_product Sq Ss Sf Se tot Srand Hm c0 a0 l0 nx0 ny0 p0 b1 ni Hp Ps (forward_ask Hmeas) E1.
subst ps1 sp1; case: o1 R1 E1 => [|d [|d1 o1]] //=; [move=> [V0 _] _|by case].
set ps0 := PState _ _ _ in P1 V0.
have tail : forall rs (ps : pstate C) s1 o2, (forall r, List.In r rs -> forward r) -> p_init ps -> product u ps s1 ->
    session (map call_of (rcons rs (AskMeasure m))) s1 = Some (Ok (s', o2)) ->
    exists o3 d' v', [/\ o2 = rcons o3 d', product_values nx ny p m v' d' & forall x, in_cell nx ny x -> site_energy u one v' x <= site_energy u one (p_vec ps) x].
  elim=> [|r rs' IH] ps t o Hr Ip Pp; rewrite [map _ _]/=; cbn [Session.session].
    case F1: Session.perform => [[[t1 q1]|e]|] //= -[_ <-].
    have [ps1 [sp1 [[Ep Eo] _ Q1]]] := perform_product Sq Ss Sf Se tot Srand Hm c0 a0 l0 nx0 ny0 p0 b1 ni Hp Pp (forward_ask Hmeas) F1.
    subst ps1 sp1; case: q1 Q1 F1 => [|d2 [|d3 q1]] //=; [move=> [V1 _] _|by case].
    by exists [::], d2, (p_vec ps).
  case F1: Session.perform => [[[t1 q1]|e]|] //; case F2: Session.session => [[[t2 q2]|e]|] // -[Et <-]; subst t2.
  have [ps1 [P2 I2] D] := perform_cools Ip Pp (Hr r (or_introl erefl)) F1.
  have [o3 [d' [v' [-> V' D']]]] := IH ps1 t1 q2 (fun y Hy => Hr y (or_intror Hy)) I2 P2 F2.
  by exists (cat q1 o3), d', v'; rewrite rcons_cat; split=> // x Hx; apply: le_trans (D' x Hx) (D x Hx).
have [o3 [d' [v' [-> V' D]]]] := tail rs ps0 s1 o2 Hrs Ii P1 E2.
exists d, o3, d', ((\sum_(x <- build_site_list nx ny) site_energy u one (p_vec ps0) x) / (nx * ny)%:R), ((\sum_(x <- build_site_list nx ny) site_energy u one v' x) / (nx * ny)%:R).
split=> //; [exact: energy_value Mm V0|exact: energy_value Mm V'|].
rewrite ler_pmul2r ?invr_gt0 ?ltr0n ?muln_gt0 ?nx0 //.
have {D} : forall x, List.In x (build_site_list nx ny) -> site_energy u one v' x <= site_energy u one (p_vec ps0) x by move=> x /in_site_list; apply: D.
elim: (build_site_list nx ny) => [|x l IH] D; rewrite ?big_nil ?big_cons //.
by apply: ler_add; [apply: D; left|apply: IH => y Hy; apply: D; right].
Qed.

Hypothesis Tu : u_type u = "simple".
Hypothesis Tp : svd_type (u_ctm u) = "full-rank".
Hypothesis k0 : 0 <= svd_cutoff (u_ctm u).
Hypothesis k1 : svd_cutoff (u_ctm u) < 1.

Lemma forward_kind r : forward r -> request_kind trand noise u r -> kind trand noise u (split_as mexp u one r) (call_of r).
Proof using Hh.
case: r => //= th bl0 st dtau steps [_ [d0 L]] Hk; split=> // y w Hy Hw.
have [S1 [S2 _]] := bond_list_adjacent _ _ _ Hy.
rewrite /local /= /factors; case: ifP => _ /=; first by split; apply: law_nonzero => //; apply: ger0_real.
by have L1 : nonzero u (act p (ent (1%:M : 'M[C]_p)) w) by case: Hw => q Hq N; exists q; rewrite ?act_1.
Qed.

(** C100.  With the simple update these sessions do not fail. *)
Theorem C100_succeeds rs ps (s : state) : product u ps s -> alive u (p_vec ps) ->
  (forall r, List.In r rs -> forward r /\ request_kind trand noise u r) -> exists s' out, session (map call_of rs) s = Some (Ok (s', out)).
Proof using Sq Ss Sf Se Hm tot c0 a0 p0 ni Hp l0 b1 Srand nx0 ny0 Sh H2 Hh Tu Tp k0 k1.
elim: rs ps s => [|r rs IH] ps s Hs Ha Hc; first by exists s, [::].
have [Hx Hk] := Hc r (or_introl erefl).
have Kx := forward_kind Hx Hk.
have [s1 [o1 [E1 A1]]] := perform_total randn lchol rtol fuel empty Sq Ss Sf Se tot Srand Hm c0 a0 l0 nx0 ny0 p0 b1 ni Hp Tu Tp k0 k1 Hs Ha (forward_ask Hx) Kx.
have [ps1 [sp1 [H1 P1 R1]]] := perform_product Sq Ss Sf Se tot Srand Hm c0 a0 l0 nx0 ny0 p0 b1 ni Hp Hs (forward_ask Hx) E1.
have [s2 [o2 E2]] := IH ps1 s1 P1 (A1 _ _ H1) (fun y Hy => Hc y (or_intror Hy)).
by cbn [map Session.session]; rewrite E1 E2; exists s2, (cat o1 o2).
Qed.
End Sessions.

(** ---- a case ---- *)
Section Example.
Variable C : numClosedFieldType.
Notation tensor := (tensor C).

(** the term diag(0, 1) on every site, a step of 4, and a diagonal exponential with
    the values 1, 1/2 and 1/4 at 0, -1 and -2 *)
Definition level : tensor := Tensor [:: 2; 2]%N (fun i => ((nth 0%N i 0 == 1%N) && (nth 0%N i 1 == 1%N))%:R).
Definition halving (a : C) : C := if a == 0 then 1 else if a == -1 then 2%:R^-1 else 4%:R^-1.
Definition halve (n : nat) (A : 'M[C]_n) : 'M[C]_n := \matrix_(i, j) if i == j then halving (A i i) else 0.

Lemma halving0 : halving 0 = 1. Proof. by rewrite /halving eqxx. Qed.
Lemma halving1 : halving (-1) = 2%:R^-1. Proof. by rewrite /halving oppr_eq0 oner_eq0 eqxx. Qed.
Lemma halving2 : halving (-1 - 1) = 4%:R^-1.
Proof.
have -> : -1 - 1 = - 2%:R :> C by rewrite -opprD.
by rewrite /halving oppr_eq0 eqr_opp pnatr_eq0 -[1]/(1%:R) eqr_nat.
Qed.

Lemma level_mx (i j : 'I_2) : mx_of 2 2 level i j = ((i == j) && (i == 1))%:R.
Proof. by rewrite mxE /=; case: i => -[|[|]] //= ?; case: j => -[|[|]]. Qed.

Lemma step_of : - 4%:R / 4%:R = -1 :> C.
Proof. by rewrite mulNr divff // pnatr_eq0. Qed.

Lemma halve_level (i j : 'I_2) : halve (-1 *: mx_of 2 2 level) i j = if i == j then (if i == 1 then 2%:R^-1 else 1) else 0.
Proof.
rewrite mxE; case: eqP => // _; rewrite mxE level_mx eqxx /=.
by case: (i == 1); rewrite ?mulr1 ?mulr0 ?halving0 ?halving1.
Qed.

Lemma pair_level (i1 j1 i2 j2 : 'I_2) : (if (i1 == j1) && (i2 == j2) then halving (-1 * (mx_of 2 2 level i1 i1 + mx_of 2 2 level i2 i2)) else 0) =
  halve (-1 *: mx_of 2 2 level) i1 j1 * halve (-1 *: mx_of 2 2 level) i2 j2.
Proof.
rewrite !halve_level; case: (i1 == j1); rewrite ?mul0r //; case: (i2 == j2); rewrite ?mulr0 // !level_mx !eqxx /=.
have H4 : 2%:R^-1 * 2%:R^-1 = 4%:R^-1 :> C by rewrite -invfM -natrM.
case: (i1 == 1); case: (i2 == 1); rewrite ?addr0 ?add0r ?mulr0 ?mulr1 ?mul1r ?halving0 ?halving1 // mulrDr mulr1 halving2 H4 //.
Qed.

Lemma row_level (v : 'rV[C]_2) j : (v *m (-1 *: mx_of 2 2 level)) 0 j = if j == 1 then - v 0 j else 0.
Proof.
rewrite mxE (bigD1 j) //= big1 ?addr0 => [|i /negbTE N]; last by rewrite mxE level_mx N !mulr0.
by rewrite mxE level_mx eqxx /=; case: (j == 1); rewrite ?mulr1 ?mulrN1 ?mulr0.
Qed.
Lemma row_halve (v : 'rV[C]_2) j : (v *m halve (-1 *: mx_of 2 2 level)) 0 j = if j == 1 then v 0 j / 2%:R else v 0 j.
Proof.
rewrite mxE (bigD1 j) //= big1 ?addr0 => [|i /negbTE N]; last by rewrite halve_level N mulr0.
by rewrite halve_level eqxx; case: (j == 1); rewrite ?mulr1.
Qed.

(** the eigenvalues are 0 and -1 *)
Lemma levels a : eigenvalue_of (-1 *: mx_of 2 2 level) a -> a = 0 \/ a = -1.
Proof.
case=> w N E; have R j : (w *m (-1 *: mx_of 2 2 level)) 0 j = a * w 0 j by rewrite E mxE.
have [Z|Z] := eqVneq (w 0 1) 0.
  left; apply/eqP; apply: contraNT N => Na; apply/eqP/rowP => j; rewrite [RHS]mxE.
  have [->//|N1] := eqVneq j 1; move: (R j); rewrite row_level (negbTE N1) => /esym/eqP.
  by rewrite mulf_eq0 (negbTE Na) => /eqP.
by right; apply: (mulIf Z); rewrite -(R 1) row_level eqxx mulN1r.
Qed.

Example C100_law nx ny : let u := cell_setup C nx ny in let one := fun _ : site => Some level in
  [/\ cooling_law halve u one 4%:R, hermitian u one &
   let v := const_mx 1 : 'rV[C]_2 in let h := mx_of 2 2 level in
   value h v = 2%:R^-1 /\ value h (v *m halve (- 4%:R / 4%:R *: h)) = 5%:R^-1].
Proof.
move=> u one; have p2 : 0 < 2%:R^-1 :> C by rewrite invr_gt0 ltr0n.
split.
- rewrite /cooling_law step_of; split.
  + apply/matrixP => i j; rewrite !mxE; case: eqP => // _; exact: halving0.
  + move=> x y _ _; rewrite -![term _ _ _]/(mx_of 2 2 level).
    apply/matrixP => i j; rewrite [LHS]mxE kmxP.
    set h : 'M[C]_(u_phys u) := mx_of 2 2 level.
    have D : (-1 *: (kmx h 1%:M + kmx 1%:M h)) i i = -1 * (h (Ordinal (proj1 (div_lt i))) (Ordinal (proj1 (div_lt i))) + h (Ordinal (proj2 (div_lt i))) (Ordinal (proj2 (div_lt i)))).
      by rewrite mxE [in LHS]mxE !kmxP !mxE !eqxx mulr1 mul1r.
    have N : (i == j) = (Ordinal (proj1 (div_lt i)) == Ordinal (proj1 (div_lt j)) :> 'I_(u_phys u)) && (Ordinal (proj2 (div_lt i)) == Ordinal (proj2 (div_lt j)) :> 'I_(u_phys u)).
      have := congr1 (fun M : 'M[C]_(u_phys u * u_phys u) => M i j) (kmx11 u); rewrite kmxP !mxE -natrM mulnb => /eqP.
      by rewrite eqr_nat; case: (i == j); case: (_ && _).
    rewrite D {}N; move: (Ordinal (proj1 (div_lt i))) (Ordinal (proj1 (div_lt j))) (Ordinal (proj2 (div_lt i))) (Ordinal (proj2 (div_lt j))) => i1 j1 i2 j2.
    exact: pair_level.
  + exists halving => x _; rewrite -![term _ _ _]/(mx_of 2 2 level); split.
      move=> v c E; apply/rowP => j; rewrite row_halve [RHS]mxE.
      have := congr1 (fun M : 'rV_2 => M 0 j) E; rewrite row_level [RHS]mxE.
      have [Z|Z] := eqVneq (v 0 j) 0; first by move=> _; rewrite Z mul0r mulr0; case: ifP.
      case: (j == 1); first by move=> X; have <- : -1 = c by [apply: (mulIf Z); rewrite mulN1r]; rewrite halving1 mulrC.
      by move/esym/eqP; rewrite mulf_eq0 (negbTE Z) orbF => /eqP ->; rewrite halving0 mul1r.
    move=> c d /levels [] -> /levels [] ->; rewrite ?halving0 ?halving1 ?p2 ?lexx ?ltr01 //.
      by rewrite oppr_ge0 ler10.
    by move=> _; rewrite invf_le1 ?ler1n ?ltr0n.
- move=> x _; rewrite -[term _ _ _]/(mx_of 2 2 level); apply/matrixP => i j; rewrite adjE !level_mx conjC_nat.
  by rewrite eq_sym; case: eqP => // ->.
- move=> v h; rewrite step_of.
  have vE j : v 0 j = 1 by rewrite mxE.
  have hE (w : 'rV[C]_2) j : (w *m h) 0 j = if j == 1 then w 0 j else 0.
    rewrite mxE (bigD1 j) //= big1 ?addr0 => [|i /negbTE Nj]; last by rewrite level_mx Nj !mulr0.
    by rewrite level_mx eqxx /=; case: (j == 1); rewrite ?mulr1 ?mulr0.
  split; rewrite /value !mxE !big_ord_recl !big_ord0 !adjE !hE ?row_halve !vE /= ?mul0r ?add0r ?addr0 ?mulr1 ?mul1r ?rmorph1 ?mulr1.
    by rewrite (Creal_ReP _ _) ?rpred1 // mul1r.
  rewrite fmorphV conjC_nat -invfM -natrM (Creal_ReP _ _) ?rpredV ?rpred_nat //.
  have n4 : 4%:R != 0 :> C by rewrite pnatr_eq0.
  have -> : 1 + 4%:R^-1 = 5%:R / 4%:R :> C by apply: (mulIf n4); rewrite mulfVK // mulrDl mul1r mulVf // -[1 in LHS]/(1%:R) -natrD.
  by rewrite invf_div mulrA mulVf // mul1r.
Qed.

Notation u := (cell_setup C 2 2).
Notation session := (@Session.session C unit (fun r _ _ => (0, r)) (@zeros_rand C) (@some_qr C) (@some_thin_svd C) (@some_full_svd C) (@some_eigh C) (@some_chol C) (fun _ _ => 0) 1 0 1 (fun _ => Tensor [::] (fun _ => 0)) u).
Notation construct := (@Session.construct C unit (@zeros_rand C) 0 u).
Notation calls := (map (call_of halve u (fun _ => Some level) (@nothing C))).
Definition levels_model : model C := Model 2 (fun _ => [::]) (fun _ => [::]) (fun _ => Some level) (@nothing C).

(** a session on a 2x2 cell, from the constructor on, for which everything asked of
    a session holds *)
Example C100_example th th' bl bl' steps steps' : Permutation bl (build_bond_list 2 2) -> Permutation bl' (build_bond_list 2 2) ->
  exists2 s, construct (@blank C) tt 3 = Ok s &
  exists s1 s' d out d' E E', [/\ session (calls [:: AskEvolve th bl (fun _ => [:: 1; 1]) 4%:R steps]) s = Some (Ok (s1, [::])),
    session (calls [:: AskMeasure levels_model; AskEvolve th' bl' (fun _ => [:: 1; 1]) 4%:R steps'; AskMeasure levels_model]) s1 = Some (Ok (s', d :: rcons out d')),
    dget "Energy" d = Some E, dget "Energy" d' = Some E' & E' <= E].
Proof.
move=> Hbl Hbl'.
have Srand r : shape (@zeros_rand C r 1 2).1 = [:: 1; 1; 1; 1; 2]%N by [].
have Srand' r : shape (@zeros_rand C r (u_bond u) 2).1 = [:: 1; 1; 1; 1; 2]%N by [].
have [s [Es Hs Us _]] := @C74_construct C unit (@zeros_rand C) 0 u Srand' isT isT (@blank C) tt 3 (fun _ _ => Order.POrderTheory.lexx 0) (Order.POrderTheory.lexx 0) isT.
exists s; first by rewrite Es.
have [v Iv Pv] := @C77_start C unit (@zeros_rand C) 0 u Srand isT erefl (@blank C) tt 3 s isT Es.
have [L Hh _] := C100_law 2 2.
have H2 : no_bonds u (@nothing C) by move=> b _; split=> //; apply/matrixP => i j; rewrite !mxE.
have Mm : measures u (fun _ => Some level) levels_model.
  have M1 : model_ok u levels_model.
    split=> [//|x _|x _]; last by split.
    by split; [move=> h [<-]|].
  by split=> //; split.
have F1 th0 bl0 n : Permutation bl0 (build_bond_list 2 2) -> forward halve u (fun _ => Some level) (AskEvolve th0 bl0 (fun _ => [:: 1; 1]) 4%:R n).
  by move=> H; split; [split|split=> //; rewrite ler0n].
have K1 th0 bl0 n : request_kind (@zeros_rand C) 0 u (AskEvolve th0 bl0 (fun _ => [:: 1; 1]) 4%:R n).
  by move=> y r2 _; exists 0%N; rewrite //= mul0r add0r oner_eq0.
have tot m (A : 'M[C]_m) : @some_eigh C m A by [].
have Hm : als_method (u_evo u) = "cholesky" \/ als_method (u_evo u) = "pinv" by right.
have ni : u_type u = "full" -> (0 < als_niter (u_evo u))%N by [].
have Hp : u_ptype u = Half \/ svd_type (u_ctm u) = "full-rank" by right.
have Ha : alive u (p_vec (PState v (build_bond_list 2 2) false)).
  by move=> x /Iv [r Hr]; exists 0%N; rewrite //= Hr // mul0r add0r oner_eq0.
have Sh (x : site) (h : tensor) : (fun _ : site => Some level) x = Some h -> shape h = [:: u_phys u; u_phys u] by case=> <-.
pose rs := [:: AskEvolve th' bl' (fun _ => [:: 1; 1]) 4%:R steps'].
pose r0 := AskEvolve th bl (fun _ => [:: 1; 1]) 4%:R steps.
have Fm : forward halve u (fun _ => Some level) (AskMeasure levels_model) by have [M1 M2 _ _] := Mm; split.
have Hrs r : List.In r (r0 :: AskMeasure levels_model :: rcons rs (AskMeasure levels_model)) -> forward halve u (fun _ => Some level) r /\ request_kind (@zeros_rand C) 0 u r.
  by case=> [<-|[<-|[<-|[<-|[]]]]]; split; [exact: F1|exact: K1|exact: Fm| |exact: F1|exact: K1|exact: Fm|].
have [s' [out E]] := @C100_succeeds C unit (fun r _ _ => (0, r)) (@zeros_rand C) _ _ _ _ (@some_chol C) (fun _ _ => 0) 1 0 0 (fun _ => Tensor [::] (fun _ => 0)) halve u
  (fun _ => Some level) (@nothing C) (@some_qr_spec C) (@some_thin_svd_spec C) (@some_full_svd_spec C) (@some_eigh_spec C) tot Srand Hm (Order.POrderTheory.lexx 0) (fun _ => ltr01) ltr01 isT isT isT erefl ni Hp
  Sh H2 Hh erefl erefl (Order.POrderTheory.lexx 0) ltr01 _ _ s Pv Ha Hrs.
move: E; rewrite map_cons; cbn [Session.session].
case E1: Session.perform => [[[s1 o1]|e]|] //; case E2: Session.session => [[[s2 o2]|e]|] // -[Es2 Eo]; subst s2.
have [ps1 [sp1 [Hc P1 R1]]] := perform_product (u := u) (@some_qr_spec C) (@some_thin_svd_spec C) (@some_full_svd_spec C) (@some_eigh_spec C) tot Srand Hm (Order.POrderTheory.lexx 0) (fun _ => ltr01) ltr01 isT isT isT erefl ni Hp Pv
  (forward_ask Sh H2 (F1 th bl steps Hbl)) E1.
have I1 : s_init s1 by case: P1 => _ _ _ _ [_ ->]; case: Hc => x [_ -> _].
have A1 : alone u s1 by case: P1 => H1 _ H3 H4 [H5 _]; split=> //; rewrite H3.
have Z1 : o1 = [::] by case: Hc R1 => x [_ _ ->]; case: (o1).
have Hf r : List.In r rs -> forward halve u (fun _ => Some level) r by case=> [<-|[]]; exact: F1.
have [d [out' [d' [e1 [e2 [Eo2 D1 D2 Le]]]]]] := C100_session (u := u) (@some_qr_spec C) (@some_thin_svd_spec C) (@some_full_svd_spec C) (@some_eigh_spec C) tot Srand Hm (Order.POrderTheory.lexx 0) (fun _ => ltr01) ltr01 isT isT isT erefl ni Hp
  Sh H2 Hh A1 I1 Mm Hf E2.
exists s1, s', d, out', d', e1, e2; split=> //; first by cbn [map Session.session]; rewrite E1 Z1.
by rewrite -[calls _]/(calls (AskMeasure levels_model :: rcons rs (AskMeasure levels_model))) E2 Eo2.
Qed.
End Example.

Print Assumptions C100_session.
Print Assumptions C100_succeeds.
