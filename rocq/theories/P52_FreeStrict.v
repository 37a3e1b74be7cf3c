(** C100: without interactions the energy falls until every site is in an eigenstate. *)
From Coq Require Import String Ascii Permutation.
From mathcomp Require Import all_ssreflect all_algebra.
From Verif Require Import Base Lattice LatticeFacts Mover Gate GateSum P04_GateSum Tensor TN Rdm Measure MeasureFacts FullUpdate Linalg Mat Rsvd Renorm Spectral ProjFacts Als EighChol Dist Lambda Evolve P11_Measure P26_SiteUpdate Session P29_Session Ring ProductFacts P30_Product FreeCount P36_Free P46_Cooling UpdFacts P51_FreeCooling.
Set Implicit Arguments.
Unset Strict Implicit.
Unset Printing Implicit Defensive.
Import Order.POrderTheory GRing.Theory Num.Theory.
Local Open Scope ring_scope.
Local Open Scope string_scope.

(** ---- one vector ---- *)
Section Vector.
Variable C : numClosedFieldType.
Variable n : nat.
Variables h G : 'M[C]_n.

Lemma cooling_lt (e : C -> C) (v : 'rV[C]_n) : adj h = h ->
  (forall (w : 'rV[C]_n) a, w *m h = a *: w -> w *m G = e a *: w) ->
  (forall a c, eigenvalue_of h a -> eigenvalue_of h c -> a <= c -> 0 < e c <= e a) ->
  (forall a c, eigenvalue_of h a -> eigenvalue_of h c -> a < c -> e c < e a) ->
  (forall a, v *m h <> a *: v) -> value h (v *m G) < value h v.
Proof.
move=> Hh HG He Hs Nv; have [U [f [U1 fr _ [Eh _]]]] := eigh_exists Hh.
have U2 := unitC U1; pose D := \row_i f i : 'rV[C]_n; pose E := \row_i e (f i) : 'rV[C]_n.
have rowd (d : 'rV[C]_n) (i : 'I_n) (M : 'M[C]_n) : row i (diag_mx d *m M) = d 0 i *: row i M.
  by rewrite mul_diag_mx; apply/rowP => j; rewrite !mxE.
have WD : adj U *m h = diag_mx D *m adj U by rewrite Eh !mulmxA U1 mul1mx.
have ev (i : 'I_n) : row i (adj U) *m h = f i *: row i (adj U).
  by rewrite -row_mul WD rowd mxE.
have ei (i : 'I_n) : eigenvalue_of h (f i).
  exists (row i (adj U)); last exact: ev.
  apply/eqP => Z; have := congr1 (fun M : 'M_n => M i i) U1; rewrite !mxE eqxx (eq_bigr (fun=> 0)); last first.
    by move=> k _; have := congr1 (fun r : 'rV_n => r 0 k) Z; rewrite [in X in (X -> _)]mxE => ->; rewrite mxE mul0r.
  by rewrite big1 // => /eqP; rewrite eq_sym oner_eq0.
have e0 (i : 'I_n) : 0 < e (f i) by have /andP[] := He _ _ (ei i) (ei i) (lexx _).
have WG : adj U *m G = diag_mx E *m adj U.
  by apply/row_matrixP => i; rewrite row_mul (HG _ _ (ev i)) rowd mxE.
have [c Ev] : exists c, v = c *m adj U by exists (v *m U); rewrite -mulmxA U2 mulmx1.
have Er i : E 0 i \is Num.real by rewrite mxE gtr0_real.
have aE : adj (diag_mx E) = diag_mx E by apply: adj_rdiag.
pose q i := `|c 0 i| ^+ 2; pose w (i : 'I_n) := e (f i) ^+ 2.
have N0 : (v *m adj v) 0 0 = \sum_i q i.
  rewrite Ev adjM adjK -mulmxA [adj U *m _]mulmxA U1 mul1mx mxE; apply: eq_bigr => i _; by rewrite adjE -normCK.
have Q0 : (v *m h *m adj v) 0 0 = \sum_(i < n) q i * f i.
  rewrite Ev adjM adjK -!mulmxA [adj U *m (h *m _)]mulmxA WD -!mulmxA [adj U *m (U *m _)]mulmxA U1 mul1mx mulmxA diag_form.
  by apply: eq_bigr => i _; rewrite mxE.
have Evg : v *m G = c *m diag_mx E *m adj U by rewrite {1}Ev -!mulmxA WG.
have dd (a b : 'rV[C]_n) : diag_mx a *m diag_mx b = diag_mx (\row_i (a 0 i * b 0 i)).
  by rewrite mul_diag_mx; apply/matrixP => i j; rewrite !mxE mulrnAr.
have N1 : (v *m G *m adj (v *m G)) 0 0 = \sum_(i < n) q i * w i.
  rewrite Evg !adjM adjK aE -!mulmxA [adj U *m (U *m _)]mulmxA U1 mul1mx [diag_mx E *m (_ *m _)]mulmxA dd mulmxA diag_form.
  by apply: eq_bigr => i _; rewrite !mxE expr2.
have Q1 : (v *m G *m h *m adj (v *m G)) 0 0 = \sum_(i < n) q i * w i * f i.
  rewrite Evg !adjM adjK aE -!mulmxA [adj U *m (h *m _)]mulmxA WD -!mulmxA [adj U *m (U *m _)]mulmxA U1 mul1mx.
  rewrite [diag_mx D *m (_ *m _)]mulmxA dd [diag_mx E *m (_ *m _)]mulmxA dd mulmxA diag_form.
  by apply: eq_bigr => i _; rewrite !mxE /w expr2 -!mulrA [f i * _]mulrC.
have q0 i : 0 <= q i by rewrite exprn_ge0.
have w0 i : 0 < w i by rewrite exprn_gt0.
have rf : \sum_(i < n) q i * f i \is Num.real by apply: rpred_sum => i _; rewrite rpredM ?fr // ger0_real.
have rwf : \sum_(i < n) q i * w i * f i \is Num.real by apply: rpred_sum => i _; rewrite rpredM ?fr // ger0_real ?mulr_ge0 // ltW.
rewrite /value N0 N1 Q0 Q1 !(Creal_ReP _ _) //.
have [i [j [ci cj Hij]]] : exists i j : 'I_n, [/\ c 0 i != 0, c 0 j != 0 & f i < f j].
  have [i Hi] : exists i, c 0 i != 0.
    apply/existsP; apply: contra_notT (Nv 0); rewrite negb_exists => /forallP Z.
    have -> : v = 0 by rewrite Ev; suff -> : c = 0 by [rewrite mul0mx]; apply/rowP => i; rewrite [RHS]mxE; apply/eqP; move: (Z i); rewrite negbK.
    by rewrite mul0mx scaler0.
  have [j Hj Nij] : exists2 j, c 0 j != 0 & f j != f i.
    apply/exists_inP; apply: contra_notT (Nv (f i)); rewrite negb_exists_in => /forall_inP Z.
    rewrite Ev -mulmxA WD mulmxA scalemxAl; congr (_ *m _); rewrite mul_mx_diag; apply/rowP => j; rewrite !mxE.
    have [->|Nj] := eqVneq (c 0 j) 0; first by rewrite mul0r mulr0.
    by move: (Z j Nj); rewrite negbK => /eqP ->; rewrite mulrC.
  case/orP: (real_leVge (fr i (ltn_ord i)) (fr j (ltn_ord j))) => Hle; [exists i, j|exists j, i]; split=> //; rewrite lt_neqAle Hle andbT //.
  by rewrite eq_sym.
have qp k : c 0 k != 0 -> 0 < q k by move=> Hk; rewrite /q exprn_gt0 // normr_gt0.
have P0 : 0 < \sum_i q i by rewrite (bigD1 i) //=; apply: ltr_paddr; [apply: sumr_ge0|exact: qp].
have P1 : 0 < \sum_i q i * w i.
  rewrite (bigD1 i) //=; apply: ltr_paddr; last by apply: mulr_gt0; first exact: qp.
  by apply: sumr_ge0 => k _; rewrite mulr_ge0 // ltW.
rewrite ltr_pdivr_mulr // mulrAC ltr_pdivl_mulr //.
have wa (k l : 'I_n) : f k <= f l -> w l <= w k.
  by move=> Hkl; have /andP[A B] := He _ _ (ei k) (ei l) Hkl; rewrite /w ler_expn2r // nnegrE ltW.
have fa (k l : 'I_n) : f k <= f l -> - f l <= - f k by rewrite ler_opp2.
have wl : w j < w i by rewrite /w ltr_expn2r // ?nnegrE ?ltW //; apply: Hs.
have fl : - f j < - f i by rewrite ltr_opp2.
have := @chebyshev_lt C _ q (fun i => f i) w (fun i => - f i) q0 (fun i => fr i (ltn_ord i)) wa fa i j (qp i ci) (qp j cj) wl fl.
have -> : \sum_i q i * - f i = - \sum_(i < n) q i * f i by rewrite -sumrN; apply: eq_bigr => k _; rewrite mulrN.
have -> : \sum_i q i * w i * - f i = - \sum_(i < n) q i * w i * f i by rewrite -sumrN; apply: eq_bigr => k _; rewrite mulrN.
by rewrite !mulNr ltr_opp2.
Qed.
End Vector.

(** ---- the gates ---- *)
Section Gates.
Variable C : numClosedFieldType.
Notation tensor := (tensor C).
Variable mexp : forall n, 'M[C]_n -> 'M[C]_n.
Variable u : setup C.
Notation nx := (u_nx u).
Notation ny := (u_ny u).
Notation p := (u_phys u).
Notation vectors := (site -> nat -> C).
Variable one : site -> option tensor.
Notation term := (term u one).

(** the exponential takes different values at different eigenvalues of a term *)
Definition strict_law (dtau : C) : Prop := let a := - dtau / 4%:R in forall x, in_cell nx ny x -> exists e : C -> C,
  [/\ forall (v : 'rV[C]_p) c, v *m (a *: term x) = c *: v -> v *m mexp (a *: term x) = e c *: v,
      forall c, eigenvalue_of (a *: term x) c -> 0 < e c &
      forall c d, eigenvalue_of (a *: term x) c -> eigenvalue_of (a *: term x) d -> c < d -> e c < e d].
(** a bond that ends at x and has terms on both ends *)
Definition active (x : site) (b : bond) : Prop := (x = b_s1 b \/ x = b_s2 b) /\ one (b_s1 b) <> None /\ one (b_s2 b) <> None.
(** the vector at x is not an eigenvector of the term at x *)
Definition mixed (x : site) (w : nat -> C) : Prop := forall c, rowv u w *m term x <> c *: rowv u w.

Lemma factor_falls dtau x w : 0 < dtau -> strict_law dtau -> hermitian u one -> in_cell nx ny x -> mixed x w ->
  value (term x) (rowv u w *m mexp ((- dtau / 4%:R) *: term x)) < value (term x) (rowv u w).
Proof using Type.
move=> d0 L Hh Hx Hw; have [e [E1 Ep E2]] := L x Hx; set a := - dtau / 4%:R in E1 Ep E2 *.
have a0 : a < 0 by rewrite /a mulNr oppr_lt0 divr_gt0 ?ltr0n.
have sc (w' : 'rV[C]_p) c : w' *m term x = c *: w' -> w' *m (a *: term x) = (a * c) *: w'.
  by move=> E; rewrite -scalemxAr E scalerA.
have ev c : eigenvalue_of (term x) c -> eigenvalue_of (a *: term x) (a * c).
  by case=> w1 N1 W1; exists w1 => //; apply: sc.
have St c d : eigenvalue_of (term x) c -> eigenvalue_of (term x) d -> c < d -> e (a * d) < e (a * c).
  by move=> Hc Hd Hcd; apply: E2; [exact: ev|exact: ev|rewrite ltr_nmul2l].
apply: (@cooling_lt C p (term x) _ (fun c => e (a * c)) (rowv u w) (Hh x Hx)) => //.
  by move=> w' c /sc E; apply: E1.
move=> c d Hc Hd; rewrite le_eqVlt => /orP[/eqP <-|Hcd]; first by rewrite lexx andbT; apply/Ep/ev.
by rewrite (ltW (St _ _ Hc Hd Hcd)) andbT; apply/Ep/ev.
Qed.

Lemma step_falls dtau (g : gates C) b v x : 0 < dtau -> strict_law dtau -> hermitian u one -> in_cell nx ny x -> g_one g = None -> mixed x (v x) ->
  active x b -> site_energy u one (pstep u (factors mexp u one dtau) g b v) x < site_energy u one v x.
Proof using Type.
move=> d0 L Hh Hx G Hw [He [H1 H2]]; rewrite /site_energy; case Eh: (one x) => [h|]; last first.
  by case: He => E; move: H1 H2; rewrite -E Eh.
have T : mx_of p p h = term x by rewrite /P36_Free.term Eh.
have Ha : has one (b_s1 b) && has one (b_s2 b) by rewrite /has; case: (one (b_s1 b)) H1 => [?|] //; case: (one (b_s2 b)) H2.
rewrite !pexp1_value T /pstep /local G /factors Ha.
case: (site_eq_dec x (b_s2 b)) => [E2|N2].
  by rewrite /= -{}E2 rowv_act; apply: factor_falls.
case: (site_eq_dec x (b_s1 b)) => [E1|N1]; last by case: He.
by rewrite /= -{}E1 rowv_act; apply: factor_falls.
Qed.

(** other bonds leave the vector alone *)
Lemma step_rest dtau (g : gates C) b v x : g_one g = None -> ~ active x b -> rowv u (pstep u (factors mexp u one dtau) g b v x) = rowv u (v x).
Proof using Type.
move=> G Na; rewrite /pstep /local G /factors.
case Ha: (has one (b_s1 b) && has one (b_s2 b)); last first.
  case: (site_eq_dec x (b_s2 b)) => [E2|N2]; first by rewrite /= -{}E2 rowv_act mulmx1.
  by case: (site_eq_dec x (b_s1 b)) => [E1|N1] //; rewrite /= -{}E1 rowv_act mulmx1.
have [A1 A2] : one (b_s1 b) <> None /\ one (b_s2 b) <> None.
  by move: Ha; rewrite /has; case: (one (b_s1 b)) => //; case: (one (b_s2 b)).
case: (site_eq_dec x (b_s2 b)) => [E2|N2]; first by case: Na; split=> //; right.
by case: (site_eq_dec x (b_s1 b)) => [E1|N1] //; case: Na; split=> //; left.
Qed.

Lemma evolve_falls dtau (g : gates C) bl steps v x b : 0 < dtau -> cooling_law mexp u one dtau -> strict_law dtau -> hermitian u one -> in_cell nx ny x -> g_one g = None -> mixed x (v x) ->
  active x b -> List.In b bl -> (0 < steps)%N ->
  site_energy u one (pevolve u (factors mexp u one dtau) g bl steps v) x < site_energy u one v x.
Proof using Type.
move=> d0 L0 L Hh Hx G Hw Hb Hin Hs.
have {Hs Hin} : List.In b (schedule bond bl steps).
  case: steps Hs => // k _; elim: k => [|k IH]; rewrite schedule_S; apply/List.in_app_iff; [right|by left].
  by [].
rewrite /pevolve; elim: (schedule _ _ _) v Hw => [|b' l IH] v Hw //= Hl.
have mono l' v' : site_energy u one (foldl (fun v b => pstep u (factors mexp u one dtau) g b v) v' l') x <= site_energy u one v' x.
  elim: l' v' => [|b1 l' IH'] v' //=; apply: le_trans (IH' _) _; apply: step_cools => //; exact: ltW.
have [Ha|Na] : active x b' \/ ~ active x b'.
  rewrite /active; case: (site_eq_dec x (b_s1 b')) => E1; case: (site_eq_dec x (b_s2 b')) => E2; case: (one (b_s1 b')) => [?|]; case: (one (b_s2 b')) => [?|];
   by [left; split; [tauto|split]|right; case=> X [Y Z]; tauto].
  by apply: le_lt_trans (mono _ _) _; apply: step_falls.
have Hl' : List.In b l by case: Hl Na => // ->.
have R := @step_rest dtau g b' v x G Na.
have -> : site_energy u one v x = site_energy u one (pstep u (factors mexp u one dtau) g b' v) x.
  by rewrite /site_energy; case: (one x) => // h; rewrite !pexp1_value R.
by apply: IH => //; rewrite /mixed R.
Qed.
End Gates.

(** ---- sessions ---- *)
Section Sessions.
Variable C : numClosedFieldType.
Notation tensor := (tensor C).
Variable R : Type.
Variable randn : R -> forall n q : nat, 'M[C]_(n, q) * R.
Variable trand : R -> nat -> nat -> tensor * R.
Variable lqr : qr_fun C.
Variable lsvd : thin_svd_fun C.
Variable fsvd : full_svd_fun C.
Variable leigh : eigh_fun C.
Variable lchol : chol_fun C.
Variable rtol : nat -> nat -> C.
Variables (lcut noise : C).
Variable fuel : nat.
Variable empty : nat -> tensor.
Variable mexp : forall n, 'M[C]_n -> 'M[C]_n.
Variable u : setup C.
Notation nx := (u_nx u).
Notation ny := (u_ny u).
Notation p := (u_phys u).
Notation cfg := (u_evo u).
Notation state := (Session.state C R).
Variable one : site -> option tensor.
Variable two : bond -> tensor.
Hypothesis Sq : qr_spec lqr.
Hypothesis Ss : thin_svd_spec lsvd.
Hypothesis Sf : full_svd_spec fsvd.
Hypothesis Se : eigh_spec leigh.
Hypothesis tot : forall m (A : 'M[C]_m), leigh A.
Hypothesis Srand : forall r, shape (trand r 1%N p).1 = [:: 1; 1; 1; 1; p]%N.
Hypothesis Hm : als_method cfg = "cholesky" \/ als_method cfg = "pinv".
Hypothesis c0 : 0 <= positive_approx_cutoff cfg.
Hypothesis a0 : use_gauge_fix cfg -> 0 < gauge_fix_atol cfg.
Hypothesis l0 : 0 < lcut.
Hypotheses (nx0 : (0 < nx)%N) (ny0 : (0 < ny)%N) (p0 : (0 < p)%N).
Hypothesis b1 : u_bond u = 1%N.
Hypothesis ni : u_type u = "full" -> (0 < als_niter cfg)%N.
Hypothesis Hp : u_ptype u = Half \/ svd_type (u_ctm u) = "full-rank".
Hypothesis Sh : forall x h, one x = Some h -> shape h = [:: p; p].
Hypothesis H2 : no_bonds u two.
Hypothesis Hh : hermitian u one.

Notation perform := (Session.perform randn trand lqr lsvd fsvd leigh lchol rtol lcut noise fuel.+1 empty u).
Notation session := (Session.session randn trand lqr lsvd fsvd leigh lchol rtol lcut noise fuel.+1 empty u).
Notation call_of := (call_of mexp u one two).


(** C100.  If a vector is not an eigenvector of the term at its site, and the site has a
    neighbour with a term, an evolution makes the reported energy smaller. *)
Theorem C100_strict m th bl st dtau steps x b (s s' : state) out : alone u s -> s_init s -> measures u one m ->
  request_ok u (AskEvolve th bl st dtau steps) -> 0 < dtau -> cooling_law mexp u one dtau -> strict_law mexp u one dtau -> (0 < steps)%N ->
  in_cell nx ny x -> List.In b (build_bond_list nx ny) -> active one x b -> mixed u one x (own (s_net s) x) ->
  session (map call_of [:: AskMeasure m; AskEvolve th bl st dtau steps; AskMeasure m]) s = Some (Ok (s', out)) ->
  exists d d' E E', [/\ out = [:: d; d'], dget "Energy" d = Some E, dget "Energy" d' = Some E' & E' < E].
Proof using Sq Ss Sf Se Hm tot c0 a0 p0 ni Hp l0 b1 Srand nx0 ny0 Sh H2 Hh.
move=> As Ii Mm Hok d0 L0 L Hst Hx Hb Act Mix; have [M1 M2 _ _] := Mm.
have Hmeas : forward mexp u one (AskMeasure m) by split.
have Hev : forward mexp u one (AskEvolve th bl st dtau steps) by split=> //; split=> //; exact: ltW.
rewrite [map _ _]/=; cbn [Session.session].
have /alone_product Ps := As.
case E1: Session.perform => [[[s1 o1]|e]|] //; case E2: Session.perform => [[[s2 o2]|e]|] //; case E3: Session.perform => [[[s3 o3]|e]|] //= -[_ <-].
have [ps1 [sp1 [[Ep Eo] P1 R1]]] := perform_product Sq Ss Sf Se tot Srand Hm c0 a0 l0 nx0 ny0 p0 b1 ni Hp Ps (forward_ask Sh H2 Hmeas) E1.
subst ps1 sp1; case: o1 R1 E1 => [|d [|d1 o1]] //=; [move=> [V0 _] _|by case].
have [ps2 [sp2 [Hc P2 R2]]] := perform_product Sq Ss Sf Se tot Srand Hm c0 a0 l0 nx0 ny0 p0 b1 ni Hp P1 (forward_ask Sh H2 Hev) E2.
case: Hc => s0 []; rewrite [p_init _]/= Ii => -> Eps Eo; subst sp2; case: o2 R2 E2 => [|d1 o2] //= _ _.
have [ps3 [sp3 [[Ep Eo] _ R3]]] := perform_product Sq Ss Sf Se tot Srand Hm c0 a0 l0 nx0 ny0 p0 b1 ni Hp P2 (forward_ask Sh H2 Hmeas) E3.
subst ps3 sp3; case: o3 R3 E3 => [|d' [|d1 o3]] //=; [move=> [V1 _] _|by case].
exists d, d', ((\sum_(y <- build_site_list nx ny) site_energy u one (own (s_net s)) y) / (nx * ny)%:R), ((\sum_(y <- build_site_list nx ny) site_energy u one (p_vec ps2) y) / (nx * ny)%:R).
split=> //; [exact: energy_value Mm V0|exact: energy_value Mm V1|].
rewrite ltr_pmul2r ?invr_gt0 ?ltr0n ?muln_gt0 ?nx0 //.
have Hb' : List.In b (s_bonds s) by have [_ Pb _] := As; apply: Permutation_in (Permutation_sym Pb) Hb.
have Lt : site_energy u one (p_vec ps2) x < site_energy u one (own (s_net s)) x.
  by rewrite Eps; apply: evolve_falls Act Hb' Hst.
have Le y : List.In y (build_site_list nx ny) -> site_energy u one (p_vec ps2) y <= site_energy u one (own (s_net s)) y.
  by move/in_site_list => Hy; rewrite Eps; apply: evolve_cools => //; exact: ltW.
have /in_site_list Hi := Hx.
elim: (build_site_list nx ny) Le Hi => [|y l IH] Le //= Hi; rewrite !big_cons.
have Lel : \sum_(z <- l) site_energy u one (p_vec ps2) z <= \sum_(z <- l) site_energy u one (own (s_net s)) z.
  have {IH Hi} : forall z, List.In z l -> site_energy u one (p_vec ps2) z <= site_energy u one (own (s_net s)) z by move=> z Hz; apply: Le; right.
  elim: l {Le} => [|z l IH] D; rewrite ?big_nil ?big_cons //.
  by apply: ler_add; [apply: D; left|apply: IH => y' Hy; apply: D; right].
case: Hi => [->|Hi]; first exact: ltr_le_add.
by apply: ler_lt_add; [apply: Le; left|apply: IH => // z Hz; apply: Le; right].
Qed.
End Sessions.

(** the case of C100_law and C100_example: there the law is strict, every bond is active at
    its ends, and the vector (1, 1) is not an eigenvector *)
Example C100_strict_law (C : numClosedFieldType) nx ny : let u := cell_setup C nx ny in let one := fun _ : site => Some (level C) in
  [/\ strict_law (@halve C) u one 4%:R, forall b, active one (b_s1 b) b /\ active one (b_s2 b) b & forall x, mixed u one x (fun _ => 1)].
Proof.
move=> u one; split; first 1 last.
- by move=> b; split; split=> //; [left|right].
- move=> x c; rewrite -[term _ _ _]/(mx_of 2 2 (level C)) => E.
  have V j : (rowv u (fun _ => 1) *m (-1 *: mx_of 2 2 (level C))) 0 j = - c by rewrite -scalemxAr E !mxE mulr1 mulN1r.
  have := V 0; rewrite row_level /= => /esym/eqP; rewrite oppr_eq0 => /eqP Z.
  by have := V 1; rewrite row_level /= mxE Z oppr0 => /eqP; rewrite oppr_eq0 oner_eq0.
move=> x _; rewrite step_of -![term _ _ _]/(mx_of 2 2 (level C)); exists (@halving C).
have p2 : 0 < 2%:R^-1 :> C by rewrite invr_gt0 ltr0n.
split.
- move=> v c E; apply/rowP => j; rewrite row_halve [RHS]mxE.
  have := congr1 (fun M : 'rV_2 => M 0 j) E; rewrite row_level [RHS]mxE.
  have [Z|Z] := eqVneq (v 0 j) 0; first by move=> _; rewrite Z mul0r mulr0; case: ifP.
  case: (j == 1); first by move=> X; have <- : -1 = c by [apply: (mulIf Z); rewrite mulN1r]; rewrite halving1 mulrC.
  by move/esym/eqP; rewrite mulf_eq0 (negbTE Z) orbF => /eqP ->; rewrite halving0 mul1r.
- by move=> c /levels [] ->; rewrite ?halving0 ?halving1 ?ltr01.
move=> c d /levels [] -> /levels [] ->; rewrite ?ltxx // ?halving0 ?halving1.
  by rewrite oppr_gt0 ltr10.
by move=> _; rewrite invf_lt1 ?ltr1n ?ltr0n.
Qed.

Print Assumptions C100_strict.
