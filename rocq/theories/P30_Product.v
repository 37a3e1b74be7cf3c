(** C76-C77: sessions with bond dimension 1 are exact product-state dynamics. *)
From Coq Require Import String Ascii Permutation.
From mathcomp Require Import all_ssreflect all_algebra.
From Verif Require Import Base Lattice LatticeFacts Mover Tensor TN Rdm RdmFacts Fits EinsumLin Measure MeasureFacts FullUpdate Linalg Mat Rsvd RsvdFacts Renorm RenormFacts Spectral ProjFacts Psd Als AlsFacts EighChol UpdFacts InitFacts ProductState Dist Lambda Evolve P05_Mover MoveShape P08_Control P09_Rdm P11_Measure P13_Renorm P16_Als P17_Reduced P18_Positive P19_Gauge Eckart P20_Simple P22_SimpleUpdate P23_Solver P24_FullUpdate P26_SiteUpdate Session P29_Session Ring ProductFacts.
Set Implicit Arguments.
Unset Strict Implicit.
Unset Printing Implicit Defensive.

(** ---- what measuring a product state gives ---- *)
Section Values.
Variable C : numClosedFieldType.
Notation tensor := (tensor C).
Notation net := (Mover.net tensor).
Import GRing.Theory Num.Theory.
Local Open Scope ring_scope.
Local Open Scope string_scope.
Variables nx ny p : nat.

(** expectation values of the transposed operator (C63) in the product state with
    the vectors v *)
Definition pexp1 (v : site -> nat -> C) (s : site) (op : tensor) : C :=
  'Re (\sum_(i < p) \sum_(j < p) (v s i)^* * at_ op [:: nat_of_ord j; nat_of_ord i] * v s j) / \sum_(q < p) `|v s q| ^+ 2.
Definition pexp2 (v : site -> nat -> C) (s1 s2 : site) (op : tensor) : C :=
  'Re (\sum_(i < p) \sum_(i' < p) \sum_(j < p) \sum_(j' < p)
         (v s1 i * v s2 i')^* * at_ op [:: (j * p + j')%N; (i * p + i')%N] * (v s1 j * v s2 j'))
  / \sum_(q < p) \sum_(r < p) `|v s1 q * v s2 r| ^+ 2.

Notation sites := (build_site_list nx ny).
Notation bonds := (build_bond_list nx ny).

(** the energy per site and the averages over the sites and over the bonds *)
Definition product_values (m : model C) (v : site -> nat -> C) (d : dict C) : Prop :=
  [/\ dget "Energy" d = Some ((\sum_(s <- sites) (if one_site_hamiltonian m s is Some h then pexp1 v s h else 0) +
        \sum_(b <- bonds) pexp2 v (b_s1 b) (b_s2 b) (two_site_hamiltonian m b)) / (nx * ny)%:R),
      forall X, inks X (keys (one_site_observables m (0, 0)%N)) ->
        dget X d = Some ((\sum_(s <- sites) named (pexp1 v s) X (one_site_observables m s)) / (nx * ny)%:R),
      forall X b0, List.In b0 bonds -> inks X (keys (two_site_observables m b0)) ->
        dget X d = Some ((\sum_(b <- bonds) named (pexp2 v (b_s1 b) (b_s2 b)) X (two_site_observables m b)) / (2 * (nx * ny))%:R) &
      forall X b0, List.In b0 bonds -> ~~ inks X (keys (one_site_observables m (0, 0)%N)) ->
        ~~ inks X (keys (two_site_observables m b0)) -> X <> "Energy" -> dget X d = None].

(** observable names are distinct *)
Definition names_ok (m : model C) : Prop :=
  [/\ forall s, uniq_keys (keys (one_site_observables m s)), forall b, uniq_keys (keys (two_site_observables m b)),
      ~~ inks "Energy" (keys (one_site_observables m (0, 0)%N)) &
      forall b, List.In b bonds -> ~~ inks "Energy" (keys (two_site_observables m b)) /\
        forall X, ~~ (inks X (keys (one_site_observables m (0, 0)%N)) && inks X (keys (two_site_observables m b)))].

Definition vec2 (v : site -> nat -> C) s : C := \sum_(q < p) `|v s q| ^+ 2.

Lemma prod_site v s : in_cell nx ny s -> exists2 rho, build_site_rdm (prod_net p v) s = Ok rho &
  [/\ shape rho = [:: p; p], 'Re (tr1 p rho) = vec2 v s & forall op, exp1 p rho op = pexp1 v s op].
Proof.
move=> Is; have [rho [f [E F Sr T]]] := C31_site_rdm (prod_fits p v) Is; exists rho => //.
have R P q : (P < p)%N -> (q < p)%N -> at_ rho [:: P; q] = (v s P)^* * v s q.
  move=> HP Hp; case: T => Ss ->; last by rewrite Sr /= HP Hp.
  move: F; rewrite /einsum /= ; case: ifP => // _ [<-] /=; rewrite /sumn !big_ord1 /= /factor /=.
  by rewrite !mul1r mulrC.
have Tr : 'Re (tr1 p rho) = vec2 v s.
  rewrite (_ : tr1 p rho = vec2 v s).
    by apply: Creal_ReP; apply: ger0_real; apply: sumr_ge0 => q _; apply: exprn_ge0.
  by apply: eq_bigr => q _; rewrite R // normCKC.
split=> // op; rewrite /exp1 Tr; congr ('Re _ / _).
by apply: eq_bigr => P _; apply: eq_bigr => q _; rewrite R // mulrAC.
Qed.

Lemma prod_bond v s1 k empty : in_cell nx ny s1 -> (k < 4)%N -> let s2 := nbr nx ny k s1 in
  exists2 rho, build_bond_rdm empty (prod_net p v) (Bond s1 s2 k) = Ok rho &
  [/\ shape rho = [:: p; p; p; p], 'Re (tr2 p rho) = \sum_(q < p) \sum_(r < p) `|v s1 q * v s2 r| ^+ 2 & forall op, exp2 p rho op = pexp2 v s1 s2 op].
Proof.
move=> Is Hk s2; have [rho [f [u [E F _ T [_ Sf]]]]] := C32_bond_rdm empty (prod_fits p v) Is Hk; exists rho => //.
have Sr : shape rho = [:: p; p; p; p] by case: T => ->.
have R P Q r q : (P < p)%N -> (Q < p)%N -> (r < p)%N -> (q < p)%N ->
    at_ rho [:: P; Q; r; q] = (v s1 P * v s2 Q)^* * (v s1 r * v s2 q).
  move=> HP HQ Hp Hq; case: T => Ss ->; last by rewrite Sr /= HP HQ Hp Hq.
  have X : at_ f [:: P; Q; r; q] = v s1 r * ((v s1 P)^* * (v s2 q * (v s2 Q)^*)).
    move: F; rewrite -/s2; clearbody s2; clear -Hk; case: k Hk => [|[|[|[|]]]] // _; rewrite /einsum /=;
      (case: ifP => // _ [<-] /=); by rewrite /sumn !big_ord1 /= /factor /= !mul1r.
  by rewrite X rmorphM [in RHS]mulrC !mulrA; congr (_ * _); rewrite mulrAC.
have Tr : 'Re (tr2 p rho) = \sum_(q < p) \sum_(r < p) `|v s1 q * v s2 r| ^+ 2.
  rewrite (_ : tr2 p rho = \sum_(q < p) \sum_(r < p) `|v s1 q * v s2 r| ^+ 2).
    by apply: Creal_ReP; apply: ger0_real; apply: sumr_ge0 => q _; apply: sumr_ge0 => r _; apply: exprn_ge0.
  by apply: eq_bigr => q _; apply: eq_bigr => r _; rewrite R // normCKC.
split=> // op; rewrite /exp2 Tr; congr ('Re _ / _).
by do 4 (apply: eq_bigr => ? _); rewrite R // mulrAC.
Qed.

Lemma for_in A S (l : seq A) (body : A -> S -> res S) x y a : for_each l body x = Ok y -> List.In a l -> exists x' y', body a x' = Ok y'.
Proof.
elim: l x => [|b l IH] x //=; case E: (body b x) => [x'|] //= H [<-|Ha]; [by exists x, x'|exact: IH H Ha].
Qed.

Lemma split2 (v : site -> nat -> C) s1 s2 : \sum_(q < p) \sum_(r < p) `|v s1 q * v s2 r| ^+ 2 = vec2 v s1 * vec2 v s2.
Proof.
rewrite /vec2 mulr_suml; apply: eq_bigr => q _; rewrite mulr_sumr; apply: eq_bigr => r _; by rewrite normrM exprMn.
Qed.

(** a measurement with a result did not divide by zero *)
Lemma measured_alive m v (bl : seq bond) empty d : Permutation bl bonds ->
  measure m (build_site_rdm (prod_net p v)) (build_bond_rdm empty (prod_net p v)) sites bl = Ok d ->
  forall s, in_cell nx ny s -> vec2 v s != 0.
Proof.
move=> HP; rewrite /measure; case: calculate_one_site_measurements => [a|] //; rewrite [bind (Ok a) _]/bind.
case E: calculate_two_site_measurements => [a'|] // _ s Hs.
have Hb : List.In (Bond s (nbr nx ny 2 s) 2) bl.
  by apply: (Permutation_in _ (Permutation_sym HP)); apply/in_bond_list; exists s; split=> //; left.
move: E; rewrite /calculate_two_site_measurements; case Ebl : bl Hb => [|b0 bl'] // Hb; rewrite -Ebl in Hb *.
case EF: for_each => [x|] // _; have [x' [y']] := for_in EF Hb.
have [rho -> [Sr Tr _]] := prod_bond v empty Hs (isT : (2 < 4)%N).
rewrite [bind (Ok rho) _]/bind (bond_normE Sr) [bind (Ok _) _]/bind Tr split2 /measure_bond_energy.
case: (reshape _ _) => [h|] //; rewrite [bind (Ok h) _]/bind; case: measure_two_site => [z|] //; rewrite [bind (Ok z) _]/bind /rdiv.
by case: eqP => // /eqP; rewrite mulf_eq0 negb_or => /andP[].
Qed.

End Values.

Section Measured.
Variable C : numClosedFieldType.
Notation tensor := (tensor C).
Notation net := (Mover.net tensor).
Import GRing.Theory Num.Theory.
Local Open Scope ring_scope.
Local Open Scope string_scope.
Variable u : setup C.
Notation nx := (u_nx u).
Notation ny := (u_ny u).
Notation p := (u_phys u).
Hypotheses (nx0 : (0 < nx)%N) (ny0 : (0 < ny)%N).
Notation sites := (build_site_list nx ny).
Notation bonds := (build_bond_list nx ny).

Lemma measured_product m v (n : net) (bl : seq bond) empty d : ring_ok nx ny p n -> tracks nx ny p v n -> Permutation bl bonds -> model_ok u m -> names_ok nx ny m ->
  measure m (build_site_rdm n) (build_bond_rdm empty n) sites bl = Ok d -> product_values nx ny p m v d.
Proof using nx0 ny0.
move=> Hn Ht HP [Md M1 M2] [N1 N2 N3 N4].
rewrite (@measure_scaled C m (build_site_rdm (prod_net p v)) _ (build_bond_rdm empty (prod_net p v))); first last.
- by move=> b Hb; have [s [k [Hs Hk ->]]] := bond_in HP Hb; apply: bond_same.
- by move=> s /in_site_list Hs; apply: (site_same Hn Ht Hs).
move=> E; have A := measured_alive HP E.
pose rho1 s : tensor := if build_site_rdm (prod_net p v) s is Ok r then r else Tensor [::] (fun _ => 0).
pose rho2 b : tensor := if build_bond_rdm empty (prod_net p v) b is Ok r then r else Tensor [::] (fun _ => 0).
have G1 s : List.In s sites -> site_good m (build_site_rdm (prod_net p v)) s (rho1 s) /\ forall op, exp1 p (rho1 s) op = pexp1 p v s op.
  move=> /in_site_list Hs; have [r Er [Sr Tr Xr]] := prod_site p v Hs; rewrite /rho1 Er; split=> //.
  have [H1 [H2 _]] := M1 s Hs; split=> //; rewrite Md ?Tr ?A //; apply: all_In => kv Hkv; by rewrite H2.
have G2 b : List.In b bl -> bond_good m (build_bond_rdm empty (prod_net p v)) b (rho2 b) /\ forall op, exp2 p (rho2 b) op = pexp2 p v (b_s1 b) (b_s2 b) op.
  move=> Hb; have Hb' : List.In b bonds by apply: Permutation_in HP Hb.
  have [H1 [H2 _]] := M2 b Hb'; have [s [k [Hs Hk Eb]]] := bond_in HP Hb; subst b.
  have [r Er [Sr Tr Xr]] := prod_bond p v empty Hs Hk; rewrite /rho2 Er; split=> //.
  split=> //; rewrite Md ?Tr //; first by rewrite split2 mulf_neq0 ?A //; apply: nbr_cell.
  by apply: all_In => kv Hkv; rewrite H2.
have Hbl b : List.In b bl -> List.In b bonds by apply: Permutation_in HP.
have S0 : sites <> [::].
  have : List.In (0, 0)%N sites by apply/in_site_list; split; apply/ltP.
  by case: sites.
have B0 : bl <> [::].
  have : List.In (Bond (0, 0)%N (nbr nx ny 2 (0, 0)%N) 2) bl.
    apply: (Permutation_in _ (Permutation_sym HP)); apply/in_bond_list; exists (0, 0)%N; split; last by left.
    by split; apply/ltP.
  by case: (bl).
have Zs : size sites = (nx * ny)%N by rewrite -[size _]/(List.length _) length_site_list.
have Zb : size bl = (2 * (nx * ny))%N by rewrite (perm_size HP) -[size _]/(List.length _) length_bond_list.
case: bl HP E A G2 Hbl B0 Zb => [|b0 bl'] // HP E A G2 Hbl _ Zb.
have Hb0 : List.In b0 bonds by apply: Hbl; left.
have K1 s : List.In s sites -> forall X, inks X (keys (one_site_observables m s)) = inks X (keys (one_site_observables m (0, 0)%N)).
  by move=> /in_site_list Hs X; have [_ [_ ->]] := M1 s Hs.
have K2 b : List.In b bonds -> forall X, inks X (keys (two_site_observables m b)) = inks X (keys (two_site_observables m b0)).
  by move=> Hb X; have [_ [_ H]] := M2 b Hb; rewrite (H b0 Hb0).
have [a [Ea V1 V2 V3 V4]] := @C27_averages C m _ _ rho1 rho2 sites b0 bl' (fun s Hs => proj1 (G1 s Hs)) (fun b Hb => proj1 (G2 b Hb)) S0 N1 N2
  K1 (fun b Hb => K2 b (Hbl b Hb)) N3 (proj1 (N4 b0 Hb0)) (proj2 (N4 b0 Hb0)).
move: E; rewrite Ea => -[?]; subst a; split.
- rewrite V1 Zs; congr (Some ((_ + _) / _)).
    apply: eq_big_In => s Hs; rewrite /site_energy; case: one_site_hamiltonian => // h; by rewrite Md (proj2 (G1 s Hs)).
  rewrite /sum_bond_energy -(perm_sum _ HP); apply: eq_big_In => b Hb; by rewrite /bond_energy Md (proj2 (G2 b Hb)).
- move=> X HX; rewrite V2 // Zs; congr (Some (_ / _)); apply: eq_big_In => s Hs.
  by rewrite /named; case: dget => // op; rewrite Md (proj2 (G1 s Hs)).
- move=> X b Hb; rewrite K2 // => HX; rewrite V3 // Zb; congr (Some (_ / _)); rewrite /sum_bond -(perm_sum _ HP); apply: eq_big_In => b' Hb'.
  by rewrite /named; case: dget => // op; rewrite Md (proj2 (G2 b' Hb')).
by move=> X b Hb H1; rewrite K2 // => H2 H3; apply: V4.
Qed.

(** a measurement of vectors that are not zero succeeds *)
Lemma measured_total m v (n : net) (bl : seq bond) empty : ring_ok nx ny p n -> tracks nx ny p v n -> Permutation bl bonds -> model_ok u m -> names_ok nx ny m ->
  (forall s, in_cell nx ny s -> exists2 q, (q < p)%N & v s q != 0) -> exists d, measure m (build_site_rdm n) (build_bond_rdm empty n) sites bl = Ok d.
Proof using nx0 ny0.
move=> Hn Ht HP [Md M1 M2] [N1 N2 N3 N4] Hv.
rewrite (@measure_scaled C m (build_site_rdm (prod_net p v)) _ (build_bond_rdm empty (prod_net p v))); first last.
- by move=> b Hb; have [s [k [Hs Hk ->]]] := bond_in HP Hb; apply: bond_same.
- by move=> s /in_site_list Hs; apply: (site_same Hn Ht Hs).
have A s : in_cell nx ny s -> vec2 p v s != 0.
  move=> /Hv [q Hq N]; apply: lt0r_neq0; apply: (@sumo_gt0 _ _ _ (Ordinal Hq)) => [i|]; first exact: exprn_ge0.
  by rewrite exprn_gt0 // normr_gt0.
pose rho1 s : tensor := if build_site_rdm (prod_net p v) s is Ok r then r else Tensor [::] (fun _ => 0).
pose rho2 b : tensor := if build_bond_rdm empty (prod_net p v) b is Ok r then r else Tensor [::] (fun _ => 0).
have G1 s : List.In s sites -> site_good m (build_site_rdm (prod_net p v)) s (rho1 s).
  move=> /in_site_list Hs; have [r Er [Sr Tr Xr]] := prod_site p v Hs; rewrite /rho1 Er.
  have [H1 [H2 _]] := M1 s Hs; split=> //; rewrite Md ?Tr ?A //; apply: all_In => kv Hkv; by rewrite H2.
have G2 b : List.In b bl -> bond_good m (build_bond_rdm empty (prod_net p v)) b (rho2 b).
  move=> Hb; have Hb' : List.In b bonds by apply: Permutation_in HP Hb.
  have [H1 [H2 _]] := M2 b Hb'; have [s [k [Hs Hk Eb]]] := bond_in HP Hb; subst b.
  have [r Er [Sr Tr Xr]] := prod_bond p v empty Hs Hk; rewrite /rho2 Er.
  split=> //; rewrite Md ?Tr //; first by rewrite split2 mulf_neq0 ?A //; apply: nbr_cell.
  by apply: all_In => kv Hkv; rewrite H2.
have S0 : sites <> [::].
  have : List.In (0, 0)%N sites by apply/in_site_list; split; apply/ltP.
  by case: sites.
have B0 : bl <> [::].
  have : List.In (Bond (0, 0)%N (nbr nx ny 2 (0, 0)%N) 2) bl.
    apply: (Permutation_in _ (Permutation_sym HP)); apply/in_bond_list; exists (0, 0)%N; split; last by left.
    by split; apply/ltP.
  by case: (bl).
case: bl HP G2 B0 => [|b0 bl'] // HP G2 _.
have Hb0 : List.In b0 bonds by apply: (Permutation_in _ HP); left.
have K1 s : List.In s sites -> forall X, inks X (keys (one_site_observables m s)) = inks X (keys (one_site_observables m (0, 0)%N)).
  by move=> /in_site_list Hs X; have [_ [_ ->]] := M1 s Hs.
have K2 b : List.In b (b0 :: bl') -> forall X, inks X (keys (two_site_observables m b)) = inks X (keys (two_site_observables m b0)).
  move=> Hb X; have Hb' := Permutation_in _ HP Hb; by have [_ [_ H]] := M2 b Hb'; rewrite (H b0 Hb0).
have [a [Ea _ _ _ _]] := @C27_averages C m _ _ rho1 rho2 sites b0 bl' G1 G2 S0 N1 N2 K1 K2 N3 (proj1 (N4 b0 Hb0)) (proj2 (N4 b0 Hb0)).
by exists a.
Qed.
End Measured.

(** ---- sessions ---- *)
Section Sessions.
Variable C : numClosedFieldType.
Notation tensor := (tensor C).
Notation net := (Mover.net tensor).
Import GRing.Theory Num.Theory.
Local Open Scope ring_scope.
Local Open Scope string_scope.
Variable R : Type.
Variable randn : R -> forall n q : nat, 'M[C]_(n, q) * R.
Variable trand : R -> nat -> nat -> tensor * R.
Variable lqr : qr_fun C.
Variable lsvd : thin_svd_fun C.
Variable fsvd : full_svd_fun C.
Variable leigh : eigh_fun C.
Variable lchol : chol_fun C.
Variable rtol : nat -> nat -> C.
Variables (lcut noise : C).
Variable fuel : nat.
Variable empty : nat -> tensor.
Variable u : setup C.
Notation nx := (u_nx u).
Notation ny := (u_ny u).
Notation p := (u_phys u).
Notation cfg := (u_evo u).
Notation state := (Session.state C R).
Notation call := (call C).
Notation vectors := (site -> nat -> C).
Notation matrix2 := (nat -> nat -> C).

(** ---- specification: product-state dynamics ---- *)
(** the one-site gate of a site, if there are separate ones *)
Definition local (g : gates C) (s : site) (w : nat -> C) : nat -> C :=
  if g_one g is Some f then act p (fun i j => at_ (f s) [:: i; j]) w else w.
(** one bond gate which acts on the two sites with the matrices F; the second site
    is written last *)
Definition pstep (F : bond -> matrix2 * matrix2) (g : gates C) (b : bond) (v : vectors) : vectors := fun x =>
  if site_eq_dec x (b_s2 b) then local g (b_s2 b) (act p (F b).2 (v (b_s2 b)))
  else if site_eq_dec x (b_s1 b) then local g (b_s1 b) (act p (F b).1 (v (b_s1 b)))
  else v x.
Definition pevolve (F : bond -> matrix2 * matrix2) (g : gates C) (bl : seq bond) (steps : nat) (v : vectors) : vectors :=
  foldl (fun v b => pstep F g b v) v (schedule bond bl steps).
(** what initialisation leaves: the given vectors with noise *)
Definition initial (st : site -> seq C) (v : vectors) : Prop := forall x, in_cell nx ny x ->
  exists r, forall q, (q < p)%N -> v x q = noise * at_ (trand r 1%N p).1 [:: 0; 0; 0; 0; q]%N + nth 0 (st x) q.

(** the vectors, the bond list, whether states were initialised *)
Record pstate := PState { p_vec : vectors; p_bonds : seq bond; p_init : bool }.
Section Spec.
(** the factors of the gates *)
Variable F : gates C -> bond -> matrix2 * matrix2.
Definition pcall (c : call) (s s' : pstate) (out : seq (model C * vectors)) : Prop :=
  match c with
  | SetChi _ | Renormalize => s' = s /\ out = [::]
  | Evolve st g steps => exists s1, [/\ if p_init s then s1 = s else initial st (p_vec s1) /\ p_bonds s1 = build_bond_list nx ny,
      s' = PState (pevolve (F g) g (p_bonds s1) steps (p_vec s1)) (step_bonds bond (p_bonds s1) steps) true & out = [::]]
  | Measure m => s' = s /\ out = [:: (m, p_vec s)]
  end.
Fixpoint psession (cs : seq call) (s s' : pstate) (out : seq (model C * vectors)) : Prop :=
  match cs with
  | [::] => s' = s /\ out = [::]
  | c :: cs => exists s1 o1 o2, [/\ pcall c s s1 o1, psession cs s1 s' o2 & out = cat o1 o2]
  end.
End Spec.

Hypothesis Sq : qr_spec lqr.
Hypothesis Ss : thin_svd_spec lsvd.
Hypothesis Sf : full_svd_spec fsvd.
Hypothesis Se : eigh_spec leigh.
Hypothesis tot : forall m (A : 'M[C]_m), leigh A.
Hypothesis Srand : forall r, shape (trand r 1%N p).1 = [:: 1; 1; 1; 1; p]%N.
Hypothesis Hm : als_method cfg = "cholesky" \/ als_method cfg = "pinv".
Hypothesis c0 : 0 <= positive_approx_cutoff cfg.
Hypothesis a0 : use_gauge_fix cfg -> 0 < gauge_fix_atol cfg.
Hypothesis l0 : 0 < lcut.
Hypotheses (nx0 : (0 < nx)%N) (ny0 : (0 < ny)%N) (p0 : (0 < p)%N).
Hypothesis b1 : u_bond u = 1%N.
Hypothesis ni : u_type u = "full" -> (0 < als_niter cfg)%N.
Hypothesis Hp : u_ptype u = Half \/ svd_type (u_ctm u) = "full-rank".

(** the network is the product state of the vectors v, up to normalisation *)
Notation ring := (ring_ok nx ny p).
Notation tracks := (tracks nx ny p).
Definition product (ps : pstate) (s : state) : Prop :=
  [/\ ring (s_net s), tracks (p_vec ps) (s_net s), s_bonds s = p_bonds ps, Permutation (p_bonds ps) (build_bond_list nx ny) &
      (0 < s_chi s)%N /\ s_init s = p_init ps].

(** ---- renormalisation ---- *)
Lemma moves_ring chi ms : (0 < chi)%N -> (forall m, List.In m ms -> valid_move nx ny m) -> forall (n : net) r n' r',
  moves randn lqr lsvd fsvd (ctm_config u chi) (u_ptype u) nx ny ms (n, r) = Ok (n', r') -> ring n -> ring n'.
Proof using Sq Ss Sf Hp.
move=> H0; elim: ms => [|[k c] ms IH] Hv n r n' r'; first by case=> <- _.
have [/ltP Hk Hc] := Hv (k, c) (or_introl erefl).
rewrite /moves /run_moves /=; case E: (move_dir _ _ _ _ _ _ _ _ _ _ _ _ _ _ _) => [[n1 r1]|] //= E' Hn.
apply: (IH (fun m Hm => Hv m (or_intror Hm)) _ _ _ _ E').
apply: (@move_ring C R randn lqr lsvd fsvd (ctm_config u chi) (u_ptype u) nx ny p Sq Ss Sf H0 n n1 r r1 k c) => //.
Qed.

Lemma ctmrg_ring chi steps (n : net) r n' r' : (0 < chi)%N ->
  run_ctmrg randn lqr lsvd fsvd (ctm_config u chi) (u_ptype u) nx ny steps (n, r) = Ok (n', r') -> ring n -> ring n'.
Proof using Sq Ss Sf Hp.
move=> H0; rewrite /run_ctmrg /ctmrg; elim: (List.seq 0 steps) n r => [|i l IH] n r; first by case=> <- _.
cbn [for_each]; rewrite ctmrg_step_eq; case E: (Mover.run_moves _ _ _ _ _ _ _ _ _ _ _ _ _) => [[n1 r1]|] //= E' Hn.
exact: (IH _ _ E' (moves_ring H0 (@sweep_valid nx ny) E Hn)).
Qed.

Notation renormalize := (Session.renormalize randn lqr lsvd fsvd u).
Lemma renorm_product ps s s' : product ps s -> renormalize s = Ok s' -> product ps s'.
Proof using Sq Ss Sf Hp.
case=> H1 H2 H3 H4 [H5 H6]; rewrite /renormalize; case E: run_ctmrg => [[n r]|] //= -[<-]; split=> //=.
  exact: ctmrg_ring E H1.
by move=> x Hx; rewrite (ctmrg_sites E); apply: H2.
Qed.

(** ---- one bond ---- *)
Lemma absorb_ring chi s k (n : net) r n' r' : (0 < chi)%N -> in_cell nx ny s -> (k < 4)%N ->
  absorb_pair randn lqr lsvd fsvd u chi (Bond s (nbr nx ny k s) k) (n, r) = Ok (n', r') -> ring n -> ring n' /\ forall x, n' x SA = n x SA.
Proof using Sq Ss Sf Hp.
move=> H0 Hs Hk; have Hk' : (k < 4)%coq_nat by apply/ltP.
have Hs2 : in_cell nx ny (nbr nx ny k s) by apply: nbr_cell.
rewrite /absorb_pair absorb_bond_eq //= /seq_pair.
set ms := [:: (PeanoNat.Nat.modulo (k + 2) 4, line_of k s); (PeanoNat.Nat.modulo (PeanoNat.Nat.modulo (k + 2) 4 + 2) 4, line_of k (nbr nx ny k s))].
have Hv m : List.In m ms -> valid_move nx ny m.
  have L x : in_cell nx ny x -> (line_of k x < lines_of nx ny k)%coq_nat by move=> Hx; have [] := @in_cell_bounds nx ny k x Hk' Hx.
  have := L _ Hs; have := L _ Hs2.
  by rewrite /ms; case: (k) Hk => [|[|[|[|]]]] //= _ L2 L1 [<-|[<-|[]]]; split=> //=; apply/ltP.
move=> E; have E' : moves randn lqr lsvd fsvd (ctm_config u chi) (u_ptype u) nx ny ms (n, r) = Ok (n', r').
  move: E; rewrite /moves /run_moves /ms /=.
  case: (move_dir _ _ _ _ _ _ _ _ _ _ _ _ _ _ _) => [[n1 r1]|e] //=.
  by case: (move_dir _ _ _ _ _ _ _ _ _ _ _ _ _ _ _) => [[n2 r2]|e].
move=> Hn; split; [exact: moves_ring E' Hn|exact: moves_sites E'].
Qed.

Lemma write_ring (n : net) x (a1 a2 : tensor) : flat p a1 -> flat p a2 -> ring n -> ring (write_pair x a1 a2 n).
Proof.
move=> F1 F2 [g Hg]; exists g => s Hs; have [HA H] := Hg s Hs; rewrite /write_pair /upd.
split=> [|k Hk]; first by case: site_eq_dec => /= _; first (by []); case: site_eq_dec.
by have := H k Hk; do 2 case: site_eq_dec.
Qed.

Lemma write_tracks F g (n : net) x v (a1 a2 : tensor) : ray p (local g (b_s1 x) (act p (F x).1 (v (b_s1 x)))) a1 ->
  ray p (local g (b_s2 x) (act p (F x).2 (v (b_s2 x)))) a2 -> tracks v n -> tracks (pstep F g x v) (write_pair x a1 a2 n).
Proof.
move=> R1 R2 Hn s Hs; have := Hn s Hs; rewrite /write_pair /upd /pstep.
by case: site_eq_dec => _ //=; case: site_eq_dec => _ //=.
Qed.

(** every bond gate acts on its two sites with the given matrices *)
Definition gates_split (F : bond -> matrix2 * matrix2) (g : gates C) : Prop := forall x, List.In x (build_bond_list nx ny) ->
  splits p (F x).1 (F x).2 (g_two g x).

Lemma full_product F chi g x nr nr' bl v : (0 < chi)%N -> gates_ok u g -> gates_split F g -> u_type u = "full" -> Permutation bl (build_bond_list nx ny) ->
  List.In x bl -> ring nr.1 /\ tracks v nr.1 ->
  full_step randn lqr lsvd fsvd leigh lchol rtol fuel.+1 u chi g x nr = Some (Ok nr') -> ring nr'.1 /\ tracks (pstep F g x v) nr'.1.
Proof using Sq Ss Sf Se Hm tot c0 a0 p0 ni Hp.
case: nr => n r Hc Hg HF Tf HP Hx [Hn Hv].
have HF' : splits p (F x).1 (F x).2 (g_two g x) by apply: HF; apply: Permutation_in HP Hx.
have [s [k [Hs Hk Ex]]] := bond_in HP Hx.
have Hs2 : in_cell nx ny (nbr nx ny k s) by apply: nbr_cell.
rewrite /full_step [(n, r).1]/= [(n, r).2]/= Ex.
case E: full_bond_update => [[[a1 a2]|e]|] //=; case EA: absorb_pair => [[n1 r1]|e] //= -[<-] /=.
have := update_ray Sq Ss Sf Se tot c0 a0 Hm (ring_legs (ring_okn Hn)) Hs Hk p0 (ni Tf) _ (one_fits k Hg Hs) (Hv s Hs) (Hv _ Hs2) E.
rewrite Ex in HF'; move=> /(_ _ _ HF') [F1 Y1 F2 Y2].
have [Hr A] := absorb_ring Hc Hs Hk EA (write_ring _ F1 F2 Hn); split=> // y Hy; rewrite A.
apply: (write_tracks _ _ Hv Hy); rewrite /local.
  by move: Y1; rewrite /one_of; case: (g_one g).
by move: Y2; rewrite /one_of; case: (g_one g).
Qed.

Lemma simple_product F g x nw nw' bl v : gates_ok u g -> gates_split F g -> Permutation bl (build_bond_list nx ny) -> List.In x bl ->
  let I := fun v (nw : net * lam tensor) => [/\ ring nw.1, tracks v nw.1 & exists2 h, nw.2 = run_sets tensor h (new_lambda tensor (ones_vec u) bl) & P29_Session.vectors u h] in
  I v nw -> simple_step lqr fsvd lcut g x nw = Ok nw' -> I (pstep F g x v) nw'.
Proof using Sq Sf l0 p0 b1.
case: nw => n w Hg HF HP Hx I [Hn Hv [h Ew Hh]].
have HF' : splits p (F x).1 (F x).2 (g_two g x) by apply: HF; apply: Permutation_in HP Hx.
have [s [k [Hs Hk Ex]]] := bond_in HP Hx.
have Hs2 : in_cell nx ny (nbr nx ny k s) by apply: nbr_cell.
rewrite /= in Ew; subst x w; rewrite /simple_step [(n, _).1]/= [(n, _).2]/= [b_s1 _]/= [b_s2 _]/= [b_k _]/=.
have [w1 -> W1] := weights_ok HP Hs Hh; have [w2 -> W2] := weights_ok HP Hs2 Hh.
rewrite b1 in W1 W2; rewrite [bind (Ok w1) _]/bind [bind (Ok w2) _]/bind.
case E: simple_bond_update => [[[a1 a2] lam]|] //= -[<-] /=.
have [A1 _] := ring_okn Hn Hs; have [A2 _] := ring_okn Hn Hs2.
have [F1 Y1 F2 Y2] := simple_ray Sq Sf l0 Hk p0 HF' (one_fits k Hg Hs) A1 A2 (Hv s Hs) (Hv _ Hs2) (fun d Hd => Logic.conj (W1 d Hd) (W2 d Hd)) E.
have Sl : shape lam = [:: u_bond u].
  have M1 : matching (fun _ => 1%N) p w1 (n s SA) by [].
  have M2 : matching (fun _ => 1%N) p w2 (n (nbr nx ny k s) SA) by [].
  have [t [_ H]] := C65_simple_update Sq Sf Hk p0 l0 M1 M2 (proj1 HF') (one_fits k Hg Hs).
  by case: H => [[_]|[x1 [x2 [lam' [c' [E' [_ _ Sl] _ _ _]]]]]]; rewrite ?E // b1; move: E'; rewrite E => -[_ _ ->].
split=> /=; first exact: write_ring.
  apply: write_tracks => //; rewrite /local.
    by move: Y1; rewrite /one_of; case: (g_one g).
  by move: Y2; rewrite /one_of; case: (g_one g).
exists (cat h [:: (Bond s (nbr nx ny k s) k, lam)]); first by rewrite /run_sets List.fold_left_app.
by move=> e He; case: (List.in_app_or _ _ _ He) => [/Hh|[<-|[]]].
Qed.

(** ---- evolution ---- *)
Lemma run_sim S V (f : bond -> S -> option (res S)) (step : bond -> V -> V) (I : V -> S -> Prop) steps x bl x' bl' v :
  (forall y s v s', List.In y bl -> I v s -> f y s = Some (Ok s') -> I (step y v) s') -> I v x ->
  evolve_run f steps x bl = Some (Ok (x', bl')) -> I (foldl (fun v y => step y v) v (schedule bond bl steps)) x' /\ bl' = step_bonds bond bl steps.
Proof.
move=> Hf Hx; rewrite /evolve_run evolve_state evolve_bonds.
have G : forall l o, (forall s, o <> Some (Ok s)) -> forall s, run_updates bond (option (res S)) unit (guard f) o l <> Some (Ok s).
  by elim=> [|y l IH] o Ho //=; apply: IH; case: o Ho => [[s /(_ s)|e]|].
have L : forall l x v, (forall y, List.In y l -> List.In y bl) -> I v x -> forall x', run_updates bond (option (res S)) unit (guard f) (Some (Ok x)) l = Some (Ok x') ->
    I (foldl (fun v y => step y v) v l) x'.
  elim=> [|y l IH] z w Hl Hz z' /=; first by case=> <-.
  case E: (f y z) => [[z1|e]|] H; first by apply: (IH z1) H => [a Ha|]; [apply: Hl; right|apply: Hf E => //; apply: Hl; left].
    by case: (G l (Some (Err e)) _ z').
  by case: (G l None _ z').
case E: (run_updates _ _ _ _ _ _) => [[s|e]|] //= -[Es Eb]; split=> //.
by apply: (L _ x) => //; [move=> y; apply: in_sched|rewrite E Es].
Qed.

Lemma evolve_product F g steps ps (s s' : state) : product ps s -> gates_ok u g -> gates_split F g ->
  evolve_tensors randn lqr lsvd fsvd leigh lchol rtol lcut fuel.+1 u g steps s = Some (Ok s') ->
  product (PState (pevolve F g (p_bonds ps) steps (p_vec ps)) (step_bonds bond (p_bonds ps) steps) (p_init ps)) s'.
Proof using Sq Ss Sf Se Hm tot c0 a0 p0 ni Hp l0 b1.
case: s => n r bl chi i [/= H1 H2 H3 H4 [H5 H6]] Hg HF; rewrite /evolve_tensors /=; subst bl.
case: ifP => [/String.eqb_eq Tf|_].
  case E: evolve_run => [[[[n' r'] bl']|e]|] //= -[<-].
  have [||[] ? ? ->] := run_sim (v := p_vec ps) (step := pstep F g) (I := fun v nr => ring nr.1 /\ tracks v nr.1) _ _ E => //.
    by move=> y nr v nr' Hy Hi; apply: (full_product H5 Hg HF Tf H4 Hy Hi).
  by split=> //=; apply: perm_step.
case: ifP => [/String.eqb_eq Tf|_] //.
case E: evolve_run => [[[[n' r'] bl']|e]|] //= -[<-].
have Hi : exists2 h, new_lambda tensor (ones_vec u) (p_bonds ps) = run_sets tensor h (new_lambda tensor (ones_vec u) (p_bonds ps)) & P29_Session.vectors u h by exists [::].
have [||[] ? ? _ ->] := run_sim (v := p_vec ps) (step := pstep F g) (I := fun v nw => [/\ ring nw.1, tracks v nw.1 & exists2 h, nw.2 = run_sets tensor h (new_lambda tensor (ones_vec u) (p_bonds ps)) & P29_Session.vectors u h]) _ _ E => //.
  by move=> y nw v nw' Hy HI [HE]; apply: (simple_product Hg HF H4 Hy HI HE).
by split=> //=; apply: perm_step.
Qed.

(** ---- initial tensors ---- *)
Definition numbers (f : slot -> tensor) : Prop := flat p (f SA) /\ forall k, (k < 4)%N -> R2 1 1 (f (SC k)) /\ R4 1 1 (f (SE k)).

Lemma init_product (st : seq C) (rand : tensor) t : shape rand = [:: 1; 1; 1; 1; p]%N -> (size st <= p)%N -> init_site 1 p st noise rand = Ok t ->
  numbers (site_slots t) /\ ray p (fun q => noise * at_ rand [:: 0; 0; 0; 0; q]%N + nth 0 st q) (site_slots t SA).
Proof.
move=> Sr Hz E.
have HE : has_entry 1 p st noise rand.
  case: (boolP (has (fun q => site_raw st noise rand 0 0 0 0 q != 0) (iota 0 p))).
    by move=> /hasP[q]; rewrite mem_iota add0n => /andP[_ Hq] N; exists 0%N, 0%N, 0%N, 0%N, q.
  move=> /hasPn Z; have [_ /(_ Hz isT)] := C56_errors st noise Sr; rewrite E => H; exfalso.
  suff : @Ok (tensor * seq tensor * seq tensor) t = Err ZeroNorm by [].
  apply: H => -[l [x [r [d [q [[Hl Hx Hr Hd Hq]]]]]]].
  move: Hl Hx Hr Hd; rewrite !ltnS !leqn0 => /eqP-> /eqP-> /eqP-> /eqP->.
  by have := Z q; rewrite mem_iota add0n Hq /= => /(_ isT); rewrite negbK => ->.
have [A' [EA SA' NA [c cp VA]]] := site_ok Sr Hz HE.
have [A [Cs [Es [E' [_ _] _ HK]]]] := C56_initial_site Sr Hz HE.
move: E; rewrite E' => -[<-] /=.
have EAA : A = A'.
  move: E'; rewrite /init_site EA [bind (Ok _) _]/bind.
  by case: for_each => [?|] //; rewrite [bind (Ok _) _]/bind; case: for_each => [?|] //= -[->].
subst A'; split; last first.
  by exists c => [|q Hq]; [exact: lt0r_neq0|rewrite VA].
split=> //= k Hk; have [[SC' _ SE' _] [[a ap Va] [e ep Ve]]] := HK k Hk.
have [q Hq Nq] : exists2 q, (q < p)%N & InitFacts.turned A k 0 0 0 0 q != 0.
  case: HE => l [x [r [d [q [[Hl Hx Hr Hd Hq] N]]]]]; exists q => //.
  move: Hl Hx Hr Hd N; rewrite !ltnS !leqn0 => /eqP-> /eqP-> /eqP-> /eqP-> N.
  have : at_ A [:: 0; 0; 0; 0; q]%N != 0 by rewrite VA // mulf_neq0 // lt0r_neq0.
  by case: k Hk {HK SC' SE' Va Ve} => [|[|[|[|k]]]].
have P : 0 < \sum_(q < p) InitFacts.turned A k 0 0 0 0 q * (InitFacts.turned A k 0 0 0 0 q)^*.
  by apply: (@sumo_gt0 _ _ _ (Ordinal Hq)) => [i|]; [apply: mulc_ge0|apply: mulc_gt0].
split; split=> //; rewrite /along rmorph1 !mulr1.
  by have := Va 0%N 0%N 0%N 0%N isT isT isT isT; rewrite !big_ord1 /= => ->; rewrite mulr_gt0.
by have := Ve 0%N 0%N 0%N 0%N 0%N 0%N isT isT isT isT isT isT; rewrite !big_ord1 /= => ->; rewrite mulr_gt0.
Qed.

Lemma initialize_product st (s s' : state) : (0 < s_chi s)%N -> (forall x, in_cell nx ny x -> (size (st x) <= p)%N) ->
  initialize_site_tensors trand noise u st s = Ok s' ->
  exists2 v, initial st v & product (PState v (build_bond_list nx ny) true) s'.
Proof using Srand b1.
move=> Hc Hz; rewrite /initialize_site_tensors b1; set body := fun x nr => _.
have L : forall l (nr nr' : net * R) v (done : site -> Prop), (forall x, List.In x l -> in_cell nx ny x) ->
    (forall x, in_cell nx ny x -> List.In x l \/ done x) ->
    (forall x, done x -> [/\ numbers (nr.1 x), ray p (v x) (nr.1 x SA) & exists r, forall q, (q < p)%N -> v x q = noise * at_ (trand r 1%N p).1 [:: 0; 0; 0; 0; q]%N + nth 0 (st x) q]) ->
    for_each l body nr = Ok nr' ->
    exists v', forall x, in_cell nx ny x -> [/\ numbers (nr'.1 x), ray p (v' x) (nr'.1 x SA) & exists r, forall q, (q < p)%N -> v' x q = noise * at_ (trand r 1%N p).1 [:: 0; 0; 0; 0; q]%N + nth 0 (st x) q].
  elim=> [|x l IH] [n r] nr' v done Hl Hd Hn /=.
    by case=> <-; exists v => x Hx; case: (Hd x Hx) => // /Hn.
  have Hx : in_cell nx ny x by apply: Hl; left.
  rewrite {1}/body [(n, r).1]/= [(n, r).2]/=; case E: (trand r 1%N p) => [t r'].
  have St : shape t = [:: 1; 1; 1; 1; p]%N by have := Srand r; rewrite E.
  case EI: init_site => [a|] //=.
  have [Na Ra] := init_product St (Hz x Hx) EI.
  apply: (IH _ _ (fun y => if site_eq_dec y x then fun q => noise * at_ t [:: 0; 0; 0; 0; q]%N + nth 0 (st x) q else v y) (fun y => y = x \/ done y)) => [y Hy|y Hy|y Hy] /=.
  - by apply: Hl; right.
  - by case: (Hd y Hy) => [[->|]|]; [right; left|left|right; right].
  case: (site_eq_dec y x) => [Ey|Ne] /=; last by case: Hy => // /Hn.
  by subst y; split=> //; exists r => q Hq; rewrite E.
case E: for_each => [[n r]|] //= -[<-].
have [v Hv] := L _ _ _ (fun _ _ => 0) (fun _ => False) (fun x Hx => proj1 (in_site_list nx ny x) Hx) (fun x Hx => or_introl (proj2 (in_site_list nx ny x) Hx)) (fun x F => match F with end) E.
exists v; first by move=> x /Hv [].
split=> //=; last by move=> x /Hv [].
by exists (fun _ _ => 1) => x /Hv [[F H] _ _].
Qed.

(** ---- whole sessions ---- *)
Notation perform := (Session.perform randn trand lqr lsvd fsvd leigh lchol rtol lcut noise fuel.+1 empty u).
Notation session := (Session.session randn trand lqr lsvd fsvd leigh lchol rtol lcut noise fuel.+1 empty u).
Notation construct := (Session.construct trand noise u).

(** what may be asked: product gates of the right sizes, states that fit, models
    whose observables have distinct names *)
Definition ask_ok (F : gates C -> bond -> matrix2 * matrix2) (x : call) : Prop :=
  match x with
  | SetChi chi => (0 < chi)%N
  | Renormalize => True
  | Evolve st g _ => [/\ gates_ok u g, gates_split (F g) g & forall s, in_cell nx ny s -> (size (st s) <= p)%N]
  | Measure m => model_ok u m /\ names_ok nx ny m
  end.
(** the results, one after the other *)
Fixpoint reported (out : seq (dict C)) (spec : seq (model C * vectors)) : Prop :=
  match out, spec with
  | [::], [::] => True
  | d :: out, (m, v) :: spec => product_values nx ny p m v d /\ reported out spec
  | _, _ => False
  end.
Lemma reported_cat o1 p1 o2 p2 : reported o1 p1 -> reported o2 p2 -> reported (cat o1 o2) (cat p1 p2).
Proof. by elim: o1 p1 => [|d o1 IH] [|[m v] p1] //= [H1 H2] H3; split=> //; apply: IH. Qed.

Lemma perform_product F x ps (s s' : state) out : product ps s -> ask_ok F x -> perform x s = Some (Ok (s', out)) ->
  exists ps' sp, [/\ pcall F x ps ps' sp, product ps' s' & reported out sp].
Proof using Sq Ss Sf Se Hm tot c0 a0 p0 ni Hp l0 b1 Srand nx0 ny0.
move=> Hs; case: x => [chi|| st g steps|m] /= Hx.
- by case=> <- <-; exists ps, [::]; split=> //; case: Hs => ? ? ? ? [? ?].
- by case E: Session.renormalize => [s1|] //= -[<- <-]; exists ps, [::]; split=> //; apply: renorm_product E.
- have [Hg HF Hz] := Hx; case EE: Session.evolve => [[s3|]|] //= -[<- <-].
  move: EE; rewrite /evolve.
  have [ps1 [Hi Hs1]] : exists ps1, (if p_init ps then ps1 = ps else initial st (p_vec ps1) /\ p_bonds ps1 = build_bond_list nx ny) /\
      forall s1, (if s_init s then Ok s else initialize_site_tensors trand noise u st s) = Ok s1 -> product ps1 s1 /\ p_init ps1 = true.
    have [_ _ _ _ [Hc Ei]] := Hs; rewrite Ei; case Ep: (p_init ps); first by exists ps; split=> // s1 [<-].
    case E: initialize_site_tensors => [s1|]; last first.
      exists (PState (fun x q => noise * at_ (trand (s_rng s) 1%N p).1 [:: 0; 0; 0; 0; q]%N + nth 0 (st x) q) (build_bond_list nx ny) true).
      by split=> //; split=> // x Hx'; exists (s_rng s).
    have [v Iv Pv] := initialize_product Hc Hz E; exists (PState v (build_bond_list nx ny) true).
    by split=> // s2 [<-].
  case E1: (if s_init s then _ else _) Hs1 => [s1|] //= /(_ s1 erefl) [P1 I1].
  case E2: Session.renormalize => [s2|] //=; have P2 := renorm_product P1 E2.
  case E3: evolve_tensors => [[s4|]|] //= -[E4]; have P4 := evolve_product P2 Hg HF E3.
  have P5 := renorm_product P4 E4; rewrite I1 in P5.
  by eexists _, [::]; split; [exists ps1; split=> //|exact: P5|].
rewrite /measured; case E: measure => [d|] //= -[<- <-]; exists ps, [:: (m, p_vec ps)]; split=> //=.
by split=> //; case: Hs => H1 H2 H3 H4 _; have [M1 M2] := Hx; rewrite H3 in E; apply: (measured_product nx0 ny0 H1 H2 H4 M1 M2 E).
Qed.

(** ---- any gates ---- *)
(** bond dimension 1, boundary numbers whose phases cancel around closed rings *)
Definition alone (s : state) : Prop := [/\ ring (s_net s), Permutation (s_bonds s) (build_bond_list nx ny) & (0 < s_chi s)%N].
(** the vectors at the sites *)
Definition own (n : net) : vectors := fun x q => at_ (n x SA) [:: 0; 0; 0; 0; q]%N.
Lemma tracks_own n : tracks (own n) n.
Proof. by move=> x _; exists 1 => [|q _]; rewrite ?oner_eq0 ?mul1r. Qed.

Lemma alone_product s : alone s <-> product (PState (own (s_net s)) (s_bonds s) (s_init s)) s.
Proof. by split=> [[H1 H2 H3]|[H1 _ _ H4 [H5 _]]]; split=> //; apply: tracks_own. Qed.

Lemma alone_renorm s s' : alone s -> renormalize s = Ok s' -> alone s'.
Proof using Sq Ss Sf Hp. by move=> /alone_product Hs E; have [H1 _ H3 H4 [H5 _]] := renorm_product Hs E; split=> //; rewrite H3. Qed.

Lemma alone_tensors g steps (s s' : state) : alone s -> gates_ok u g ->
  evolve_tensors randn lqr lsvd fsvd leigh lchol rtol lcut fuel.+1 u g steps s = Some (Ok s') -> alone s'.
Proof using Sq Ss Sf Se Hm tot c0 a0 p0 Hp l0 b1.
case: s => n r bl chi i [/= H1 H2 H3] Hg; rewrite /evolve_tensors /=.
have b0 : (0 < u_bond u)%N by rewrite b1.
case: ifP => [/String.eqb_eq Tf|_].
  case E: evolve_run => [[[[n' r'] bl']|e]|] //= -[<-].
  have [||? ->] := run_sim (v := tt) (step := fun _ _ => tt) (I := fun _ nr => ring nr.1) _ _ E => //; last by split=> //=; apply: perm_step.
  move=> x [m q] _ nr' Hx /= Hn.
  have [s [k [Hs Hk Ex]]] := bond_in H2 Hx.
  have Sg : shape (g_two g x) = [:: p; p; p; p] by apply: (proj1 Hg); apply: Permutation_in H2 Hx.
  rewrite /full_step [(m, q).1]/= [(m, q).2]/= Ex.
  have Hf : fits nx ny (u_bond u) p (fun _ _ => 1%N) m by rewrite b1; apply: ring_legs; apply: ring_okn.
  rewrite Ex in Sg; have := update_ok lchol rtol fuel Sq Ss Sf Se tot Hm c0 a0 b0 p0 Hf Hs Hk Sg (one_fits k Hg Hs) Tf.
  case: full_bond_update => [[[a1 a2]|e]|] //=; rewrite b1 => -[S1 S2 _].
  case EA: absorb_pair => [[n1 r1]|e] //= -[<-] /=.
  by have [] := absorb_ring H3 Hs Hk EA (write_ring _ S1 S2 Hn).
case: ifP => [/String.eqb_eq Tf|_] //.
case E: evolve_run => [[[[n' r'] bl']|e]|] //= -[<-].
pose I := fun (_ : unit) (nw : net * lam tensor) => ring nw.1 /\ exists2 h, nw.2 = run_sets tensor h (new_lambda tensor (ones_vec u) bl) & P29_Session.vectors u h.
have Hi : I tt (n, new_lambda tensor (ones_vec u) bl) by split=> //; exists [::].
have [|[? _] ->] := run_sim (v := tt) (step := fun _ _ => tt) (I := I) _ Hi E => //; last by split=> //=; apply: perm_step.
move=> x [m w] _ nw' Hx [/= Hn [h Ew Hh]] [].
have [s [k [Hs Hk Ex]]] := bond_in H2 Hx.
have Sg : shape (g_two g x) = [:: p; p; p; p] by apply: (proj1 Hg); apply: Permutation_in H2 Hx.
have Hs2 : in_cell nx ny (nbr nx ny k s) by apply: nbr_cell.
rewrite /= in Ew; subst x w; rewrite /simple_step [(m, _).1]/= [(m, _).2]/= [b_s1 _]/= [b_s2 _]/= [b_k _]/=.
have [w1 -> W1] := weights_ok H2 Hs Hh; have [w2 -> W2] := weights_ok H2 Hs2 Hh.
rewrite b1 in W1 W2; rewrite [bind (Ok w1) _]/bind [bind (Ok w2) _]/bind.
have [A1 _] := ring_okn Hn Hs; have [A2 _] := ring_okn Hn Hs2.
have M1 : matching (fun _ => 1%N) p w1 (m s SA) by [].
have M2 : matching (fun _ => 1%N) p w2 (m (nbr nx ny k s) SA) by [].
have [t [_ H]] := C65_simple_update Sq Sf Hk p0 l0 M1 M2 Sg (one_fits k Hg Hs).
case: H => [[_ ->]|[a1 [a2 [lam [c' [-> [S1 S2 Sl] _ _ _]]]]]] //= -[<-].
split=> /=; first by apply: write_ring => //; rewrite /flat ?S1 ?S2.
exists (cat h [:: (Bond s (nbr nx ny k s) k, lam)]); first by rewrite /run_sets List.fold_left_app.
by move=> e He; case: (List.in_app_or _ _ _ He) => [/Hh|[<-|[]]] //=; rewrite b1.
Qed.

Lemma alone_perform c x (s s' : state) out : alone s -> call_ok u c x -> perform x s = Some (Ok (s', out)) -> alone s'.
Proof using Sq Ss Sf Se Hm tot c0 a0 p0 Hp l0 b1 Srand.
move=> Hs; case: x => [chi|| st g steps|m] /= Hx.
- by case=> <- _; have [/andP[Hc _] [H1 H2 _]] := (Hx, Hs).
- by case E: Session.renormalize => [s1|] //= -[<- _]; apply: alone_renorm E.
- have [Hg Hz] := Hx; case EE: Session.evolve => [[s3|]|] //= -[<- _]; move: EE; rewrite /evolve.
  have Hs1 s1 : (if s_init s then Ok s else initialize_site_tensors trand noise u st s) = Ok s1 -> alone s1.
    case: ifP => _; first by case=> <-.
    have [_ _ Hc] := Hs; move=> E; have [v _ [H1 _ H3 H4 [H5 _]]] := initialize_product Hc Hz E.
    by split=> //; rewrite H3.
  case E1: (if s_init s then _ else _) => [s1|] //=; case E2: Session.renormalize => [s2|] //=.
  case E3: evolve_tensors => [[s4|]|] //= -[E4].
  by apply: alone_renorm E4; apply: alone_tensors E3 => //; apply: alone_renorm E2; apply: Hs1.
by case: measured => [d|] //= -[<- _].
Qed.

(** C76.  With bond dimension 1, whatever gates are applied, a measurement at the
    end of a session reports exactly the values of the product state of the site
    vectors: boundary dimension, projectors and renormalisation steps play no
    role. *)
Theorem C76_mean_field c (cs : seq call) m (s s' : state) out : alone s -> (forall x, List.In x cs -> call_ok u c x) -> model_ok u m -> names_ok nx ny m ->
  session (rcons cs (Measure m)) s = Some (Ok (s', out)) -> exists out' d, out = rcons out' d /\ product_values nx ny p m (own (s_net s')) d.
Proof using Sq Ss Sf Se Hm tot c0 a0 p0 Hp l0 b1 Srand nx0 ny0.
move=> + + Mm Mn; elim: cs s out => [|x cs IH] s out Hs Hc /=.
  case E: measured => [d|] //= -[<- <-]; exists [::], d; split=> //.
  by have [H1 H2 _] := Hs; apply: (measured_product nx0 ny0 H1 (@tracks_own _) H2 Mm Mn E).
case E1: Session.perform => [[[s1 o1]|e]|] //; case E2: Session.session => [[[s2 o2]|e]|] // -[Es <-]; subst s2.
have [o [d [-> Hd]]] := IH s1 o2 (alone_perform Hs (Hc x (or_introl erefl)) E1) (fun y Hy => Hc y (or_intror Hy)) E2.
by exists (cat o1 o), d; rewrite rcons_cat.
Qed.

(** C77.  A session with bond dimension 1 whose gates act on the two sites of every
    bond separately is exact product-state dynamics: whenever it gives a result,
    the vectors at the sites are, up to normalisation, what the gates make of the
    initial vectors, and every measurement reports the values of that product
    state. *)
Theorem C77_dynamics F (cs : seq call) ps (s s' : state) out : product ps s -> (forall x, List.In x cs -> ask_ok F x) ->
  session cs s = Some (Ok (s', out)) -> exists ps' sp, [/\ psession F cs ps ps' sp, product ps' s' & reported out sp].
Proof using Sq Ss Sf Se Hm tot c0 a0 p0 ni Hp l0 b1 Srand nx0 ny0.
elim: cs ps s out => [|x cs IH] ps s out Hs Hc /=; first by case=> <- <-; exists ps, [::].
case E1: Session.perform => [[[s1 o1]|e]|] //; case E2: Session.session => [[[s2 o2]|e]|] // -[Es <-]; subst s2.
have [ps1 [sp1 [H1 P1 R1]]] := perform_product Hs (Hc x (or_introl erefl)) E1.
have [ps2 [sp2 [H2 P2 R2]]] := IH ps1 s1 o2 P1 (fun y Hy => Hc y (or_intror Hy)) E2.
exists ps2, (cat sp1 sp2); split=> //; last exact: reported_cat.
by exists ps1, sp1, sp2.
Qed.

(** the start *)
Theorem C77_start (n : net) r chi s : (0 < chi)%N -> construct n r chi = Ok s ->
  exists2 v, initial (fun _ => 1 :: nseq p.-1 0) v & product (PState v (build_bond_list nx ny) false) s.
Proof using Srand b1 p0.
move=> Hc; rewrite /construct; case E: initialize_site_tensors => [s1|] //= -[<-].
have [|v Iv [H1 H2 H3 H4 [H5 _]]] := initialize_product (st := fun _ => 1 :: nseq p.-1 0) (s := State n r [::] chi false) Hc _ E; last by exists v.
by move=> x _; rewrite /= size_nseq prednK.
Qed.

(** ---- sessions that cannot fail ---- *)
Hypothesis Tu : u_type u = "simple".
Hypothesis Tp : svd_type (u_ctm u) = "full-rank".
Hypothesis k0 : 0 <= svd_cutoff (u_ctm u).
Hypothesis k1 : svd_cutoff (u_ctm u) < 1.

Definition nonzero (w : nat -> C) : Prop := exists2 q, (q < p)%N & w q != 0.
Definition alive (v : vectors) : Prop := forall x, in_cell nx ny x -> nonzero (v x).
(** no vector is sent to zero *)
Definition kind (F : gates C -> bond -> matrix2 * matrix2) (x : call) : Prop :=
  match x with
  | Evolve st g _ => (forall y r, in_cell nx ny y -> nonzero (fun q => noise * at_ (trand r 1%N p).1 [:: 0; 0; 0; 0; q]%N + nth 0 (st y) q)) /\
      forall y w, List.In y (build_bond_list nx ny) -> nonzero w ->
        nonzero (local g (b_s1 y) (act p (F g y).1 w)) /\ nonzero (local g (b_s2 y) (act p (F g y).2 w))
  | _ => True
  end.

Lemma ray_alive w (a : tensor) : flat p a -> ray p w a -> nonzero w -> oneA p a.
Proof. by move=> Fa [c cn V] [q Hq N]; split=> //; exists q => //; rewrite V // mulf_neq0. Qed.

Lemma alive_one v n : ring n -> tracks v n -> alive v -> one_net nx ny p n.
Proof. by move=> /ring_okn Hn Hv Ha x Hx; have [H1 H2] := Hn x Hx; split=> //; apply: ray_alive (Hv x Hx) (Ha x Hx). Qed.

Lemma renorm_total ps s : product ps s -> alive (p_vec ps) -> exists2 s', renormalize s = Ok s' & product ps s'.
Proof using Sq Ss Sf Hp Tp k0 k1.
move=> Hs Ha; have [H1 H2 _ _ [H5 _]] := Hs; have On := alive_one H1 H2 Ha.
have [[n r] [E _]] := @ctmrg_one C R randn lqr lsvd fsvd (ctm_config u (s_chi s)) Tp Sf H5 k0 k1 (u_ptype u) nx ny p (u_steps u) (s_net s) (s_rng s) On.
have E' : renormalize s = Ok (State n r (s_bonds s) (s_chi s) (s_init s)) by rewrite /renormalize E.
by exists (State n r (s_bonds s) (s_chi s) (s_init s)) => //; apply: renorm_product E'.
Qed.

(** weights that are not zero *)
Definition weights1 (h : seq (bond * tensor)) : Prop := forall e, List.In e h -> shape e.2 = [:: 1%N] /\ at_ e.2 [:: 0]%N != 0.
Lemma weights_alive bl h x : Permutation bl (build_bond_list nx ny) -> in_cell nx ny x -> weights1 h ->
  exists2 w, all_weights (run_sets tensor h (new_lambda tensor (ones_vec u) bl)) x = Ok w &
    forall d, (d < 4)%N -> shape (w d) = [:: 1%N] /\ at_ (w d) [:: 0]%N != 0.
Proof using b1.
move=> HP Hx Hh.
have G y : shape (weight_of tensor (ones_vec u) h y) = [:: 1%N] /\ at_ (weight_of tensor (ones_vec u) h y) [:: 0]%N != 0.
  rewrite /weight_of; case E: (last_set _ h y) => [v|]; last by rewrite /ones_vec b1 /= oner_eq0.
  elim: h Hh E => [|[z w] h IH] Hh //=; case E: (last_set _ h y) => [v'|].
    by move=> Ev; apply: IH; [move=> e He; apply: Hh; right|rewrite E].
  by case: bond_eq_dec => // _ [<-]; apply: (Hh (z, w)); left.
have L d : (d < 4)%N -> exists2 v, get_weight tensor (run_sets tensor h (new_lambda tensor (ones_vec u) bl)) x d = Ok v & shape v = [:: 1%N] /\ at_ v [:: 0]%N != 0.
  move=> /ltP Hd; have [y [_ [_ [_ E]]]] := @C52_lookup tensor (ones_vec u) nx ny bl h x d HP Hx Hd.
  by exists (weight_of tensor (ones_vec u) h y).
have [w0 E0 H0] := L 0%N isT; have [w1 E1 H1] := L 1%N isT; have [w2 E2 H2] := L 2%N isT; have [w3 E3 H3] := L 3%N isT.
by rewrite /all_weights E0 /= E1 /= E2 /= E3 /=; eexists; first reflexivity; case=> [|[|[|[|]]]].
Qed.

Lemma local_zero g y w : ~ nonzero w -> ~ nonzero (local g y w).
Proof.
rewrite /local; case: (g_one g) => // f N [q Hq]; rewrite /act big1 ?eqxx // => i _.
by case: (eqVneq (w i) 0) => [->|Nz]; [rewrite mul0r|case: N; exists i].
Qed.

Lemma nonzero_dec w : nonzero w \/ ~ nonzero w.
Proof.
case: (boolP [exists q : 'I_p, w q != 0]) => [/existsP[q N]|N]; first by left; exists q.
by right=> -[q Hq Nq]; case/existsP: N; exists (Ordinal Hq).
Qed.

Lemma pstep_alive F g x v : (forall y w, List.In y (build_bond_list nx ny) -> nonzero w ->
    nonzero (local g (b_s1 y) (act p (F y).1 w)) /\ nonzero (local g (b_s2 y) (act p (F y).2 w))) ->
  List.In x (build_bond_list nx ny) -> alive v -> alive (pstep F g x v).
Proof.
move=> Hk Hx Ha y Hy; have [s [k [Hs Hk4 Ex]]] := bond_in (Permutation_refl _) Hx; rewrite /pstep.
have [s1 s2] : in_cell nx ny (b_s1 x) /\ in_cell nx ny (b_s2 x) by rewrite Ex /=; split=> //; apply: nbr_cell.
case: site_eq_dec => /= _; first by have [] := Hk x _ Hx (Ha _ s2).
by case: site_eq_dec => /= _; [have [] := Hk x _ Hx (Ha _ s1)|apply: Ha].
Qed.

Definition fine (bl : seq bond) (v : vectors) (nw : net * lam tensor) : Prop :=
  [/\ ring nw.1, tracks v nw.1, alive v & exists2 h, nw.2 = run_sets tensor h (new_lambda tensor (ones_vec u) bl) & weights1 h].
Lemma simple_total F g x nw bl v : gates_ok u g -> gates_split F g -> Permutation bl (build_bond_list nx ny) -> List.In x bl ->
  (forall y w, List.In y (build_bond_list nx ny) -> nonzero w ->
    nonzero (local g (b_s1 y) (act p (F y).1 w)) /\ nonzero (local g (b_s2 y) (act p (F y).2 w))) ->
  fine bl v nw -> exists2 nw', simple_step lqr fsvd lcut g x nw = Ok nw' & fine bl (pstep F g x v) nw'.
Proof using Sq Sf l0 p0 b1.
case: nw => n w Hg HF HP Hx Hki [Hn Hv Ha [h Ew Hh]].
have Hx' : List.In x (build_bond_list nx ny) by apply: Permutation_in HP Hx.
have HF' := HF x Hx'; have Ha' := pstep_alive Hki Hx' Ha.
have [s [k [Hs Hk Ex]]] := bond_in HP Hx.
have Hs2 : in_cell nx ny (nbr nx ny k s) by apply: nbr_cell.
have [N1 _] := Hki x _ Hx' (Ha s Hs); have [_ N2] := Hki x _ Hx' (Ha _ Hs2).
have [[P0 HP0 M1]|Z] := nonzero_dec (act p (F x).1 (v s)); last by case: (local_zero Z N1).
have [[Q0 HQ0 M2]|Z] := nonzero_dec (act p (F x).2 (v (nbr nx ny k s))); last by case: (local_zero Z N2).
rewrite /= in Ew; subst w; rewrite Ex in HF' M1 M2 *.
rewrite /simple_step [(n, _).1]/= [(n, _).2]/= [b_s1 _]/= [b_s2 _]/= [b_k _]/=.
have [w1 -> W1] := weights_alive HP Hs Hh; have [w2 -> W2] := weights_alive HP Hs2 Hh.
rewrite [bind (Ok w1) _]/bind [bind (Ok w2) _]/bind.
have [A1 _] := ring_okn Hn Hs; have [A2 _] := ring_okn Hn Hs2.
have [|x1 [x2 [lam [E Sl Nl]]]] := simple_alive (w1 := w1) (w2 := w2) Sq Sf l0 Hk p0 HF' (one_fits k Hg Hs) A1 A2 (Hv s Hs) (Hv _ Hs2) _ HP0 HQ0 M1 M2.
  by move=> d Hd; have [? ?] := W1 d Hd; have [? ?] := W2 d Hd.
have [F1 Y1 F2 Y2] := simple_ray Sq Sf l0 Hk p0 HF' (one_fits k Hg Hs) A1 A2 (Hv s Hs) (Hv _ Hs2) (fun d Hd => Logic.conj (proj1 (W1 d Hd)) (proj1 (W2 d Hd))) E.
rewrite E; eexists; first by reflexivity.
rewrite Ex in Ha'; split=> //=; first exact: write_ring.
  apply: write_tracks => //; rewrite /local.
    by move: Y1; rewrite /one_of; case: (g_one g).
  by move: Y2; rewrite /one_of; case: (g_one g).
exists (cat h [:: (Bond s (nbr nx ny k s) k, lam)]); first by rewrite /run_sets List.fold_left_app.
by move=> e He; case: (List.in_app_or _ _ _ He) => [/Hh|[<-|[]]].
Qed.

Lemma run_total S V (f : bond -> S -> option (res S)) (step : bond -> V -> V) (I : V -> S -> Prop) steps x bl v :
  (forall y s v, List.In y bl -> I v s -> exists2 s', f y s = Some (Ok s') & I (step y v) s') -> I v x ->
  exists2 x', evolve_run f steps x bl = Some (Ok (x', step_bonds bond bl steps)) & I (foldl (fun v y => step y v) v (schedule bond bl steps)) x'.
Proof.
move=> Hf Hx; rewrite /evolve_run evolve_state evolve_bonds.
have L : forall l x v, (forall y, List.In y l -> List.In y bl) -> I v x ->
    exists2 x', run_updates bond (option (res S)) unit (guard f) (Some (Ok x)) l = Some (Ok x') & I (foldl (fun v y => step y v) v l) x'.
  elim=> [|y l IH] z w Hl Hz /=; first by exists z.
  have [z1 -> H1] := Hf y z w (Hl y (or_introl erefl)) Hz.
  by apply: IH => // a Ha; apply: Hl; right.
have [x' -> H'] := L (schedule bond bl steps) x v (fun y => @in_sched y bl steps) Hx.
by exists x'.
Qed.

Lemma pevolve_alive F g bl v : (forall y w, List.In y (build_bond_list nx ny) -> nonzero w ->
    nonzero (local g (b_s1 y) (act p (F y).1 w)) /\ nonzero (local g (b_s2 y) (act p (F y).2 w))) -> Permutation bl (build_bond_list nx ny) ->
  forall steps, alive v -> alive (pevolve F g bl steps v).
Proof.
move=> Hk HP steps; rewrite /pevolve.
have : forall y, List.In y (schedule bond bl steps) -> List.In y (build_bond_list nx ny) by move=> y /in_sched; apply: Permutation_in.
elim: (schedule _ _ _) v => [|y l IH] v Hl Hv //=; apply: IH => [z Hz|]; first by apply: Hl; right.
by apply: pstep_alive => //; apply: Hl; left.
Qed.

Lemma evolve_total F g steps ps (s : state) : product ps s -> alive (p_vec ps) -> gates_ok u g -> gates_split F g ->
  (forall y w, List.In y (build_bond_list nx ny) -> nonzero w ->
    nonzero (local g (b_s1 y) (act p (F y).1 w)) /\ nonzero (local g (b_s2 y) (act p (F y).2 w))) ->
  exists s', evolve_tensors randn lqr lsvd fsvd leigh lchol rtol lcut fuel.+1 u g steps s = Some (Ok s').
Proof using Sq Sf p0 l0 b1 Tu.
case: s => n r bl chi i [/= H1 H2 H3 H4 [H5 H6]] Ha Hg HF Hki; rewrite /evolve_tensors /= Tu /=; subst bl.
have Hi : fine (p_bonds ps) (p_vec ps) (n, new_lambda tensor (ones_vec u) (p_bonds ps)) by split=> //; exists [::].
have [|x' -> _] := @run_total (net * lam tensor) vectors (fun b x => Some (simple_step lqr fsvd lcut g b x)) (pstep F g) (fine (p_bonds ps)) steps _ (p_bonds ps) _ _ Hi.
  by move=> y nw v Hy Hf; have [nw' -> ?] := simple_total Hg HF H4 Hy Hki Hf; exists nw'.
by case: x' => n' w /=; eexists.
Qed.

Lemma initialize_total st (s : state) : (forall x, in_cell nx ny x -> (size (st x) <= p)%N) ->
  (forall y r, in_cell nx ny y -> nonzero (fun q => noise * at_ (trand r 1%N p).1 [:: 0; 0; 0; 0; q]%N + nth 0 (st y) q)) ->
  exists s', initialize_site_tensors trand noise u st s = Ok s'.
Proof using Srand b1.
move=> Hz He; rewrite /initialize_site_tensors b1; set body := (X in for_each _ X _).
have L : forall l nr, (forall x, List.In x l -> in_cell nx ny x) -> exists nr', for_each l body nr = Ok nr'.
  elim=> [|x l IH] [n r] Hl /=; first by eexists.
  have Hx : in_cell nx ny x by apply: Hl; left.
  rewrite {1}/body [(n, r).1]/= [(n, r).2]/=; case E: (trand r 1%N p) => [t r'].
  have St : shape t = [:: 1; 1; 1; 1; p]%N by have := Srand r; rewrite E.
  have [|A [Cs [Es [-> _ _ _]]]] := C56_initial_site (D := 1) (st := st x) (noise := noise) St (Hz x Hx).
    have [q Hq N] := He x r Hx; rewrite E /= in N; exists 0%N, 0%N, 0%N, 0%N, q; split=> //.
  by apply: IH => y Hy; apply: Hl; right.
have [[n r] ->] := L _ (s_net s, s_rng s) (fun x Hx => proj1 (in_site_list nx ny x) Hx).
by eexists.
Qed.

Lemma perform_total F x ps (s : state) : product ps s -> alive (p_vec ps) -> ask_ok F x -> kind F x ->
  exists s' out, perform x s = Some (Ok (s', out)) /\ forall ps' sp, pcall F x ps ps' sp -> alive (p_vec ps').
Proof using Sq Ss Sf Se Hm tot c0 a0 p0 ni Hp l0 b1 Srand nx0 ny0 Tu Tp k0 k1.
move=> Hs Ha; case: x => [chi|| st g steps|m] /= Hx Hki.
- by eexists _, _; split; [reflexivity|move=> ? ? [->]].
- have [s' -> _] := renorm_total Hs Ha; eexists _, _; split; [reflexivity|by move=> ? ? [->]].
- have [[Hg HF Hz] [He Hk]] := (Hx, Hki); have [_ _ _ HP [Hc Ei]] := Hs.
  have I1 ps1 : (if p_init ps then ps1 = ps else initial st (p_vec ps1) /\ p_bonds ps1 = build_bond_list nx ny) ->
      alive (p_vec ps1) /\ Permutation (p_bonds ps1) (build_bond_list nx ny).
    case: ifP => _; first by move=> ->.
    move=> [Iv ->]; split=> // y Hy; have [r Er] := Iv y Hy; have [q Hq N] := He y r Hy; by exists q; rewrite ?Er.
  have [s1 [E1 [ps1 [J1 P1]]]] : exists s1, (if s_init s then Ok s else initialize_site_tensors trand noise u st s) = Ok s1 /\
      exists ps1, (if p_init ps then ps1 = ps else initial st (p_vec ps1) /\ p_bonds ps1 = build_bond_list nx ny) /\ product ps1 s1.
    rewrite Ei; case: ifP => _; first by exists s; split=> //; exists ps.
    have [s1 E] := initialize_total s Hz He; exists s1; split=> //.
    by have [v Iv Pv] := initialize_product Hc Hz E; exists (PState v (build_bond_list nx ny) true).
  have [A1 HP1] := I1 _ J1; rewrite /evolve E1 [bind (Ok s1) _]/bind.
  have [s2 -> P2] := renorm_total P1 A1.
  have [s3 E3] := evolve_total steps P2 A1 Hg HF Hk; rewrite E3 [bind (Ok s3) _]/bind.
  have P3 := evolve_product P2 Hg HF E3.
  have [|s4 -> P4] := renorm_total P3; first exact: pevolve_alive.
  eexists _, _; split; first by reflexivity.
  by move=> ps' sp [ps2 [/I1 [A2 HP2] -> _]]; apply: pevolve_alive.
have [M1 M2] := Hx; have [H1 H2 H3 H4 _] := Hs.
have [d E] := measured_total nx0 ny0 empty H1 H2 H4 M1 M2 Ha; rewrite /measured H3 E.
by eexists _, _; split; [reflexivity|move=> ? ? [->]].
Qed.

(** With the simple update and gates that send no vector to zero a session with
    bond dimension 1 cannot fail. *)
Theorem C77_succeeds F (cs : seq call) ps (s : state) : product ps s -> alive (p_vec ps) ->
  (forall x, List.In x cs -> ask_ok F x /\ kind F x) -> exists s' out, session cs s = Some (Ok (s', out)).
Proof using Sq Ss Sf Se Hm tot c0 a0 p0 ni Hp l0 b1 Srand nx0 ny0 Tu Tp k0 k1.
elim: cs ps s => [|x cs IH] ps s Hs Ha Hc /=; first by exists s, [::].
have [Hx Hk] := Hc x (or_introl erefl).
have [s1 [o1 [E1 A1]]] := perform_total Hs Ha Hx Hk; rewrite E1.
have [ps1 [sp1 [H1 P1 R1]]] := perform_product Hs Hx E1.
have [s2 [o2 ->]] := IH ps1 s1 P1 (A1 _ _ H1) (fun y Hy => Hc y (or_intror Hy)).
by exists s2, (cat o1 o2).
Qed.
End Sessions.

(** ---- a session by hand ---- *)
Section Examples.
Variable C : numClosedFieldType.
Notation tensor := (tensor C).
Import GRing.Theory Num.Theory.
Local Open Scope ring_scope.
Local Open Scope string_scope.

(** the gate acts on the first site of every bond only: it takes (a, b) to
    (a, a + b) *)
Definition shear (i r : nat) : C := if (i == 0%N) || (r == 1%N) then 1 else 0.
Definition unit2 (i r : nat) : C := if i == r then 1 else 0.
Definition shears : gates C := Gates (fun _ => Tensor [:: 2; 2; 2; 2]%N (fun i => shear (nth 0%N i 0) (nth 0%N i 2) * unit2 (nth 0%N i 1) (nth 0%N i 3))) None.

Notation session := (@Session.session C unit (fun r _ _ => (0, r)) (@zeros_rand C) (@some_qr C) (@some_thin_svd C) (@some_full_svd C) (@some_eigh C) (@some_chol C) (fun _ _ => 0) 1 0 1 (fun _ => Tensor [::] (fun _ => 0))).
Notation construct := (@Session.construct C unit (@zeros_rand C) 0).

(** every site is the first of two bonds, so the state (1, 0) becomes (1, 2): a
    measurement after one step, with the simple update, reports -3/5 for the third
    spin component *)
Example C77_example : exists2 s, construct (plain_setup C 1 "simple") (@blank C) tt 3 = Ok s &
  exists s' d, session (plain_setup C 1 "simple") [:: Evolve (fun _ => [:: 1; 0]) shears 1; Measure (small_model C)] s = Some (Ok (s', [:: d])) /\
    dget "sz" d = Some (- 3%:R / 5%:R).
Proof.
set u := plain_setup C 1 "simple".
have Srand r : shape (@zeros_rand C r 1 2).1 = [:: 1; 1; 1; 1; 2]%N by [].
have Srand' r : shape (@zeros_rand C r (u_bond u) 2).1 = [:: 1; 1; 1; 1; 2]%N by [].
have [s [Es Hs Us _]] := @C74_construct C unit (@zeros_rand C) 0 u Srand' isT isT (@blank C) tt 3 (fun _ _ => Order.POrderTheory.lexx 0) (Order.POrderTheory.lexx 0) isT.
exists s; first by rewrite Es.
have [v Iv Pv] := @C77_start C unit (@zeros_rand C) 0 u Srand isT erefl (@blank C) tt 3 s isT Es.
pose F (_ : gates C) (_ : bond) := (shear, unit2).
pose cs := [:: Evolve (fun _ => [:: 1; 0]) shears 1; Measure (small_model C)].
have Hcs x : List.In x cs -> ask_ok u F x /\ kind (@zeros_rand C) 0 u F x.
  case=> [<-|[<-|[]]].
    split; first by split=> [||y _]; [split=> //|split=> // i j r q _ _ _ _|].
    split=> [y r _|y w _ [q Hq N]]; first by exists 0%N; rewrite //= mul0r add0r oner_eq0.
    have N0 a b : [:: a; b] = [:: w 0%N; w 1%N] -> (a != 0) || (b != 0).
      by case=> -> ->; case: q Hq N => [|[|]] // _ ->; rewrite ?orbT.
    have /orP H := N0 _ _ erefl.
    split; rewrite /local /= /act.
      case: (eqVneq (w 0%N) 0) H => [E0 /= [//|N1]|N0' _]; [exists 1%N|exists 0%N] => //; rewrite !big_ord_recl big_ord0 /= /shear /=.
        by rewrite E0 mul0r add0r addr0 mulr1.
      by rewrite mulr1 mulr0 !addr0.
    case: H => H; [exists 0%N|exists 1%N] => //; rewrite !big_ord_recl big_ord0 /= /unit2 /=; by rewrite mulr1 mulr0 ?add0r !addr0.
  split=> //; split; last first.
    split=> //= b _; split=> // X; rewrite /inks /= !orbF; case EX: (String.eqb X "sz") => //=.
    by move/String.eqb_eq: EX => ->.
  split=> [//|y _|y _].
    by split; [move=> h [<-]|split=> [kv [<-|[]]|]].
  by split=> //; split=> [kv [<-|[]]|].
have tot m (A : 'M[C]_m) : @some_eigh C m A by [].
have Hm : als_method (u_evo u) = "cholesky" \/ als_method (u_evo u) = "pinv" by right.
have ni : u_type u = "full" -> (0 < als_niter (u_evo u))%N by [].
have Hp : u_ptype u = Half \/ svd_type (u_ctm u) = "full-rank" by right.
have Ha : alive u (p_vec (PState v (build_bond_list 2 2) false)).
  by move=> x /Iv [r Hr]; exists 0%N; rewrite //= Hr // mul0r add0r oner_eq0.
have [s' [out E]] := @C77_succeeds C unit (fun r _ _ => (0, r)) (@zeros_rand C) _ _ _ _ (@some_chol C) (fun _ _ => 0) 1 0 0 (fun _ => Tensor [::] (fun _ => 0)) u
  (@some_qr_spec C) (@some_thin_svd_spec C) (@some_full_svd_spec C) (@some_eigh_spec C) tot Srand Hm (Order.POrderTheory.lexx 0) (fun _ => ltr01) ltr01 isT isT isT erefl ni Hp erefl erefl
  (Order.POrderTheory.lexx 0) ltr01 F cs _ s Pv Ha Hcs.
have [ps' [sp [Hps P' Hr]]] := @C77_dynamics C unit (fun r _ _ => (0, r)) (@zeros_rand C) _ _ _ _ (@some_chol C) (fun _ _ => 0) 1 0 0 (fun _ => Tensor [::] (fun _ => 0)) u
  (@some_qr_spec C) (@some_thin_svd_spec C) (@some_full_svd_spec C) (@some_eigh_spec C) tot Srand Hm (Order.POrderTheory.lexx 0) (fun _ => ltr01) ltr01 isT isT isT erefl ni Hp
  F cs _ s s' out Pv (fun x Hx => proj1 (Hcs x Hx)) E.
case: Hps => ps1 [o1 [o2 [[ps0 [[I0 B0] -> ->]] [ps2 [o3 [o4 [[-> ->] [_ ->] ->]]]] Esp]]].
move: Hr; rewrite Esp; case: (out) E => [|d [|d' out']] E; [by []| |by case].
move=> [[_ Hsz _ _] _].
exists s', d; split=> //; rewrite (Hsz "sz" isT).
have V x : in_cell 2 2 x -> p_vec ps0 x 0%N = 1 /\ p_vec ps0 x 1%N = 0.
  by move=> /I0 [r Hr]; rewrite !Hr //= !mul0r !add0r.
rewrite B0; set w := pevolve _ _ _ _ _ _.
have W x : in_cell 2 2 x -> w x 0%N = 1 /\ w x 1%N = 2%:R.
  have L : forall l (z : site -> nat -> C) (n : site -> nat), (forall b, List.In b l -> in_cell 2 2 (b_s1 b) /\ in_cell 2 2 (b_s2 b) /\ b_s1 b <> b_s2 b) ->
      (forall x, in_cell 2 2 x -> z x 0%N = 1 /\ z x 1%N = (n x)%:R) -> forall x, in_cell 2 2 x ->
      foldl (fun z b => pstep u (F shears) shears b z) z l x 0%N = 1 /\
      foldl (fun z b => pstep u (F shears) shears b z) z l x 1%N = (n x + count (fun b => is_left (site_eq_dec x (b_s1 b))) l)%:R.
    elim=> [|b l IH] z n Hl Hz x0 Hx0; first by rewrite /= addn0; apply: Hz.
    have [H1 [H2 H12]] := Hl b (or_introl erefl).
    have [|Y0 Y1] := IH (pstep u (F shears) shears b z) (fun x => n x + is_left (site_eq_dec x (b_s1 b)))%N (fun y Hy => Hl y (or_intror Hy)) _ x0 Hx0; last by rewrite [foldl _ _ _]/= [count _ _]/= addnA.
    move=> y Hy; have [Z0 Z1] := Hz y Hy; rewrite /pstep /local /F /= /act.
    case: (site_eq_dec y (b_s2 b)) => [Ey|N2] /=.
      rewrite -Ey !big_ord_recl !big_ord0 /= /unit2 /= Z0 Z1 !mulr0 !mulr1 !add0r !addr0.
      by case: (site_eq_dec y (b_s1 b)) => [Ey'|_] /=; [case: H12; rewrite -Ey -Ey'|rewrite addn0].
    case: (site_eq_dec y (b_s1 b)) => [Ey|N1] /=; last by rewrite addn0.
    by rewrite -Ey !big_ord_recl !big_ord0 /= /shear /= Z0 Z1 !mulr0 !mulr1 !addr0 natrD addrC.
  move=> Hx; have [||W0 W1] := L (schedule bond (build_bond_list 2 2) 1) (p_vec ps0) (fun _ => 0%N) _ _ x Hx => //.
    by move=> b Hb; do 8 (case: Hb => [<-|Hb]; first by split; [split; apply/ltP|split; [split; apply/ltP|]]).
  by split=> //; rewrite [w _ _]W1; case: x Hx {W0 W1} => [[|[|x]] [|[|y]]] [/ltP Hx /ltP Hy].
have P x : in_cell 2 2 x -> named (pexp1 (u_phys u) w x) "sz" (one_site_observables (small_model C) x) = - 3%:R / 5%:R.
  move=> /W [W0 W1]; rewrite /named /= /pexp1 /= !big_ord_recl !big_ord0 /= W0 W1 /=.
  rewrite !mulr0 !mul0r !mulr1 !addr0 !add0r normr1 expr1n ?rmorph1 ?mul1r ?mulr1.
  rewrite conjC_nat normr_nat mulrN1 mulNr -natrM -natrX.
  rewrite (_ : 1 - 4%:R = - 3%:R :> C); last by rewrite -[in LHS](opprB 4%:R) -[1]/(1%:R) -natrB.
  rewrite (_ : 1 + 4%:R = 5%:R :> C); last by rewrite -[1]/(1%:R) -natrD.
  by congr (_ / _); apply/Creal_ReP; rewrite rpredN realn.
rewrite [build_site_list _ _]/= !big_cons big_nil !P; first last.
- by split; apply/ltP.
- by split; apply/ltP.
- by split; apply/ltP.
- by split; apply/ltP.
congr Some; rewrite addr0 (_ : _ + _ = 4%:R * (- 3%:R / 5%:R)); last first.
  by rewrite mulr_natl.
by rewrite mulrC mulKf // pnatr_eq0.
Qed.

(** an entangling gate, which flips the sign of the state in which both spins are
    down; either update *)
Definition flips : gates C := Gates (fun _ => Tensor [:: 2; 2; 2; 2]%N (fun i =>
  if (nth 0%N i 0 == nth 0%N i 2) && (nth 0%N i 1 == nth 0%N i 3) then (if (nth 0%N i 0 == 1%N) && (nth 0%N i 1 == 1%N) then -1 else 1) else 0)) None.
Example C76_example t : t = "full" \/ t = "simple" -> exists2 s, construct (plain_setup C 1 t) (@blank C) tt 3 = Ok s &
  forall s' out, session (plain_setup C 1 t) [:: Evolve (fun _ => [:: 1; 1]) flips 5; SetChi C 2; Renormalize C; Measure (small_model C)] s = Some (Ok (s', out)) ->
  exists out' d, out = rcons out' d /\ product_values 2 2 2 (small_model C) (own (s_net s')) d.
Proof.
move=> Ht; set u := plain_setup C 1 t.
have Srand r : shape (@zeros_rand C r 1 2).1 = [:: 1; 1; 1; 1; 2]%N by [].
have [s [Es Hs Us _]] := @C74_construct C unit (@zeros_rand C) 0 u Srand isT isT (@blank C) tt 3 (fun _ _ => Order.POrderTheory.lexx 0) (Order.POrderTheory.lexx 0) isT.
exists s; first by rewrite Es.
have [v Iv [H1 _ H3 H4 [H5 _]]] := @C77_start C unit (@zeros_rand C) 0 u Srand isT erefl (@blank C) tt 3 s isT Es.
have A : alone u s by split=> //; rewrite H3.
have tot m (B : 'M[C]_m) : @some_eigh C m B by [].
have Hm : als_method (u_evo u) = "cholesky" \/ als_method (u_evo u) = "pinv" by right.
have Hp : u_ptype u = Half \/ svd_type (u_ctm u) = "full-rank" by right.
move=> s' out E.
apply: (@C76_mean_field C unit (fun r _ _ => (0, r)) (@zeros_rand C) _ _ _ _ (@some_chol C) (fun _ _ => 0) 1 0 0 (fun _ => Tensor [::] (fun _ => 0)) u
  (@some_qr_spec C) (@some_thin_svd_spec C) (@some_full_svd_spec C) (@some_eigh_spec C) tot Srand Hm (Order.POrderTheory.lexx 0) (fun _ => ltr01) ltr01 isT isT isT erefl Hp
  3 [:: Evolve (fun _ => [:: 1; 1]) flips 5; SetChi C 2; Renormalize C] (small_model C) s s' out A _ _ _ E).
- by move=> x [<-|[<-|[<-|[]]]] //; split=> //; split.
- split=> [//|y _|y _].
    by split; [move=> h [<-]|split=> [kv [<-|[]]|]].
  by split=> //; split=> [kv [<-|[]]|].
split=> //= b _; split=> // X; rewrite /inks /= !orbF; case EX: (String.eqb X "sz") => //=.
by move/String.eqb_eq: EX => ->.
Qed.
End Examples.

Print Assumptions C76_mean_field.
Print Assumptions C77_dynamics.
Print Assumptions C77_start.
Print Assumptions C77_succeeds.
