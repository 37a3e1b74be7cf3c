(** C84: the norms and phases of the site tensors do not matter to
    renormalisation and measurement. *)
From Coq Require Import String Ascii Permutation.
From mathcomp Require Import all_ssreflect all_algebra.
From Verif Require Import Base Lattice LatticeFacts Mover Tensor TN Rdm RdmFacts Fits Measure MeasureFacts Linalg Rsvd EinsumLin Renorm RenormFacts
  P05_Mover P11_Measure MoveShape FullUpdate Als EighChol Dist Lambda Evolve Session P29_Session Layer P32_Basis.
Set Implicit Arguments.
Unset Strict Implicit.
Unset Printing Implicit Defensive.
Import GRing.Theory Num.Theory.
Local Open Scope ring_scope.
Local Open Scope string_scope.

Section Norm.
Variable C : numClosedFieldType.
Notation tensor := (tensor C).
Notation net := (Mover.net tensor).
Variable R : Type.
Variable randn : R -> forall n q : nat, 'M[C]_(n, q) * R.
Variable lqr : qr_fun C.
Variable lsvd : thin_svd_fun C.
Variable fsvd : full_svd_fun C.

Lemma norm_unit (t u : tensor) : tdiv t (norm t) = Ok u -> norm u = 1.
Proof.
rewrite /tdiv; case: eqP => // /eqP N [<-].
by rewrite norm_scale ?mulVf // invr_gt0 lt0r N /norm sqrtC_ge0 sumr_ge0 // => i _; rewrite exprn_ge0.
Qed.

(** after one step every corner and edge has norm 1 *)
Lemma fresh_unit (cfg : pconfig C) pt nx ny steps (n m : net) (r q : R) :
  run_ctmrg randn lqr lsvd fsvd cfg pt nx ny steps (n, r) = Ok (m, q) -> (0 < steps)%N ->
  forall s d, in_cell nx ny s -> (d < 4)%N -> norm (m s (SC d)) = 1 /\ norm (m s (SE d)) = 1.
Proof.
move=> E s0 s d Hs Hd.
have G1 (c e p x : tensor) : renormalize_cj1 c e p = Ok x -> norm x = 1.
  by rewrite /renormalize_cj1; case: (einsum _ _) => // y; cbn [bind]; case: (einsum _ _) => // z; cbn [bind]; apply: norm_unit.
have G2 (c e p x : tensor) : renormalize_cj2 c e p = Ok x -> norm x = 1.
  by rewrite /renormalize_cj2; case: (einsum _ _) => // y; cbn [bind]; case: (einsum _ _) => // z; cbn [bind]; apply: norm_unit.
have G3 (e a p p' x : tensor) : renormalize_ej e a p p' = Ok x -> norm x = 1.
  by rewrite /renormalize_ej; do 4 (case: (einsum _ _) => // ?; cbn [bind]); apply: norm_unit.
have [_ H] := @C11_all_refreshed _ _ _ _ _ _ _ _ pt nx ny steps n m r q (fun t => norm t = 1) (fun t => norm t = 1) G1 G2 G3 E.
by apply: H => //; apply/leP.
Qed.

Lemma prop_unit (s t : tensor) : prop_to s t -> norm s = 1 -> norm t = 1 -> teq s t.
Proof.
move=> [c c0 Hc] Ns Nt; have /scaled_tscaleE E := Hc.
have c1 : c = 1 by rewrite -Ns (norm_cong E) norm_scale // Nt mulr1.
by rewrite c1 in Hc; apply/teq_scaled.
Qed.

(** C84.  Two networks whose corner and edge tensors agree up to positive factors
    and whose double layers agree up to a positive factor at each site, all factors
    chosen independently: both runs of the renormalisation fail with the same
    exception, or both succeed, draw the same random numbers and again end with
    corners and edges that agree up to positive factors; after at least one step
    they are equal. *)
Theorem C84_layer (cfg : pconfig C) pt nx ny D p p' chi steps (n n' : net) (r : R) :
  (0 < pchi cfg)%N -> fits nx ny D p chi n ->
  (forall s, in_cell nx ny s -> [/\ shape (n' s SA) = [:: D; D; D; D; p'],
      exists2 c, 0 < c & forall i j, in_range [:: D; D; D; D] i -> in_range [:: D; D; D; D] j ->
        sumn p (fun x => at_ (n s SA) (rcons i x) * (at_ (n s SA) (rcons j x))^*) =
        c * sumn p' (fun x => at_ (n' s SA) (rcons i x) * (at_ (n' s SA) (rcons j x))^*) &
      forall d, (d < 4)%N -> (exists2 c, 0 < c & scaled c (n s (SC d)) (n' s (SC d))) /\
                             exists2 c, 0 < c & scaled c (n s (SE d)) (n' s (SE d))]) ->
  match run_ctmrg randn lqr lsvd fsvd cfg pt nx ny steps (n, r), run_ctmrg randn lqr lsvd fsvd cfg pt nx ny steps (n', r) with
  | Ok (m, q), Ok (m', q') => q = q' /\ forall s, in_cell nx ny s ->
      (m s SA = n s SA /\ m' s SA = n' s SA) /\
      forall d, (d < 4)%N ->
        ((exists2 c, 0 < c & scaled c (m s (SC d)) (m' s (SC d))) /\ exists2 c, 0 < c & scaled c (m s (SE d)) (m' s (SE d))) /\
        ((0 < steps)%N -> teq (m s (SC d)) (m' s (SC d)) /\ teq (m s (SE d)) (m' s (SE d)))
  | Err e, Err e' => e = e'
  | _, _ => False
  end.
Proof.
move=> H0 Hf H.
have Hn : nrel nx ny D p p' (@prop_to C) n n'.
  by move=> s Hs; have [H1 H2 H3] := H s Hs; split=> //; split=> //; have [] := Hf s Hs.
have := ctmrg_cong randn lqr lsvd fsvd pt H0 (@prop_teq C) (fun _ _ x => x) steps r Hf Hn.
case E: (run_ctmrg _ _ _ _ _ _ _ _ _ (n, r)) => [[m q]|e]; case E': (run_ctmrg _ _ _ _ _ _ _ _ _ _) => [[m' q']|e'] //=.
case=> /= Hm Hq; split=> // s Hs; split; first by split; [exact: (renorm_keeps E s)|exact: (renorm_keeps E' s)].
move=> d Hd; have [_ /(_ d Hd) [HC HE]] := Hm s Hs; split=> // s0.
have [U1 U2] := fresh_unit E s0 Hs Hd; have [U1' U2'] := fresh_unit E' s0 Hs Hd.
by split; apply: prop_unit.
Qed.

(** the second network: site tensors times any non-zero complex numbers, corner and
    edge tensors times any positive numbers *)
Definition rescaled (nx ny : nat) (n n' : net) : Prop := forall s, in_cell nx ny s ->
  (exists2 z, z != 0 & scaled z (n' s SA) (n s SA)) /\
  forall d, (d < 4)%N -> (exists2 c, 0 < c & scaled c (n' s (SC d)) (n s (SC d))) /\
                         exists2 c, 0 < c & scaled c (n' s (SE d)) (n s (SE d)).

(** multiplying the site tensors by non-zero complex numbers, and corners and edges
    by positive numbers, changes nothing in what renormalisation does *)
Theorem C84_renormalize (cfg : pconfig C) pt nx ny D p chi steps (n n' : net) (r : R) :
  (0 < pchi cfg)%N -> fits nx ny D p chi n -> rescaled nx ny n n' ->
  match run_ctmrg randn lqr lsvd fsvd cfg pt nx ny steps (n, r), run_ctmrg randn lqr lsvd fsvd cfg pt nx ny steps (n', r) with
  | Ok (m, q), Ok (m', q') => [/\ q = q', rescaled nx ny m m' &
      (0 < steps)%N -> forall s d, in_cell nx ny s -> (d < 4)%N -> teq (m' s (SC d)) (m s (SC d)) /\ teq (m' s (SE d)) (m s (SE d))]
  | Err e, Err e' => e = e'
  | _, _ => False
  end.
Proof.
move=> H0 Hf H; have X : forall s, in_cell nx ny s -> [/\ shape (n' s SA) = [:: D; D; D; D; p],
      exists2 c, 0 < c & forall i j, in_range [:: D; D; D; D] i -> in_range [:: D; D; D; D] j ->
        sumn p (fun x => at_ (n s SA) (rcons i x) * (at_ (n s SA) (rcons j x))^*) =
        c * sumn p (fun x => at_ (n' s SA) (rcons i x) * (at_ (n' s SA) (rcons j x))^*) &
      forall d, (d < 4)%N -> prop_to (n s (SC d)) (n' s (SC d)) /\ prop_to (n s (SE d)) (n' s (SE d))].
  move=> s Hs; have [[z z0 [E HA]] HB] := H s Hs; have [HS _] := Hf s Hs; split; first by rewrite E.
  - have zz : 0 < z * z^* by rewrite mul_conjC_gt0.
    exists (z * z^*)^-1 => [|i j Hi Hj]; first by rewrite invr_gt0.
    rewrite (eq_sumn (n := p) (F := fun x => at_ (n' s SA) _ * _)
      (G := fun x => (z * z^*) * (at_ (n s SA) (rcons i x) * (at_ (n s SA) (rcons j x))^*))); last first.
      move=> x Hx; have IR k : in_range [:: D; D; D; D] k -> in_range (shape (n s SA)) (rcons k x).
        by rewrite HS -[[:: D; D; D; D; p]]/(rcons [:: D; D; D; D] p) in_range_rcons Hx andbT.
      by rewrite (HA _ (IR i Hi)) (HA _ (IR j Hj)) rmorphM mulrACA.
    by rewrite /sumn -mulr_sumr mulrA mulVf ?mul1r // Order.POrderTheory.gt_eqF.
  - by move=> d /HB [HC HE]; split; apply: prop_sym.
have := C84_layer pt steps r H0 Hf X.
case E: (run_ctmrg _ _ _ _ _ _ _ _ _ (n, r)) => [[m q]|e]; case E': (run_ctmrg _ _ _ _ _ _ _ _ _ _) => [[m' q']|e'] //=.
move=> [-> Hm]; split=> // [s Hs|s0 s d Hs Hd].
  have [[-> ->] HB] := Hm s Hs; have [HA _] := H s Hs; split=> // d /HB[[HC HE] _].
  by split; apply: prop_sym.
by have [_ /(_ d Hd) [_ /(_ s0)[? ?]]] := Hm s Hs; split; apply: teq_sym.
Qed.

(** and nothing in what measurement reports *)
Theorem C84_measure (m : model C) nx ny D p chi (n n' : net) empty empty' sites bonds :
  fits nx ny D p chi n -> rescaled nx ny n n' ->
  (forall s, List.In s sites -> in_cell nx ny s) ->
  (forall b, List.In b bonds -> exists s1 k, [/\ in_cell nx ny s1, (k < 4)%N & b = Bond s1 (nbr nx ny k s1) k]) ->
  measure m (build_site_rdm n') (build_bond_rdm empty' n') sites bonds =
  measure m (build_site_rdm n) (build_bond_rdm empty n) sites bonds.
Proof.
move=> Hf H Hs Hb.
(* a factor for each slot, read off an entry that is not zero *)
pose ratio (t' t : tensor) : C :=
  if [seq i <- indices (shape t) | at_ t i != 0] is i :: _ then at_ t' i / at_ t i else 1.
have RE t' t c : scaled c t' t -> c != 0 -> scaled (ratio t' t) t' t /\ (ratio t' t = c \/ ratio t' t = 1).
  move=> [E K] c0; rewrite /ratio; case Ef: [seq i <- _ | _] => [|i l].
    split; last by right.
    split=> // i Hi; rewrite K // mul1r; case: (eqVneq (at_ t i) 0) => [->|N]; first by rewrite mulr0.
    have : i \in [seq i <- indices (shape t) | at_ t i != 0] by rewrite mem_filter N mem_indices.
    by rewrite Ef.
  have : i \in [seq i <- indices (shape t) | at_ t i != 0] by rewrite Ef mem_head.
  by rewrite mem_filter mem_indices => /andP[N Hi]; rewrite K // mulfK //; split=> //; left.
apply: (measure_scaled_net (c := fun s x => ratio (n' s x) (n s x)) m empty empty' Hf) => // s x Is.
- have [[z z0 Hz] HB] := H s Is; case: x => [|d|d] Hd.
  + by have [] := RE _ _ _ Hz z0.
  + by have [[c /lt0r_neq0 c0 Hc] _] := HB d Hd; have [] := RE _ _ _ Hc c0.
  + by have [_ [c /lt0r_neq0 c0 Hc]] := HB d Hd; have [] := RE _ _ _ Hc c0.
- have [[z z0 Hz] HB] := H s Is; case: x => [|d|d] Hd.
  + by have [_ [->|->]] := RE _ _ _ Hz z0; rewrite ?oner_neq0.
  + by have [[c /lt0r_neq0 c0 Hc] _] := HB d Hd; have [_ [->|->]] := RE _ _ _ Hc c0; rewrite ?oner_neq0.
  + by have [_ [c /lt0r_neq0 c0 Hc]] := HB d Hd; have [_ [->|->]] := RE _ _ _ Hc c0; rewrite ?oner_neq0.
- have [[z z0 Hz] HB] := H s Is; case: x => [|d|d] Hd // _.
  + have [[c c1 Hc] _] := HB d Hd; have c0 := lt0r_neq0 c1.
    by have [_ [->|->]] := RE _ _ _ Hc c0; rewrite ?rpred1 ?gtr0_real.
  + have [_ [c c1 Hc]] := HB d Hd; have c0 := lt0r_neq0 c1.
    by have [_ [->|->]] := RE _ _ _ Hc c0; rewrite ?rpred1 ?gtr0_real.
Qed.

(** ---- sessions ---- *)
Variable trand : R -> nat -> nat -> tensor * R.
Variable leigh : eigh_fun C.
Variable lchol : chol_fun C.
Variable rtol : nat -> nat -> C.
Variables (lcut noise : C).
Variable fuel : nat.
Variable empty : nat -> tensor.
Notation session := (Session.session randn trand lqr lsvd fsvd leigh lchol rtol lcut noise fuel empty).
Notation state := (Session.state C R).
Notation call := (call C).

Section Pair.
Variable u : setup C.
Notation nx := (u_nx u).
Notation ny := (u_ny u).
Notation p := (u_phys u).

(** no evolve (decompositions of site tensors are not determined by those of their
    multiples), and boundary dimensions are positive *)
Definition plain_call (x : call) : Prop :=
  match x with SetChi c => (0 < c)%N | Renormalize => True | Measure _ => True | _ => False end.

Definition rescaled_state (s s' : state) : Prop :=
  [/\ exists chi, fits nx ny (u_bond u) p chi (s_net s), rescaled nx ny (s_net s) (s_net s'),
      s_rng s' = s_rng s, Permutation (s_bonds s) (build_bond_list nx ny) & [/\ s_bonds s' = s_bonds s, s_chi s' = s_chi s & (0 < s_chi s)%N]].

(** whole sessions: the same exception, or the same dictionaries from every measure
    call *)
Theorem C84_session (cs : seq call) (s s' : state) : (0 < nx)%N -> (0 < ny)%N ->
  (forall x, List.In x cs -> plain_call x) -> rescaled_state s s' ->
  match session u cs s, session u cs s' with
  | Some (Ok (t, out)), Some (Ok (t', out')) => out = out' /\ rescaled_state t t'
  | Some (Err e), Some (Err e') => e = e'
  | _, _ => False
  end.
Proof.
move=> nx0 ny0; elim: cs s s' => [|x cs IH] s s' Hx Hs //=.
have [[chi Hf] Hn Hr HP [Hb Hc c0]] := Hs.
have {}IH := fun s s' => IH s s' (fun y Hy => Hx y (or_intror Hy)).
have {Hx} := Hx x (or_introl erefl); case: x => [c||st g k|m] //=.
- move=> c1; have /IH : rescaled_state (State (s_net s) (s_rng s) (s_bonds s) c (s_init s)) (State (s_net s') (s_rng s') (s_bonds s') c (s_init s')).
    by split=> //; exists chi.
  by case: (session u cs _) => [[[t out]|e]|] //; case: (session u cs _) => [[[t' out']|e']|].
- move=> _; rewrite /Session.renormalize Hc Hr.
  have H0 : (0 < pchi (ctm_config u (s_chi s)))%N by [].
  have := C84_renormalize (u_ptype u) (u_steps u) (s_rng s) H0 Hf Hn.
  have := @ctmrg_fits _ _ randn lqr lsvd fsvd _ (u_ptype u) nx ny (u_bond u) p H0 (u_steps u) chi (s_net s) (s_rng s) Hf.
  case: (run_ctmrg _ _ _ _ _ _ _ _ _ _) => [[n r]|e]; case: (run_ctmrg _ _ _ _ _ _ _ _ _ _) => [[n' r']|e'] //=.
  case=> chi' Hf' _ [<- Hn' _].
  have /IH : rescaled_state (State n r (s_bonds s) (s_chi s) (s_init s)) (State n' r (s_bonds s') (s_chi s) (s_init s')).
    by split=> //; exists chi'.
  by case: (session u cs _) => [[[t out]|e]|] //; case: (session u cs _) => [[[t' out']|e']|].
- move=> _; rewrite /measured Hb.
  have <- : measure m (build_site_rdm (s_net s')) (build_bond_rdm empty (s_net s')) (build_site_list nx ny) (s_bonds s) =
    measure m (build_site_rdm (s_net s)) (build_bond_rdm empty (s_net s)) (build_site_list nx ny) (s_bonds s).
    apply: (C84_measure m empty empty Hf Hn) => y.
    + by move/in_site_list.
    + exact: bond_in.
  case: (measure _ _ _ _ _) => [d|e] //=.
  have := IH s s' Hs.
  by case: (session u cs s) => [[[t out]|e]|] //; case: (session u cs s') => [[[t' out']|e']|] //= [-> ?].
Qed.
End Pair.
End Norm.

(** the network of C81_example with its site vector (3, 4i) multiplied by 2i and its
    corners by 5: the density matrix changes by 4 * 5^4, the measured averages do
    not *)
Section Example.
Variable C : numClosedFieldType.
Definition big_net : Mover.net (tensor C) := fun s sl =>
  match sl with
  | SA => tscale (2%:R * 'i) (ex_net 2 (@ex_a C) s SA)
  | SC d => tscale 5%:R (ex_net 2 (@ex_a C) s (SC d))
  | SE d => ex_net 2 (@ex_a C) s (SE d)
  end.

Lemma big_rescaled : rescaled 1 1 (ex_net 2 (@ex_a C)) big_net.
Proof.
move=> s _; split; first by exists (2%:R * 'i) => //; rewrite mulf_neq0 ?neq0Ci // pnatr_eq0.
by move=> d Hd; split; [exists 5%:R => //; rewrite ltr0n|exists 1; [exact: ltr01|exact: scaled_refl]].
Qed.

Example C84_example :
  (forall empty, measure (ex_m C) (build_site_rdm big_net) (build_bond_rdm empty big_net) (build_site_list 1 1) (build_bond_list 1 1) =
     measure (ex_m C) (build_site_rdm (ex_net 2 (@ex_a C))) (build_bond_rdm empty (ex_net 2 (@ex_a C))) (build_site_list 1 1) (build_bond_list 1 1)) /\
  exists rho rho', [/\ build_site_rdm (ex_net 2 (@ex_a C)) (0, 0)%N = Ok rho, build_site_rdm big_net (0, 0)%N = Ok rho',
    at_ rho [:: 0; 0]%N = 9%:R & at_ rho' [:: 0; 0]%N = (4 * 625 * 9)%:R].
Proof.
split.
  move=> empty; apply: (C84_measure (nx := 1) (ny := 1) (ex_m C) empty empty (@ex_fits C 2 (@ex_a C)) big_rescaled).
  - by move=> s /in_site_list.
  - by move=> b; apply: (@bond_in C (Setup 1 1 1 2 Half 0 (PConfig "" 0 0 0 0) "" (EConfig "" 0 0 0 false 0 0))).
eexists _, _; split; [reflexivity|reflexivity| |].
- by rewrite /= /factor /= /sumn !big_ord1 /= /ex_a /= ?mul1r ?mulr1 conjC_nat -natrM.
- rewrite /= /factor /= /sumn !big_ord1 /= /ex_a /= ?mul1r ?mulr1 !rmorphM !conjC_nat.
  rewrite [LHS](AC (3*(1*3)*3) ((9*6)*(1*2*3*4*5*7*8*10)))%AC.
  by rewrite /= ii mul1r -!natrM.
Qed.
End Example.

Print Assumptions C84_layer.
Print Assumptions C84_renormalize.
Print Assumptions C84_measure.
Print Assumptions C84_session.
