(** Property C90: full updates that lose nothing act on the whole state. *)
From Coq Require Import String Ascii Permutation.
From mathcomp Require Import all_ssreflect all_algebra.
From Verif Require Import Base Lattice LatticeFacts Mover Tensor TN Rdm RdmFacts Fits Measure MeasureFacts FullUpdate Linalg Mat Rsvd RsvdFacts Renorm RenormFacts Spectral ProjFacts Psd Als AlsFacts EighChol UpdFacts InitFacts Dist Lambda Evolve P05_Mover MoveShape P08_Control P09_Rdm P13_Renorm P16_Als P17_Reduced Eckart P20_Simple P22_SimpleUpdate P23_Solver P24_FullUpdate P26_SiteUpdate Cutensor P27_Cutensor Session P29_Session RealNet RealUpd P30_Product P31_Calls P32_Basis CoverFacts Torus P34_State ProductState.
Set Implicit Arguments.
Unset Strict Implicit.
Unset Printing Implicit Defensive.
Import GRing.Theory Num.Theory.
Local Open Scope ring_scope.
Local Open Scope string_scope.

Section Run.
Variable C : numClosedFieldType.
Notation tensor := (tensor C).
Notation net := (Mover.net tensor).
Notation real := (@entries_real C).
Variable R : Type.
Variable randn : R -> forall n q : nat, 'M[C]_(n, q) * R.
Variable trand : R -> nat -> nat -> tensor * R.
Variable lqr : qr_fun C.
Variable lsvd : thin_svd_fun C.
Variable fsvd : full_svd_fun C.
Variable leigh : eigh_fun C.
Variable lchol : chol_fun C.
Variable rtol : nat -> nat -> C.
Variables (lcut noise : C).
Variable fuel : nat.
Variable u : setup C.
Notation nx := (u_nx u).
Notation ny := (u_ny u).
Notation b := (u_bond u).
Notation p := (u_phys u).
Notation cfg := (u_evo u).
Notation state := (Session.state C R).
(** the library functions are what their documentation says, and give real results
    for real arguments *)
Hypothesis Sq : qr_spec lqr.
Hypothesis Ss : thin_svd_spec lsvd.
Hypothesis Sf : full_svd_spec fsvd.
Hypothesis Se : eigh_spec leigh.
Hypothesis tot : forall m (A : 'M[C]_m), leigh A.
Hypothesis Rq : real_qr lqr.
Hypothesis Rl : real_thin lsvd.
Hypothesis Rf : real_svd fsvd.
Hypothesis Re : real_eigh leigh.
Hypothesis Rr : real_rand randn.
Hypotheses (b0 : (0 < b)%N) (p0 : (0 < p)%N).
Notation real_net := (RealNet.real_net nx ny b p).
Notation wide := (P29_Session.wide u).
Notation full_step := (Session.full_step randn lqr lsvd fsvd leigh lchol rtol fuel.+1 u).
Notation update := (full_bond_update lqr lsvd fsvd leigh lchol rtol cfg fuel.+1).

(** every gate is real *)
Definition gates_real (g : gates C) : Prop :=
  (forall x, List.In x (build_bond_list nx ny) -> real (g_two g x)) /\
  (forall f x, g_one g = Some f -> in_cell nx ny x -> real (f x)).

Lemma one_real g s k : gates_real g -> in_cell nx ny s -> gauge_opt (one_of g (Bond s (nbr nx ny k s) k)).
Proof.
move=> [_ H] Hs; rewrite /one_of; case E: (g_one g) => [f|] //=; split; apply: (H _ _ E) => //; exact: nbr_cell.
Qed.

Lemma absorb_real chi s k (n : net) r n' r' : in_cell nx ny s -> (k < 4)%N ->
  absorb_pair randn lqr lsvd fsvd u chi (Bond s (nbr nx ny k s) k) (n, r) = Ok (n', r') -> real_net n -> real_net n'.
Proof using Ss Sf Rq Rl Rf Rr.
move=> Hs Hk; have Hk' : (k < 4)%coq_nat by apply/ltP.
have Hs2 : in_cell nx ny (nbr nx ny k s) by apply: nbr_cell.
rewrite /absorb_pair absorb_bond_eq //= /seq_pair.
set ms := [:: (PeanoNat.Nat.modulo (k + 2) 4, line_of k s); (PeanoNat.Nat.modulo (PeanoNat.Nat.modulo (k + 2) 4 + 2) 4, line_of k (nbr nx ny k s))].
have Hv m : List.In m ms -> valid_move nx ny m.
  have L x : in_cell nx ny x -> (line_of k x < lines_of nx ny k)%coq_nat by move=> Hx; have [] := @in_cell_bounds nx ny k x Hk' Hx.
  have := L _ Hs; have := L _ Hs2.
  by rewrite /ms; case: (k) Hk => [|[|[|[|]]]] //= _ L2 L1 [<-|[<-|[]]]; split=> //=; apply/ltP.
move=> E; have E' : moves randn lqr lsvd fsvd (ctm_config u chi) (u_ptype u) nx ny ms (n, r) = Ok (n', r').
  move: E; rewrite /moves /run_moves /ms /=.
  case: (move_dir _ _ _ _ _ _ _ _ _ _ _ _ _ _ _) => [[n1 r1]|e] //=.
  by case: (move_dir _ _ _ _ _ _ _ _ _ _ _ _ _ _ _) => [[n2 r2]|e].
move=> Hn; have := y_moves Rq Ss Sf Rf (or_intror (Logic.conj Rl Rr)) (cfg := ctm_config u chi) (u_ptype u) Hv r Hn.
by rewrite E'.
Qed.

Lemma write_real (n : net) x (a1 a2 : tensor) : shape a1 = [:: b; b; b; b; p] -> shape a2 = [:: b; b; b; b; p] -> real a1 -> real a2 ->
  real_net n -> real_net (write_pair x a1 a2 n).
Proof.
move=> S1 S2 R1 R2 Hn s Hs; have [S H] := Hn s Hs; rewrite /write_pair /upd; split=> [|w].
  by case: site_eq_dec => /= _ //; case: site_eq_dec.
by case: site_eq_dec => /= _; case: slot_eq_dec => /= _ //; case: site_eq_dec => /= _ //; case: slot_eq_dec.
Qed.

Section Real.
Hypothesis Hm : als_method cfg = "cholesky" \/ als_method cfg = "pinv".
Hypothesis Hc : als_method cfg = "cholesky" -> chol_spec lchol /\ 0 <= als_epsilon cfg.
Hypothesis c0 : 0 <= positive_approx_cutoff cfg.
Hypothesis a0 : use_gauge_fix cfg -> 0 < gauge_fix_atol cfg.
Lemma full_real c chi0 g x nr bl nr' : (0 < chi0 <= c)%N -> gates_ok u g -> gates_real g -> u_type u = "full" ->
  Permutation bl (build_bond_list nx ny) -> List.In x bl -> wide c nr.1 -> real_net nr.1 ->
  full_step chi0 g x nr = Some (Ok nr') ->
  [/\ wide c nr'.1, real_net nr'.1 &
    exists a1 a2, [/\ update nr.1 x (g_two g x) (one_of g x) = Some (Ok (a1, a2)) & forall y, nr'.1 y SA = write_pair x a1 a2 nr.1 y SA]].
Proof.
case: nr => n r H0 Hg Gr Tf HP Hx [chi Hf Hcc] Hn.
have [s [k [Hs Hk Ex]]] := bond_in HP Hx.
have Sg : shape (g_two g x) = [:: p; p; p; p] by apply: (proj1 Hg); apply: Permutation_in HP Hx.
have Rg : real (g_two g x) by apply: (proj1 Gr); apply: Permutation_in HP Hx.
rewrite /Session.full_step [(n, r).1]/= [(n, r).2]/=; subst x.
have := update_ok lchol rtol fuel Sq Ss Sf Se tot Hm c0 a0 b0 p0 Hf Hs Hk Sg (one_fits k Hg Hs) Tf.
have := y_update rtol Rq Ss (fun _ => Rl) Sf Rf Se Re tot c0 Hc Sq b0 p0 fuel Hf Hs Hk Hn Sg Rg (one_real k Gr Hs).
case E: full_bond_update => [[[a1 a2]|e]|] //= [R1 R2] [S1 S2 _].
case EA: absorb_pair => [[n' r']|e] //= [<-] /=.
have W : wide c (write_pair (Bond s (nbr nx ny k s) k) a1 a2 n) by exists chi => //; apply: write_fits.
have := absorb_ok randn lqr lsvd fsvd r H0 Hs Hk W; rewrite EA /= => -[W' A].
split=> //; last by exists a1, a2.
exact: absorb_real EA (write_real _ S1 S2 R1 R2 Hn).
Qed.
End Real.

(** fresh networks are real *)
Section Fresh.
Hypothesis Srand : forall r, shape (trand r b p).1 = [:: b; b; b; b; p].
Hypothesis Rand : forall r, real (trand r b p).1.
Hypothesis n0 : noise \is Num.real.
Lemma y_site (st : seq C) (t : tensor) : shape t = [:: b; b; b; b; p] -> real t -> all (fun x => x \is Num.real) st ->
  yields (fun x => five x) (initialize_site_tensor b p st noise t).
Proof using n0.
move=> S Rt Hst; rewrite /initialize_site_tensor; case: ifP => // _.
apply: y_tdiv_five; split; last by rewrite /= S.
move=> i Hi /=; rewrite realD // ?realM //; first by apply: Rt; move: Hi.
case: ifP => _; last exact: real0.
by case: (ltnP (nth 0%N i 4) (size st)) => H; [have /allP := Hst; apply; apply: mem_nth|rewrite nth_default // real0].
Qed.
Lemma y_corner k (t : tensor) : five t -> yields real (initial_corner b k t).
Proof.
move=> /(@perm_five C k) H; rewrite /initial_corner.
apply: (yields_bind (P := real)) => [|x Hx]; first by apply: y_einsum; split=> //; split=> //; exact: conj_real.
apply: (yields_bind (P := real)) => [|y Hy]; first exact: y_reshape.
by apply: y_tdiv => //; exact: norm_real.
Qed.
Lemma y_edge k (t : tensor) : five t -> yields real (initial_edge b k t).
Proof.
move=> /(@perm_five C k) H; rewrite /initial_edge.
apply: (yields_bind (P := real)) => [|x Hx]; first by apply: y_einsum; split=> //; split=> //; exact: conj_real.
apply: (yields_bind (P := real)) => [|y Hy]; first exact: y_reshape.
by apply: y_tdiv => //; exact: norm_real.
Qed.
Lemma y_init (st : seq C) (t : tensor) : shape t = [:: b; b; b; b; p] -> real t -> all (fun x => x \is Num.real) st ->
  yields (fun x => forall w, real (site_slots x w)) (init_site b p st noise t).
Proof using n0.
move=> S Rt Hst; rewrite /init_site; apply: yields_bind (y_site S Rt Hst) _ => A HA.
have L (f : nat -> tensor -> res tensor) : (forall k, yields real (f k A)) ->
    yields (fun l => forall d, real (nth A l d)) (for_each (iota 0 4) (fun k acc => let! x := f k A in Ok (rcons acc x)) [::]).
  move=> Hf; apply: (yields_for (P := fun l => forall d, real (nth A l d))) => [d|k l Hl]; first by rewrite nth_nil; case: HA.
  apply: yields_bind (Hf k) _ => x Rx d /=; rewrite nth_rcons; case: ifP => // _; case: ifP => // _; by case: HA.
apply: yields_bind (L _ (fun k => y_corner k HA)) _ => Cs HC.
apply: yields_bind (L _ (fun k => y_edge k HA)) _ => Es HE.
by case=> [|d|d] /=; [case: HA|apply: HC|apply: HE].
Qed.

(** C90.  A first evolution is one of the fresh network, which is real *)
Theorem C90_fresh st g steps (s s0 : state) : s_init s = false -> (forall x, in_cell nx ny x -> all (fun z => z \is Num.real) (st x)) ->
  (forall x, in_cell nx ny x -> (size (st x) <= p)%N) ->
  initialize_site_tensors trand noise u st s = Ok s0 ->
  [/\ real_net (s_net s0), s_init s0 = true &
    let evolve := Session.evolve randn trand lqr lsvd fsvd leigh lchol rtol lcut noise fuel.+1 u in
    evolve st g steps s = evolve st g steps s0].
Proof using Srand Rand n0 b0.
move=> Ei Hst Hz E.
have I0 : s_init s0 = true by move: E; rewrite /initialize_site_tensors; case: for_each => [[]|] //= ? ? [<-].
split=> //=; last by rewrite /Session.evolve Ei E I0.
move: E; rewrite /initialize_site_tensors; set body := fun x nr => _.
have L : forall l (nr nr' : net * R), (forall x, List.In x l -> in_cell nx ny x) -> for_each l body nr = Ok nr' ->
    forall x, in_cell nx ny x -> List.In x l \/ (shape (nr.1 x SA) = [:: b; b; b; b; p] /\ forall w, real (nr.1 x w)) ->
    shape (nr'.1 x SA) = [:: b; b; b; b; p] /\ forall w, real (nr'.1 x w).
  elim=> [|y l IH] [n r] nr' Hl; first by move=> [<-] x Hx [].
  rewrite [for_each _ _ _]/= {1}/body [(n, r).1]/= [(n, r).2]/=; case Et: (trand r b p) => [t r'].
  have St : shape t = [:: b; b; b; b; p] by have := Srand r; rewrite Et.
  have Rt : real t by have := @Rand r; rewrite Et.
  have Hy : in_cell nx ny y by apply: Hl; left.
  have := y_init St Rt (Hst y Hy); have := init_ok noise b0 St (Hz y Hy).
  case: init_site => [a|e] //= Ha Ra E x Hx Hxl; apply: (IH _ _ _ E x Hx) => [z Hz'|/=]; first by apply: Hl; right.
  case: (site_eq_dec x y) => [?|Ne]; last by case: Hxl => [[Exy|]|]; [case: Ne|left|right].
  by right; split=> //; case: Ha => [[? [<-] []]|[]].
case E: for_each => [[n r]|] //= -[<-] /= x Hx.
apply: (L _ _ _ _ E x Hx); last by left; apply/in_site_list.
by move=> y /in_site_list.
Qed.
End Fresh.

(** the gates of a step are within reach of a bond of dimension b *)
Definition enough (g : gates C) (x : bond) (n : net) : Prop :=
  within b p (two_site_gate p (g_two g x) (bond_state b (b_k x) (n (b_s1 x) SA) (n (b_s2 x) SA))).
(** ... before every step of a list of bonds *)
Fixpoint enough_along chi (g : gates C) (bl : seq bond) (nr : net * R) : Prop :=
  match bl with
  | [::] => True
  | x :: bl => enough g x nr.1 /\ forall nr', full_step chi g x nr = Some (Ok nr') -> enough_along chi g bl nr'
  end.

Section Exact.
Hypotheses (nx1 : (1 < nx)%N) (ny1 : (1 < ny)%N).
Hypothesis Hx : exact_method leigh lchol cfg.
Hypothesis it : (0 < als_niter cfg)%N.
Hypothesis c0 : 0 < positive_approx_cutoff cfg.
Hypothesis a0 : use_gauge_fix cfg -> 0 < gauge_fix_atol cfg /\ gauge_fix_atol cfg ^+ 2 < positive_approx_cutoff cfg *+ minn (b ^ 3) (p * b).
Hypothesis Tf : u_type u = "full".
Variable T : finType.
Variables (nb : nat -> T -> T) (cell : T -> site).
Hypothesis cov : covers nb nx ny cell.
Hypothesis onto : forall s, in_cell nx ny s -> exists t, cell t = s.
Notation amplitude := (P34_State.amplitude u nb cell).
Notation act_bond := (P34_State.act_bond u nb cell).
Notation act_bonds := (P34_State.act_bonds u nb cell).

(** a state without any amplitude *)
Definition vanishes (F : (T -> nat) -> C) : Prop := forall f, config p f -> F f = 0.

Lemma method_known : als_method cfg = "cholesky" \/ als_method cfg = "pinv".
Proof using Hx. by case: Hx => _ [[-> _]|[-> _]]; [left|right]. Qed.
Lemma method_chol : als_method cfg = "cholesky" -> chol_spec lchol /\ 0 <= als_epsilon cfg.
Proof using Hx. by case: Hx => -> [[_ H]|[-> _]] // _; split. Qed.

Lemma within_pair k f : (k < 4)%N -> within b p f -> exists f1 f2 : tensor,
  forall P Q y x, (P < p)%N -> (Q < p)%N -> (y < b ^ 3)%N -> (x < b ^ 3)%N -> f P Q y x = bond_state b k f1 f2 P Q y x.
Proof.
move=> Hk [e1 [e2 H]].
pose X1 : tensor := Tensor [:: b; b; b; b; p] (fun i => at_ e1 [:: ravel [:: b; b; b] [:: nth 0%N i 2; nth 0%N i 3; nth 0%N i 1]; nth 0%N i 0; nth 0%N i 4]).
pose X2 : tensor := Tensor [:: b; b; b; b; p] (fun i => at_ e2 [:: ravel [:: b; b; b] [:: nth 0%N i 3; nth 0%N i 0; nth 0%N i 1]; nth 0%N i 2; nth 0%N i 4]).
exists (bond_permute (4 - k) X1), (bond_permute (4 - k) X2) => P Q y x HP HQ Hy Hx'; rewrite H //.
apply: eq_sumn => v Hv; rewrite leg1_back // leg2_back //.
have E z : (z < b ^ 3)%N -> ravel [:: b; b; b] [:: nth 0%N (unravel [:: b; b; b] z) 0; nth 0%N (unravel [:: b; b; b] z) 1; nth 0%N (unravel [:: b; b; b] z) 2] = z.
  move=> Hz; have Hz' : (z < numel [:: b; b; b])%N by rewrite /= muln1; move: Hz; rewrite !expnS expn0 muln1.
  by have [r [d [w [E _]]]] := unravel3_lt Hz; rewrite -[RHS](unravelK Hz') E.
by congr (_ * _); [rewrite -[in LHS](E _ Hy)|rewrite -[in LHS](E _ Hx')].
Qed.

(** the bond gate and then the one-site gates are the operator of the bond *)
Lemma kernelE (gate : tensor) one (f : nat -> nat -> nat -> nat -> C) r s y x :
  sumn p (fun P => sumn p (fun Q => f P Q y x * kernel p gate one P Q r s)) = one_site_gates p one (two_site_gate p gate f) r s y x.
Proof.
case: one => [[g1 g2]|] //=; rewrite /two_site_gate.
transitivity (sumn p (fun P' => sumn p (fun Q' => sumn p (fun P => sumn p (fun Q =>
    f P Q y x * at_ gate [:: P; Q; P'; Q'] * (at_ g1 [:: P'; r] * at_ g2 [:: Q'; s])))))); last first.
  by apply: eq_sumn => P' HP'; apply: eq_sumn => Q' HQ'; rewrite sumn_mulr; apply: eq_sumn => P _; rewrite sumn_mulr.
rewrite [RHS](eq_sumn (G := fun P' => sumn p (fun P => sumn p (fun Q => sumn p (fun Q' =>
    f P Q y x * at_ gate [:: P; Q; P'; Q'] * (at_ g1 [:: P'; r] * at_ g2 [:: Q'; s])))))); last first.
  by move=> P' _; rewrite sumnC; apply: eq_sumn => P _; rewrite sumnC.
rewrite [RHS]sumnC; apply: eq_sumn => P _; rewrite [RHS]sumnC; apply: eq_sumn => Q _.
rewrite sumn_mull; apply: eq_sumn => P' _; rewrite sumn_mull; apply: eq_sumn => Q' _.
by rewrite !mulrA.
Qed.

Definition nowhere (f : nat -> nat -> nat -> nat -> C) : Prop :=
  forall P Q y x, (P < p)%N -> (Q < p)%N -> (y < b ^ 3)%N -> (x < b ^ 3)%N -> f P Q y x = 0.
Lemma nowhere_dec f : nowhere f \/ exists P Q y x, [/\ (P < p)%N, (Q < p)%N, (y < b ^ 3)%N, (x < b ^ 3)%N & f P Q y x != 0].
Proof.
case: (boolP [forall P : 'I_p, forall Q : 'I_p, forall y : 'I_(b ^ 3), forall x : 'I_(b ^ 3), f P Q y x == 0]) => H.
  left=> P Q y x HP HQ Hy Hx'.
  by move/forallP: H => /(_ (Ordinal HP)) /forallP /(_ (Ordinal HQ)) /forallP /(_ (Ordinal Hy)) /forallP /(_ (Ordinal Hx')) /eqP.
case/forallPn: H => P /forallPn [Q /forallPn [y /forallPn [x N]]].
by right; exists P, Q, y, x.
Qed.

(** the gates make nothing of the pair only if they make nothing of the state *)
Lemma goal_nonzero g s k (n : net) : in_cell nx ny s -> (k < 4)%N -> let x := Bond s (nbr nx ny k s) k in
  ~ vanishes (act_bond g x (amplitude n)) ->
  exists P Q y z, [/\ (P < p)%N, (Q < p)%N, (y < b ^ 3)%N, (z < b ^ 3)%N &
    two_site_gate p (g_two g x) (bond_state b k (n s SA) (n (nbr nx ny k s) SA)) P Q y z != 0].
Proof using nx1 ny1 cov onto b0.
move=> Hs Hk x V.
case: (nowhere_dec (two_site_gate p (g_two g x) (bond_state b k (n s SA) (n (nbr nx ny k s) SA)))) => // Z; case: V => f Hf.
have N : nbr nx ny k s <> s by apply: nbr_other => //; apply/ltP.
have [K _ _] := cov; have [t Et] := onto Hs.
pose n' (y : site) : tensor := if site_eq_dec y s then Tensor [::] (fun _ => 0) else sites n y.
have Z0 P Q y z : joined b k (n' s) (n' (nbr nx ny k s)) P Q y z = 0.
  have Es : n' s = Tensor [::] (fun _ => 0) by rewrite /n'; case: site_eq_dec.
  by rewrite /joined Es /sumn big1 // => v _; rewrite mul0r.
have H1 : psi nb b (n' \o cell) f = 1 ^+ size (copies cell s) * act_bond g x (amplitude n) f.
  apply: (psi_bond K cov Hk b0 Hs N) => // [r q y z Hr Hq Hy Hz|y N1 N2].
    rewrite Z0 mul1r kernelE; case: (one_of g x) => [[g1 g2]|] /=; last by rewrite Z.
    by rewrite /sumn big1 // => P _; rewrite big1 // => Q _; rewrite Z ?mul0r.
  by rewrite /n'; case: site_eq_dec.
have H2 : psi nb b (n' \o cell) f = 0 ^+ size (copies cell s) * act_copies nb cell p (fun _ _ _ _ => 0) k s (psi nb b (n' \o cell)) f.
  by apply: (psi_bond K cov Hk b0 Hs N) => // [r q y z Hr Hq Hy Hz]; rewrite Z0 mul0r.
move: H1; rewrite H2 expr1n mul1r => <-.
have : t \in copies cell s by rewrite mem_filter Et eqxx mem_enum.
by case: (copies cell s) => //= ? ? _; rewrite exprS !mul0r.
Qed.

(** the tensors a full update finds *)
Lemma update_state c g x (n : net) bl : gates_ok u g -> gates_real g -> Permutation bl (build_bond_list nx ny) -> List.In x bl -> wide c n -> real_net n ->
  enough g x n -> ~ vanishes (act_bond g x (amplitude n)) ->
  exists2 r, update n x (g_two g x) (one_of g x) = Some r &
  (r = Err RuntimeError /\ als_method cfg = "cholesky") \/
  exists a1 a2, [/\ r = Ok (a1, a2), shape a1 = [:: b; b; b; b; p] /\ shape a2 = [:: b; b; b; b; p],
    exists2 d, 0 < d & forall P Q y z, (P < p)%N -> (Q < p)%N -> (y < b ^ 3)%N -> (z < b ^ 3)%N ->
      bond_state b (b_k x) a1 a2 P Q y z = d * one_site_gates p (one_of g x) (two_site_gate p (g_two g x) (bond_state b (b_k x) (n (b_s1 x) SA) (n (b_s2 x) SA))) P Q y z,
    one_of g x = None -> canonical b p (b_k x) a1 a2 &
    forall n' : net, (forall y, n' y SA = write_pair x a1 a2 n y SA) ->
    exists2 d, 0 < d & forall f, config p f -> amplitude n' f = d * act_bond g x (amplitude n) f].
Proof using All.
move=> Hg Gr HP Hin Hw Hn.
have [s [k [Hs Hk Ex]]] := bond_in HP Hin.
have Sg : shape (g_two g x) = [:: p; p; p; p] by apply: (proj1 Hg); apply: Permutation_in HP Hin.
have Rg : real (g_two g x) by apply: (proj1 Gr); apply: Permutation_in HP Hin.
subst x; rewrite /enough [b_k _]/= [b_s1 _]/= [b_s2 _]/= => He Hnz.
have [f1 [f2 Ef]] := within_pair Hk He.
have Nz := goal_nonzero Hs Hk Hnz.
have [chi Hf _] := Hw.
have Hr s' w : in_cell nx ny s' -> real (n s' w) by move=> Hs'; have [_] := Hn s' Hs'; apply.
have := C69_exact rtol Sq Ss Sf Se method_known tot (Order.POrderTheory.ltW c0) Hf Hs Hk fuel b0 p0 Sg (one_fits k Hg Hs) a0 c0 Hx it Rf Rq Re Hr Rg Ef Nz.
have [S1 _] := Hn s Hs; have [S2 _] := Hn _ (@nbr_cell nx ny k s Hs).
rewrite S1 S2 => -[r Er H]; exists r => //; case: H => [?|[a1 [a2 [d [E12 [A1 A2] [d0 Hd] Hcan]]]]]; [by left|right].
exists a1, a2; split=> //; first by exists d.
move=> n' Ew.
exists (d ^+ size (copies cell s)); first by rewrite exprn_gt0.
have N : nbr nx ny k s <> s by apply: nbr_other => //; apply/ltP.
have [K _ _] := cov.
have Ea : sites n' s = a1.
  by rewrite /sites Ew /write_pair /upd /=; case: site_eq_dec => [E1|_]; [case: N|case: site_eq_dec].
have Eb : sites n' (nbr nx ny k s) = a2 by rewrite /sites Ew /write_pair /upd /=; case: site_eq_dec.
apply: (psi_bond K cov Hk b0 Hs N) => [r' q y z Hr' Hq Hy Hz|y N1 N2]; last first.
  by rewrite /sites Ew /write_pair /upd /=; case: site_eq_dec => [E1|_]; [case: N2|case: site_eq_dec].
by rewrite Ea Eb kernelE; apply: Hd.
Qed.

(** C90.  One full update *)
Theorem C90_step c chi0 g x nr bl nr' : (0 < chi0 <= c)%N -> gates_ok u g -> gates_real g ->
  Permutation bl (build_bond_list nx ny) -> List.In x bl -> wide c nr.1 -> real_net nr.1 ->
  full_step chi0 g x nr = Some (Ok nr') ->
  [/\ wide c nr'.1, real_net nr'.1 &
    enough g x nr.1 -> ~ vanishes (act_bond g x (amplitude nr.1)) ->
    exists2 d, 0 < d & forall f, config p f -> amplitude nr'.1 f = d * act_bond g x (amplitude nr.1) f].
Proof using All.
move=> H0 Hg Gr HP Hin Hw Hn E.
have a0' : use_gauge_fix cfg -> 0 < gauge_fix_atol cfg by move=> /a0 [].
have [W' N' [a1 [a2 [Eu Ew]]]] := full_real method_known method_chol (Order.POrderTheory.ltW c0) a0' H0 Hg Gr Tf HP Hin Hw Hn E.
split=> // He Hv; have := update_state Hg Gr HP Hin Hw Hn He Hv.
by rewrite Eu => -[r [<-]] [[]//|[b1 [b2 [[<- <-] _ _ _]]]]; apply.
Qed.

Lemma vanishes_bonds g l F : vanishes F -> vanishes (act_bonds g l F).
Proof.
move=> V f Hf; have := @act_bonds_ext C u T nb cell g l F F 0 _ f Hf; rewrite mul0r; apply=> h Hh.
by rewrite mul0r V.
Qed.

Lemma frunE c chi0 g bl l nr nr' : (0 < chi0 <= c)%N -> gates_ok u g -> gates_real g -> Permutation bl (build_bond_list nx ny) ->
  (forall x, List.In x l -> List.In x bl) -> wide c nr.1 -> real_net nr.1 -> enough_along chi0 g l nr ->
  ~ vanishes (act_bonds g l (amplitude nr.1)) ->
  run_updates bond (option (res (net * R))) unit (guard (full_step chi0 g)) (Some (Ok nr)) l = Some (Ok nr') ->
  exists2 d, 0 < d & forall f, config p f -> amplitude nr'.1 f = d * act_bonds g l (amplitude nr.1) f.
Proof using All.
move=> H0 Hg Gr HP; elim: l nr => [|x l IH] nr Hl Hw Hn /=.
  by move=> _ _ [<-]; exists 1; [apply: ltr01|move=> s _; rewrite mul1r].
move=> [L1 L2] V E.
have G : forall l o, (forall s : net * R, o <> Some (Ok s)) -> forall s, run_updates bond (option (res (net * R))) unit (guard (full_step chi0 g)) o l <> Some (Ok s).
  by elim=> [|y l' IH'] o Ho //=; apply: IH'; case: o Ho => [[s /(_ s)|e]|].
case E1: (full_step chi0 g x nr) => [[nr1|e]|]; first last.
- by case: (G l None _ nr') => //; move: E; rewrite /run_updates /= E1.
- by case: (G l (Some (Err e)) _ nr') => //; move: E; rewrite /run_updates /= E1.
have [Hw1 Hn1 H1] := C90_step H0 Hg Gr HP (Hl x (or_introl erefl)) Hw Hn E1.
have [|d1 d10 Hd1] := H1 L1; first by move=> Z; apply: V; apply: vanishes_bonds.
have {}IH := IH nr1 (fun y Hy => Hl y (or_intror Hy)) Hw1 Hn1 (L2 _ E1).
have Ex f : config p f -> act_bonds g l (amplitude nr1.1) f = d1 * act_bonds g l (act_bond g x (amplitude nr.1)) f.
  by apply: act_bonds_ext => h Hh; rewrite Hd1.
have [||d d0 Hd] := IH; first 1 last.
- by move: E; rewrite /run_updates /= E1.
- exists (d * d1); first exact: mulr_gt0.
  by move=> s Hs; rewrite Hd // Ex // mulrA.
by move=> Z; apply: V => f Hf; have := Z f Hf; rewrite Ex // => /eqP; rewrite mulf_eq0 Order.POrderTheory.gt_eqF //= => /eqP.
Qed.

Notation renormalize := (Session.renormalize randn lqr lsvd fsvd u).
Notation evolve := (Session.evolve randn trand lqr lsvd fsvd leigh lchol rtol lcut noise fuel.+1 u).

Lemma renorm_real c (s s' : state) : healthy u c s -> real_net (s_net s) -> renormalize s = Ok s' ->
  [/\ healthy u c s', real_net (s_net s') & s_chi s' = s_chi s].
Proof using Ss Sf Rq Rl Rf Rr.
move=> Hs Hn E; have := renorm_ok randn lqr lsvd fsvd Hs; rewrite E /= => -[H1 [H2 _] _ _]; split=> //.
move: E; rewrite /Session.renormalize.
have := y_ctmrg Rq Ss Sf Rf (or_intror (Logic.conj Rl Rr)) (cfg := ctm_config u (s_chi s)) (u_ptype u) (u_steps u) (s_rng s) Hn.
by case: run_ctmrg => [[n r]|] //= Hr [<-].
Qed.

(** C90.  An evolution by full updates of real tensors with real gates, none of
    which asks more of a bond than it can carry, multiplies the amplitudes of the
    whole state, on every finite periodic lattice that covers the unit cell, by the
    gates of the schedule, one bond after the other at all its copies, up to a
    positive factor, unless those gates send the state to zero. *)
Theorem C90_evolve c st g steps (s s' : state) : s_init s = true -> gates_ok u g -> gates_real g -> healthy u c s ->
  real_net (s_net s) ->
  (forall s1, renormalize s = Ok s1 -> enough_along (s_chi s) g (schedule bond (s_bonds s) steps) (s_net s1, s_rng s1)) ->
  ~ vanishes (act_bonds g (schedule bond (s_bonds s) steps) (amplitude (s_net s))) ->
  evolve st g steps s = Some (Ok s') ->
  exists2 d, 0 < d & forall f, config p f ->
    amplitude (s_net s') f = d * act_bonds g (schedule bond (s_bonds s) steps) (amplitude (s_net s)) f.
Proof using All.
move=> Ei Hg Gr Hs Hn Hl V; rewrite /Session.evolve Ei /=; case E1: Session.renormalize => [s1|] //=.
have [A1 B1] := renorm_alike E1; have [Hs1 Hn1 Ec] := renorm_real Hs Hn E1.
rewrite /Session.evolve_tensors Tf /= /evolve_run evolve_state evolve_bonds B1 Ec.
case E2: (run_updates _ _ _ _ _ _) => [[[n2 w2]|]|] //= [E3]; have [A3 B3] := renorm_alike E3.
have [Hw HP H0] := Hs1; rewrite Ec in H0; rewrite B1 in HP.
have Ex f : config p f -> act_bonds g (schedule bond (s_bonds s) steps) (amplitude (s_net s1)) f = act_bonds g (schedule bond (s_bonds s) steps) (amplitude (s_net s)) f.
  move=> Hf; rewrite -[RHS]mul1r; apply: act_bonds_ext Hf => h _; rewrite mul1r; exact: amplitude_alike.
have [|d d0 Hd] := @frunE c (s_chi s) g (s_bonds s) _ (s_net s1, s_rng s1) (n2, w2) H0 Hg Gr HP (fun x => @in_sched x _ _) Hw Hn1 (Hl _ E1) _ E2.
  by move=> Z; apply: V => f Hf; have := Z f Hf; rewrite Ex.
by exists d => // f Hc; rewrite (amplitude_alike u nb cell f A3) Hd // Ex.
Qed.

(** gates that act on the two sites separately ask no more of a bond than it has *)
Lemma product_enough g l bl chi nr : product_gates u g -> Permutation bl (build_bond_list nx ny) -> (forall x, List.In x l -> List.In x bl) ->
  enough_along chi g l nr.
Proof.
move=> Hg HP; elim: l nr => [|x l IH] nr Hl //=; split; last by move=> nr' _; apply: IH => y Hy; apply: Hl; right.
have := @product_within C b p (b_k x) (fun _ => 1) (fun _ => Tensor [::] (fun _ => 0)) (fun _ => Tensor [::] (fun _ => 0)) (nr.1 (b_s1 x) SA) (nr.1 (b_s2 x) SA) (g_two g x).
case=> [|b1 [b2 H]]; first by apply: Hg; apply: Permutation_in HP _; apply: Hl; left.
exists b1, b2 => P Q y z HP' HQ Hy Hz; rewrite -H //.
by apply: eq_sumn => P1 _; apply: eq_sumn => Q1 _; rewrite (bond_pair b _ (fun _ => Tensor [::] (fun _ => 0))).
Qed.

(** With gates that act on the two sites separately nothing more is asked, whatever
    the bond dimension. *)
Corollary C90_product c st g steps (s s' : state) : s_init s = true -> gates_ok u g -> gates_real g -> product_gates u g ->
  healthy u c s -> real_net (s_net s) ->
  ~ vanishes (act_bonds g (schedule bond (s_bonds s) steps) (amplitude (s_net s))) ->
  evolve st g steps s = Some (Ok s') ->
  exists2 d, 0 < d & forall f, config p f ->
    amplitude (s_net s') f = d * act_bonds g (schedule bond (s_bonds s) steps) (amplitude (s_net s)) f.
Proof using All.
move=> Ei Hg Gr Hp Hs Hn V E; have [_ HP _] := Hs.
apply: (C90_evolve Ei Hg Gr Hs Hn _ V E) => s1 _; exact: (product_enough _ _ Hp HP (fun x => @in_sched x _ _)).
Qed.

(** ---- success with bond dimension 1 ---- *)
Section Total.
Hypothesis b1 : u_bond u = 1%N.
Hypothesis Mp : als_method cfg = "pinv".
Hypothesis Tp : svd_type (u_ctm u) = "full-rank".
Hypothesis k0 : 0 <= svd_cutoff (u_ctm u).
Hypothesis k1 : svd_cutoff (u_ctm u) < 1.

(** every corner and edge is a number, not zero *)
Definition live_edges (n : net) : Prop := forall s, in_cell nx ny s -> forall k, (k < 4)%N -> one 2 (n s (SC k)) /\ one 4 (n s (SE k)).

Lemma live_sites (n : net) s : in_cell nx ny s -> shape (n s SA) = [:: b; b; b; b; p] -> ~ vanishes (amplitude n) -> oneA p (n s SA).
Proof using b1 onto.
move=> Hs Sn V; split; first by rewrite Sn b1.
case: (boolP [exists q : 'I_p, at_ (n s SA) [:: 0; 0; 0; 0; nat_of_ord q]%N != 0]) => [/existsP[q Hq]|/existsPn Z]; first by exists q.
case: V => f Hf; have [t Et] := onto Hs; rewrite /P34_State.amplitude /psi big1 // => m _.
rewrite (bigD1 t) //= /entry /= Et /sites.
have Z1 z : (z < b)%N -> z = 0%N by rewrite b1 ltnS leqn0 => /eqP.
have Z0 l : nat_of_ord (m l) = 0%N by apply: Z1.
by rewrite !Z0; have := Z (Ordinal (Hf t)); rewrite negbK /= => /eqP->; rewrite mul0r.
Qed.

Lemma absorb_total chi s k (n : net) r : (0 < chi)%N -> in_cell nx ny s -> (k < 4)%N -> one_net nx ny p n ->
  exists nr, absorb_pair randn lqr lsvd fsvd u chi (Bond s (nbr nx ny k s) k) (n, r) = Ok nr /\ one_net nx ny p nr.1.
Proof using Sf Tp k0 k1.
move=> H0 Hs Hk Hn; have Hk' : (k < 4)%coq_nat by apply/ltP.
have Hs2 : in_cell nx ny (nbr nx ny k s) by apply: nbr_cell.
rewrite /absorb_pair absorb_bond_eq //= /seq_pair.
set ms := [:: (PeanoNat.Nat.modulo (k + 2) 4, line_of k s); (PeanoNat.Nat.modulo (PeanoNat.Nat.modulo (k + 2) 4 + 2) 4, line_of k (nbr nx ny k s))].
have Hv m : List.In m ms -> valid_move nx ny m.
  have L x : in_cell nx ny x -> (line_of k x < lines_of nx ny k)%coq_nat by move=> Hx'; have [] := @in_cell_bounds nx ny k x Hk' Hx'.
  have := L _ Hs; have := L _ Hs2.
  by rewrite /ms; case: (k) Hk => [|[|[|[|]]]] //= _ L2 L1 [<-|[<-|[]]]; split=> //=; apply/ltP.
have [nr [E On]] := @moves_one C R randn lqr lsvd fsvd (ctm_config u chi) Tp Sf H0 k0 k1 (u_ptype u) nx ny p ms Hv n r Hn.
exists nr; split=> //; move: E; rewrite /moves /run_moves /ms /=.
case: (move_dir _ _ _ _ _ _ _ _ _ _ _ _ _ _ _) => [[n1 r1]|e] //=.
by case: (move_dir _ _ _ _ _ _ _ _ _ _ _ _ _ _ _) => [[n2 r2]|e].
Qed.

Lemma full_total c chi0 g x nr bl : (0 < chi0 <= c)%N -> gates_ok u g -> gates_real g ->
  Permutation bl (build_bond_list nx ny) -> List.In x bl -> wide c nr.1 -> real_net nr.1 -> live_edges nr.1 ->
  enough g x nr.1 -> ~ vanishes (act_bond g x (amplitude nr.1)) ->
  exists2 nr', full_step chi0 g x nr = Some (Ok nr') & live_edges nr'.1.
Proof using All.
case: nr => n r H0 Hg Gr HP Hin Hw Hn Ho He Hv.
have [s [k [Hs Hk Ex]]] := bond_in HP Hin.
have [q Eu H] := update_state Hg Gr HP Hin Hw Hn He Hv; case: H => [[_]|[a1 [a2 [Eq [S1 S2] _ _ Ha]]]]; first by rewrite Mp.
rewrite /Session.full_step Eu Eq [bind _ _]/=; have [d d0 Hd] := Ha _ (fun _ => erefl).
have V' : ~ vanishes (amplitude (write_pair x a1 a2 n)).
  by move=> Z; apply: Hv => f Hf; have := Z f Hf; rewrite Hd // => /eqP; rewrite mulf_eq0 Order.POrderTheory.gt_eqF //= => /eqP.
have On : one_net nx ny p (write_pair x a1 a2 n).
  move=> y Hy; split; last by move=> j Hj; have := Ho y Hy j Hj; rewrite /write_pair /upd; do 2 case: site_eq_dec.
  apply: live_sites => //; rewrite /write_pair /upd; case: site_eq_dec => //= _; case: site_eq_dec => //= _.
  by have [] := Hn y Hy.
have /andP[h0 _] := H0; have [nr' [E' O']] := absorb_total r h0 Hs Hk On.
by exists nr'; [move: E'; rewrite -Ex => ->|move=> y Hy; have [] := O' y Hy].
Qed.

Lemma frun_total c chi0 g bl l nr : (0 < chi0 <= c)%N -> gates_ok u g -> gates_real g -> Permutation bl (build_bond_list nx ny) ->
  (forall x, List.In x l -> List.In x bl) -> wide c nr.1 -> real_net nr.1 -> live_edges nr.1 -> enough_along chi0 g l nr ->
  ~ vanishes (act_bonds g l (amplitude nr.1)) ->
  exists2 nr', run_updates bond (option (res (net * R))) unit (guard (full_step chi0 g)) (Some (Ok nr)) l = Some (Ok nr') &
    [/\ wide c nr'.1, real_net nr'.1, live_edges nr'.1 & ~ vanishes (amplitude nr'.1)].
Proof using All.
move=> H0 Hg Gr HP; elim: l nr => [|x l IH] nr Hl Hw Hn Ho /=; first by move=> _ V; exists nr.
move=> [L1 L2] V.
have V1 : ~ vanishes (act_bond g x (amplitude nr.1)) by move=> Z; apply: V; apply: vanishes_bonds.
have [nr1 E1 Ho1] := full_total H0 Hg Gr HP (Hl x (or_introl erefl)) Hw Hn Ho L1 V1.
have [Hw1 Hn1 H1] := C90_step H0 Hg Gr HP (Hl x (or_introl erefl)) Hw Hn E1.
have [d1 d10 Hd1] := H1 L1 V1.
have Ex f : config p f -> act_bonds g l (amplitude nr1.1) f = d1 * act_bonds g l (act_bond g x (amplitude nr.1)) f.
  by apply: act_bonds_ext => h Hh; rewrite Hd1.
have [|nr' E' H'] := IH nr1 (fun y Hy => Hl y (or_intror Hy)) Hw1 Hn1 Ho1 (L2 _ E1); last by exists nr' => //; rewrite /run_updates /= E1.
by move=> Z; apply: V => f Hf; have := Z f Hf; rewrite Ex // => /eqP; rewrite mulf_eq0 Order.POrderTheory.gt_eqF //= => /eqP.
Qed.

Lemma renorm_live (s : state) : (0 < s_chi s)%N -> real_net (s_net s) -> live_edges (s_net s) -> ~ vanishes (amplitude (s_net s)) ->
  exists2 s', renormalize s = Ok s' & live_edges (s_net s').
Proof using b1 onto Sf Tp k0 k1.
move=> H0 Hn Ho V.
have On : one_net nx ny p (s_net s) by move=> y Hy; split; [have [S _] := Hn y Hy; apply: live_sites|exact: Ho].
have [[n r] [E O']] := @ctmrg_one C R randn lqr lsvd fsvd (ctm_config u (s_chi s)) Tp Sf H0 k0 k1 (u_ptype u) nx ny p (u_steps u) (s_net s) (s_rng s) On.
by rewrite /Session.renormalize E /=; eexists; first reflexivity; move=> y Hy; have [] := O' y Hy.
Qed.

(** With bond dimension 1 and the pseudoinverse such an evolution does not fail. *)
Theorem C90_succeeds c st g steps (s : state) : s_init s = true -> gates_ok u g -> gates_real g -> healthy u c s ->
  real_net (s_net s) -> live_edges (s_net s) ->
  (forall s1, renormalize s = Ok s1 -> enough_along (s_chi s) g (schedule bond (s_bonds s) steps) (s_net s1, s_rng s1)) ->
  ~ vanishes (act_bonds g (schedule bond (s_bonds s) steps) (amplitude (s_net s))) ->
  exists s', evolve st g steps s = Some (Ok s').
Proof using All.
move=> Ei Hg Gr Hs Hn Ho Hl V; rewrite /Session.evolve Ei /=.
have [_ _ /andP[h0 _]] := Hs.
have V0 : ~ vanishes (amplitude (s_net s)) by move=> Z; apply: V; apply: vanishes_bonds.
have [s1 E1 Ho1] := renorm_live h0 Hn Ho V0; rewrite E1.
have [A1 B1] := renorm_alike E1; have [Hs1 Hn1 Ec] := renorm_real Hs Hn E1.
rewrite /Session.evolve_tensors Tf /= /evolve_run evolve_state evolve_bonds B1 Ec.
have [Hw HP H0] := Hs1; rewrite Ec in H0; rewrite B1 in HP.
have Ex f : config p f -> act_bonds g (schedule bond (s_bonds s) steps) (amplitude (s_net s1)) f = act_bonds g (schedule bond (s_bonds s) steps) (amplitude (s_net s)) f.
  move=> Hf; rewrite -[RHS]mul1r; apply: act_bonds_ext Hf => h _; rewrite mul1r; exact: amplitude_alike.
have [|[n2 r2] -> [Hw2 Hn2 Ho2 V2]] := @frun_total c (s_chi s) g (s_bonds s) _ (s_net s1, s_rng s1) H0 Hg Gr HP (fun x => @in_sched x _ _) Hw Hn1 Ho1 (Hl _ E1).
  by move=> Z; apply: V => f Hf; have := Z f Hf; rewrite Ex.
have [s' E' _] := @renorm_live (State n2 r2 (step_bonds bond (s_bonds s) steps) (s_chi s) (s_init s1)) h0 Hn2 Ho2 V2.
by exists s'; rewrite /= E'.
Qed.
End Total.
End Exact.
End Run.

(** ---- a session by hand ---- *)
Section Examples.
Variable C : numClosedFieldType.
Notation tensor := (tensor C).

Lemma torus_onto a c nx ny : (0 < a)%N -> (0 < c)%N -> forall s, in_cell nx ny s -> exists t, tcell (a := a) (c := c) (nx := nx) (ny := ny) t = s.
Proof.
move=> a0 c0 [i j] [/ltP /= Hi /ltP /= Hj].
have Hi' : (i < a * nx)%N by apply: leq_trans Hi _; rewrite leq_pmull.
have Hj' : (j < c * ny)%N by apply: leq_trans Hj _; rewrite leq_pmull.
exists (Ordinal Hi', Ordinal Hj'); rewrite /tcell /tsite /under /=.
by rewrite !PeanoNat.Nat.mod_small //; apply/ltP.
Qed.

(** states without negative amplitudes only grow under gates without negative
    entries that keep every configuration *)
Section Grow.
Variable T : finType.
Variable nb : nat -> T -> T.
Definition steady (F : (T -> nat) -> C) : Prop := (forall f h, f =1 h -> F f = F h) /\ forall f, config 2 f -> 0 <= F f.
Lemma grow_list (K : nat -> nat -> nat -> nat -> C) k l F : (forall P Q r q, 0 <= K P Q r q) -> (forall P Q, (P < 2)%N -> (Q < 2)%N -> 1 <= K P Q P Q) -> steady F ->
  let G := foldr (fun t => act2 2 K t (nb k t)) F l in steady G /\ forall f, config 2 f -> F f <= G f.
Proof.
move=> K0 K1 HF; elim: l => [|t l [[E P] H]] /=; first by split.
set G := foldr _ _ _ in E P H *; split; first split.
- move=> f h Ef; apply: eq_sumn => i Hi; apply: eq_sumn => j Hj; rewrite !Ef; congr (_ * _); apply: E => y.
  by rewrite /put; case: eqP => // _; case: eqP.
- move=> f Hf; apply: sumr_ge0 => i _; apply: sumr_ge0 => j _; rewrite mulr_ge0 // P //.
  by apply: config_put => //; apply: config_put.
move=> f Hf; rewrite /act2 /sumn (bigD1 (Ordinal (Hf t))) //= (bigD1 (Ordinal (Hf (nb k t)))) //=.
rewrite (E _ f) => [|y]; last by rewrite /put; case: eqP => [->|_] //; case: eqP => [->|].
rewrite -addrA; apply: (Order.POrderTheory.le_trans (H f Hf)); apply: ler_paddr.
  apply: addr_ge0; first by apply: sumr_ge0 => j _; rewrite mulr_ge0 // P //; apply: config_put => //; apply: config_put.
  by apply: sumr_ge0 => i _; apply: sumr_ge0 => j _; rewrite mulr_ge0 // P //; apply: config_put => //; apply: config_put.
by rewrite ler_pemulr ?P // K1.
Qed.
End Grow.

(** bond dimension 1, full updates with gauge fixing *)
Definition fset : setup C := Setup 2 2 1 2 Full 3 (PConfig "full-rank" 0 2 2 3) "full" (EConfig "pinv" 0 1 10 true 1 2%:R).
Definition up_net : Mover.net tensor := fun _ sl =>
  match sl with
  | SA => Tensor [:: 1; 1; 1; 1; 2]%N (fun i => (nth 0%N i 4 == 0%N)%:R)
  | SC _ => Tensor [:: 1; 1]%N (fun _ => 1)
  | SE _ => Tensor [:: 1; 1; 1; 1]%N (fun _ => 1)
  end.
Definition up_state : Session.state C unit := State up_net tt (build_bond_list 2 2) 3 true.
Notation evolve := (@Session.evolve C unit (fun r _ _ => (0, r)) (@zeros_rand C) (@some_qr C) (@some_thin_svd C) (@some_full_svd C) (@some_eigh C) (@some_chol C) (fun _ _ => 0) 1 0 1).

Example C90_session st steps : exists2 s', evolve fset st (shears C) steps up_state = Some (Ok s') &
  forall a c, (0 < a)%N -> (0 < c)%N -> exists2 d, 0 < d & forall f, config 2 f ->
    amplitude fset (tnbr (nx := 2) (ny := 2)) (tcell (a := a) (c := c) (nx := 2) (ny := 2)) (s_net s') f =
    d * act_bonds fset (tnbr (nx := 2) (ny := 2)) (tcell (nx := 2) (ny := 2)) (shears C) (schedule bond (build_bond_list 2 2) steps)
      (amplitude fset (tnbr (nx := 2) (ny := 2)) (tcell (nx := 2) (ny := 2)) up_net) f.
Proof.
have tot n (A : 'M[C]_n) : some_eigh A by [].
have Rth : real_thin (@some_thin_svd C) := @some_thin_svd_real C.
have Hx : exact_method (@some_eigh C) (@some_chol C) (u_evo fset) by split=> //; right; split=> //; exact: some_eigh_spec.
have Rr : real_rand (fun (r : unit) n q => ((0 : 'M[C]_(n, q)), r)) by move=> r n q i j; rewrite mxE rpred0.
have c0 : 0 < positive_approx_cutoff (u_evo fset) by rewrite ltr0n.
have a0 : use_gauge_fix (u_evo fset) -> 0 < gauge_fix_atol (u_evo fset) /\ gauge_fix_atol (u_evo fset) ^+ 2 < positive_approx_cutoff (u_evo fset) *+ minn (1 ^ 3) (2 * 1).
  by move=> _; split; rewrite /= ?ltr01 // expr1n mulr1n ltr1n.
have Hg : gates_ok fset (shears C) by split.
have Gr : gates_real fset (shears C).
  by split=> // x _ i _; apply: realM; rewrite /shear /unit2; case: ifP => _; rewrite ?real1 ?real0.
have Hp : product_gates fset (shears C) by move=> x _; exists (shear C), (unit2 C).
have Hs : healthy fset 3 up_state.
  by split=> //; exists (fun _ _ => 1%N) => // x Hx'; split=> // k Hk.
have Hn : RealNet.real_net 2 2 1 2 (s_net up_state).
  by move=> x Hx'; split=> // w i _; case: w => *; rewrite /= ?realn ?real1.
have Ho : live_edges fset (s_net up_state) by move=> x Hx' k Hk; split; split=> //=; rewrite oner_neq0.
have V a c : (0 < a)%N -> (0 < c)%N -> ~ vanishes fset (act_bonds fset (tnbr (nx := 2) (ny := 2)) (tcell (a := a) (c := c) (nx := 2) (ny := 2)) (shears C) (schedule bond (build_bond_list 2 2) steps)
      (amplitude fset (tnbr (nx := 2) (ny := 2)) (tcell (nx := 2) (ny := 2)) up_net)).
  move=> a0' c0' Z; set F := amplitude _ _ _ _ in Z.
  have HF : steady F.
    split=> [f h Ef|f Hf]; first exact: psi_ext.
    by apply: sumr_ge0 => m _; apply: prodr_ge0 => t _; rewrite ler0n.
  have Hz : config 2 (fun _ : torus a c 2 2 => 0%N) by [].
  have G l : steady F -> 0 < F (fun _ => 0%N) -> 0 < act_bonds fset (tnbr (nx := 2) (ny := 2)) (tcell (nx := 2) (ny := 2)) (shears C) l F (fun _ => 0%N).
    elim: l (F) => [|x l IH] F' HF' Pos //=.
    have [|i j|H1 H2] := @grow_list (torus a c 2 2) (tnbr (nx := 2) (ny := 2)) (kernel 2 (g_two (shears C) x) None) (b_k x) (copies (tcell (nx := 2) (ny := 2)) (b_s1 x)) F' _ _ HF'.
    - by move=> P Q r q; rewrite /= mulr_ge0 // /shear /unit2; case: ifP => _; rewrite ?ler01.
    - by move=> Hi _; rewrite /= /shear /unit2 eqxx mulr1; case: i Hi => [|[|i]] //=.
    apply: IH => //; exact: Order.POrderTheory.lt_le_trans Pos (H2 _ Hz).
  have F0 : 0 < F (fun _ => 0%N).
    rewrite /F /amplitude /psi (bigD1 [ffun _ => ord0]) //=; apply: ltr_paddr.
      by apply: sumr_ge0 => m _; apply: prodr_ge0 => t _; rewrite ler0n.
    by rewrite big1 ?ltr01.
  by have := G (schedule bond (build_bond_list 2 2) steps) HF F0; rewrite Z // Order.POrderTheory.ltxx.
have [|s' E] := @C90_succeeds _ _ _ (@zeros_rand C) _ _ _ _ (@some_chol C) (fun _ _ => 0) 1 0 0 fset (@some_qr_spec C) (@some_thin_svd_spec C) (@some_full_svd_spec C) (@some_eigh_spec C) tot
  (@some_qr_real C) Rth (@some_full_svd_real C) (@some_eigh_real C) Rr isT isT isT isT Hx isT c0 a0 erefl _ _ _ (@torus_covers 1 1 2 2 isT isT isT isT) (@torus_onto 1 1 2 2 isT isT)
  erefl erefl erefl (Order.POrderTheory.lexx 0) ltr01 3 st (shears C) steps up_state erefl Hg Gr Hs Hn Ho _ (V 1%N 1%N isT isT).
  move=> s1 _; apply: product_enough Hp (Permutation_refl _) _ => x; exact: in_sched.
exists s' => // a c a1 c1.
have [d d0 Hd] := (@C90_product _ _ _ (@zeros_rand C) _ _ _ _ (@some_chol C) (fun _ _ => 0) 1 0 0 fset (@some_qr_spec C) (@some_thin_svd_spec C) (@some_full_svd_spec C) (@some_eigh_spec C) tot
  (@some_qr_real C) Rth (@some_full_svd_real C) (@some_eigh_real C) Rr isT isT isT isT Hx isT c0 a0 erefl _ _ _ (@torus_covers a c 2 2 a1 c1 isT isT) (@torus_onto a c 2 2 a1 c1)
  3 st (shears C) steps up_state s' erefl Hg Gr Hp Hs Hn (V a c a1 c1) E).
exists d => // f Hf; exact: (Hd f Hf).
Qed.

(** bond dimension 2: the network whose sites all agree, with boundary tensors that
    are one number each *)
Definition fset2 : setup C := Setup 2 2 2 2 Full 3 (PConfig "full-rank" 0 2 2 3) "full" (EConfig "pinv" 0 1 10 true 1 2%:R).
Definition agree_net : Mover.net tensor := fun _ sl =>
  match sl with
  | SA => ghz C
  | SC _ => Tensor [:: 1; 1]%N (fun _ => 1)
  | SE _ => Tensor [:: 1; 1; 2; 2]%N (fun i => (nth 0%N i 2 == nth 0%N i 3)%:R)
  end.
Notation update := (full_bond_update (@some_qr C) (@some_thin_svd C) (@some_full_svd C) (@some_eigh C) (@some_chol C) (fun _ _ => 0) (u_evo fset2) 1).

(** the full update with an entangling gate finds the tensors of the new state *)
Example C90_cnot : exists a1 a2, update agree_net (bond0) (cnot C) None = Some (Ok (a1, a2)) /\
  forall a c, (0 < a)%N -> (0 < c)%N -> exists2 d, 0 < d & forall f, config 2 f ->
    amplitude fset2 (tnbr (nx := 2) (ny := 2)) (tcell (a := a) (c := c) (nx := 2) (ny := 2)) (write_pair bond0 a1 a2 agree_net) f =
    d * act_bond fset2 (tnbr (nx := 2) (ny := 2)) (tcell (nx := 2) (ny := 2)) (cnots C) bond0
       (fun f => [forall t, (f t == f (tnbr (nx := 2) (ny := 2) 1 t)) && (f t == f (tnbr (nx := 2) (ny := 2) 2 t))]%:R) f.
Proof.
have tot n (A : 'M[C]_n) : some_eigh A by [].
have Rth : real_thin (@some_thin_svd C) := @some_thin_svd_real C.
have Hx : exact_method (@some_eigh C) (@some_chol C) (u_evo fset2) by split=> //; right; split=> //; exact: some_eigh_spec.
have Rr : real_rand (fun (r : unit) n q => ((0 : 'M[C]_(n, q)), r)) by move=> r n q i j; rewrite mxE rpred0.
have c0 : 0 < positive_approx_cutoff (u_evo fset2) by rewrite ltr0n.
have a0 : use_gauge_fix (u_evo fset2) -> 0 < gauge_fix_atol (u_evo fset2) /\ gauge_fix_atol (u_evo fset2) ^+ 2 < positive_approx_cutoff (u_evo fset2) *+ minn (2 ^ 3) (2 * 2).
  by move=> _; split; rewrite /= ?ltr01 // expr1n -mulrnA ltr1n.
have Hg : gates_ok fset2 (cnots C) by split.
have Gr : gates_real fset2 (cnots C) by split=> // x _ i _; rewrite /= realn.
have Hw : wide fset2 3 agree_net by exists (fun _ _ => 1%N) => // x Hx'; split=> // k Hk.
have Hn : RealNet.real_net 2 2 2 2 agree_net by move=> x Hx'; split=> // w i _; case: w => *; rewrite /= ?realn ?real1.
have He : enough fset2 (cnots C) bond0 agree_net.
  exists (Tensor [:: 8; 2; 2]%N (fun i => ((nth 0%N i 0 == 7 * nth 0%N i 1)%N && (nth 0%N i 2 == nth 0%N i 1))%:R)).
  exists (Tensor [:: 8; 2; 2]%N (fun i => ((nth 0%N i 0 == 7 * nth 0%N i 1)%N && (nth 0%N i 2 == 0%N))%:R)).
  move=> P Q y x HP HQ Hy Hx'; pose w (_ : nat) := ones_vec (plain_setup C 2 "simple").
  have W d : (d < 4)%N -> w d = ones_vec (plain_setup C 2 "simple") by [].
  rewrite -[RHS](ghz_goal (C := C) W W HP HQ Hy Hx').
  apply: eq_sumn => P1 _; apply: eq_sumn => Q1 _; congr (_ * _); rewrite (bond_pair 2 2 w).
  apply: eq_sumn => v _; rewrite /entry1 /entry2 /wprod; congr (_ * _ * (_ * _)); by apply: eq_bigr.
have Hb : List.In bond0 (build_bond_list 2 2) by left.
have A a c (f : torus a c 2 2 -> nat) : (0 < a)%N -> (0 < c)%N -> config 2 f -> amplitude fset2 (tnbr (nx := 2) (ny := 2)) (tcell (a := a) (c := c) (nx := 2) (ny := 2)) agree_net f =
    [forall t, (f t == f (tnbr (nx := 2) (ny := 2) 1 t)) && (f t == f (tnbr (nx := 2) (ny := 2) 2 t))]%:R.
  by move=> a1 c1 Hf; have [K _ _] := @torus_covers a c 2 2 a1 c1 isT isT; rewrite -ghz_psi.
have V a c : (0 < a)%N -> (0 < c)%N -> ~ vanishes fset2 (act_bond fset2 (tnbr (nx := 2) (ny := 2)) (tcell (a := a) (c := c) (nx := 2) (ny := 2)) (cnots C) bond0
      (amplitude fset2 (tnbr (nx := 2) (ny := 2)) (tcell (nx := 2) (ny := 2)) agree_net)).
  move=> a1 c1 Z; set F := amplitude _ _ _ _ in Z.
  have EF f h : f =1 h -> F f = F h by move=> Ef; exact: psi_ext.
  have Hz : config 2 (fun _ : torus a c 2 2 => 0%N) by [].
  have G l : (forall f h, f =1 h -> foldr (fun t => act2 2 (kernel 2 (cnot C) None) t (tnbr (nx := 2) (ny := 2) 2 t)) F l f = foldr (fun t => act2 2 (kernel 2 (cnot C) None) t (tnbr (nx := 2) (ny := 2) 2 t)) F l h) /\
      foldr (fun t => act2 2 (kernel 2 (cnot C) None) t (tnbr (nx := 2) (ny := 2) 2 t)) F l (fun _ => 0%N) = F (fun _ => 0%N).
    elim: l => [|t l [E1 E2]] /=; first by split.
    split=> [f h Ef|].
      apply: eq_sumn => i Hi; apply: eq_sumn => j Hj; rewrite !Ef; congr (_ * _); apply: E1 => y.
      by rewrite /put; case: eqP => // _; case: eqP.
    rewrite /act2 /sumn !big_ord_recl !big_ord0 /= !mulr0 !addr0 mulr1 -E2; apply: E1 => y.
    by rewrite /put; case: eqP => // _; case: eqP.
  have [_ E] := G (copies (tcell (nx := 2) (ny := 2)) (0, 0)%N).
  have := Z _ Hz; rewrite /act_bond /act_copies E /F A // => /eqP.
  by rewrite pnatr_eq0 eqb0 => /negP []; apply/forallP => t; rewrite !eqxx.
have U a c (a1 : (0 < a)%N) (c1 : (0 < c)%N) := @update_state _ _ _ (@zeros_rand C) _ _ _ _ (@some_chol C) (fun _ _ => 0) 1 0 0 fset2 (@some_qr_spec C) (@some_thin_svd_spec C) (@some_full_svd_spec C) (@some_eigh_spec C) tot
  (@some_qr_real C) Rth (@some_full_svd_real C) (@some_eigh_real C) Rr isT isT isT isT Hx isT c0 a0 erefl _ _ _ (@torus_covers a c 2 2 a1 c1 isT isT) (@torus_onto a c 2 2 a1 c1)
  3 (cnots C) bond0 agree_net _ Hg Gr (Permutation_refl _) Hb Hw Hn He (V a c a1 c1).
have [r Er Hr] := U 1%N 1%N isT isT; case: Hr => [[]//|[a1 [a2 [Eq _ _ _ _]]]]; rewrite Eq in Er.
exists a1, a2; split=> // a c a1' c1'.
have [r' Er' Hr'] := U a c a1' c1'; move: Er'; rewrite Er => -[Eq']; rewrite -Eq' in Hr'.
case: Hr' => [[]//|[e1 [e2 [[<- <-] _ _ _ /(_ _ (fun _ => erefl)) [d d0 Hd]]]]].
exists d => // f Hf; rewrite [LHS]Hd //; congr (_ * _); apply: act_bond_ext => // h Hh; exact: A.
Qed.
End Examples.

Print Assumptions C90_fresh.
Print Assumptions C90_step.
Print Assumptions C90_evolve.
Print Assumptions C90_product.
Print Assumptions C90_succeeds.
Print Assumptions C90_session.
Print Assumptions C90_cnot.
