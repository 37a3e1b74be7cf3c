(** C81: the physical basis does not matter to renormalisation and measurement. *)
From Coq Require Import String Ascii Permutation.
From mathcomp Require Import all_ssreflect all_algebra.
From Verif Require Import Base Lattice LatticeFacts Mover Tensor TN Rdm RdmFacts Fits Measure MeasureFacts Linalg Rsvd Renorm RenormFacts
  P05_Mover MoveShape FullUpdate Als EighChol Dist Lambda Evolve Session P29_Session Layer Basis.
Set Implicit Arguments.
Unset Strict Implicit.
Unset Printing Implicit Defensive.
Import GRing.Theory Num.Theory.
Local Open Scope ring_scope.
Local Open Scope string_scope.

Section Turned.
Variable C : numClosedFieldType.
Notation tensor := (tensor C).
Notation net := (Mover.net tensor).
Variable R : Type.
Variable randn : R -> forall n q : nat, 'M[C]_(n, q) * R.
Variable lqr : qr_fun C.
Variable lsvd : thin_svd_fun C.
Variable fsvd : full_svd_fun C.

Lemma renorm_keeps (cfg : pconfig C) pt nx ny steps (n n' : net) r r' :
  run_ctmrg randn lqr lsvd fsvd cfg pt nx ny steps (n, r) = Ok (n', r') -> forall s, n' s SA = n s SA.
Proof.
rewrite /run_ctmrg /ctmrg; elim: (List.seq 0 steps) n r => [|i l IH] n r; first by move=> [-> _].
rewrite /=; case E: (ctmrg_step _ _ _ _ _ _ _ _ _ _ _ _) => [[n1 r1]|] //= E'.
move=> s; rewrite (IH _ _ E').
by have [-> _] := @sweep_good _ _ _ _ _ _ _ _ pt nx ny (fun _ => True) (fun _ => True)
  (fun _ _ _ _ _ => I) (fun _ _ _ _ _ => I) (fun _ _ _ _ _ _ => I) n r n1 r1 E.
Qed.

(** C81.  Renormalisation sees a site tensor only through its double layer, the sum
    over the physical index of A times conj(A).  Two networks with equal corners and
    edges whose site tensors have the same double layers, however different the
    site tensors and the physical dimensions: both runs fail with the same
    exception, or both succeed, draw the same random numbers and end with equal
    corners and edges. *)
Theorem C81_layer (cfg : pconfig C) pt nx ny D p p' chi steps (n n' : net) (r : R) :
  (0 < pchi cfg)%N -> fits nx ny D p chi n ->
  (forall s, in_cell nx ny s -> [/\ shape (n' s SA) = [:: D; D; D; D; p'],
      forall i j, in_range [:: D; D; D; D] i -> in_range [:: D; D; D; D] j ->
        sumn p (fun x => at_ (n s SA) (rcons i x) * (at_ (n s SA) (rcons j x))^*) =
        sumn p' (fun x => at_ (n' s SA) (rcons i x) * (at_ (n' s SA) (rcons j x))^*) &
      forall d, (d < 4)%N -> teq (n s (SC d)) (n' s (SC d)) /\ teq (n s (SE d)) (n' s (SE d))]) ->
  match run_ctmrg randn lqr lsvd fsvd cfg pt nx ny steps (n, r), run_ctmrg randn lqr lsvd fsvd cfg pt nx ny steps (n', r) with
  | Ok (m, q), Ok (m', q') => q = q' /\ forall s, in_cell nx ny s ->
      (m s SA = n s SA /\ m' s SA = n' s SA) /\
      forall d, (d < 4)%N -> teq (m s (SC d)) (m' s (SC d)) /\ teq (m s (SE d)) (m' s (SE d))
  | Err e, Err e' => e = e'
  | _, _ => False
  end.
Proof.
move=> H0 Hf H.
have Hn : nrel nx ny D p p' (@teq C) n n'.
  move=> s Hs; have [H1 H2 H3] := H s Hs; split=> //; split=> //; first by have [] := Hf s Hs.
  by exists 1 => [|i j Hi Hj]; [exact: ltr01|rewrite mul1r; apply: H2].
have := ctmrg_cong randn lqr lsvd fsvd pt H0 (fun _ _ x => x) (@prop_teq C) steps r Hf Hn.
case E: (run_ctmrg _ _ _ _ _ _ _ _ _ (n, r)) => [[m q]|e]; case E': (run_ctmrg _ _ _ _ _ _ _ _ _ _) => [[m' q']|e'] //=.
case=> /= Hm Hq; split=> // s Hs; split; last by have [] := Hm s Hs.
by split; [exact: (renorm_keeps E s)|exact: (renorm_keeps E' s)].
Qed.

(** A change of the physical basis by a matrix V s with orthonormal columns at each
    site s leaves the double layers as they are, so renormalisation commutes with
    it. *)
Theorem C81_renormalize (cfg : pconfig C) pt nx ny D p p' V chi steps (n n' : net) (r : R) :
  (0 < pchi cfg)%N -> fits nx ny D p chi n ->
  (forall s, in_cell nx ny s -> isometry p p' (V s)) -> turned_net nx ny D p p' V n n' ->
  match run_ctmrg randn lqr lsvd fsvd cfg pt nx ny steps (n, r), run_ctmrg randn lqr lsvd fsvd cfg pt nx ny steps (n', r) with
  | Ok (m, q), Ok (m', q') => q = q' /\ turned_net nx ny D p p' V m m'
  | Err e, Err e' => e = e'
  | _, _ => False
  end.
Proof.
move=> H0 Hf HV Hn.
have := ctmrg_cong randn lqr lsvd fsvd pt H0 (fun _ _ x => x) (@prop_teq C) steps r Hf (turned_nrel HV Hn).
case E: (run_ctmrg _ _ _ _ _ _ _ _ _ (n, r)) => [[m q]|e]; case E': (run_ctmrg _ _ _ _ _ _ _ _ _ _) => [[m' q']|e'] //=.
case=> /= Hm Hq; split=> // s Hs; split; last by have [] := Hm s Hs.
have E1 := renorm_keeps E s; have E2 := renorm_keeps E' s; rewrite E1 E2; by have [] := Hn s Hs.
Qed.

(** the density matrices change to conj(V) rho V^T *)
Theorem C81_rdm nx ny D p p' V chi (n n' : net) empty s k :
  fits nx ny D p chi n -> turned_net nx ny D p p' V n n' -> in_cell nx ny s -> (k < 4)%N ->
  let t := nbr nx ny k s in
  (exists rho rho', [/\ build_site_rdm n s = Ok rho, build_site_rdm n' s = Ok rho', shape rho = [:: p; p], shape rho' = [:: p'; p'] &
    forall Q q, (Q < p')%N -> (q < p')%N -> at_ rho' [:: Q; q] =
      sumn p (fun K => sumn p (fun k => at_ rho [:: K; k] * ((V s Q K)^* * V s q k)))]) /\
  exists rho rho', [/\ build_bond_rdm empty n (Bond s t k) = Ok rho, build_bond_rdm empty n' (Bond s t k) = Ok rho',
    shape rho = [:: p; p; p; p], shape rho' = [:: p'; p'; p'; p'] &
    forall P Q r q, (P < p')%N -> (Q < p')%N -> (r < p')%N -> (q < p')%N -> at_ rho' [:: P; Q; r; q] =
      sumn p (fun A => sumn p (fun B => sumn p (fun a => sumn p (fun b =>
        at_ rho [:: A; B; a; b] * ((V s P A)^* * ((V t Q B)^* * (V s r a * V t q b)))))))].
Proof. by move=> Hf Ht Hs Hk t; split; [have := net_site_rdm Hf Ht Hs|have := net_bond_rdm Hf Ht empty Hs Hk]. Qed.

(** ---- sessions ---- *)
Variable trand : R -> nat -> nat -> tensor * R.
Variable leigh : eigh_fun C.
Variable lchol : chol_fun C.
Variable rtol : nat -> nat -> C.
Variables (lcut noise : C).
Variable fuel : nat.
Variable empty : nat -> tensor.
Notation session := (Session.session randn trand lqr lsvd fsvd leigh lchol rtol lcut noise fuel empty).
Notation state := (Session.state C R).
Notation call := (call C).

(** the same configuration up to the physical dimension (and the settings of
    evolve) *)
Definition same_ctm (u u' : setup C) : Prop :=
  [/\ u_nx u' = u_nx u, u_ny u' = u_ny u, u_bond u' = u_bond u & [/\ u_ptype u' = u_ptype u, u_steps u' = u_steps u & u_ctm u' = u_ctm u]].

Section Pair.
Variables (u u' : setup C) (V : site -> nat -> nat -> C).
Notation nx := (u_nx u).
Notation ny := (u_ny u).
Notation p := (u_phys u).
Notation p' := (u_phys u').

(** corresponding calls: no evolve; the operators of a measurement are seen in the
    new basis *)
Definition turned_call (x x' : call) : Prop :=
  match x, x' with
  | SetChi c, SetChi c' => c = c' /\ (0 < c)%N
  | Renormalize, Renormalize => True
  | Measure m, Measure m' => turned_model nx ny p p' V m m'
  | _, _ => False
  end.

Definition turned_state (s s' : state) : Prop :=
  [/\ exists chi, fits nx ny (u_bond u) p chi (s_net s), turned_net nx ny (u_bond u) p p' V (s_net s) (s_net s'),
      s_rng s' = s_rng s, Permutation (s_bonds s) (build_bond_list nx ny) & [/\ s_bonds s' = s_bonds s, s_chi s' = s_chi s & (0 < s_chi s)%N]].

(** whole sessions: the same exception, or the same dictionaries from every measure
    call *)
Theorem C81_session (cs cs' : seq call) (s s' : state) : same_ctm u u' -> (0 < nx)%N -> (0 < ny)%N ->
  (forall x, in_cell nx ny x -> isometry p p' (V x)) ->
  List.Forall2 turned_call cs cs' -> turned_state s s' ->
  match session u cs s, session u' cs' s' with
  | Some (Ok (t, out)), Some (Ok (t', out')) => out = out' /\ turned_state t t'
  | Some (Err e), Some (Err e') => e = e'
  | _, _ => False
  end.
Proof.
move=> [Ex Ey Eb [Et Es Ec]] nx0 ny0 HV H; elim: H s s' => [|x x' {}cs {}cs' Hx _ IH] s s' Hs //=.
have [[chi Hf] Hn Hr HP [Hb Hc c0]] := Hs.
case: x x' Hx => [c||st g k|m] [c'||st' g' k'|m'] //=.
- case=> <- c1; have /IH : turned_state (State (s_net s) (s_rng s) (s_bonds s) c (s_init s)) (State (s_net s') (s_rng s') (s_bonds s') c (s_init s')).
    by split=> //; exists chi.
  by case: (session u cs _) => [[[t out]|e]|] //; case: (session u' cs' _) => [[[t' out']|e']|].
- move=> _; rewrite /Session.renormalize Ex Ey Et Es.
  have -> : ctm_config u' (s_chi s') = ctm_config u (s_chi s) by rewrite /ctm_config Ec Hc.
  have H0 : (0 < pchi (ctm_config u (s_chi s)))%N by [].
  rewrite Hr; have := C81_renormalize (u_ptype u) (u_steps u) (s_rng s) H0 Hf HV Hn.
  have := @ctmrg_fits _ _ randn lqr lsvd fsvd _ (u_ptype u) nx ny (u_bond u) p H0 (u_steps u) chi (s_net s) (s_rng s) Hf.
  case: (run_ctmrg _ _ _ _ _ _ _ _ _ _) => [[n r]|e]; case: (run_ctmrg _ _ _ _ _ _ _ _ _ _) => [[n' r']|e'] //=.
  case=> chi' Hf' _ [<- Hn'].
  have /IH : turned_state (State n r (s_bonds s) (s_chi s) (s_init s)) (State n' r (s_bonds s') (s_chi s') (s_init s')).
    by split=> //; exists chi'.
  by case: (session u cs _) => [[[t out]|e]|] //; case: (session u' cs' _) => [[[t' out']|e']|].
- move=> Hm; rewrite /measured Ex Ey Hb.
  have -> : measure m (build_site_rdm (s_net s)) (build_bond_rdm empty (s_net s)) (build_site_list nx ny) (s_bonds s) =
    measure m' (build_site_rdm (s_net s')) (build_bond_rdm empty (s_net s')) (build_site_list nx ny) (s_bonds s).
    apply: (measure_turned nx0 ny0 HV Hf Hn Hm) => y.
    + by move/in_site_list.
    + exact: bond_in.
  case: (measure _ _ _ _ _) => [d|e] //=.
  have := IH s s' Hs.
  by case: (session u cs s) => [[[t out]|e]|] //; case: (session u' cs' s') => [[[t' out']|e']|] //= [-> ?].
Qed.
End Pair.
End Turned.

(** a 1x1 cell with bond dimension 1 and the site vector (3, 4i), embedded in a
    three-dimensional space by e0 -> e0, e1 -> i e2: the vector becomes (3, 0, -4),
    the coherence between the two levels, 12 i, becomes -12, and the measured
    averages are the same *)
Section Example.
Variable C : numClosedFieldType.
Definition ex_V (s : site) (q k : nat) : C := match q, k with 0, 0 => 1 | 2, 1 => 'i | _, _ => 0 end.
Definition ex_net (p : nat) (v : nat -> C) : Mover.net (tensor C) := fun s sl =>
  match sl with
  | SA => Tensor [:: 1; 1; 1; 1; p]%N (fun i => v (nth 0%N i 4))
  | SC _ => Tensor [:: 1; 1]%N (fun _ => 1)
  | SE _ => Tensor [:: 1; 1; 1; 1]%N (fun _ => 1)
  end.
Definition ex_a (k : nat) : C := if k == 0%N then 3%:R else 4%:R * 'i.
Definition ex_a' (k : nat) : C := match k with 0 => 3%:R | 2 => - 4%:R | _ => 0 end.
(** magnetisation, and the exchange term on every bond *)
Definition ex_z : tensor C := Tensor [:: 2; 2]%N (fun i => match i with [:: 0; 0] => 1 | [:: 1; 1] => - 1 | _ => 0 end).
Definition ex_zz : tensor C := Tensor [:: 4; 4]%N (fun i =>
  if nth 0%N i 0 == nth 0%N i 1 then (if (nth 0%N i 0 == 0%N) || (nth 0%N i 0 == 3%N) then 1 else - 1) else 0).
Definition ex_z' : tensor C := Tensor [:: 3; 3]%N (fun i => match i with [:: 0; 0] => 1 | [:: 2; 2] => - 1 | _ => 0 end).
Definition ex_zz' : tensor C := Tensor [:: 9; 9]%N (fun i => let V := ex_V (0, 0)%N in
  let q := (nth 0%N i 0 %/ 3)%N in let r := (nth 0%N i 0 %% 3)%N in let Q := (nth 0%N i 1 %/ 3)%N in let R := (nth 0%N i 1 %% 3)%N in
  sumn 2 (fun i => sumn 2 (fun k => sumn 2 (fun j => sumn 2 (fun l =>
    ((V q i)^* * (V r k)^*) * at_ ex_zz [:: i * 2 + k; j * 2 + l]%N * (V Q j * V R l)))))).
Definition ex_m : model C := Model 2 (fun _ => [:: ("mz", ex_z)]) (fun _ => [::]) (fun _ => Some ex_z) (fun _ => ex_zz).
Definition ex_m' : model C := Model 3 (fun _ => [:: ("mz", ex_z')]) (fun _ => [::]) (fun _ => Some ex_z') (fun _ => ex_zz').

Lemma ii : 'i * ('i : C)^* = 1. Proof. by rewrite conjCi mulrN -expr2 sqrCi opprK. Qed.

Lemma ex_iso s : isometry 2 3 (ex_V s).
Proof.
by move=> [|[|k]] [|[|l]] // _ _; rewrite /sumn !big_ord_recr big_ord0 /= ?conjC0 ?conjC1 ?mul0r ?mulr0 ?mul1r ?add0r ?addr0 ?mulr1 ?ii.
Qed.

Lemma ex_fits p v : fits 1 1 1 p (fun _ _ => 1%N) (ex_net p v).
Proof. by []. Qed.

Lemma ex_turned : turned_net 1 1 1 2 3 ex_V (ex_net 2 ex_a) (ex_net 3 ex_a').
Proof.
move=> s _; split=> //; split=> // -[|a [|b [|c [|d [|? ?]]]]] q //=; rewrite ?andbF // => _.
rewrite /sumn !big_ord_recr big_ord0 /= add0r.
case: q => [|[|[|q]]] // _; rewrite /ex_a /= ?mul0r ?mul1r ?add0r ?addr0 //.
by rewrite mulrCA -expr2 sqrCi mulrN mulr1.
Qed.

Lemma ex_op s : turned_op 2 3 (ex_V s) ex_z ex_z'.
Proof.
split=> // -[|[|[|q]]] [|[|[|Q]]] // _ _; rewrite /sumn !big_ord_recr !big_ord0 /=
  ?conjC0 ?conjC1 !(mul0r, mulr0, mul1r, mulr1, addr0, add0r) // mulrN1 mulNr mulrC ii //.
Qed.

Lemma ex_op2 s t : turned_op2 2 3 (ex_V s) (ex_V t) ex_zz ex_zz'.
Proof.
split=> // q r Q R Hq Hr HQ HR.
by rewrite [LHS]/=; rewrite !divnMDl // !modnMDl ![(_ %/ 3)%N]divn_small // !modn_small // !addn0.
Qed.

Lemma ex_model : turned_model 1 1 2 3 ex_V ex_m ex_m'.
Proof.
split=> // [s _|s k _ _]; split=> //=.
- by constructor=> //; split=> //; apply: ex_op.
- exact: ex_op.
- exact: ex_op2.
Qed.

Example C81_example :
  (forall empty, measure ex_m (build_site_rdm (ex_net 2 ex_a)) (build_bond_rdm empty (ex_net 2 ex_a)) (build_site_list 1 1) (build_bond_list 1 1) =
     measure ex_m' (build_site_rdm (ex_net 3 ex_a')) (build_bond_rdm empty (ex_net 3 ex_a')) (build_site_list 1 1) (build_bond_list 1 1)) /\
  exists rho rho', [/\ build_site_rdm (ex_net 2 ex_a) (0, 0)%N = Ok rho, build_site_rdm (ex_net 3 ex_a') (0, 0)%N = Ok rho',
    at_ rho [:: 0; 1]%N = 12%:R * 'i & at_ rho' [:: 0; 2]%N = - 12%:R].
Proof.
split.
  move=> empty; apply: (@measure_turned C 1 1 1 2 3 ex_V (fun _ _ => 1%N) _ _ ex_m ex_m' isT isT (fun s _ => @ex_iso s) (@ex_fits 2 ex_a) ex_turned ex_model empty).
  - by move=> s /in_site_list.
  - by move=> b; apply: (@bond_in C (Setup 1 1 1 2 Half 0 (PConfig "" 0 0 0 0) "" (EConfig "" 0 0 0 false 0 0))).
eexists _, _; split; [reflexivity|reflexivity| |].
- rewrite /= /factor /= /sumn !big_ord1 /= /ex_a /= ?mul1r ?mulr1 conjC_nat.
  by rewrite mulrA -natrM.
- rewrite /= /factor /= /sumn !big_ord1 /= ?mul1r ?mulr1 conjC_nat.
  by rewrite mulrN -natrM.
Qed.
End Example.

Print Assumptions C81_layer.
Print Assumptions C81_renormalize.
Print Assumptions C81_rdm.
Print Assumptions C81_session.
