(** C85: models with one-site terms only are evolved exactly. *)
From Coq Require Import String Ascii Permutation.
From mathcomp Require Import all_ssreflect all_algebra.
From Verif Require Import Base Lattice LatticeFacts Mover Gate GateSum P04_GateSum Tensor TN Rdm Measure MeasureFacts FullUpdate Linalg Mat Rsvd Renorm Spectral ProjFacts Als EighChol Dist Lambda Evolve P11_Measure P26_SiteUpdate Session P29_Session Ring ProductFacts P30_Product FreeCount.
Set Implicit Arguments.
Unset Strict Implicit.
Unset Printing Implicit Defensive.
Import GRing.Theory Num.Theory.
Local Open Scope ring_scope.

(** ---- the gates of a model, as a session gets them ---- *)
Section Gates.
Variable C : numClosedFieldType.
Notation tensor := (tensor C).
(** torch.matrix_exp on the matrices of each size *)
Variable mexp : forall n, 'M[C]_n -> 'M[C]_n.
Variable p : nat.

(** gate.py 109-125: torch.matrix_exp(-dtau * ham) for a matrix of size n; the cast
    to the dtype of the model is left out *)
Definition calculate_gate (n : nat) (dtau : C) (h : tensor) : tensor := of_mx (mexp (mx_of n n (tscale (- dtau) h))).
(** gate.py 107: reshape(pD, pD, pD, pD) *)
Definition bond_gate (dtau : C) (h : tensor) : tensor :=
  if reshape (calculate_gate (p * p) dtau h) [:: p; p; p; p] is Ok t then t else h.

(** evolve.py 31 makes a Gate of the model; the updates read the table at the bonds,
    and no separate one-site gates since wrap_one_site is True (gate.py 27,
    tensor_update.py 35-37, simple_update.py 67-69).  A missing key would raise; it cannot be missing
    for a bond of the list. *)
Definition model_gates (m : Gate.model tensor) (dtau : C) (bonds : seq bond) (sites : seq site) (th : table tensor * seq tensor) : gates C :=
  let t := (make_gate tensor tensor C (@madd C) (@wrap C p) (calculate_gate p) bond_gate m dtau bonds sites th).1 in
  Gates (fun b => if t (KBond b) is Some g then g else Tensor [::] (fun _ => 0)) None.
End Gates.

Section Free.
Variable C : numClosedFieldType.
Notation tensor := (tensor C).
Variable mexp : forall n, 'M[C]_n -> 'M[C]_n.
Variable u : setup C.
Notation nx := (u_nx u).
Notation ny := (u_ny u).
Notation p := (u_phys u).
Notation vectors := (site -> nat -> C).
(** the one-site terms *)
Variable one : site -> option tensor.

(** ---- specification ---- *)
Definition ent n (A : 'M[C]_n) (i j : nat) : C := at_ (of_mx A) [:: i; j].
(** Kronecker product *)
Definition kmx (A B : 'M[C]_p) : 'M[C]_(p * p) := \matrix_(i, j) (ent A (i %/ p) (j %/ p) * ent B (i %% p) (j %% p)).
Definition term (x : site) : 'M[C]_p := if one x is Some h then mx_of p p h else 0.
Definition has (x : site) : bool := if one x is Some _ then true else false.

(** the laws of the exponential, for the terms of the model *)
Definition exp_laws : Prop :=
  [/\ mexp (0 : 'M[C]_p) = 1%:M, mexp (0 : 'M[C]_(p * p)) = 1%:M,
      forall x a b, in_cell nx ny x -> mexp ((a + b) *: term x) = mexp (a *: term x) *m mexp (b *: term x) &
      forall x y a, in_cell nx ny x -> in_cell nx ny y -> mexp (a *: (kmx (term x) 1%:M + kmx 1%:M (term y))) = kmx (mexp (a *: term x)) (mexp (a *: term y))].

(** how many quarters of its term a site gets per step: one for each neighbour
    with a term, and one less for each direction in which the site is its own
    neighbour *)
Definition quarters (x : site) : nat :=
  (\sum_(d < 4) has (nbr nx ny d x) - (nx == 1) - (ny == 1))%N.
(** the vectors after imaginary time tau *)
Definition at_time (tau : C) (v : vectors) : vectors := fun x => act p (ent (mexp ((- tau * (quarters x)%:R / 4%:R) *: term x))) (v x).

(** ---- the gates ---- *)
Hypothesis L : exp_laws.
Hypothesis Sh : forall x h, one x = Some h -> shape h = [:: p; p].

Lemma ent_ord n (A : 'M[C]_n) (i j : 'I_n) : ent A i j = A i j.
Proof. exact: at_of_mx. Qed.

Lemma ent_add n (A B : 'M[C]_n) i j : (i < n)%N -> (j < n)%N -> ent (A + B) i j = ent A i j + ent B i j.
Proof. by move=> Hi Hj; rewrite -[i]/(nat_of_ord (Ordinal Hi)) -[j]/(nat_of_ord (Ordinal Hj)) !ent_ord mxE. Qed.

Lemma act_ext (M : nat -> nat -> C) v w q : (forall i, (i < p)%N -> v i = w i) -> act p M v q = act p M w q.
Proof. by move=> E; apply: eq_bigr => i _; rewrite E. Qed.

Lemma act_mul (A B : 'M[C]_p) w q : (q < p)%N -> act p (ent B) (act p (ent A) w) q = act p (ent (A *m B)) w q.
Proof.
move=> Hq; rewrite /act -[q]/(nat_of_ord (Ordinal Hq)).
under eq_bigr do rewrite mulr_suml; rewrite exchange_big /=; apply: eq_bigr => i _.
under eq_bigr do rewrite -mulrA; rewrite -mulr_sumr; congr (_ * _).
rewrite (ent_ord (A *m B) i (Ordinal Hq)) mxE; apply: eq_bigr => j _.
by rewrite (ent_ord A) (ent_ord B j (Ordinal Hq)).
Qed.

Lemma act_1 w q : (q < p)%N -> act p (ent (1%:M : 'M[C]_p)) w q = w q.
Proof.
move=> Hq; rewrite /act (bigD1 (Ordinal Hq)) //= big1 => [|i Hi].
  by rewrite addr0 (ent_ord 1%:M (Ordinal Hq) (Ordinal Hq)) mxE eqxx mulr1.
by rewrite (ent_ord 1%:M i (Ordinal Hq)) mxE (negbTE Hi) mulr0.
Qed.

(** no two-site terms *)
Definition no_bonds (two : bond -> tensor) : Prop := forall b, List.In b (build_bond_list nx ny) ->
  shape (two b) = [:: (p * p)%N; (p * p)%N] /\ mx_of (p * p) (p * p) (two b) = 0.

(** the factors of the gate of a bond *)
Definition factors (dtau : C) (b : bond) : (nat -> nat -> C) * (nat -> nat -> C) :=
  if has (b_s1 b) && has (b_s2 b) then (ent (mexp ((- dtau / 4%:R) *: term (b_s1 b))), ent (mexp ((- dtau / 4%:R) *: term (b_s2 b))))
  else (ent (1%:M : 'M[C]_p), ent (1%:M : 'M[C]_p)).

Lemma div_lt (i : 'I_(p * p)) : (i %/ p < p)%N /\ (i %% p < p)%N.
Proof.
have p0 : (0 < p)%N by case: p i => [[i]|]; rewrite ?mul0n.
by rewrite ltn_divLR // ltn_ord ltn_mod.
Qed.

Lemma ent_mx n (t : tensor) i j : (i < n)%N -> (j < n)%N -> ent (mx_of n n t) i j = at_ t [:: i; j].
Proof. by move=> Hi Hj; rewrite -[i]/(nat_of_ord (Ordinal Hi)) -[j]/(nat_of_ord (Ordinal Hj)) ent_ord mxE. Qed.

Lemma generator_mx two b dtau : List.In b (build_bond_list nx ny) -> no_bonds two ->
  mx_of (p * p) (p * p) (tscale (- dtau) (bond_generator p one two b)) =
  if has (b_s1 b) && has (b_s2 b) then (- dtau / 4%:R) *: (kmx (term (b_s1 b)) 1%:M + kmx 1%:M (term (b_s2 b))) else 0.
Proof.
move=> Hb H2; have [_ Z] := H2 b Hb; have {}Z i j := congr1 (fun M : 'M_(p * p) => M i j) Z.
rewrite /bond_generator /generator /has /term.
case E1: (one (b_s1 b)) => [h1|]; case E2: (one (b_s2 b)) => [h2|]; apply/matrixP => i j; have := Z i j; rewrite !mxE /= => Zij; rewrite ?Zij ?mulr0 //.
rewrite add0r mulrA; congr (_ * _).
have [I1 I2] := div_lt i; have [J1 J2] := div_lt j.
have e1 a b' : (a < p)%N -> (b' < p)%N -> ent (1%:M : 'M[C]_p) a b' = (a == b')%:R.
  by move=> Ha Hb'; rewrite -[a]/(nat_of_ord (Ordinal Ha)) -[b']/(nat_of_ord (Ordinal Hb')) ent_ord mxE.
by rewrite /kronT /kron (Sh E1) (Sh E2) /= !ent_mx // !e1.
Qed.

Lemma bond_gate_splits dtau two b : List.In b (build_bond_list nx ny) -> no_bonds two ->
  splits p (factors dtau b).1 (factors dtau b).2 (bond_gate mexp p dtau (bond_generator p one two b)).
Proof.
move=> Hb H2; have [S1 [S2 _]] := bond_list_adjacent _ _ _ Hb.
have [L0 L0' _ L2] := L.
rewrite /bond_gate /reshape /calculate_gate.
have -> : numel [:: p; p; p; p] == numel (shape (of_mx (mexp (mx_of (p * p) (p * p) (tscale (- dtau) (bond_generator p one two b)))))).
  by rewrite /numel /= !muln1 -!mulnA.
rewrite (generator_mx dtau Hb H2).
set M := mexp _.
have E i j r s : (i < p)%N -> (j < p)%N -> (r < p)%N -> (s < p)%N -> ent M (i * p + j) (r * p + s) = (factors dtau b).1 i r * (factors dtau b).2 j s.
{ move=> Hi Hj Hr Hs.
  have p0 : (0 < p)%N by apply: leq_ltn_trans Hi.
  have lt a c : (a < p)%N -> (c < p)%N -> (a * p + c < p * p)%N.
    by move=> Ha Hc; apply: (@leq_trans (a.+1 * p)); rewrite ?leq_pmul2r // mulSn addnC ltn_add2r.
  rewrite -[(i * p + j)%N]/(nat_of_ord (Ordinal (lt _ _ Hi Hj))) -[(r * p + s)%N]/(nat_of_ord (Ordinal (lt _ _ Hr Hs))) ent_ord /M /factors.
  have dv a c : (c < p)%N -> (((a * p + c) %/ p) = a)%N /\ (((a * p + c) %% p) = c)%N.
    by move=> Hc; rewrite divnMDl // divn_small // addn0 modnMDl modn_small.
  case: ifP => _ /=.
    by rewrite L2 // mxE /= !(proj1 (dv _ _ _)) ?(proj2 (dv _ _ _)).
  rewrite L0' mxE -val_eqE /=.
  have e1 a b' : (a < p)%N -> (b' < p)%N -> ent (1%:M : 'M[C]_p) a b' = (a == b')%:R.
    by move=> Ha Hb'; rewrite -[a]/(nat_of_ord (Ordinal Ha)) -[b']/(nat_of_ord (Ordinal Hb')) ent_ord mxE.
  rewrite !e1 // -natrM mulnb; congr (_%:R); congr (nat_of_bool _).
  apply/eqP/andP => [X|[/eqP-> /eqP->] //].
  split; apply/eqP.
    by rewrite -(proj1 (dv i j Hj)) X (proj1 (dv r s Hs)).
  by rewrite -(proj2 (dv i j Hj)) X (proj2 (dv r s Hs)). }
split=> // i j r s Hi Hj Hr Hs; rewrite -E //.
have lt a c : (a < p)%N -> (c < p)%N -> (a * p + c < p * p)%N.
  have p0 : (0 < p)%N by apply: leq_ltn_trans Hi.
  by move=> Ha Hc; apply: (@leq_trans (a.+1 * p)); rewrite ?leq_pmul2r // mulSn addnC ltn_add2r.
have R : unravel [:: (p * p)%N; (p * p)%N] (ravel [:: p; p; p; p] [:: i; j; r; s]) = [:: (i * p + j)%N; (r * p + s)%N].
{ have -> : ravel [:: p; p; p; p] [:: i; j; r; s] = ravel [:: (p * p)%N; (p * p)%N] [:: (i * p + j)%N; (r * p + s)%N].
    by rewrite /ravel /numel /= !muln1 !addn0 mulnDl !addnA !mulnA.
  by rewrite ravelK //= !lt. }
by rewrite -[at_ _ _]/(at_ (of_mx M) (unravel [:: (p * p)%N; (p * p)%N] (ravel [:: p; p; p; p] [:: i; j; r; s]))) R.
Qed.

Lemma free_gates dtau two th bl : (forall b, List.In b (build_bond_list nx ny) -> List.In b bl) -> no_bonds two ->
  let g := model_gates mexp p (Gate.Model tensor one (Gate.Fresh tensor two)) dtau bl (build_site_list nx ny) th in
  gates_split u (factors dtau) g /\ forall x, List.In x (build_bond_list nx ny) -> shape (g_two g x) = [:: p; p; p; p].
Proof.
case: th => t h Hbl H2 g.
have S : gates_split u (factors dtau) g.
  by move=> b Hb; rewrite /g /model_gates /= C02_generator_is_gate; [exact: bond_gate_splits|exact: Hbl].
by split=> // x Hx; have [] := S x Hx.
Qed.

(** ---- the vectors ---- *)
Lemma factors_at dtau (g : gates C) b v x q : in_cell nx ny x -> g_one g = None -> (q < p)%N -> 
  pstep u (factors dtau) g b v x q = act p (ent (mexp ((- dtau / 4%:R * (touches has x b)%:R) *: term x))) (v x) q.
Proof.
move=> Hx G Hq; have [L0 _ _ _] := L.
have Z : mexp ((- dtau / 4%:R * 0) *: term x) = 1%:M by rewrite mulr0 scale0r.
rewrite /pstep /local G /factors /touches /site_eqb.
case: (site_eq_dec x (b_s2 b)) => [E2|N2] /=.
  rewrite {}E2 in Hx Z *; case: (site_eq_dec (b_s2 b) (b_s2 b)) => // _; rewrite orbT /=.
  by case: ifP => _; rewrite ?mulr1 ?mulr0 ?scale0r ?L0.
case: (site_eq_dec (b_s2 b) x) => [X|_]; first by case: N2.
case: (site_eq_dec x (b_s1 b)) => [E1|N1] /=.
  rewrite {}E1 in N2 Hx Z *; case: (site_eq_dec (b_s1 b) (b_s1 b)) => // _ /=.
  by case: ifP => _; rewrite ?mulr1 ?mulr0 ?scale0r ?L0.
case: (site_eq_dec (b_s1 b) x) => [X|_]; first by case: N1.
by rewrite /= Z act_1.
Qed.

Lemma run_free dtau (g : gates C) l v x q : in_cell nx ny x -> g_one g = None -> (q < p)%N ->
  foldl (fun v b => pstep u (factors dtau) g b v) v l x q =
  act p (ent (mexp ((- dtau / 4%:R * (Datatypes.length (List.filter (touches has x) l))%:R) *: term x))) (v x) q.
Proof.
move=> Hx G; have [L0 _ La _] := L; elim: l v q => [|b l IH] v q Hq.
  by rewrite /= mulr0 scale0r L0 act_1.
rewrite [LHS]/= IH // (act_ext _ _ (fun i Hi => factors_at dtau b v Hx G Hi)) act_mul // -La // -mulrDr -natrD.
by cbn [List.filter]; case: (touches has x b).
Qed.

Lemma quarters_count x : in_cell nx ny x -> has x -> Datatypes.length (List.filter (touches has x) (build_bond_list nx ny)) = quarters x.
Proof.
move=> Hx Hh; have := touches_count has _ _ _ Hx Hh; rewrite /quarters !big_ord_recl big_ord0.
rewrite /one_if.
have -> : PeanoNat.Nat.eqb nx 1 = (nx == 1)%N by case: (PeanoNat.Nat.eqb_spec nx 1) => [->|/eqP/negbTE->].
have -> : PeanoNat.Nat.eqb ny 1 = (ny == 1)%N by case: (PeanoNat.Nat.eqb_spec ny 1) => [->|/eqP/negbTE->].
rewrite !plusE => E.
have -> : (has (nbr nx ny (@ord0 3) x) + (has (nbr nx ny (lift ord0 (@ord0 2)) x) + (has (nbr nx ny (lift ord0 (lift ord0 (@ord0 1))) x) +
     (has (nbr nx ny (lift ord0 (lift ord0 (lift ord0 (@ord0 0)))) x) + 0))))%N =
   Datatypes.length (List.filter (fun d : nat => has (nbr nx ny d x)) [:: 0%N; 1%N; 2%N; 3%N]).
  by rewrite /bump /=; case: (has _); case: (has _); case: (has _); case: (has _).
by rewrite -E; move: (Datatypes.length (List.filter (touches has x) _)) => X; case: (nx == 1)%N; case: (ny == 1)%N; rewrite ?addn0 ?addn1 /= ?subn0 ?subn1.
Qed.

(** The field-only evolution of the vectors: imaginary time dtau * steps, without
    any error in dtau. *)
Theorem C85_vectors dtau (g : gates C) bl steps v x q : in_cell nx ny x -> g_one g = None -> (q < p)%N -> Permutation bl (build_bond_list nx ny) ->
  pevolve u (factors dtau) g bl steps v x q = at_time (dtau * steps%:R) v x q.
Proof.
move=> Hx G Hq HP; have [L0 _ _ _] := L; rewrite /pevolve run_free // /at_time.
case Hh: (has x); last first.
  by have -> : term x = 0; [move: Hh; rewrite /has /term; case: (one x)|rewrite !scaler0].
rewrite schedule_count (filter_perm _ _ _ HP) quarters_count // multE natrM.
congr (act p (ent (mexp (_ *: _))) _ _).
by rewrite mulNr !mulNr mulrA [dtau / _ * _]mulrAC -!mulrA [_^-1 * _]mulrC.
Qed.

Lemma at_time_add a b v x q : in_cell nx ny x -> (q < p)%N -> at_time b (at_time a v) x q = at_time (a + b) v x q.
Proof.
move=> Hx Hq; have [_ _ La _] := L; rewrite /at_time act_mul // -La //.
congr (act p (ent (mexp (_ *: _))) _ _).
by rewrite -mulrDl -mulrDl opprD.
Qed.

Lemma at_time0 v x q : in_cell nx ny x -> (q < p)%N -> at_time 0 v x q = v x q.
Proof. by move=> Hx Hq; have [L0 _ _ _] := L; rewrite /at_time oppr0 !mul0r scale0r L0 act_1. Qed.
End Free.

(** ---- sessions ---- *)
Section Sessions.
Variable C : numClosedFieldType.
Notation tensor := (tensor C).
Local Open Scope string_scope.
Variable R : Type.
Variable randn : R -> forall n q : nat, 'M[C]_(n, q) * R.
Variable trand : R -> nat -> nat -> tensor * R.
Variable lqr : qr_fun C.
Variable lsvd : thin_svd_fun C.
Variable fsvd : full_svd_fun C.
Variable leigh : eigh_fun C.
Variable lchol : chol_fun C.
Variable rtol : nat -> nat -> C.
Variables (lcut noise : C).
Variable fuel : nat.
Variable empty : nat -> tensor.
Variable mexp : forall n, 'M[C]_n -> 'M[C]_n.
Variable u : setup C.
Notation nx := (u_nx u).
Notation ny := (u_ny u).
Notation p := (u_phys u).
Notation cfg := (u_evo u).
Notation state := (Session.state C R).
Notation vectors := (site -> nat -> C).
(** the one- and two-site terms of the model that is evolved *)
Variable one : site -> option tensor.
Variable two : bond -> tensor.
Notation at_time := (at_time mexp u one).

(** what the user asks for; an evolution meets some table of gates, some operator
    objects and some order of the bond list left by whatever ran before *)
Inductive request :=
| AskChi (chi : nat)
| AskRenormalize
| AskEvolve (th : table tensor * seq tensor) (bl : seq bond) (st : site -> seq C) (dtau : C) (steps : nat)
| AskMeasure (m : model C).
Definition call_of (r : request) : call C :=
  match r with
  | AskChi chi => SetChi C chi
  | AskRenormalize => Renormalize C
  | AskEvolve th bl st dtau steps => Evolve st (model_gates mexp p (Gate.Model tensor one (Gate.Fresh tensor two)) dtau bl (build_site_list nx ny) th) steps
  | AskMeasure m => Measure m
  end.
(** the imaginary time that has passed *)
Definition later (tau : C) (r : request) : C := if r is AskEvolve _ _ _ dtau steps then tau + dtau * steps%:R else tau.
(** the vectors each measurement should report *)
Fixpoint expected (v : vectors) (tau : C) (rs : seq request) : seq (model C * vectors) :=
  match rs with
  | [::] => [::]
  | r :: rs => let rest := expected v (later tau r) rs in if r is AskMeasure m then (m, at_time tau v) :: rest else rest
  end.

Hypothesis Sq : qr_spec lqr.
Hypothesis Ss : thin_svd_spec lsvd.
Hypothesis Sf : full_svd_spec fsvd.
Hypothesis Se : eigh_spec leigh.
Hypothesis tot : forall m (A : 'M[C]_m), leigh A.
Hypothesis Srand : forall r, shape (trand r 1%N p).1 = [:: 1; 1; 1; 1; p]%N.
Hypothesis Hm : als_method cfg = "cholesky" \/ als_method cfg = "pinv".
Hypothesis c0 : 0 <= positive_approx_cutoff cfg.
Hypothesis a0 : use_gauge_fix cfg -> 0 < gauge_fix_atol cfg.
Hypothesis l0 : 0 < lcut.
Hypotheses (nx0 : (0 < nx)%N) (ny0 : (0 < ny)%N) (p0 : (0 < p)%N).
Hypothesis b1 : u_bond u = 1%N.
Hypothesis ni : u_type u = "full" -> (0 < als_niter cfg)%N.
Hypothesis Hp : u_ptype u = Half \/ svd_type (u_ctm u) = "full-rank".
(** the model has one-site terms only, and the exponential obeys its laws on them *)
Hypothesis L : exp_laws mexp u one.
Hypothesis Sh : forall x h, one x = Some h -> shape h = [:: p; p].
Hypothesis H2 : no_bonds u two.

Notation perform := (Session.perform randn trand lqr lsvd fsvd leigh lchol rtol lcut noise fuel.+1 empty u).
Notation session := (Session.session randn trand lqr lsvd fsvd leigh lchol rtol lcut noise fuel.+1 empty u).

Definition request_ok (r : request) : Prop :=
  match r with
  | AskChi chi => (0 < chi)%N
  | AskRenormalize => True
  | AskEvolve _ bl st _ _ => Permutation bl (build_bond_list nx ny) /\ forall s, in_cell nx ny s -> (size (st s) <= p)%N
  | AskMeasure m => model_ok u m /\ names_ok nx ny m
  end.
Definition split_as (r : request) (_ : gates C) : bond -> (nat -> nat -> C) * (nat -> nat -> C) :=
  if r is AskEvolve _ _ _ dtau _ then factors mexp u one dtau else factors mexp u one 0.

Lemma request_ask r : request_ok r -> ask_ok u (split_as r) (call_of r).
Proof using L Sh H2.
case: r => //= th bl st dtau steps [HP Hst].
have Hbl b : List.In b (build_bond_list nx ny) -> List.In b bl by apply: Permutation_in; exact: Permutation_sym.
by have [G1 G2] := free_gates L Sh dtau th Hbl H2; split=> //; split.
Qed.

Lemma product_ext v v' bl i (s : state) : (forall x q, in_cell nx ny x -> (q < p)%N -> v x q = v' x q) ->
  product u (PState v bl i) s -> product u (PState v' bl i) s.
Proof.
move=> E [A1 A2 A3 A4 A5]; split=> // x Hx; have [c Hc H] := A2 x Hx.
by exists c => // q Hq; rewrite H //= E.
Qed.

Lemma bonds_perm bl n : Permutation bl (build_bond_list nx ny) -> Permutation (step_bonds bond bl n) (build_bond_list nx ny).
Proof.
rewrite /step_bonds; case: (PeanoNat.Nat.even n) => // H.
by apply: Permutation_trans H; apply: Permutation_sym; exact: Permutation_rev.
Qed.

(** C85.  Without interactions a session with bond dimension 1 is exact: after
    imaginary time tau the vector of every site is the one that the site's own term
    makes of the initial vector, up to normalisation, whatever the step size, and
    every measurement reports the values of the product state of these vectors.  The
    term of a site counts with a quarter for each neighbour that has a term, and
    one quarter less for each direction in which the site is its own neighbour. *)
Theorem C85_session v rs tau (s s' : state) out bl : (forall r, List.In r rs -> request_ok r) ->
  product u (PState (at_time tau v) bl true) s -> session (map call_of rs) s = Some (Ok (s', out)) ->
  reported u out (expected v tau rs) /\ exists bl', product u (PState (at_time (foldl later tau rs) v) bl' true) s'.
Proof using Sq Ss Sf Se Hm tot c0 a0 p0 ni Hp l0 b1 Srand nx0 ny0 L Sh H2.
elim: rs tau s out bl => [|r rs IH] tau s out bl Hr Ps; first by case=> <- <-; split=> //; exists bl.
cbn [map Session.session].
case E1: Session.perform => [[[s1 o1]|e]|] //; case E2: Session.session => [[[s2 o2]|e]|] // -[Es <-]; subst s2.
have Hr1 := Hr r (or_introl erefl).
have [ps1 [sp1 [H1 P1 R1]]] := perform_product Sq Ss Sf Se tot Srand Hm c0 a0 l0 nx0 ny0 p0 b1 ni Hp Ps (request_ask Hr1) E1.
have Hrs y : List.In y rs -> request_ok y by move=> Hy; apply: Hr; right.
case: r Hr1 E1 H1 {Hr} => [chi||th bl0 st dtau steps|m] Hr1 E1.
- by case=> Ep Eo; subst ps1 sp1; case: o1 R1 E1 => // _ _; exact: (IH _ _ _ _ Hrs P1 E2).
- by case=> Ep Eo; subst ps1 sp1; case: o1 R1 E1 => // _ _; exact: (IH _ _ _ _ Hrs P1 E2).
- case=> s0 [/= -> Ep Eo]; subst ps1 sp1; case: o1 R1 E1 => // _ _; rewrite cat0s.
  apply: (IH (tau + dtau * steps%:R) _ _ _ Hrs) E2.
  apply: product_ext P1 => x q Hx Hq; case: Ps => _ _ _ HP _.
  rewrite (C85_vectors L) // -?(at_time_add L) //.
by case=> Ep Eo; subst ps1 sp1; case: o1 R1 E1 => [//|d [[V _] _|d' o1 [_ []]]]; have [Q1 Q2] := IH _ _ _ _ Hrs P1 E2.
Qed.

(** the same from the first evolution of a fresh object, which initialises the
    vectors *)
Theorem C85_fresh th bl0 st dtau steps rs (ps : pstate C) (s s' : state) out : p_init ps = false -> product u ps s ->
  (forall r, List.In r (AskEvolve th bl0 st dtau steps :: rs) -> request_ok r) ->
  session (map call_of (AskEvolve th bl0 st dtau steps :: rs)) s = Some (Ok (s', out)) ->
  exists2 v, initial trand noise u st v & reported u out (expected v (dtau * steps%:R) rs).
Proof using Sq Ss Sf Se Hm tot c0 a0 p0 ni Hp l0 b1 Srand nx0 ny0 L Sh H2.
move=> I0 Ps Hr; cbn [map Session.session].
case E1: Session.perform => [[[s1 o1]|e]|] //; case E2: Session.session => [[[s2 o2]|e]|] // -[Es <-]; subst s2.
have [ps1 [sp1 [H1 P1 R1]]] := perform_product Sq Ss Sf Se tot Srand Hm c0 a0 l0 nx0 ny0 p0 b1 ni Hp Ps (request_ask (Hr _ (or_introl erefl))) E1.
case: H1 => s0 [/=]; rewrite I0 => -[Iv Eb] Ep Eo; subst ps1 sp1; case: o1 R1 E1 => // _ _; exists (p_vec s0) => //; rewrite cat0s.
have P2 : product u (PState (at_time (dtau * steps%:R) (p_vec s0)) (step_bonds bond (p_bonds s0) steps) true) s1.
  by apply: product_ext P1 => x q Hx Hq; rewrite (C85_vectors L) // Eb.
by have [] := C85_session (fun y Hy => Hr y (or_intror Hy)) P2 E2.
Qed.

(** ---- such sessions do not fail ---- *)
Hypothesis Tu : u_type u = "simple".
Hypothesis Tp : svd_type (u_ctm u) = "full-rank".
Hypothesis k0 : 0 <= svd_cutoff (u_ctm u).
Hypothesis k1 : svd_cutoff (u_ctm u) < 1.

Lemma exp_nonzero a x w : in_cell nx ny x -> nonzero u w -> nonzero u (act p (ent (mexp (a *: term u one x))) w).
Proof using L.
move=> Hx Hw; have [L0 _ La _] := L.
have [//|N] := nonzero_dec u (act p (ent (mexp (a *: term u one x))) w).
case: Hw => q Hq; case/eqP; rewrite -(act_1 w Hq).
have <- : mexp (a *: term u one x) *m mexp ((- a) *: term u one x) = 1%:M by rewrite -La // addrN scale0r.
rewrite -act_mul //; apply: big1 => i _; case: (eqVneq (act p (ent (mexp (a *: term u one x))) w i) 0) => [->|Z]; first by rewrite mul0r.
by case: N; exists (nat_of_ord i).
Qed.

(** the given vectors do not vanish *)
Definition request_kind (r : request) : Prop :=
  if r is AskEvolve _ _ st _ _ then forall y r, in_cell nx ny y -> nonzero u (fun q => noise * at_ (trand r 1%N p).1 [:: 0; 0; 0; 0; q]%N + nth 0 (st y) q) else True.

Lemma request_kindly r : request_kind r -> kind trand noise u (split_as r) (call_of r).
Proof using L.
case: r => //= th bl0 st dtau steps Hk; split=> // y w Hy Hw.
have [S1 [S2 _]] := bond_list_adjacent _ _ _ Hy.
rewrite /local /= /factors; case: ifP => _ /=; first by split; exact: exp_nonzero.
by have L1 : nonzero u (act p (ent (1%:M : 'M[C]_p)) w) by case: Hw => q Hq N; exists q; rewrite ?act_1.
Qed.

Theorem C85_succeeds rs ps (s : state) : product u ps s -> alive u (p_vec ps) ->
  (forall r, List.In r rs -> request_ok r /\ request_kind r) -> exists s' out, session (map call_of rs) s = Some (Ok (s', out)).
Proof using Sq Ss Sf Se Hm tot c0 a0 p0 ni Hp l0 b1 Srand nx0 ny0 L Sh H2 Tu Tp k0 k1.
elim: rs ps s => [|r rs IH] ps s Hs Ha Hc; first by exists s, [::].
have [Hx Hk] := Hc r (or_introl erefl).
have Kx := request_kindly Hk.
have [s1 [o1 [E1 A1]]] := perform_total randn lchol rtol fuel empty Sq Ss Sf Se tot Srand Hm c0 a0 l0 nx0 ny0 p0 b1 ni Hp Tu Tp k0 k1 Hs Ha (request_ask Hx) Kx.
have [ps1 [sp1 [H1 P1 R1]]] := perform_product Sq Ss Sf Se tot Srand Hm c0 a0 l0 nx0 ny0 p0 b1 ni Hp Hs (request_ask Hx) E1.
have [s2 [o2 E2]] := IH ps1 s1 P1 (A1 _ _ H1) (fun y Hy => Hc y (or_intror Hy)).
by cbn [map Session.session]; rewrite E1 E2; exists s2, (cat o1 o2).
Qed.
End Sessions.

(** ---- a session by hand ---- *)
Section Kron.
Variable C : numClosedFieldType.
Variable u : setup C.
Notation p := (u_phys u).
Notation kmx := (@kmx C u).

Lemma sum_pairs (G : nat -> nat -> C) : \sum_(k < p * p) G (k %/ p)%N (k %% p)%N = \sum_(a < p) \sum_(b < p) G a b.
Proof.
have := @sum2 C p (fun l => G (nth 0%N l 0) (nth 0%N l 1)); rewrite /sumn /= => <-.
by apply: eq_bigr => k _; rewrite /numel /= muln1 divn1.
Qed.

Lemma kmx_mul A B A' B' : kmx A B *m kmx A' B' = kmx (A *m A') (B *m B').
Proof.
apply/matrixP => i j; rewrite !mxE.
have [I1 I2] := div_lt i; have [J1 J2] := div_lt j.
under eq_bigr do rewrite !mxE.
rewrite (sum_pairs (fun a b => ent A (i %/ p) a * ent B (i %% p) b * (ent A' a (j %/ p) * ent B' b (j %% p)))).
rewrite -[(i %/ p)%N]/(nat_of_ord (Ordinal I1)) -[(i %% p)%N]/(nat_of_ord (Ordinal I2)) -[(j %/ p)%N]/(nat_of_ord (Ordinal J1)) -[(j %% p)%N]/(nat_of_ord (Ordinal J2)).
rewrite !ent_ord !mxE big_distrlr /=; apply: eq_bigr => a _; apply: eq_bigr => b _.
by rewrite -[(i %/ p)%N]/(nat_of_ord (Ordinal I1)) -[(i %% p)%N]/(nat_of_ord (Ordinal I2)) -[(j %/ p)%N]/(nat_of_ord (Ordinal J1)) -[(j %% p)%N]/(nat_of_ord (Ordinal J2)) !ent_ord mulrACA.
Qed.

Lemma kmxP A B (i j : 'I_(p * p)) : kmx A B i j = A (Ordinal (proj1 (div_lt i))) (Ordinal (proj1 (div_lt j))) * B (Ordinal (proj2 (div_lt i))) (Ordinal (proj2 (div_lt j))).
Proof. by rewrite mxE -!ent_ord. Qed.
Lemma kmxDl A A' B : kmx (A + A') B = kmx A B + kmx A' B.
Proof. by apply/matrixP => i j; rewrite [RHS]mxE !kmxP mxE mulrDl. Qed.
Lemma kmxDr A B B' : kmx A (B + B') = kmx A B + kmx A B'.
Proof. by apply/matrixP => i j; rewrite [RHS]mxE !kmxP mxE mulrDr. Qed.
Lemma kmxZl c A B : kmx (c *: A) B = c *: kmx A B.
Proof. by apply/matrixP => i j; rewrite [RHS]mxE !kmxP mxE mulrA. Qed.
Lemma kmxZr c A B : kmx A (c *: B) = c *: kmx A B.
Proof. by apply/matrixP => i j; rewrite [RHS]mxE !kmxP mxE mulrCA. Qed.
Lemma kmx0l B : kmx 0 B = 0.
Proof. by apply/matrixP => i j; rewrite [RHS]mxE kmxP mxE mul0r. Qed.
Lemma kmx0r A : kmx A 0 = 0.
Proof. by apply/matrixP => i j; rewrite [RHS]mxE kmxP mxE mulr0. Qed.
Lemma kmx11 : kmx 1%:M 1%:M = 1%:M.
Proof.
apply/matrixP => i j; rewrite kmxP !mxE -natrM mulnb -!val_eqE /=; congr (nat_of_bool _)%:R.
apply/andP/eqP => [[/eqP E1 /eqP E2]|-> //].
by rewrite (divn_eq i p) E1 E2 -divn_eq.
Qed.
End Kron.

Section Example.
Variable C : numClosedFieldType.
Notation tensor := (tensor C).
Local Open Scope string_scope.

(** the exponential series up to the second order, which is exact for terms whose
    square is zero *)
Definition series n (A : 'M[C]_n) : 'M[C]_n := 1%:M + A + 2%:R^-1 *: (A *m A).
Definition raise : tensor := Tensor [:: 2; 2]%N (fun i => if (nth 0%N i 0 == 0%N) && (nth 0%N i 1 == 1%N) then 1 else 0).
Definition nothing (_ : bond) : tensor := Tensor [:: 4; 4]%N (fun _ => 0).
(** a cell of any size with two states per site *)
Definition cell_setup (nx ny : nat) : setup C := let u := plain_setup C 1 "simple" in
  Setup nx ny 1 2 (u_ptype u) (u_steps u) (u_ctm u) "simple" (u_evo u).

Lemma raise2 : mx_of 2 2 raise *m mx_of 2 2 raise = 0.
Proof.
apply/matrixP => i j; rewrite !mxE big1 // => k _; rewrite !mxE /=.
by case: k => -[|[|]] //= _; rewrite ?andbF ?mulr0 ?mul0r.
Qed.

Lemma series1 a : series (a *: mx_of 2 2 raise) = 1%:M + a *: mx_of 2 2 raise.
Proof. by rewrite /series -scalemxAl -scalemxAr raise2 !scaler0 addr0. Qed.

Lemma series_laws nx ny : exp_laws series (cell_setup nx ny) (fun _ => Some raise).
Proof.
set u := cell_setup nx ny.
have S0 n : series (0 : 'M[C]_n) = 1%:M by rewrite /series mul0mx scaler0 !addr0.
set h : 'M[C]_(u_phys u) := mx_of 2 2 raise.
have sq : h *m h = 0 := raise2.
have S1 a : series (a *: h) = 1%:M + a *: h := series1 a.
split=> // [x a b _|x y a _ _]; rewrite -![term _ _ _]/h.
  rewrite !S1 mulmxDl !mulmxDr !mul1mx !mulmx1 -scalemxAl -scalemxAr sq !scaler0 addr0 scalerDl.
  by rewrite -!addrA; congr (_ + _); rewrite addrC.
rewrite !S1 /series -scalemxAl -scalemxAr mulmxDl !mulmxDr !kmx_mul !mulmx1 !mul1mx !sq kmx0l kmx0r add0r addr0.
have -> : kmx h h + kmx h h = 2%:R *: kmx h h by rewrite scaler_nat mulr2n.
rewrite !scalerA kmxDl !kmxDr kmx11 !kmxZl !kmxZr scalerA.
have -> : 2%:R^-1 * a * a * 2%:R = a * a :> C by rewrite mulrC !mulrA divff ?mul1r // pnatr_eq0.
by rewrite scalerDr -!addrA; congr (_ + _); rewrite addrCA.
Qed.

(** On a cell that is one site wide the site is its own neighbour, and one quarter
    of its term is lost: the vector (1, 0) goes to (1, -3/4 tau). *)
Example C85_wide_refuted (g : gates C) dtau steps : g_one g = None -> let u := cell_setup 1 2 in
  let w := pevolve u (factors series u (fun _ => Some raise) dtau) g (build_bond_list 1 2) steps (fun _ q => (q == 0%N)%:R) in
  w (0, 0)%N 0%N = 1 /\ w (0, 0)%N 1%N = - (3%:R / 4%:R) * (dtau * steps%:R).
Proof.
move=> G u w.
have Hx : in_cell 1 2 (0, 0)%N by split; apply/ltP.
rewrite /w; split; rewrite (C85_vectors (series_laws 1 2)) // /at_time.
all: have -> : quarters u (fun _ => Some raise) (0, 0)%N = 3%N by rewrite /quarters /has sum_nat_const card_ord.
all: set a := _ * _ / _.
all: have N i j : (i < 2)%N -> (j < 2)%N -> ent (series (a *: term u (fun=> Some raise) (0, 0)%N)) i j = (i == j)%:R + a * at_ raise [:: i; j].
1,3: by move=> Hi Hj; rewrite -[i]/(nat_of_ord (Ordinal Hi)) -[j]/(nat_of_ord (Ordinal Hj)) (ent_ord _ (Ordinal Hi : 'I_(u_phys u)) (Ordinal Hj : 'I_(u_phys u)));
  rewrite -[term _ _ _]/(mx_of 2 2 raise) series1 !mxE.
all: rewrite /act !big_ord_recl big_ord0 /= !N //= ?mulr0 ?mulr1 ?mul0r ?mul1r ?subr0 ?sub0r ?addr0 ?add0r //.
by rewrite /a !mulNr -mulrA mulrC.
Qed.

Notation u := (cell_setup 2 2).
Notation session := (@Session.session C unit (fun r _ _ => (0, r)) (@zeros_rand C) (@some_qr C) (@some_thin_svd C) (@some_full_svd C) (@some_eigh C) (@some_chol C) (fun _ _ => 0) 1 0 1 (fun _ => Tensor [::] (fun _ => 0))).
Notation construct := (@Session.construct C unit (@zeros_rand C) 0).

(** the term raise on every site of a 2x2 cell takes (1, 0) to (1, -tau): after any
    number of steps of any size the third spin component is (1 - tau^2)/(1 + tau^2) *)
Example C85_example th bl dtau steps : Permutation bl (build_bond_list 2 2) -> let tau := dtau * steps%:R in
  exists2 s, construct u (@blank C) tt 3 = Ok s &
  exists s' d, session u (map (call_of series u (fun _ => Some raise) nothing) [:: AskEvolve th bl (fun _ => [:: 1; 0]) dtau steps; AskMeasure (small_model C)]) s = Some (Ok (s', [:: d])) /\
    dget "sz" d = Some ((1 - `|tau| ^+ 2) / (1 + `|tau| ^+ 2)).
Proof.
move=> Hbl tau.
have Srand r : shape (@zeros_rand C r 1 2).1 = [:: 1; 1; 1; 1; 2]%N by [].
have Srand' r : shape (@zeros_rand C r (u_bond u) 2).1 = [:: 1; 1; 1; 1; 2]%N by [].
have [s [Es Hs Us _]] := @C74_construct C unit (@zeros_rand C) 0 u Srand' isT isT (@blank C) tt 3 (fun _ _ => Order.POrderTheory.lexx 0) (Order.POrderTheory.lexx 0) isT.
exists s; first by rewrite Es.
have [v Iv Pv] := @C77_start C unit (@zeros_rand C) 0 u Srand isT erefl (@blank C) tt 3 s isT Es.
pose rs := [:: AskEvolve th bl (fun _ => [:: 1; 0]) dtau steps; AskMeasure (small_model C)].
have Hrs r : List.In r rs -> request_ok u r /\ request_kind (@zeros_rand C) 0 u r.
  case=> [<-|[<-|[]]].
    split; first by split.
    by move=> y r2 _; exists 0%N; rewrite //= mul0r add0r oner_eq0.
  split=> //; split; last first.
    split=> //= b _; split=> // X; rewrite /inks /= !orbF; case EX: (String.eqb X "sz") => //=.
    by move/String.eqb_eq: EX => ->.
  split=> [//|y _|y _].
    by split; [move=> h [<-]|split=> [kv [<-|[]]|]].
  by split=> //; split=> [kv [<-|[]]|].
have tot m (A : 'M[C]_m) : @some_eigh C m A by [].
have Hm : als_method (u_evo u) = "cholesky" \/ als_method (u_evo u) = "pinv" by right.
have ni : u_type u = "full" -> (0 < als_niter (u_evo u))%N by [].
have Hp : u_ptype u = Half \/ svd_type (u_ctm u) = "full-rank" by right.
have Ha : alive u (p_vec (PState v (build_bond_list 2 2) false)).
  by move=> x /Iv [r Hr]; exists 0%N; rewrite //= Hr // mul0r add0r oner_eq0.
have Sh (x : site) (h : tensor) : (fun _ : site => Some raise) x = Some h -> shape h = [:: u_phys u; u_phys u] by case=> <-.
have H2 : no_bonds u nothing by move=> b _; split=> //; apply/matrixP => i j; rewrite !mxE.
have [s' [out E]] := @C85_succeeds C unit (fun r _ _ => (0, r)) (@zeros_rand C) _ _ _ _ (@some_chol C) (fun _ _ => 0) 1 0 0 (fun _ => Tensor [::] (fun _ => 0)) (@series) u
  (fun _ => Some raise) nothing (@some_qr_spec C) (@some_thin_svd_spec C) (@some_full_svd_spec C) (@some_eigh_spec C) tot Srand Hm (Order.POrderTheory.lexx 0) (fun _ => ltr01) ltr01 isT isT isT erefl ni Hp
  (series_laws 2 2) Sh H2 erefl erefl (Order.POrderTheory.lexx 0) ltr01 rs _ s Pv Ha Hrs.
have [v0 I0] := @C85_fresh C unit (fun r _ _ => (0, r)) (@zeros_rand C) _ _ _ _ (@some_chol C) (fun _ _ => 0) 1 0 0 (fun _ => Tensor [::] (fun _ => 0)) (@series) u
  (fun _ => Some raise) nothing (@some_qr_spec C) (@some_thin_svd_spec C) (@some_full_svd_spec C) (@some_eigh_spec C) tot Srand Hm (Order.POrderTheory.lexx 0) (fun _ => ltr01) ltr01 isT isT isT erefl ni Hp
  (series_laws 2 2) Sh H2 _ _ _ _ _ _ (PState v (build_bond_list 2 2) false) s s' out erefl Pv (fun r Hr => proj1 (Hrs r Hr)) E.
case: (out) E => [|d [|d' o]] E //=; last by case.
move=> [[_ Hsz _ _] _]; exists s', d; split=> //; rewrite (Hsz "sz" isT).
set w := at_time _ _ _ _ _.
have V x : in_cell 2 2 x -> v0 x 0%N = 1 /\ v0 x 1%N = 0.
  by move=> /I0 [r Hr]; rewrite !Hr //= !mul0r !add0r.
have W x : in_cell 2 2 x -> w x 0%N = 1 /\ w x 1%N = - tau.
  move=> Hx; have [V0 V1] := V x Hx; rewrite /w /at_time.
  have -> : quarters u (fun _ => Some raise) x = 4%N by rewrite /quarters /has sum_nat_const card_ord.
  have -> : - (dtau * steps%:R) * 4%:R / 4%:R = - tau by rewrite mulfK // pnatr_eq0.
  have N i j : (i < 2)%N -> (j < 2)%N -> ent (series (- tau *: term u (fun=> Some raise) x)) i j = (i == j)%:R - tau * at_ raise [:: i; j].
    move=> Hi Hj; rewrite -[i]/(nat_of_ord (Ordinal Hi)) -[j]/(nat_of_ord (Ordinal Hj)) (ent_ord _ (Ordinal Hi : 'I_(u_phys u)) (Ordinal Hj : 'I_(u_phys u))).
    by rewrite -[term _ _ _]/(mx_of 2 2 raise) series1 !mxE mulNr.
  by split; rewrite /act !big_ord_recl big_ord0 /= !N //= V0 V1 ?mulr0 ?mulr1 ?mul0r ?mul1r ?subr0 ?sub0r ?addr0.
have P x : in_cell 2 2 x -> named (pexp1 2 w x) "sz" (one_site_observables (small_model C) x) = (1 - `|tau| ^+ 2) / (1 + `|tau| ^+ 2).
  move=> /W [W0 W1]; rewrite /named /= /pexp1 /= !big_ord_recl !big_ord0 /= W0 W1 /=.
  rewrite !mulr0 !mul0r !mulr1 !addr0 !add0r normr1 expr1n ?rmorph1 ?mul1r ?mulr1 normrN.
  congr (_ / _); rewrite rmorphN mulrN1 opprK mulrN [_^* * _]mulrC -normCK.
  by apply/Creal_ReP; rewrite rpredB ?rpred1 // rpredX // normr_real.
rewrite [build_site_list _ _]/= !big_cons big_nil !P; first last.
- by split; apply/ltP.
- by split; apply/ltP.
- by split; apply/ltP.
- by split; apply/ltP.
congr Some; rewrite addr0; set z := (1 - `|tau| ^+ 2) / (1 + `|tau| ^+ 2).
have -> : z + (z + (z + z)) = z * 4%:R by rewrite mulr_natr !mulrS mulr0n addr0.
by rewrite mulfK // pnatr_eq0.
Qed.
End Example.

Print Assumptions C85_vectors.
Print Assumptions C85_session.
Print Assumptions C85_fresh.
Print Assumptions C85_succeeds.
