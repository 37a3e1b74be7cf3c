(** Facts behind C76-C77: networks of bond dimension 1. *)
From Coq Require Import String Ascii Permutation.
From mathcomp Require Import all_ssreflect all_algebra.
From Verif Require Import Base Lattice LatticeFacts Mover Tensor TN Rdm RdmFacts Fits EinsumLin Measure MeasureFacts FullUpdate Linalg Mat Rsvd RsvdFacts Renorm RenormFacts Spectral ProjFacts Psd Als AlsFacts EighChol UpdFacts InitFacts ProductState Dist Lambda Evolve P05_Mover MoveShape P08_Control P09_Rdm P11_Measure P13_Renorm P16_Als P17_Reduced P18_Positive P19_Gauge Eckart P20_Simple P22_SimpleUpdate P23_Solver P24_FullUpdate P26_SiteUpdate Session P29_Session Ring.
Set Implicit Arguments.
Unset Strict Implicit.
Unset Printing Implicit Defensive.

(** ---- measuring ---- *)
Section Rdms.
Variable C : numClosedFieldType.
Notation tensor := (tensor C).
Notation net := (Mover.net tensor).
Variables nx ny p : nat.
Import GRing.Theory Num.Theory.
Local Open Scope ring_scope.
Local Open Scope string_scope.

Notation n2 t := (at_ t [:: 0; 0]%N).
Notation n4 t := (at_ t [:: 0; 0; 0; 0]%N).

(** the vector at a site is the given one, up to a factor *)
Definition ray (v : nat -> C) (a : tensor) : Prop := exists2 c, c != 0 & forall q, (q < p)%N -> at_ a [:: 0; 0; 0; 0; q]%N = c * v q.
Definition tracks (v : site -> nat -> C) (n : net) : Prop := forall s, in_cell nx ny s -> ray (v s) (n s SA).

Lemma along_pos (a x : C) : along a a x -> 0 < x.
Proof.
move=> H; have [a0 _ _] := along_neq0 H.
by move: H; rewrite /along -mulrA (mulrC a^*) pmulr_lgt0 // mulc_gt0.
Qed.

Lemma scaled2 (t : tensor) : shape t = [:: 1; 1]%N -> scaled (n2 t) t (Tensor [:: 1; 1]%N (fun _ => 1)).
Proof. by move=> S; split=> // i /= Hi; rewrite mulr1 (@ones_range 2 i Hi). Qed.
Lemma scaled4 (t : tensor) : shape t = [:: 1; 1; 1; 1]%N -> scaled (n4 t) t (Tensor [:: 1; 1; 1; 1]%N (fun _ => 1)).
Proof. by move=> S; split=> // i /= Hi; rewrite mulr1 (@ones_range 4 i Hi). Qed.

Lemma flat_index q0 : in_range [:: 1; 1; 1; 1; p]%N q0 -> exists2 q, (q < p)%N & q0 = [:: 0; 0; 0; 0; q]%N.
Proof.
move=> /in_range5[a [b [c [d [q [-> [Ha Hb Hc Hd Hq]]]]]]].
by move: Ha Hb Hc Hd; rewrite !ltnS !leqn0 => /eqP-> /eqP-> /eqP-> /eqP->; exists q.
Qed.

Lemma scaledA c (v : nat -> C) (a : tensor) : flat p a -> (forall q, (q < p)%N -> at_ a [:: 0; 0; 0; 0; q]%N = c * v q) ->
  scaled c a (Tensor [:: 1; 1; 1; 1; p]%N (fun i => v (nth 0%N i 4))) /\
  scaled c^* (conj a) (conj (Tensor [:: 1; 1; 1; 1; p]%N (fun i => v (nth 0%N i 4)))).
Proof.
move=> S V; split; split=> // i /= /flat_index[q Hq ->] /=; first exact: V.
by rewrite V // rmorphM.
Qed.

Lemma site_same (n : net) v s : ring_ok nx ny p n -> tracks v n -> in_cell nx ny s ->
  same_up_to_real (build_site_rdm n s) (build_site_rdm (prod_net p v) s).
Proof.
move=> Hn Ht Hs; have Hf := ring_legs (ring_okn Hn).
have [r1 [f1 [E1 F1 _ T1]]] := C31_site_rdm Hf Hs.
have [r2 [f2 [E2 F2 _ T2]]] := C31_site_rdm (prod_fits p v) Hs.
case: Hn => g /(_ s Hs) [SA' HK]; have [c c0 V] := Ht s Hs.
have [[c0s C0] [e0s E0]] := HK 0%N isT; have [[c1s C1] [e1s E1']] := HK 1%N isT.
have [[c2s C2] [e2s E2']] := HK 2%N isT; have [[c3s C3] [e3s E3]] := HK 3%N isT.
have [sa sa'] := scaledA SA' V.
have [|f [F S]] := @einsum_scaled _ _ [:: n2 (n s (SC 0)); n4 (n s (SE 0)); n2 (n s (SC 1)); n4 (n s (SE 1)); n2 (n s (SC 2)); n4 (n s (SE 2)); n2 (n s (SC 3)); n4 (n s (SE 3)); c; c^*]
  [:: n s (SC 0); n s (SE 0); n s (SC 1); n s (SE 1); n s (SC 2); n s (SE 2); n s (SC 3); n s (SE 3); n s SA; conj (n s SA)] _ _ _ F2.
  by do !(split; first by (exact: scaled2 || exact: scaled4)).
move: F; rewrite F1 => -[Ef].
exists (\prod_(x <- [:: n2 (n s (SC 0)); n4 (n s (SE 0)); n2 (n s (SC 1)); n4 (n s (SE 1)); n2 (n s (SC 2)); n4 (n s (SE 2)); n2 (n s (SC 3)); n4 (n s (SE 3)); c; c^*]) x), r2, r1.
have P : 0 < \prod_(x <- [:: n2 (n s (SC 0)); n4 (n s (SE 0)); n2 (n s (SC 1)); n4 (n s (SE 1)); n2 (n s (SC 2)); n4 (n s (SE 2)); n2 (n s (SC 3)); n4 (n s (SE 3)); c; c^*]) x.
  rewrite !big_cons big_nil mulr1 !mulrA -mulrA mulr_gt0 ?mulc_gt0 //.
  by apply: along_pos; exact: along_mul (along_mul (along_mul (along_mul (along_mul (along_mul (along_mul C0 E0) C1) E1') C2) E2') C3) E3.
split=> //; [exact: gtr0_real|exact: lt0r_neq0|].
by apply: scaled_teq S _ T2; rewrite -Ef.
Qed.

Lemma bond_same (n : net) v s k empty : ring_ok nx ny p n -> tracks v n -> in_cell nx ny s -> (k < 4)%N ->
  same_up_to_real (build_bond_rdm empty n (Bond s (nbr nx ny k s) k)) (build_bond_rdm empty (prod_net p v) (Bond s (nbr nx ny k s) k)).
Proof.
move=> Hn Ht Hs Hk; have Hf := ring_legs (ring_okn Hn).
have [r1 [f1 [u1 [E1 F1 _ T1 _]]]] := C32_bond_rdm empty Hf Hs Hk.
have [r2 [f2 [u2 [E2 F2 _ T2 _]]]] := C32_bond_rdm empty (prod_fits p v) Hs Hk.
have Hs2 : in_cell nx ny (nbr nx ny k s) by apply: nbr_cell.
have Nb := @nbr_inv nx ny k s Hk Hs.
move: F1 F2; move: Hs2 Nb; set s2 := nbr nx ny k s; move=> Hs2 Nb.
set k1 := ((k + 1) %% 4)%N; set k2 := ((k + 2) %% 4)%N; set k3 := ((k + 3) %% 4)%N => F1 F2.
have Hk1 : (k1 < 4)%N by rewrite ltn_mod.
have Hk2 : (k2 < 4)%N by rewrite ltn_mod.
have Hk3 : (k3 < 4)%N by rewrite ltn_mod.
case: Hn => g L; have [A1 H1] := L s Hs; have [A2 H2] := L s2 Hs2.
have [c c0 Vc] := Ht s Hs; have [d d0 Vd] := Ht s2 Hs2.
have [sc sc'] := scaledA A1 Vc; have [sd sd'] := scaledA A2 Vd.
have [[q1 Q1] [q2 Q2]] := H2 k Hk.
have [_ [q3 Q3]] := H1 k Hk.
have [[q4 Q4] [q5 Q5]] := H1 k1 Hk1.
have [[q6 Q6] [q7 Q7]] := H1 k2 Hk2.
have [_ [q8 Q8]] := H2 k2 Hk2.
have [[q9 Q9] [q10 Q10]] := H2 k3 Hk3.
pose cs := [:: n2 (n s2 (SC k)); n4 (n s2 (SE k)); n4 (n s (SE k)); n2 (n s (SC k1)); n4 (n s (SE k1)); n2 (n s (SC k2)); n4 (n s (SE k2));
   n4 (n s2 (SE k2)); n2 (n s2 (SC k3)); n4 (n s2 (SE k3)); c; c^*; d; d^*].
have [|f [F S]] := @einsum_scaled _ _ cs
  [:: n s2 (SC k); n s2 (SE k); n s (SE k); n s (SC k1); n s (SE k1); n s (SC k2); n s (SE k2);
          n s2 (SE k2); n s2 (SC k3); n s2 (SE k3); n s SA; conj (n s SA); n s2 SA; conj (n s2 SA)] _ _ _ F2.
  by do !(split; first by (exact: scaled2 || exact: scaled4)).
move: F; rewrite F1 => -[Ef].
exists (\prod_(x <- cs) x), r2, r1.
have P : 0 < \prod_(x <- cs) x.
  rewrite !big_cons big_nil mulr1 !mulrA -mulrA mulr_gt0 ?mulc_gt0 // -mulrA mulr_gt0 ?mulc_gt0 //.
  apply: (@along_pos (g k3 (nbr nx ny k1 s2))).
  move: Q1 Q2 Q3 Q4 Q5 Q6 Q7 Q8 Q9 Q10; rewrite /k1 /k2 /k3 !modnDml -!addnA.
  have Ek j : ((k + (j + 4)) %% 4 = (k + j) %% 4)%N by rewrite addnA modnDr.
  rewrite /= !(Ek 0%N, Ek 1%N, Ek 2%N, Ek 3%N) !addn0 !(modn_small Hk) Nb -/s2 => Q1 Q2 Q3 Q4 Q5 Q6 Q7 Q8 Q9 Q10.
  exact: along_mul (along_mul (along_mul (along_mul (along_mul (along_mul (along_mul (along_mul (along_mul Q1 Q2) Q3) Q4) Q5) Q6) Q7) Q8) Q9) Q10.
split=> //; [exact: gtr0_real|exact: lt0r_neq0|].
by apply: scaled_teq S _ T2; rewrite -Ef.
Qed.
End Rdms.

(** ---- updates of product states ---- *)
Section Update.
Variable C : numClosedFieldType.
Notation tensor := (tensor C).
Notation net := (Mover.net tensor).
Import GRing.Theory Num.Theory.
Local Open Scope ring_scope.
Local Open Scope string_scope.
Variable lqr : qr_fun C.
Variable lsvd : thin_svd_fun C.
Variable fsvd : full_svd_fun C.
Variable leigh : eigh_fun C.
Variable lchol : chol_fun C.
Variable rtol : nat -> nat -> C.
Variable cfg : econfig C.
Variable p : nat.
Hypothesis Sq : qr_spec lqr.
Hypothesis Ss : thin_svd_spec lsvd.
Hypothesis Sf : full_svd_spec fsvd.
Hypothesis Se : eigh_spec leigh.
Hypothesis tot : forall m (A : 'M[C]_m), leigh A.
Hypothesis c0 : 0 <= positive_approx_cutoff cfg.
Hypothesis a0 : use_gauge_fix cfg -> 0 < gauge_fix_atol cfg.

(** multiples of a vector, as matrix, as reduced tensor, and of a product *)
Definition parm (w : nat -> C) (t : tensor) : Prop := shape t = [:: 1; p]%N /\ exists c, forall q, (q < p)%N -> at_ t [:: 0; q]%N = c * w q.
Definition par (w : nat -> C) (t : tensor) : Prop := shape t = [:: 1; 1; p]%N /\ exists c, forall q, (q < p)%N -> at_ t [:: 0; 0; q]%N = c * w q.
Definition par2 (w1 w2 : nat -> C) (t : tensor) : Prop := shape t = [:: 1; 1; p; p]%N /\
  exists c, forall r s, (r < p)%N -> (s < p)%N -> at_ t [:: 0; 0; r; s]%N = c * (w1 r * w2 s).

Lemma mul_parm w (K : 'M[C]_1) (t : tensor) : parm w t -> parm w (of_mx (K *m mx_of 1 p t)).
Proof.
move=> [_ [c Hc]]; split=> //; exists (K 0 0 * c) => q Hq.
by rewrite (at_of_mx _ (0 : 'I_1) (Ordinal Hq)) mxE big_ord1 mxE Hc // mulrA.
Qed.

Lemma solve_parm w (A B X : tensor) : parm w B -> solve A B = Ok X -> parm w X.
Proof.
move=> PB; have [SB _] := PB; rewrite /solve SB; case: (shape A) => [|a [|b [|d l]]] //.
case: andP => // -[/eqP-> /eqP Eb]; rewrite Eb; case: ifP => // _ [<-]; exact: mul_parm.
Qed.

Lemma tri_parm u w (A B X : tensor) : parm w B -> solve_triangular u A B = Ok X -> parm w X.
Proof.
move=> PB; have [SB _] := PB; rewrite /solve_triangular SB; case: (shape A) => [|a [|b [|d l]]] //.
case: andP => // -[/eqP-> /eqP Eb]; rewrite Eb; case: ifP => // _ [<-]; exact: mul_parm.
Qed.

Lemma matmul_parm w (A B X : tensor) : parm w B -> shape A = [:: 1; 1]%N -> matmul A B = Ok X -> parm w X.
Proof.
move=> [SB [c Hc]] SA'; rewrite /matmul SA' SB eqxx => -[<-]; split=> //=; exists (at_ A [:: 0; 0]%N * c) => q Hq.
by rewrite /sumn big_ord1 Hc //= mulrA.
Qed.

Lemma flatten_par w (t : tensor) : par w t -> exists2 t', reshape t [:: 1; p]%N = Ok t' & parm w t'.
Proof.
move=> [St [c Hc]]; have [|t' [E S V]] := @reshape_at _ t [:: 1; p]%N; first by rewrite St /= !mul1n.
exists t' => //; split=> //; exists c => q Hq; rewrite -Hc //; by apply: V; rewrite St /= ?Hq.
Qed.

Lemma unflatten_par w (t t' : tensor) : parm w t -> reshape t [:: 1; 1; p]%N = Ok t' -> par w t'.
Proof.
move=> [St [c Hc]]; have [|t2 [E S V]] := @reshape_at _ t [:: 1; 1; p]%N; first by rewrite St /= !mul1n.
rewrite E => -[<-]; split=> //; exists c => q Hq; rewrite -Hc //; by apply: V; rewrite St /= ?Hq.
Qed.

(** a linear solve for one number *)
Lemma solve_par w (R S X : tensor) : shape R = [:: 1; 1; 1; 1]%N -> par w S -> solve_ar leigh lchol cfg R S = Ok X -> par w X.
Proof.
move=> SR PS; have [SS _] := PS; have [Sm Em Pm] := flatten_par PS.
rewrite /solve_ar SS muln1 Em [bind (Ok Sm) _]/bind.
case ER: (reshape R _) => [R2|] //; have SR2 : shape R2 = [:: 1; 1]%N by move: ER; rewrite /reshape; case: ifP => // _ [<-].
rewrite [bind (Ok R2) _]/bind; case EA: (tadd R2 _) => [R3|] //.
have SR3 : shape R3 = [:: 1; 1]%N by move: EA; rewrite /tadd; case: ifP => // _ [<-].
rewrite [bind (Ok R3) _]/bind; set R4 := tscale _ R3.
case: (String.eqb _ "cholesky").
  case EB: (tadd R4 _) => [R5|] //; rewrite [bind (Ok R5) _]/bind.
  case EC: (let! L := cholesky lchol R5 in _) => [ar|e].
    move=> E; apply: unflatten_par E; move: EC; case: cholesky => // L; rewrite [bind (Ok L) _]/bind.
    case E1: solve_triangular => [Y|] //; rewrite [bind (Ok Y) _]/bind => E2; exact: tri_parm (tri_parm Pm E1) E2.
  case ES: solve => [ar|] // E; exact: unflatten_par (solve_parm Pm ES) E.
case: (String.eqb _ "pinv") => //.
case EH: (herm_pinv _ _ R4) => [R5|] //; rewrite [bind (Ok R5) _]/bind.
have S5 : shape R5 = [:: 1; 1]%N.
  by move: EH; rewrite /herm_pinv [shape R4]/= SR3 eqxx; case: (leigh _) => // -[w0 V] [<-].
case EM: matmul => [ar|] // E; exact: unflatten_par (matmul_parm Pm S5 EM) E.
Qed.

(** one sweep of the solver *)
Lemma half1_par w1 w2 (N g a2 X : tensor) : shape N = [:: 1; 1; 1; 1]%N -> par2 w1 w2 g -> shape a2 = [:: 1; 1; p]%N ->
  solve_a1r leigh lchol cfg N g a2 = Ok X -> par w1 X.
Proof.
move=> SN [Sg [c Hc]] S2; rewrite /solve_a1r.
have [S [-> PS]] : exists S, build_s1 g a2 = Ok S /\ par w1 S.
  rewrite /build_s1 /einsum /= Sg S2 /= /dims_ok /= ?eqxx /=; eexists; split; first by reflexivity.
  split=> //=; exists (c * sumn p (fun s => w2 s * (at_ a2 [:: 0; 0; s]%N)^* )) => r Hr.
  rewrite /sumn !big_ord1 /factor /= mulr_sumr mulr_suml; apply: eq_bigr => s _.
  by rewrite Hc //= ?mulr1 -!mulrA; congr (_ * _); rewrite mulrC -mulrA.
rewrite [bind (Ok S) _]/bind.
have [r [-> SR]] : exists R, build_r1 N a2 = Ok R /\ shape R = [:: 1; 1; 1; 1]%N.
  rewrite /build_r1 /einsum /= SN S2 /= /dims_ok /= ?eqxx /= ?eqxx /=.
  by eexists; split; first by reflexivity.
exact: solve_par.
Qed.

Lemma half2_par w1 w2 (N g a1 X : tensor) : shape N = [:: 1; 1; 1; 1]%N -> par2 w1 w2 g -> shape a1 = [:: 1; 1; p]%N ->
  solve_a2r leigh lchol cfg N g a1 = Ok X -> par w2 X.
Proof.
move=> SN [Sg [c Hc]] S2; rewrite /solve_a2r.
have [S [-> PS]] : exists S, build_s2 g a1 = Ok S /\ par w2 S.
  rewrite /build_s2 /einsum /= Sg S2 /= /dims_ok /= ?eqxx /=; eexists; split; first by reflexivity.
  split=> //=; exists (c * sumn p (fun s => w1 s * (at_ a1 [:: 0; 0; s]%N)^* )) => r Hr.
  rewrite /sumn !big_ord1 /factor /= mulr_sumr mulr_suml; apply: eq_bigr => s _.
  by rewrite Hc //= ?mulr1 -!mulrA; congr (_ * (_ * _)); rewrite mulrC.
rewrite [bind (Ok S) _]/bind.
have [r [-> SR]] : exists R, build_r2 N a1 = Ok R /\ shape R = [:: 1; 1; 1; 1]%N.
  rewrite /build_r2 /einsum /= SN S2 /= /dims_ok /= ?eqxx /= ?eqxx /=.
  by eexists; split; first by reflexivity.
exact: solve_par.
Qed.

Lemma loop_par w1 w2 (N g g0 : tensor) m i a1 a2 d x : shape N = [:: 1; 1; 1; 1]%N -> par2 w1 w2 g -> shape a2 = [:: 1; 1; p]%N ->
  als_loop leigh lchol cfg N g g0 m.+1 i a1 a2 d = Ok x -> par w1 x.1 /\ par w2 x.2.
Proof.
move=> SN Pg; elim: m i a1 a2 d => [|m IH] i a1 a2 d S2; rewrite [als_loop _ _ _ _ _ _ _ _ _ _ _]/=.
  case E1: solve_a1r => [b1|] //=; have P1 := half1_par SN Pg S2 E1.
  case E2: solve_a2r => [b2|] //=; have P2 := half2_par SN Pg P1.1 E2.
  by case: calculate_cost => [d2|] //=; case: ifP => _ [<-].
case E1: solve_a1r => [b1|] //; have P1 := half1_par SN Pg S2 E1; rewrite [bind (Ok _) _]/bind.
case E2: solve_a2r => [b2|] //; have P2 := half2_par SN Pg P1.1 E2; rewrite [bind (Ok _) _]/bind.
case: calculate_cost => [d2|] //; rewrite [bind (Ok _) _]/bind; case: ifP => _; first by move=> [<-].
exact: IH P2.1.
Qed.

Lemma pre_par w1 w2 (nz g N' g' : tensor) gauge : shape nz = [:: 1; 1; 1]%N -> par2 w1 w2 g ->
  precondition_norm_tensor lqr lsvd rtol cfg nz g = Ok (N', g', gauge) -> par2 w1 w2 g'.
Proof using Sq Ss a0.
move=> Sn Pg; have [Sg [c Hc]] := Pg; rewrite /precondition_norm_tensor; case Eg : (use_gauge_fix cfg); last first.
  by case: einsum => [x|] //= [_ <- _].
have [N2 [g2 [xi [yi [rx [ry [-> [[_ Sg' _ _] _ Ht _]]]]]]]] := gaugeE Ss rtol Sq Sn Sg (a0 Eg).
move=> [_ <- _]; split=> //; exists (mx_of 1 1 ry 0 0 * c * mx_of 1 1 rx 0 0) => r s Hr Hs.
have := congr1 (fun M : 'M[C]_1 => M 0 0) (Ht r s); rewrite !(mxE, big_ord1) /= /target => ->.
by rewrite Hc // !mulrA -!mulrA (mulrC (at_ rx _)) !mulrA.
Qed.

(** ---- balancing ---- *)
Lemma amat1 (a : tensor) q (Hq : (q < p)%N) : exists i : 'I_(1 * p), amat 1 1 p a i 0 = at_ a [:: 0; 0; q]%N.
Proof. by have [i Hi] := @pair_ord 1 p 0 q isT Hq; exists i; rewrite mxE Hi. Qed.

Lemma balance_par w1 w2 (a1 a2 b1 b2 : tensor) : (0 < p)%N -> par w1 a1 -> par w2 a2 ->
  finalize_reduced_tensors lqr fsvd None a1 a2 = Ok (b1, b2) -> par w1 b1 /\ par w2 b2.
Proof using Sq Sf.
move=> p0 [S1 [c1 H1]] [S2 [c2 H2]] E.
have [|Q1 [Q2 [U [Vh [R1 [R2 [s [[_ _ HU HV] [Ss0 _] [EA1 EA2] ER]]]]]]]] := @finalizeE C lqr fsvd 1 1 p a1 a2 S1 S2 _ Sq Sf; first by rewrite mul1n.
case: ifP => [_|Ns]; first by rewrite E.
move=> [x1 [x2 [E' T1 T2 EB1 EB2]]]; move: E'; rewrite E => -[Eb1 Eb2]; subst x1 x2.
have s0 : nth 0 s 0 != 0.
  apply: contraFN (Ns) => /eqP s0; case: s Ss0 s0 {ER Ns EB1 EB2} => [|x [|]] //= _ ->.
  by rewrite /norm_list big_cons big_nil normr0 expr0n addr0 sqrtC0.
have u0 : U 0 0 != 0.
  apply/eqP => u0; have := congr1 (fun M : 'M[C]_1 => M 0 0) HU.
  by rewrite !(mxE, big_ord1) u0 mulr0 => /eqP; rewrite eq_sym oner_eq0.
have v0 : Vh 0 0 != 0.
  apply/eqP => v0; have := congr1 (fun M : 'M[C]_1 => M 0 0) HV.
  by rewrite !(mxE, big_ord1) v0 mul0r => /eqP; rewrite eq_sym oner_eq0.
have : R1 0 0 * R2 0 0 != 0.
  have -> : R1 0 0 * R2 0 0 = U 0 0 * nth 0 s 0 * Vh 0 0.
    by have := congr1 (fun M : 'M[C]_1 => M 0 0) ER; rewrite !(mxE, big_ord1) /= !mulr1n => ->.
  by rewrite !mulf_neq0.
rewrite mulf_eq0 negb_or => /andP[r1 r2].
have K (Q : 'M[C]_(1 * p, 1)) (R V W : 'M[C]_1) a b w c : amat 1 1 p a = Q *m R -> amat 1 1 p b = Q *m V *m W -> R 0 0 != 0 ->
    shape b = [:: 1; 1; p]%N -> (forall q, (q < p)%N -> at_ a [:: 0; 0; q]%N = c * w q) -> par w b.
  move=> Ea Eb R0 Sb Hc; split=> //; exists ((R 0 0)^-1 * V 0 0 * W 0 0 * c) => q Hq.
  have [i Hi] := @pair_ord 1 p 0 q isT Hq.
  have := congr1 (fun M : 'M[C]_(1 * p, 1) => M i 0) Ea; have := congr1 (fun M : 'M[C]_(1 * p, 1) => M i 0) Eb.
  rewrite !(mxE, big_ord1) Hi /= => -> Ha.
  have -> : Q i 0 = c * w q / R 0 0 by rewrite -Hc // Ha mulfK.
  by rewrite -[RHS]mulrA [RHS]mulrC !mulrA.
split; [exact: K EA1 EB1 r1 T1 H1|exact: K EA2 EB2 r2 T2 H2].
Qed.

Lemma finalize_par w1 w2 gauge (a1 a2 b1 b2 : tensor) : (0 < p)%N -> (if gauge is Some (xi, yi) then shape xi = [:: 1; 1]%N /\ shape yi = [:: 1; 1]%N else True) ->
  par w1 a1 -> par w2 a2 -> finalize_reduced_tensors lqr fsvd gauge a1 a2 = Ok (b1, b2) -> par w1 b1 /\ par w2 b2.
Proof using Sq Sf.
move=> p0 Hg P1 P2; have [S1 [c1 H1]] := P1; have [S2 [c2 H2]] := P2.
case: gauge Hg => [[xi yi] [Sx Sy]|_]; last exact: balance_par.
have [t1 [E1 T1]] : exists t, einsum "yz,zup->yup" [:: yi; a1] = Ok t /\ par w1 t.
  rewrite /einsum /= Sy S1 /= /dims_ok /= ?eqxx /=; eexists; split; first by reflexivity.
  by split=> //; exists (at_ yi [:: 0; 0]%N * c1) => q Hq; rewrite /= /sumn big_ord1 /= /factor /= H1 // mulrA.
have [t2 [E2 T2]] : exists t, einsum "xw,wvq->xvq" [:: xi; a2] = Ok t /\ par w2 t.
  rewrite /einsum /= Sx S2 /= /dims_ok /= ?eqxx /=; eexists; split; first by reflexivity.
  by split=> //; exists (at_ xi [:: 0; 0]%N * c2) => q Hq; rewrite /= /sumn big_ord1 /= /factor /= H2 // mulrA.
rewrite (_ : finalize_reduced_tensors _ _ _ _ _ = finalize_reduced_tensors lqr fsvd None t1 t2); first exact: balance_par.
by rewrite {1}/finalize_reduced_tensors E1 [bind (Ok t1) _]/bind E2.
Qed.

(** a matrix applied to a vector, from the right *)
Definition act (M : nat -> nat -> C) (w : nat -> C) (r : nat) : C := \sum_(i < p) w i * M i r.
(** a two-site gate which acts on the two sites separately *)
Definition splits (G1 G2 : nat -> nat -> C) (gate : tensor) : Prop := shape gate = [:: p; p; p; p] /\
  forall i j r s, (i < p)%N -> (j < p)%N -> (r < p)%N -> (s < p)%N -> at_ gate [:: i; j; r; s] = G1 i r * G2 j s.

Hypothesis Hm : als_method cfg = "cholesky" \/ als_method cfg = "pinv".
Lemma reduced_par v1 v2 G1 G2 (a1 a2 N gate b1 b2 : tensor) fuel : (0 < p)%N -> (0 < als_niter cfg)%N -> par v1 a1 -> par v2 a2 ->
  shape N = [:: 1; 1; 1; 1]%N -> splits G1 G2 gate ->
  update_reduced_tensors lqr lsvd fsvd leigh lchol rtol cfg fuel.+1 a1 a2 N gate = Some (Ok (b1, b2)) ->
  par (act G1 v1) b1 /\ par (act G2 v2) b2.
Proof using Sq Ss Sf Se tot c0 a0 Hm.
move=> p0 ni [S1 [c1 H1]] [S2 [c2 H2]] SN [Sg HG].
have [t [g [E1 E2 Sg0 Hg]]] := goalE S1 S2 Sg.
have Pg : par2 (act G1 v1) (act G2 v2) g.
  split=> //; exists (c1 * c2) => r s Hr Hs; have := Hg r s 0%N 0%N; rewrite /target => ->.
  rewrite /gated /act /sumn mulr_suml mulr_sumr; apply: eq_bigr => i _.
  rewrite !mulr_sumr; apply: eq_bigr => j _; rewrite /P16_Als.state /sumn big_ord1 H1 // H2 // HG //.
  by rewrite (mulrACA c1) (mulrACA (v1 i) (G1 i r)) !mulrA.
have [nz [d [EP Snz _ _ _]]] := @C44_positive C fsvd leigh Se Sf 1 N (positive_approx_cutoff cfg) fuel isT SN c0 tot.
have [N' [g' [gauge [EPN SN' Sg' PN' Hga]]]] := pre_shape rtol Sq Ss a0 Snz Sg0.
have Pg' := pre_par Snz Pg EPN.
rewrite /update_reduced_tensors E1 [bind (Ok t) _]/bind E2 EP [bind (Ok nz) _]/bind EPN [bind (Ok (N', _, _)) _]/bind S1 => -[].
rewrite /als_solve; case EI: initialize_reduced_tensors => [[x1 x2]|] //; rewrite [bind (Ok (x1, x2)) _]/bind.
have Sx : shape x2 = [:: 1; 1; p]%N.
  have np : (0 < 1 * p)%N by rewrite mul1n.
  have [n12g _] := @solve_run C fsvd leigh lchol cfg Sf Hm 1 1 p N' g' SN' Sg' PN' np np.
  by case=> [[]|[x []]]; rewrite EI // => -[<-] [].
have [m [-> Pm]] : exists m, einsum "yxYX,yxpq->YXpq" [:: N'; g'] = Ok m /\ par2 (act G1 v1) (act G2 v2) m.
  have [_ [c Hc]] := Pg'.
  rewrite /einsum /= SN' Sg' /= /dims_ok /= ?eqxx /=; eexists; split; first by reflexivity.
  by split=> //; exists (at_ N' [:: 0; 0; 0; 0]%N * c) => r s Hr Hs; rewrite /= /sumn !big_ord1 /= /factor /= Hc // mulrA.
rewrite [bind (Ok m) _]/bind; case: calculate_cost => [d1|] //; rewrite [bind (Ok d1) _]/bind.
case EL: als_loop => [[y1 y2]|] //; rewrite [bind (Ok (y1, y2)) _]/bind => EF.
have [//|Py1 Py2] := @loop_par (act G1 v1) (act G2 v2) N' m g' (als_niter cfg).-1 0 x1 x2 `|d1| (y1, y2) SN' Pm Sx.
  by rewrite prednK.
exact: finalize_par Hga Py1 Py2 EF.
Qed.

(** a one-site gate, if there is one *)
Definition onev (o : option tensor) (w : nat -> C) : nat -> C := if o is Some g then act (fun i j => at_ g [:: i; j]) w else w.

Lemma one_ray (g : tensor) w (a t : tensor) : shape g = [:: p; p] -> flat p a -> ray p w a -> einsum "pq,lurdp->lurdq" [:: g; a] = Ok t ->
  flat p t /\ ray p (onev (Some g) w) t.
Proof.
move=> Sg Sa [c nz Hc] E; have [t' [E' St Ht]] := one_site_shape Sg Sa; move: E'; rewrite E => -[?]; subst t'.
split=> //; exists c => // q Hq; rewrite Ht /onev /act /sumn mulr_sumr; apply: eq_bigr => i _.
by rewrite Hc // mulrCA (mulrC (at_ g _)).
Qed.

Lemma leg1_0 k P : (k < 4)%N -> leg1 k 0 (unravel [:: 1; 1; 1]%N 0) P = [:: 0; 0; 0; 0; P]%N.
Proof. by case: k => [|[|[|[|]]]]. Qed.
Lemma leg2_0 k P : (k < 4)%N -> leg2 k 0 (unravel [:: 1; 1; 1]%N 0) P = [:: 0; 0; 0; 0; P]%N.
Proof. by case: k => [|[|[|[|]]]]. Qed.

Lemma tdiv_ray w c (X Y : tensor) : flat p X -> (forall q, (q < p)%N -> at_ X [:: 0; 0; 0; 0; q]%N = c * w q) -> tdiv X (norm X) = Ok Y -> flat p Y /\ ray p w Y.
Proof.
move=> SX HX; rewrite /tdiv; case: eqP => // /eqP N0 [<-]; split=> //; exists ((norm X)^-1 * c); last by move=> q Hq; rewrite /= HX // mulrA.
rewrite mulf_neq0 ?invr_neq0 //; apply/eqP => c0'; case/eqP: N0; rewrite /norm (sqnorm5 SX) /sumn !big_ord1 big1 ?sqrtC0 // => i _.
by rewrite HX // c0' mul0r mulr0.
Qed.

Lemma turn_ray k w (a : tensor) : (k <= 4)%N -> flat p a -> ray p w a -> flat p (bond_permute k a) /\ ray p w (bond_permute k a).
Proof.
move=> Hk Sa [c nz Hc]; split; first exact: perm_shape.
by exists c => // q Hq; rewrite -Hc //; case: k Hk => [|[|[|[|[|]]]]].
Qed.

(** the two one-site gates of an update *)
Definition first (one : option (tensor * tensor)) : option tensor := if one is Some (g, _) then Some g else None.
Definition second (one : option (tensor * tensor)) : option tensor := if one is Some (_, g) then Some g else None.

Lemma ones_ray one w1 w2 (a1 a2 x1 x2 : tensor) : one_ok p one -> flat p a1 -> ray p w1 a1 -> flat p a2 -> ray p w2 a2 ->
  match one with
  | None => Ok (a1, a2)
  | Some (g1, g2) =>
      let! a1 := einsum "pq,lurdp->lurdq" [:: g1; a1] in
      let! a2 := einsum "pq,lurdp->lurdq" [:: g2; a2] in
      Ok (a1, a2)
  end = Ok (x1, x2) -> [/\ flat p x1, ray p (onev (first one) w1) x1, flat p x2 & ray p (onev (second one) w2) x2].
Proof.
case: one => [[g1 g2]|] So F1 R1 F2 R2; last by case=> <- <-.
case: So => S1 S2; case E1: einsum => [y1|] //; rewrite [bind (Ok y1) _]/bind; case E2: einsum => [y2|] // -[<- <-].
by have [] := one_ray S1 F1 R1 E1; have [] := one_ray S2 F2 R2 E2.
Qed.

Lemma back_ray k w1 w2 (q1 q2 b1 b2 a1 a2 : tensor) one : (k < 4)%N -> shape q1 = [:: 1; 1; 1; 1]%N -> shape q2 = [:: 1; 1; 1; 1]%N ->
  par w1 b1 -> par w2 b2 -> one_ok p one -> back k q1 q2 b1 b2 one = Ok (a1, a2) ->
  [/\ flat p a1, ray p (onev (first one) w1) a1, flat p a2 & ray p (onev (second one) w2) a2].
Proof.
move=> Hk Q1 Q2 [B1 [d1 H1]] [B2 [d2 H2]] So; rewrite /back.
have [X1 [X2 [-> S1 S2 E1 E2]]] := recomposeE Q1 Q2 B1 B2; rewrite [bind (Ok (X1, X2)) _]/bind.
have F1 q : (q < p)%N -> at_ X1 [:: 0; 0; 0; 0; q]%N = at_ q1 [:: 0; 0; 0; 0]%N * d1 * w1 q.
  by move=> Hq; have := E1 0%N 0%N q; rewrite /rent1 /= => ->; rewrite /sumn big_ord1 H1 // mulrA.
have F2 q : (q < p)%N -> at_ X2 [:: 0; 0; 0; 0; q]%N = at_ q2 [:: 0; 0; 0; 0]%N * d2 * w2 q.
  by move=> Hq; have := E2 0%N 0%N q; rewrite /rent2 /= => ->; rewrite /sumn big_ord1 H2 // mulrA.
case D1: (tdiv X1) => [Y1|] //; rewrite [bind (Ok Y1) _]/bind; case D2: (tdiv X2) => [Y2|] //; rewrite [bind (Ok Y2) _]/bind.
have [G1 R1] := tdiv_ray S1 F1 D1; have [G2 R2] := tdiv_ray S2 F2 D2.
have [//|K1 K1'] := @turn_ray (4 - k) _ _ _ G1 R1; first exact: leq_subr.
have [//|K2 K2'] := @turn_ray (4 - k) _ _ _ G2 R2; first exact: leq_subr.
exact: ones_ray.
Qed.

Lemma update_ray nx ny (n : net) s k gate one v1 v2 G1 G2 fuel (a1 a2 : tensor) : fits nx ny 1 p (fun _ _ => 1%N) n -> in_cell nx ny s -> (k < 4)%N -> (0 < p)%N ->
  (0 < als_niter cfg)%N -> splits G1 G2 gate -> one_ok p one -> ray p v1 (n s SA) -> ray p v2 (n (nbr nx ny k s) SA) ->
  full_bond_update lqr lsvd fsvd leigh lchol rtol cfg fuel.+1 n (Bond s (nbr nx ny k s) k) gate one = Some (Ok (a1, a2)) ->
  [/\ flat p a1, ray p (onev (first one) (act G1 v1)) a1, flat p a2 & ray p (onev (second one) (act G2 v2)) a2].
Proof using Sq Ss Sf Se tot c0 a0 Hm.
move=> Hf Hs Hk p0 ni Hg So [d1 _ V1] [d2 _ V2].
have [q1 [r1 [q2 [r2 [N [E [Ed [Q1 Q2 R1 R2] [I1 I2] [_ EN SN _ _] Hr]]]]]]] := open_bond Sq Hf Hs Hk.
have n1 : minn (1 ^ 3) (p * 1) = 1%N by rewrite exp1n muln1; apply/minn_idPl.
rewrite n1 in Q1 Q2 R1 R2 I1 I2 SN Hr.
have Z (q : tensor) : isometric 1 1 q -> at_ q [:: 0; 0; 0; 0]%N != 0.
  move=> /(_ 0%N 0%N isT isT); rewrite /sumn !big_ord1 eqxx => H; apply/eqP => q0; move: H; rewrite q0 mulr0 => /eqP.
  by rewrite eq_sym oner_eq0.
have P1 : par v1 r1.
  split=> //; exists ((at_ q1 [:: 0; 0; 0; 0]%N)^-1 * d1) => q Hq; have [] := Hr 0%N 0%N q isT isT Hq; rewrite leg1_0 // V1 // => H _.
  by rewrite -mulrA H /sumn big_ord1 mulKf // Z.
have P2 : par v2 r2.
  split=> //; exists ((at_ q2 [:: 0; 0; 0; 0]%N)^-1 * d2) => q Hq; have [] := Hr 0%N 0%N q isT isT Hq; rewrite leg2_0 // V2 // => _ H.
  by rewrite -mulrA H /sumn big_ord1 mulKf // Z.
case ER: (update_reduced_tensors lqr lsvd fsvd leigh lchol rtol cfg fuel.+1 r1 r2 N gate) => [x|]; last first.
  by rewrite /full_bond_update /full_tensor_update [b_k _]/= [b_s1 _]/= [b_s2 _]/= Ed [bind (Ok (q1, r1, q2, r2)) _]/bind EN [bind (Ok N) _]/bind ER.
rewrite (updateE one Ed EN ER); case: x ER => [[b1 b2]|] // ER [] HB.
have [B1 B2] := reduced_par p0 ni P1 P2 SN Hg ER; exact: back_ray HB.
Qed.

Variable lcut : C.
Hypothesis l0 : 0 < lcut.

Lemma simple_one w1 w2 k (a1 a2 gate : tensor) one :
  simple_bond_update lqr fsvd lcut w1 w2 k a1 a2 gate one =
  let! (a1, a2, lam) := simple_bond_update lqr fsvd lcut w1 w2 k a1 a2 gate None in
  let! (a1, a2) := (match one with
    | None => Ok (a1, a2)
    | Some (g1, g2) =>
        let! a1 := einsum "pq,lurdp->lurdq" [:: g1; a1] in
        let! a2 := einsum "pq,lurdp->lurdq" [:: g2; a2] in
        Ok (a1, a2)
    end) in Ok (a1, a2, lam).
Proof.
rewrite /simple_bond_update; case: absorb => [x1|] //=; case: absorb => [x2|] //=.
case: decompose_site_tensors => [[[[y1 y2] y3] y4]|] //=; case: simple_truncate => [[[z1 z2] z3]|] //=.
case: recompose_site_tensors => [[u1 u2]|] //=; case: strip => [t1|] //=; case: strip => [t2|] //=.
by case: one => [[g1 g2]|] //=; case: einsum => [r1|] //=; case: einsum.
Qed.

(** two products of vectors are the same *)
Lemma same_product (w1 w2 x1 x2 : nat -> C) c : c != 0 -> (forall P Q, (P < p)%N -> (Q < p)%N -> x1 P * x2 Q = c * (w1 P * w2 Q)) ->
  (exists P Q, [/\ (P < p)%N, (Q < p)%N & x1 P * x2 Q != 0]) ->
  (exists2 d, d != 0 & forall P, (P < p)%N -> x1 P = d * w1 P) /\ (exists2 d, d != 0 & forall Q, (Q < p)%N -> x2 Q = d * w2 Q).
Proof.
move=> c0' H [P0 [Q0 [HP HQ N]]]; move: (N); rewrite mulf_eq0 negb_or => /andP[N1 N2].
have := N; rewrite H // !mulf_eq0 !negb_or c0' /= => /andP[M1 M2]; split.
  exists (c * w2 Q0 / x2 Q0); first by rewrite mulf_neq0 ?invr_neq0 ?mulf_neq0.
  by move=> P HP'; apply: (mulIf N2); rewrite H // [RHS]mulrAC divfK // -mulrA (mulrC (w1 P)).
exists (c * w1 P0 / x1 P0); first by rewrite mulf_neq0 ?invr_neq0 ?mulf_neq0.
by move=> Q HQ'; apply: (mulfI N1); rewrite H // [RHS]mulrA [x1 P0 * _]mulrC divfK // mulrA.
Qed.

Lemma simple_ray k w1 w2 (a1 a2 gate x1 x2 lam : tensor) one v1 v2 G1 G2 : (k < 4)%N -> (0 < p)%N -> splits G1 G2 gate -> one_ok p one ->
  flat p a1 -> flat p a2 -> ray p v1 a1 -> ray p v2 a2 -> (forall d, (d < 4)%N -> shape (w1 d) = [:: 1%N] /\ shape (w2 d) = [:: 1%N]) ->
  simple_bond_update lqr fsvd lcut w1 w2 k a1 a2 gate one = Ok (x1, x2, lam) ->
  [/\ flat p x1, ray p (onev (first one) (act G1 v1)) x1, flat p x2 & ray p (onev (second one) (act G2 v2)) x2].
Proof using Sq Sf l0.
move=> Hk p0 [Sg HG] So F1 F2 [d1 d1n V1] [d2 d2n V2] W; rewrite simple_one.
have M1 : matching (fun _ => 1%N) p w1 a1 by split=> // d Hd; have [] := W d Hd.
have M2 : matching (fun _ => 1%N) p w2 a2 by split=> // d Hd; have [] := W d Hd.
have [t [Ct H]] := C65_simple_update Sq Sf Hk p0 l0 M1 M2 Sg (one := None) I.
set goal := two_site_gate _ _ _ in Ct.
have W1 (f : C -> C) w ex P : wprod ex w f [:: 0; 0; 0; 0; P]%N = wprod ex w f [:: 0; 0; 0; 0; 0]%N.
  exact: (@wprod_phys C ex w f [:: 0; 0; 0; 0]%N).
have [K Kg] : exists K, forall P Q, (P < p)%N -> (Q < p)%N -> goal P Q 0%N 0%N = K * (act G1 v1 P * act G2 v2 Q).
  exists (wprod k w1 id [:: 0; 0; 0; 0; 0]%N * d1 * (wprod ((k + 2) %% 4) w2 id [:: 0; 0; 0; 0; 0]%N * d2)) => P Q HP HQ.
  rewrite /goal /two_site_gate /act /sumn mulr_suml mulr_sumr; apply: eq_bigr => i _; rewrite !mulr_sumr; apply: eq_bigr => j _.
  rewrite /pair_state /sumn big_ord1 /entry1 /entry2 /= leg1_0 // leg2_0 // W1 (W1 _ w2) V1 // V2 // HG //.
  move: (wprod _ w1 _ _) (wprod _ w2 _ _) => A B; rewrite (mulrA A) (mulrA B) (mulrACA (A * d1)) -[LHS]mulrA; congr (_ * _).
  by rewrite mulrACA.
pose b1 : tensor := Tensor [:: 1; 1; p]%N (fun i => K * act G1 v1 (nth 0%N i 2)).
pose b2 : tensor := Tensor [:: 1; 1; p]%N (fun i => act G2 v2 (nth 0%N i 2)).
have Z : size2 (1 ^ 3) p (fun r s y x => goal r s y x - t r s y x) <= 0.
  apply: (Order.POrderTheory.le_trans (Ct b1 b2)).
  rewrite (size2_ext (g := fun _ _ _ _ => 0)).
    by rewrite /size2 /sumn big1 // => i _; rewrite big1 // => j _; rewrite big1 // => l _; rewrite big1 // => l' _; rewrite normr0 expr0n.
  move=> r s y x Hr Hs; rewrite exp1n !ltnS !leqn0 => /eqP-> /eqP->; rewrite Kg // /P16_Als.state /sumn big_ord1 /= mulrA subrr //.
have {}Z r s : (r < p)%N -> (s < p)%N -> t r s 0%N 0%N = K * (act G1 v1 r * act G2 v2 s).
  by move=> Hr Hs; have /eqP := size2_eq0 Z Hr Hs (isT : (0 < 1 ^ 3)%N) (isT : (0 < 1 ^ 3)%N); rewrite subr_eq0 Kg // => /eqP.
case: H => [[_ ->]|[y1 [y2 [lam' [c [-> [S1 S2 _] [c0' cs Es] _ _]]]]]] //; rewrite [bind (Ok _) _]/bind.
have cl ex w i : wprod ex w (clamp lcut) i != 0.
  by apply/eqP => H; have := wprod_clamp ex w i l0; rewrite H mul0r => /eqP; rewrite eq_sym oner_eq0.
have A0 := cl k w1 [:: 0; 0; 0; 0; 0]%N; have B0 := cl ((k + 2) %% 4)%N w2 [:: 0; 0; 0; 0; 0]%N.
move: A0 B0; set A := wprod k _ _ _; set B := wprod _ w2 _ _ => A0 B0.
have HE P Q : (P < p)%N -> (Q < p)%N -> at_ y1 [:: 0; 0; 0; 0; P]%N * at_ y2 [:: 0; 0; 0; 0; Q]%N = c * K / (A * B) * (act G1 v1 P * act G2 v2 Q).
  move=> HP HQ; have := Es P Q 0%N 0%N HP HQ isT isT; rewrite /pair_state /sumn big_ord1 /entry1 /entry2 /= leg1_0 // leg2_0 // W1 (W1 _ w2) -/A -/B Z //.
  rewrite mulrACA => H; apply: (mulfI (mulf_neq0 A0 B0)); rewrite H -[in RHS](mulrA (c * K)) [RHS]mulrCA.
  by rewrite mulVKf ?mulf_neq0 // !mulrA.
have [P [Q [HP HQ NZ]]] : exists P Q, [/\ (P < p)%N, (Q < p)%N & K * (act G1 v1 P * act G2 v2 Q) != 0].
  have [/existsP[P /existsP[Q H]]|] := boolP [exists P : 'I_p, [exists Q : 'I_p, K * (act G1 v1 P * act G2 v2 Q) != 0]].
    by exists P, Q.
  move=> N; move/eqP: cs; rewrite (_ : size2 _ _ _ = 0) ?mulr0 1?eq_sym ?oner_eq0 // /size2 /sumn.
  rewrite exp1n !big_ord1; apply: big1 => P _; rewrite big_ord1; apply: big1 => Q _; rewrite Z //.
  apply/eqP; rewrite expf_eq0 /= normr_eq0; apply: contraR N => N; by apply/existsP; exists P; apply/existsP; exists Q.
have K0 : c * K / (A * B) != 0.
  apply: mulf_neq0; last by rewrite invr_neq0 ?mulf_neq0.
  by apply: mulf_neq0; [rewrite (Order.POrderTheory.gt_eqF c0')|apply/eqP => K0; rewrite K0 mul0r eqxx in NZ].
have [|R1 R2] := same_product K0 HE.
  exists P, Q; split=> //; rewrite HE // mulf_neq0 //; by apply/eqP => H; rewrite H mulr0 eqxx in NZ.
case E: (match one with None => _ | _ => _ end) => [[z1 z2]|] // -[<- <- _].
apply: (ones_ray So _ R1 _ R2 E); by rewrite /flat ?S1 ?S2.
Qed.

(** when it does not fail *)
Lemma simple_alive k w1 w2 (a1 a2 gate : tensor) one v1 v2 G1 G2 P0 Q0 : (k < 4)%N -> (0 < p)%N -> splits G1 G2 gate -> one_ok p one ->
  flat p a1 -> flat p a2 -> ray p v1 a1 -> ray p v2 a2 ->
  (forall d, (d < 4)%N -> [/\ shape (w1 d) = [:: 1%N], shape (w2 d) = [:: 1%N], at_ (w1 d) [:: 0]%N != 0 & at_ (w2 d) [:: 0]%N != 0]) ->
  (P0 < p)%N -> (Q0 < p)%N -> act G1 v1 P0 != 0 -> act G2 v2 Q0 != 0 ->
  exists x1 x2 lam, [/\ simple_bond_update lqr fsvd lcut w1 w2 k a1 a2 gate one = Ok (x1, x2, lam), shape lam = [:: 1%N] & at_ lam [:: 0]%N != 0].
Proof using Sq Sf l0.
move=> Hk p0 [Sg HG] So F1 F2 [d1 d1n V1] [d2 d2n V2] W HP0 HQ0 N1 N2.
have M1 : matching (fun _ => 1%N) p w1 a1 by split=> // d Hd; have [] := W d Hd.
have M2 : matching (fun _ => 1%N) p w2 a2 by split=> // d Hd; have [] := W d Hd.
have [t [Ct H]] := C65_simple_update Sq Sf Hk p0 l0 M1 M2 Sg So.
set goal := two_site_gate _ _ _ in Ct.
have W1 w ex P : wprod ex w id [:: 0; 0; 0; 0; P]%N = wprod ex w id [:: 0; 0; 0; 0; 0]%N :> C.
  exact: (@wprod_phys C ex w id [:: 0; 0; 0; 0]%N).
have [K K0 Kg] : exists2 K, K != 0 & forall P Q, (P < p)%N -> (Q < p)%N -> goal P Q 0%N 0%N = K * (act G1 v1 P * act G2 v2 Q).
  exists (wprod k w1 id [:: 0; 0; 0; 0; 0]%N * d1 * (wprod ((k + 2) %% 4) w2 id [:: 0; 0; 0; 0; 0]%N * d2)).
    have NZ ex w : (forall d, (d < 4)%N -> at_ (w d) [:: 0]%N != 0) -> wprod ex w id [:: 0; 0; 0; 0; 0]%N != 0 :> C.
      move=> Hw; apply/prodf_neq0 => d _; have := Hw d (ltn_ord d).
      by case: d => -[|[|[|[|d]]]].
    by rewrite !mulf_neq0 // NZ // => d Hd; have [] := W d Hd.
  move=> P Q HP HQ.
  rewrite /goal /two_site_gate /act /sumn mulr_suml mulr_sumr; apply: eq_bigr => i _; rewrite !mulr_sumr; apply: eq_bigr => j _.
  rewrite /pair_state /sumn big_ord1 /entry1 /entry2 /= leg1_0 // leg2_0 // W1 (W1 w2) V1 // V2 // HG //.
  move: (wprod _ w1 _ _) (wprod _ w2 _ _) => A B; rewrite (mulrA A) (mulrA B) (mulrACA (A * d1)) -[LHS]mulrA; congr (_ * _).
  by rewrite mulrACA.
pose b1 : tensor := Tensor [:: 1; 1; p]%N (fun i => K * act G1 v1 (nth 0%N i 2)).
pose b2 : tensor := Tensor [:: 1; 1; p]%N (fun i => act G2 v2 (nth 0%N i 2)).
have Z : size2 (1 ^ 3) p (fun r s y x => goal r s y x - t r s y x) <= 0.
  apply: (Order.POrderTheory.le_trans (Ct b1 b2)).
  rewrite (size2_ext (g := fun _ _ _ _ => 0)).
    by rewrite /size2 /sumn big1 // => i _; rewrite big1 // => j _; rewrite big1 // => l _; rewrite big1 // => l' _; rewrite normr0 expr0n.
  move=> r s y x Hr Hs; rewrite exp1n !ltnS !leqn0 => /eqP-> /eqP->; rewrite Kg // /P16_Als.state /sumn big_ord1 /= mulrA subrr //.
have {}Z r s : (r < p)%N -> (s < p)%N -> t r s 0%N 0%N = K * (act G1 v1 r * act G2 v2 s).
  by move=> Hr Hs; have /eqP := size2_eq0 Z Hr Hs (isT : (0 < 1 ^ 3)%N) (isT : (0 < 1 ^ 3)%N); rewrite subr_eq0 Kg // => /eqP.
case: H => [[Hz _]|[y1 [y2 [lam [c [-> [_ _ Sl] _ _ [_ _ L4]]]]]]]; last first.
  exists y1, y2, lam; split=> //; apply/eqP => E; move: L4; rewrite /sumn big_ord1 /= E expr0n => /eqP; by rewrite eq_sym oner_eq0.
exfalso; have Hz' : size2 (1 ^ 3) p t <= 0 by rewrite Hz.
have /eqP := size2_eq0 Hz' HP0 HQ0 (isT : (0 < 1 ^ 3)%N) (isT : (0 < 1 ^ 3)%N).
by rewrite Z // !mulf_eq0 (negbTE K0) (negbTE N1) (negbTE N2).
Qed.
End Update.
