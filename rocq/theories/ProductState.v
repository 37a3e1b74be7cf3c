(** Networks of bond and boundary dimension 1 with non-zero tensors: CTMRG runs
    on them for ever. *)
From Coq Require Import String Ascii.
From mathcomp Require Import all_ssreflect all_algebra.
From Verif Require Import Base Lattice LatticeFacts Mover Tensor TN Rdm RdmFacts Fits Linalg Mat Rsvd RsvdFacts Renorm RenormFacts P05_Mover MoveShape ProjFacts InitFacts.
Set Implicit Arguments.
Unset Strict Implicit.
Unset Printing Implicit Defensive.
Import GRing.Theory Num.Theory.
Local Open Scope ring_scope.
Local Open Scope string_scope.

Section Product.
Variable C : numClosedFieldType.
Notation tensor := (tensor C).

Lemma sumn1 (F : nat -> C) : sumn 1 F = F 0%N.
Proof. by rewrite /sumn big_ord1. Qed.

(** one non-zero entry *)
Definition one (k : nat) (t : tensor) : Prop := shape t = nseq k 1%N /\ at_ t (nseq k 0%N) != 0.
(** a non-zero site tensor *)
Definition oneA (p : nat) (t : tensor) : Prop := shape t = [:: 1; 1; 1; 1; p]%N /\
  exists2 q, (q < p)%N & at_ t [:: 0; 0; 0; 0; q]%N != 0.

Lemma one_tdiv k (t : tensor) : one k t -> exists2 t', tdiv t (norm t) = Ok t' & one k t'.
Proof.
move=> [Hs Hn]; have [|E P _] := @tdiv_norm _ t (nseq k 0%N) _ Hn.
  by rewrite Hs; elim: k {Hs Hn} => //= k ->.
by rewrite E; eexists; first by []; split=> //=; rewrite mulf_neq0 // lt0r_neq0.
Qed.

Lemma cj1_one ci ei pr : one 2 ci -> one 4 ei -> one 4 pr -> exists2 t, renormalize_cj1 ci ei pr = Ok t & one 2 t.
Proof.
move=> [H1 N1] [H2 N2] [H3 N3]; rewrite /renormalize_cj1.
rewrite /einsum /= H1 H2 /= /dims_ok /= H3 /=.
by apply: one_tdiv; split=> //=; rewrite !sumn1 !mulf_neq0.
Qed.

Lemma cj2_one ci ei pr : one 2 ci -> one 4 ei -> one 4 pr -> exists2 t, renormalize_cj2 ci ei pr = Ok t & one 2 t.
Proof.
move=> [H1 N1] [H2 N2] [H3 N3]; rewrite /renormalize_cj2.
rewrite /einsum /= H1 H2 /= /dims_ok /= H3 /=.
by apply: one_tdiv; split=> //=; rewrite !sumn1 !mulf_neq0.
Qed.

Lemma sum_sq (p : nat) (f : nat -> C) q : (q < p)%N -> f q != 0 -> 0 < sumn p (fun i => f i * (f i)^* ).
Proof.
by move=> Hq N; apply: (@sumo_gt0 _ _ _ (Ordinal Hq)) => [i|]; [apply: mulc_ge0|apply: mulc_gt0].
Qed.

Lemma ej_one p ei ai p2 p1 : one 4 ei -> oneA p ai -> one 4 p2 -> one 4 p1 ->
  exists2 t, renormalize_ej ei ai p2 p1 = Ok t & one 4 t.
Proof.
move=> [H1 N1] [H2 [q Hq N2]] [H3 N3] [H4 N4]; rewrite /renormalize_ej.
rewrite /einsum /= H1 H2 /= /dims_ok /= H3 H4 /=; do 4!rewrite ?eqxx /=.
apply: one_tdiv; split=> //=; rewrite !sumn1 mulf_neq0 //.
pose f q := at_ ai [:: 0; 0; 0; 0; q]%N; pose x := at_ ei [:: 0; 0; 0; 0]%N * at_ p1 [:: 0; 0; 0; 0]%N.
rewrite (_ : sumn p _ = sumn p (fun i => f i * (f i)^* ) * x).
  by rewrite !mulf_neq0 // lt0r_neq0 // (sum_sq Hq).
by rewrite /sumn big_distrl /=; apply: eq_bigr => i _; rewrite !big_ord1 /factor /= /f /x !mulrA.
Qed.

(** the quarters *)
Definition one_quarter p (g : quarter tensor) : Prop :=
  [/\ one 2 (q_c _ g), one 4 (q_e2 _ g), one 4 (q_e1 _ g) & oneA p (q_a _ g)].

Lemma quarter_one p g : one_quarter p g -> qfit 1 p g 1 1 /\ exists2 f, quarter_flat g = Ok f & one 6 f.
Proof.
move=> [[H1 N1] [H2 N2] [H3 N3] [H4 [q Hq N4]]]; split; first by exists 1%N, 1%N.
rewrite /quarter_flat /einsum /= H1 H2 H3 H4 /= /dims_ok /= !eqxx /=; eexists; first by [].
split=> //=; rewrite !sumn1.
pose f q := at_ (q_a _ g) [:: 0; 0; 0; 0; q]%N.
rewrite (_ : sumn p _ = at_ (q_c _ g) [:: 0; 0]%N * at_ (q_e2 _ g) [:: 0; 0; 0; 0]%N * at_ (q_e1 _ g) [:: 0; 0; 0; 0]%N * sumn p (fun i => f i * (f i)^* )).
  by rewrite !mulf_neq0 // lt0r_neq0 // (sum_sq Hq).
by rewrite /sumn big_distrr /=; apply: eq_bigr => i _; rewrite /f !mulrA.
Qed.

Section Run.
Variable R : Type.
Variable randn : R -> forall n q : nat, 'M[C]_(n, q) * R.
Variable lqr : qr_fun C.
Variable lsvd : thin_svd_fun C.
Variable fsvd : full_svd_fun C.
Variable cfg : pconfig C.
Hypothesis Hfull : svd_type cfg = "full-rank".
Hypothesis Hfsvd : full_svd_spec fsvd.
Hypothesis Hchi : (0 < pchi cfg)%N.
Hypothesis Hcut0 : 0 <= svd_cutoff cfg.
Hypothesis Hcut1 : svd_cutoff cfg < 1.

Lemma mat11 (f : tensor) : one 6 f -> mat 1 1 [:: 1; 1; 1]%N [:: 1; 1; 1]%N f = (at_ f (nseq 6 0%N))%:M.
Proof. by move=> [Hs _]; apply/matrixP => i j; rewrite !mxE !ord1 /=. Qed.

Lemma cut_one (R1 R2 : 'M[C]_1) k U s V (pr : tensor * tensor * R) : (k <= 1)%N ->
  @cut_fact C cfg R 1 1 1 1 R1^T R1 R2 k U s V pr -> one 4 pr.1.1 /\ one 4 pr.1.2.
Proof.
move=> Hk H; have [c c0] := cut_biorth H.
case: H => -[_ _ Hv _] [Hs Hz] [s0 _] [S1 S2] _.
have [_ Ez _ _ Hz0] := keptE cfg Hs Hv (lt0r_neq0 s0); have := Hz0 Hcut1 Hchi; rewrite Ez => {Ez Hz0} z0.
have E1 : nkeep cfg s = 1%N by apply/eqP; rewrite eqn_leq z0 (leq_trans Hz Hk).
rewrite E1 in S1 S2 *; move/matrixP/(_ 0 0); rewrite !mxE big_ord1 !mxE /= mulr1n => Ec.
have : at_ pr.1.1 [:: 0; 0; 0; 0]%N * at_ pr.1.2 [:: 0; 0; 0; 0]%N != 0 by rewrite [X in X != 0](_ : _ = c) ?(lt0r_neq0 c0) // -Ec.
by rewrite mulf_eq0 negb_or => /andP[N1 N2].
Qed.

Lemma half_one p g1 g4 r : one_quarter p g1 -> one_quarter p g4 ->
  exists2 pr, calculate_half_system randn lqr lsvd fsvd cfg r g1 g4 = Ok pr & one 4 pr.1.1 /\ one 4 pr.1.2.
Proof.
move=> /quarter_one[F1 [q1 Q1 O1]] /quarter_one[F4 [q4 Q4 O4]].
have := half_full randn lqr lsvd F1 F4 Q1 Q4 r Hfull Hfsvd.
case: calculate_half_system => [pr|e] /=; last first.
  move=> [_ []]; last by case.
  rewrite !mat11 // -scalar_mxM => /matrixP/(_ 0 0); rewrite !mxE mulr1n => /eqP.
  by case: O1 O4 => _ N1 [_ N4]; rewrite (negbTE (mulf_neq0 N1 N4)).
by move=> [U [s [V [H _]]]]; exists pr => //; apply: cut_one H.
Qed.

Lemma full_one p g1 g2 g3 g4 r : one_quarter p g1 -> one_quarter p g2 -> one_quarter p g3 -> one_quarter p g4 ->
  exists2 pr, calculate_full_system randn lqr lsvd fsvd cfg r g1 g2 g3 g4 = Ok pr & one 4 pr.1.1 /\ one 4 pr.1.2.
Proof.
move=> /quarter_one[F1 [q1 Q1 O1]] /quarter_one[F2 [q2 Q2 O2]] /quarter_one[F3 [q3 Q3 O3]] /quarter_one[F4 [q4 Q4 O4]].
have := full_full randn lqr lsvd F1 F2 F3 F4 Q1 Q2 Q3 Q4 r Hfull Hfsvd.
case: calculate_full_system => [pr|e] /=; last first.
  move=> [_ []]; last by case.
  rewrite !mat11 // -!scalar_mxM => /matrixP/(_ 0 0); rewrite !mxE mulr1n => /eqP.
  case: O1 O2 O3 O4 => _ N1 [_ N2] [_ N3] [_ N4].
  by rewrite (negbTE (mulf_neq0 (mulf_neq0 N2 N1) (mulf_neq0 N4 N3))).
by move=> [U [s [V [H _]]]]; exists pr => //; apply: cut_one H.
Qed.

Variable pt : ptype.
Variables nx ny p : nat.

(** every tensor of the network has bond and boundary dimension 1 and is not zero *)
Definition one_net (n : Mover.net tensor) : Prop :=
  forall s, in_cell nx ny s -> oneA p (n s SA) /\ forall k, (k < 4)%N -> one 2 (n s (SC k)) /\ one 4 (n s (SE k)).

Lemma bperm_one k (a : tensor) : (k < 7)%N -> oneA p a -> oneA p (bond_permute k a).
Proof.
move=> Hk [Hs [q Hq N]]; split; first exact: bond_permute_shape.
by exists q => //; case: k Hk => [|[|[|[|[|[|[|k]]]]]]].
Qed.

Lemma quarter_of_one n s k : (k < 7)%N -> one_net n -> in_cell nx ny s ->
  one_quarter p (quarter_of tensor (@bond_permute C) n s k).
Proof.
move=> Hk Hn Hs; have [HA H] := Hn s Hs; rewrite /quarter_of (modE0 Hk) (modE3 Hk).
have B i : (i %% 4 < 4)%N by rewrite ltn_mod.
have [H1 H2] := H _ (B k); have [_ H3] := H _ (B (k + 3)%N).
by split=> //; apply: bperm_one.
Qed.

Notation calc := (calc_at tensor R (@bond_permute C) (calculate_half_system randn lqr lsvd fsvd cfg)
   (calculate_full_system randn lqr lsvd fsvd cfg) pt nx ny).

Lemma calc_one n k s r : one_net n -> in_cell nx ny s -> (k < 4)%N ->
  exists2 pr, calc n k s r = Ok pr & one 4 pr.1.1 /\ one 4 pr.1.2.
Proof.
move=> Hn Hs Hk; rewrite calc_at_sites //; last exact/ltP.
rewrite !modE' //; set s2 := nbr _ _ ((k + 2) %% 4) s; set s4 := nbr _ _ ((k + 3) %% 4) s.
set s3 := nbr _ _ ((k + 2) %% 4) s4.
have C2 : in_cell nx ny s2 by apply: nbr_cell.
have C4 : in_cell nx ny s4 by apply: nbr_cell.
have C3 : in_cell nx ny s3 by apply: nbr_cell.
have Hk3 : (k + 3 < 7)%N by rewrite -[7%N]/(4 + 3)%N ltn_add2r.
have Hk2 : (k + 2 < 7)%N by apply: leq_trans Hk3; rewrite ltnS leq_add2l.
have Hk1 : (k + 1 < 7)%N by apply: leq_trans Hk3; rewrite ltnS leq_add2l.
have Hk0 : (k < 7)%N by apply: leq_trans Hk _.
by case: (pt); rewrite /calculate; [apply: full_one|apply: half_one]; apply: quarter_of_one.
Qed.

Notation move := (move randn lqr lsvd fsvd cfg pt nx ny).

Lemma move_one n r k c : one_net n -> (k < 4)%N -> (c < lines_of nx ny k)%coq_nat ->
  exists nr, move k n r c = Ok nr /\ one_net nr.1.
Proof.
move=> Hn Hk Hc; have Hk' : (k < 4)%coq_nat by apply/ltP.
have B i : ((k + i) %% 4 < 4)%N by rewrite ltn_mod.
have P p1 p2 : (forall i, (i < rows_of nx ny k)%coq_nat -> let s := on_line k c i in
    exists ri rj, calc n k s ri = Ok (p1 s, p2 s, rj)) ->
  forall s, in_cell nx ny s -> line_of k s = c -> one 4 (p1 s) /\ one 4 (p2 s).
  move=> Hp s Hs Hl; have [] := Hp _ (row_lt k Hs); rewrite -Hl on_lineK => ri [rj E].
  by have [pr] := calc_one ri Hn Hs Hk; rewrite E => -[<-].
have W p1 p2 : (forall i, (i < rows_of nx ny k)%coq_nat -> let s := on_line k c i in
    exists ri rj, calc n k s ri = Ok (p1 s, p2 s, rj)) ->
  forall i, (i < rows_of nx ny k)%coq_nat -> let s := on_line k c i in let u := nbr nx ny ((k + 1) %% 4) s in
  [/\ exists2 x, renormalize_cj1 (n s (SC ((k + 3) %% 4))) (n s (SE ((k + 2) %% 4))) (p1 s) = Ok x & one 2 x,
      exists2 x, renormalize_cj2 (n s (SC k)) (n s (SE k)) (p2 u) = Ok x & one 2 x &
      exists2 x, renormalize_ej (n s (SE ((k + 3) %% 4))) (bond_permute k (n s SA)) (p2 s) (p1 u) = Ok x & one 4 x].
  move=> Hp i Hi s u; have Hs : in_cell nx ny s := line_cell Hk Hc Hi.
  have Hu : in_cell nx ny u by apply: nbr_cell.
  have [P1 P2] := P _ _ Hp s Hs (line_on _ _ _).
  have [|U1 U2] := P _ _ Hp u Hu; first by rewrite line_next // line_on.
  have [HA H] := Hn s Hs; have [Hc0 He0] := H k Hk; have [_ He2] := H _ (B 2%N); have [Hc3 He3] := H _ (B 3%N).
  split; [exact: cj1_one|exact: cj2_one|apply: ej_one => //; apply: bperm_one => //].
  exact: leq_trans Hk _.
case E: (move k n r c) => [[n' r']|e]; last first.
  case: (move_err _ _ _ _ _ _ _ _ _ _ _ k n r c e Hk' Hc E) => [[i [ri [Hi Ei]]]|[p1 [p2 [Hp [i [Hi]]]]]].
    by have [pr] := calc_one ri Hn (line_cell Hk Hc Hi) Hk; rewrite Ei.
  rewrite !(modE Hk) // !(modE' Hk) //; have [[x E1 _] [y E2 _] [z E3 _]] := W _ _ Hp i Hi.
  by cbv zeta; rewrite E1 E2 E3 => -[|[]].
exists (n', r'); split=> // t Ht.
have [p1 [p2 [Hp [Hw [Ho1 Ho2]]]]] := move_spec _ _ _ _ _ _ _ _ _ _ _ k n r c n' r' Hk' Hc E.
rewrite !(modE Hk) // in Ho2; rewrite !(modE' Hk) // in Ho1.
have [HA H] := Hn t Ht; split; first by rewrite /= Ho2.
have T i : (i < rows_of nx ny k)%coq_nat -> nbr nx ny ((k + 2) %% 4) (on_line k c i) = t ->
  [/\ one 2 (n' t (SC ((k + 3) %% 4))), one 2 (n' t (SC k)) & one 4 (n' t (SE ((k + 3) %% 4)))].
  move=> Hi Et; have := Hw i Hi; cbv zeta; rewrite !(modE Hk) // !(modE' Hk) // Et => -[X1 [X2 X3]].
  have [[x E1 O1] [y E2 O2] [z E3 O3]] := W _ _ Hp i Hi.
  by move: X1 X2 X3; rewrite E1 E2 E3 => -[<-] [<-] [<-].
move=> d Hd; have [HC HE] := H d Hd.
case: (boolP (has (fun i => nbr nx ny ((k + 2) %% 4) (on_line k c i) == t :> nat * nat) (iota 0 (rows_of nx ny k)))).
  move=> /hasP[i]; rewrite mem_iota add0n => /andP[_ /ltP Hi] /eqP Et.
  have [T1 T2 T3] := T i Hi Et; split.
    case: (eqVneq d k) => [->|N1] //; case: (eqVneq d ((k + 3) %% 4)%N) => [->|N2] //.
    by rewrite /= Ho2 // => -[] Ed; [move: N2|move: N1]; rewrite Ed eqxx.
  case: (eqVneq d ((k + 3) %% 4)%N) => [->|N2] //.
  by rewrite /= Ho2 // => -[] Ed; move: N2; rewrite Ed eqxx.
move=> /hasPn Nh; have No sl : n' t sl = n t sl.
  by apply: Ho1 => i Hi Et; have := Nh i; rewrite mem_iota add0n /=; move/ltP: Hi => -> /(_ isT); rewrite Et eqxx.
by rewrite /= !No.
Qed.

Notation moves := (moves randn lqr lsvd fsvd cfg pt nx ny).
Notation run_ctmrg := (run_ctmrg randn lqr lsvd fsvd cfg pt nx ny).

Lemma moves_one ms : (forall m, List.In m ms -> valid_move nx ny m) -> forall n r, one_net n ->
  exists nr, moves ms (n, r) = Ok nr /\ one_net nr.1.
Proof.
elim: ms => [|[k c] ms IH] Hv n r Hn; first by exists (n, r).
have [/ltP Hk Hc] := Hv (k, c) (or_introl erefl).
have [[n1 r1] [E H1]] := move_one r Hn Hk Hc.
rewrite /Renorm.moves /run_moves; cbn [for_each fst snd].
move: E; rewrite /Renorm.move => -> /=.
by apply: IH => // m Hm; apply: Hv; right.
Qed.

Lemma ctmrg_one steps n r : one_net n -> exists nr, run_ctmrg steps (n, r) = Ok nr /\ one_net nr.1.
Proof.
rewrite /Renorm.run_ctmrg /ctmrg; move: (List.seq 0 steps) => l.
elim: l n r => [|x l IH] n r Hn; first by exists (n, r).
cbn [for_each]; rewrite ctmrg_step_eq.
have [[n1 r1] [E H1]] := moves_one (@sweep_valid nx ny) r Hn.
by move: E; rewrite /Renorm.moves => -> /=; apply: IH.
Qed.

End Run.
End Product.
