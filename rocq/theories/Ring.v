(** Networks of bond dimension 1: the boundary tensors are numbers, and moves
    change them by positive factors and phases that cancel around every closed
    ring. *)
From Coq Require Import String Ascii.
From mathcomp Require Import all_ssreflect all_algebra.
From Verif Require Import Base Lattice LatticeFacts Mover Tensor TN Rdm RdmFacts Fits Linalg Mat Rsvd RsvdFacts Renorm RenormFacts P05_Mover MoveShape ProjFacts InitFacts ProductState.
Set Implicit Arguments.
Unset Strict Implicit.
Unset Printing Implicit Defensive.

(** ---- labels on the legs of the boundary ---- *)
Section Labels.
Variable C : numClosedFieldType.
Notation tensor := (tensor C).
Notation net := (Mover.net tensor).
Variable R : Type.
Variable randn : R -> forall n q : nat, 'M[C]_(n, q) * R.
Variable lqr : qr_fun C.
Variable lsvd : thin_svd_fun C.
Variable fsvd : full_svd_fun C.
Variable cfg : pconfig C.
Variable pt : ptype.
Variables nx ny : nat.
Variable L : Type.
Variables PC PE : L -> L -> tensor -> Prop.
Variable PA : tensor -> Prop.

(** every corner and edge stands in the given relation to the labels of its two
    boundary legs *)
Definition labelled (g : nat -> site -> L) (n : net) : Prop :=
  forall s, in_cell nx ny s -> PA (n s SA) /\ forall k, (k < 4)%N ->
    PC (g ((k + 3) %% 4)%N (nbr nx ny ((k + 1) %% 4)%N s)) (g k s) (n s (SC k)) /\
    PE (g k s) (g k (nbr nx ny ((k + 2) %% 4)%N s)) (n s (SE k)).

Definition new_label (k c : nat) (z : site -> L) (g : nat -> site -> L) (d : nat) (t : site) : L :=
  if (d == (k + 3) %% 4)%N && (line_of k (nbr nx ny k t) == c) then z (nbr nx ny k t) else g d t.

Notation move := (move randn lqr lsvd fsvd cfg pt nx ny).
Notation calc := (calc_at tensor R (@bond_permute C) (calculate_half_system randn lqr lsvd fsvd cfg)
   (calculate_full_system randn lqr lsvd fsvd cfg) pt nx ny).

Lemma move_labels g (n n' : net) r r' k c : labelled g n -> (k < 4)%N -> (c < lines_of nx ny k)%coq_nat -> move k n r c = Ok (n', r') ->
  (forall p1 p2 : site -> tensor,
    (forall s, in_cell nx ny s -> line_of k s = c -> exists ri rj, calc n k s ri = Ok (p1 s, p2 s, rj)) ->
    (forall s, in_cell nx ny s -> line_of k s = c -> let u := nbr nx ny ((k + 1) %% 4) s in
      [/\ exists x, renormalize_cj1 (n s (SC ((k + 3) %% 4))) (n s (SE ((k + 2) %% 4))) (p1 s) = Ok x,
          exists x, renormalize_cj2 (n s (SC k)) (n s (SE k)) (p2 u) = Ok x &
          exists x, renormalize_ej (n s (SE ((k + 3) %% 4))) (bond_permute k (n s SA)) (p2 s) (p1 u) = Ok x]) ->
    exists z : site -> L, forall s, in_cell nx ny s -> line_of k s = c -> let t := nbr nx ny ((k + 2) %% 4) s in let u := nbr nx ny ((k + 1) %% 4) s in
      [/\ forall x, renormalize_cj1 (n s (SC ((k + 3) %% 4))) (n s (SE ((k + 2) %% 4))) (p1 s) = Ok x -> PC (g ((k + 2) %% 4)%N s) (z s) x,
          forall x, renormalize_cj2 (n s (SC k)) (n s (SE k)) (p2 u) = Ok x -> PC (z u) (g k t) x &
          forall x, renormalize_ej (n s (SE ((k + 3) %% 4))) (bond_permute k (n s SA)) (p2 s) (p1 u) = Ok x -> PE (z s) (z u) x]) ->
  exists z, labelled (new_label k c z g) n'.
Proof.
move=> Hf Hk Hc E HK; have Hk' : (k < 4)%coq_nat by apply/ltP.
have [p1 [p2 [Hp [Hw [Ho1 Ho2]]]]] := move_spec _ _ _ _ _ _ _ _ _ _ _ k n r c n' r' Hk' Hc E.
have Hp' s : in_cell nx ny s -> line_of k s = c -> exists ri rj, calc n k s ri = Ok (p1 s, p2 s, rj).
  by move=> Hs Hl; have := Hp _ (row_lt k Hs); rewrite -Hl on_lineK.
have Hw0 s : in_cell nx ny s -> line_of k s = c -> let t := nbr nx ny ((k + 2) %% 4) s in let u := nbr nx ny ((k + 1) %% 4) s in
  [/\ renormalize_cj1 (n s (SC ((k + 3) %% 4))) (n s (SE ((k + 2) %% 4))) (p1 s) = Ok (n' t (SC ((k + 3) %% 4))),
      renormalize_cj2 (n s (SC k)) (n s (SE k)) (p2 u) = Ok (n' t (SC k)) &
      renormalize_ej (n s (SE ((k + 3) %% 4))) (bond_permute k (n s SA)) (p2 s) (p1 u) = Ok (n' t (SE ((k + 3) %% 4)))].
  move=> Hs Hl t u; have E0 : on_line k c (row_of k s) = s by rewrite -Hl on_lineK.
  have := Hw _ (row_lt k Hs); cbv zeta; rewrite E0.
  by rewrite !(modE Hk) // !(modE' Hk) // -/t -/u => -[E1 [E2 E3]].
have [|z Hz] := HK _ _ Hp'.
  by move=> s Hs Hl u; have [E1 E2 E3] := Hw0 s Hs Hl; split; eexists; eauto.
exists z; rewrite !(modE Hk) // in Ho2; rewrite !(modE' Hk) // in Ho1.
move=> t Ht; have [HA H] := Hf t Ht; split; first by rewrite Ho2.
have B i : ((k + i) %% 4 < 4)%N by rewrite ltn_mod.
have K0 : (k = (k + 0) %% 4)%N by rewrite addn0 modn_small.
have Hw' s : in_cell nx ny s -> line_of k s = c ->
  let t := nbr nx ny ((k + 2) %% 4) s in let u := nbr nx ny ((k + 1) %% 4) s in
  [/\ PC (g ((k + 2) %% 4)%N s) (z s) (n' t (SC ((k + 3) %% 4))), PC (z u) (g k t) (n' t (SC k)) & PE (z s) (z u) (n' t (SE ((k + 3) %% 4)))].
  move=> Hs Hl t0 u; have [E1 E2 E3] := Hw0 s Hs Hl; have [Z1 Z2 Z3] := Hz s Hs Hl.
  by split; [apply: Z1|apply: Z2|apply: Z3].
have Hc1 : nbr nx ny k (nbr nx ny ((k + 1) %% 4) t) = nbr nx ny ((k + 1) %% 4) (nbr nx ny k t) by rewrite nbr_comm1.
have No d t' : d != ((k + 3) %% 4)%N -> new_label k c z g d t' = g d t' by rewrite /new_label => /negbTE ->.
have D3 i : (i < 3)%N -> (k + i) %% 4 != (k + 3) %% 4 by move=> Hi; apply: dir_neq => //; case: i Hi => [|[|[|]]].
have D30 : k != ((k + 3) %% 4)%N by have := D3 0%N isT; rewrite addn0 modn_small.
case: (eqVneq (line_of k (nbr nx ny k t)) c) => Hl.
  set s := nbr nx ny k t in Hl Hc1; have Hs : in_cell nx ny s by apply: nbr_cell.
  have Et : nbr nx ny ((k + 2) %% 4) s = t by rewrite nbr_inv.
  have [] := Hw' s Hs Hl; rewrite Et => W1 W2 W3.
  have Nk3 : new_label k c z g ((k + 3) %% 4) t = z s by rewrite /new_label eqxx -/s Hl eqxx.
  have Nu : new_label k c z g ((k + 3) %% 4) (nbr nx ny ((k + 1) %% 4) t) = z (nbr nx ny ((k + 1) %% 4) s).
    by rewrite /new_label eqxx Hc1 line_next // Hl eqxx.
  move=> j Hj; case: (dir_cases Hk Hj) => ->.
  - rewrite Nu !No //.
    split=> //; rewrite Ho2 //; first by case: (H k Hk).
    by case=> X; rewrite -X eqxx in D30.
  - have [HC HE] := H _ (B 1%N); have N1 := D3 1%N isT.
    have N10 : ((k + 1) %% 4 != k)%N by rewrite [X in _ != X]K0 dir_neq.
    rewrite !No //; last by rewrite dir_add (dir_wrap k 0) D3.
    by split; rewrite Ho2 // => -[] X; rewrite X eqxx in N1 N10.
  - have [HC HE] := H _ (B 2%N); have N1 := D3 2%N isT.
    have N10 : ((k + 2) %% 4 != k)%N by rewrite [X in _ != X]K0 dir_neq.
    rewrite !No //; last by rewrite dir_add (dir_wrap k 1) D3.
    by split; rewrite Ho2 // => -[] X; rewrite X eqxx in N1 N10.
  rewrite Nk3 !dir_add (dir_wrap k 2) (dir_wrap k 0) (dir_wrap k 1) Nu addn0 (modn_small Hk) -/s No ?D3 //.
have U sl : n' t sl = n t sl.
  apply: Ho1 => i Hi X; move: Hl; rewrite -X nbr_inv' ?line_on ?eqxx //; exact: (line_cell Hk Hc).
have Nt d : new_label k c z g d t = g d t by rewrite /new_label (negbTE Hl) andbF.
have Nu d : new_label k c z g d (nbr nx ny ((k + 1) %% 4) t) = g d (nbr nx ny ((k + 1) %% 4) t).
  by rewrite /new_label Hc1 line_next // (negbTE Hl) andbF.
move=> j Hj; case: (dir_cases Hk Hj) => ->; rewrite !U !Nt.
- have [HC HE] := H k Hk; rewrite Nu No //; by split.
- have [HC HE] := H _ (B 1%N); rewrite !No ?(D3 1%N) ?(D3 2%N) //; last by rewrite dir_add (dir_wrap k 0) D3.
- have [HC HE] := H _ (B 2%N); rewrite !No ?(D3 1%N) ?(D3 2%N) //; last by rewrite dir_add (dir_wrap k 1) D3.
have [HC HE] := H _ (B 3%N); rewrite !dir_add in HC HE *.
by rewrite (dir_wrap k 2) (dir_wrap k 1) Nu No ?D3 // -(dir_wrap k 2) -(dir_wrap k 1).
Qed.
End Labels.

Import GRing.Theory Num.Theory.
Local Open Scope ring_scope.
Local Open Scope string_scope.

(** ---- numbers ---- *)
Section Numbers.
Variable C : numClosedFieldType.
Notation tensor := (tensor C).

(** x is a positive multiple of a b^-1, up to the lengths of a and b *)
Definition along (a b x : C) : Prop := 0 < x * a^* * b.

Lemma along_neq0 a b x : along a b x -> [/\ a != 0, b != 0 & x != 0].
Proof. by rewrite /along => /lt0r_neq0; rewrite !mulf_eq0 !negb_or conjC_eq0 => /andP[/andP[-> ->] ->]. Qed.

Lemma along_mul a b c x y : along a b x -> along b c y -> along a c (x * y).
Proof.
move=> H1 H2; have [_ b0 _] := along_neq0 H1; have := mulr_gt0 H1 H2; rewrite /along.
have -> : x * a^* * b * (y * b^* * c) = x * y * a^* * c * (b * b^*).
  by rewrite [y * b^* * c]mulrAC [x * a^* * b * _]mulrACA [x * a^* * _]mulrA [x * a^* * y]mulrAC.
by rewrite pmulr_lgt0 // mul_conjC_gt0.
Qed.

Lemma along_scale a b x r : 0 < r -> along a b x -> along a b (r * x).
Proof. by move=> r0 H; rewrite /along -!mulrA pmulr_rgt0 // !mulrA. Qed.

Lemma along_self x g : x != 0 -> g != 0 -> along g (x^* * g) x.
Proof.
move=> x0 g0; rewrite /along.
have -> : x * g^* * (x^* * g) = x * x^* * (g * g^*) by rewrite mulrACA [g^* * g]mulrC.
by rewrite mulr_gt0 ?mul_conjC_gt0.
Qed.

Lemma along_back x y g : g != 0 -> 0 < x * y -> along (x^* * g) g y.
Proof.
move=> g0 xy; rewrite /along rmorphM conjCK.
have -> : y * (x * g^*) * g = x * y * (g * g^*) by rewrite mulrA [y * x]mulrC -mulrA [g^* * g]mulrC.
by rewrite mulr_gt0 ?mul_conjC_gt0.
Qed.

Definition R2 (a b : C) (t : tensor) : Prop := shape t = [:: 1; 1]%N /\ along a b (at_ t [:: 0; 0]%N).
Definition R4 (a b : C) (t : tensor) : Prop := shape t = [:: 1; 1; 1; 1]%N /\ along a b (at_ t [:: 0; 0; 0; 0]%N).

(** dividing by a norm *)
Lemma tdiv_num (t x : tensor) i : in_range (shape t) i -> (forall j, in_range (shape t) j -> j = i) -> tdiv t (norm t) = Ok x ->
  shape x = shape t /\ exists2 r, 0 < r & at_ x i = r * at_ t i /\ at_ t i != 0.
Proof.
move=> Hi H1; rewrite /tdiv; case: eqP => // /eqP N [<-]; split=> //.
have N0 : 0 < norm t by rewrite Order.POrderTheory.lt_neqAle eq_sym N sqrtC_ge0 sumr_ge0 // => j _; rewrite exprn_ge0.
exists (norm t)^-1; first by rewrite invr_gt0.
split=> //; apply: contra N => /eqP Z; rewrite sqrtC_eq0 /sqnorm; apply/eqP; apply: big1_seq => j /andP[_].
by rewrite mem_indices => Hj; rewrite (H1 j Hj) Z normr0 expr0n.
Qed.

(** an empty tensor has no norm *)
Lemma tdiv_empty (t x : tensor) : (forall j, ~~ in_range (shape t) j) -> tdiv t (norm t) = Ok x -> False.
Proof.
move=> H; rewrite /tdiv; case: eqP => // N _; apply: N; apply/eqP; rewrite sqrtC_eq0; apply/eqP; apply: big1_seq => j /andP[_].
by rewrite mem_indices (negbTE (H j)).
Qed.

Notation n2 t := (at_ t [:: 0; 0]%N).
Notation n4 t := (at_ t [:: 0; 0; 0; 0]%N).

Lemma ones_range k j : in_range (nseq k 1%N) j -> j = nseq k 0%N.
Proof. by elim: k j => [|k IH] [|x j] //= /andP[]; rewrite ltnS leqn0 => /eqP-> /IH->. Qed.
Lemma ones_in k : in_range (nseq k 1%N) (nseq k 0%N).
Proof. by elim: k => //= k ->. Qed.

Lemma cj1_num (ci ei pr x : tensor) z : shape ci = [:: 1; 1]%N -> shape ei = [:: 1; 1; 1; 1]%N -> shape pr = [:: 1; 1; 1; z]%N -> (z <= 1)%N ->
  renormalize_cj1 ci ei pr = Ok x -> [/\ z = 1%N, shape x = [:: 1; 1]%N & exists2 r, 0 < r & n2 x = r * (n4 ei * n2 ci * n4 pr) /\ n4 pr != 0].
Proof.
move=> H1 H2 H3 Hz; rewrite /renormalize_cj1 /einsum /= H1 H2 /= /dims_ok /= H3 /=.
case: z Hz H3 => [|[|z]] // _ H3; rewrite ?eqxx /=.
  by move=> /tdiv_empty[] [|? [|? ?]] //=; rewrite ?andbF ?ltn0.
move=> /(tdiv_num (i := [:: 0; 0]%N)) [//|j /(@ones_range 2)//|/= -> [r r0 [/= ->]]].
rewrite !sumn1 /= => N; split=> //; exists r => //; split=> //.
by move: N; rewrite !mulf_eq0 !negb_or => /andP[].
Qed.

Lemma cj2_num (ci ei pr x : tensor) z : shape ci = [:: 1; 1]%N -> shape ei = [:: 1; 1; 1; 1]%N -> shape pr = [:: 1; 1; 1; z]%N -> (z <= 1)%N ->
  renormalize_cj2 ci ei pr = Ok x -> [/\ z = 1%N, shape x = [:: 1; 1]%N & exists2 r, 0 < r & n2 x = r * (n4 pr * (n2 ci * n4 ei)) /\ n4 pr != 0].
Proof.
move=> H1 H2 H3 Hz; rewrite /renormalize_cj2 /einsum /= H1 H2 /= /dims_ok /= H3 /=.
case: z Hz H3 => [|[|z]] // _ H3; rewrite ?eqxx /=.
  by move=> /tdiv_empty[] [|? [|? ?]] //=; rewrite ?andbF ?ltn0.
move=> /(tdiv_num (i := [:: 0; 0]%N)) [//|j /(@ones_range 2)//|/= -> [r r0 [/= ->]]].
rewrite !sumn1 /= => N; split=> //; exists r => //; split=> //.
by move: N; rewrite !mulf_eq0 !negb_or => /andP[].
Qed.

Lemma ej_num p (ei ai p2 p1 x : tensor) : shape ei = [:: 1; 1; 1; 1]%N -> shape ai = [:: 1; 1; 1; 1; p]%N ->
  shape p2 = [:: 1; 1; 1; 1]%N -> shape p1 = [:: 1; 1; 1; 1]%N -> renormalize_ej ei ai p2 p1 = Ok x ->
  shape x = [:: 1; 1; 1; 1]%N /\ exists2 r, 0 < r & n4 x = r * (n4 p2 * n4 ei * n4 p1).
Proof.
move=> H1 H2 H3 H4; rewrite /renormalize_ej /einsum /= H1 H2 /= /dims_ok /= H3 H4 /=; do 4!rewrite ?eqxx /=.
move=> /(tdiv_num (i := [:: 0; 0; 0; 0]%N)) [//|j /(@ones_range 4)//|/= -> [r r0 [/= ->]]].
rewrite !sumn1 /=; pose f q := at_ ai [:: 0; 0; 0; 0; q]%N.
rewrite (_ : sumn p _ = sumn p (fun i => f i * (f i)^* ) * (n4 ei * n4 p1)); last first.
  by rewrite /sumn big_distrl /=; apply: eq_bigr => i _; rewrite /sumn !big_ord1 /factor /= /f !mulrA.
set q := sumn _ _ => N; split=> //; exists (r * q).
  have q0 : 0 <= q by apply: sumr_ge0 => i _; rewrite mul_conjC_ge0.
  rewrite mulr_gt0 // Order.POrderTheory.lt_neqAle q0 andbT eq_sym; apply: contra N => /eqP->.
  by rewrite !mul0r.
by rewrite -!mulrA; congr (r * (q * _)); rewrite [n4 p1 * _]mulrC mulrCA mulrA.
Qed.
End Numbers.

(** ---- moves ---- *)
Section Moves.
Variable C : numClosedFieldType.
Notation tensor := (tensor C).
Notation net := (Mover.net tensor).
Variable R : Type.
Variable randn : R -> forall n q : nat, 'M[C]_(n, q) * R.
Variable lqr : qr_fun C.
Variable lsvd : thin_svd_fun C.
Variable fsvd : full_svd_fun C.
Variable cfg : pconfig C.
Variable pt : ptype.
Variables nx ny p : nat.
Hypothesis Sq : qr_spec lqr.
Hypothesis Ss : thin_svd_spec lsvd.
Hypothesis Sf : full_svd_spec fsvd.
Hypothesis Hchi : (0 < pchi cfg)%N.

Notation n2 t := (at_ t [:: 0; 0]%N).
Notation n4 t := (at_ t [:: 0; 0; 0; 0]%N).
Notation move := (move randn lqr lsvd fsvd cfg pt nx ny).
Notation calc := (calc_at tensor R (@bond_permute C) (calculate_half_system randn lqr lsvd fsvd cfg)
   (calculate_full_system randn lqr lsvd fsvd cfg) pt nx ny).

(** all boundary tensors are numbers *)
Definition unit_legs (n : net) : Prop := fits nx ny 1 p (fun _ _ => 1%N) n.

Lemma cut_num (L R1 R2 : 'M[C]_1) k U s V (pr : tensor * tensor * R) : (k <= 1)%N ->
  @cut_fact C cfg R 1 1 1 1 L R1 R2 k U s V pr ->
  exists2 z, (z <= 1)%N & [/\ shape pr.1.1 = [:: 1; 1; 1; z]%N, shape pr.1.2 = [:: 1; 1; 1; z]%N & L = R1^T -> z = 1%N -> 0 < n4 pr.1.1 * n4 pr.1.2].
Proof.
move=> Hk H; have [_ [_ Hz] _ [S1 S2] _] := H; exists (nkeep cfg s); first exact: leq_trans Hz Hk.
split=> // EL E1; rewrite EL in H; have [c c0] := cut_biorth H.
rewrite E1; move/matrixP/(_ 0 0); rewrite !mxE big_ord1 !mxE /= mulr1n => Ec.
by rewrite (_ : _ * _ = c).
Qed.

(** projectors between numbers *)
Lemma calc_num (n : net) k s r (p1 p2 : tensor) r' : unit_legs n -> in_cell nx ny s -> (k < 4)%N -> calc n k s r = Ok (p1, p2, r') ->
  exists2 z, (z <= 1)%N & [/\ shape p1 = [:: 1; 1; 1; z]%N, shape p2 = [:: 1; 1; 1; z]%N &
    pt = Half \/ svd_type cfg = "full-rank" -> z = 1%N -> 0 < n4 p1 * n4 p2].
Proof using Sq Ss Sf Hchi.
move=> Hf Hs Hk; rewrite calc_at_sites //; last exact/ltP.
rewrite !modE' //; set s2 := nbr _ _ ((k + 2) %% 4) s; set s4 := nbr _ _ ((k + 3) %% 4) s.
set s3 := nbr _ _ ((k + 2) %% 4) s4.
have C2 : in_cell nx ny s2 by apply: nbr_cell.
have C4 : in_cell nx ny s4 by apply: nbr_cell.
have C3 : in_cell nx ny s3 by apply: nbr_cell.
have Hk3 : (k + 3 < 7)%N by rewrite -[7%N]/(4 + 3)%N ltn_add2r.
have Hk2 : (k + 2 < 7)%N by apply: leq_trans Hk3; rewrite ltnS leq_add2l.
have Hk1 : (k + 1 < 7)%N by apply: leq_trans Hk3; rewrite ltnS leq_add2l.
have Hk0 : (k < 7)%N by apply: leq_trans Hk _.
have Q (g : quarter tensor) : qfit 1 p g 1 1 -> exists f, quarter_flat g = Ok f.
  by move=> /(@quarterE _ g 1 p 1 1 True)[f [E _ _]]; exists f.
have F1 := quarter_fit Hf Hs Hk0; have F4 := quarter_fit Hf C4 Hk3.
have F2 := quarter_fit Hf C2 Hk1; have F3 := quarter_fit Hf C3 Hk2.
have [q1 Q1] := Q _ F1; have [q2 Q2] := Q _ F2; have [q3 Q3] := Q _ F3; have [q4 Q4] := Q _ F4.
case: (string_dec (svd_type cfg) "full-rank") => Ht; case: (pt); rewrite /calculate => E.
- have := full_full randn lqr lsvd F1 F2 F3 F4 Q1 Q2 Q3 Q4 r Ht Sf; rewrite E => -[U [sv [V [H _]]]].
  by have [|z Hz [S1 S2 P]] := cut_num _ H => //; exists z => //; split=> // _; apply: P.
- have := half_full randn lqr lsvd F1 F4 Q1 Q4 r Ht Sf; rewrite E => -[U [sv [V [H _]]]].
  by have [|z Hz [S1 S2 P]] := cut_num _ H => //; exists z => //; split=> // _; apply: P.
- have := full_rsvd randn fsvd F1 F2 F3 F4 Q1 Q2 Q3 Q4 r Ht Hchi Sq Ss; rewrite E => -[U [sv [V [H _]]]].
  by have [|z Hz [S1 S2 P]] := cut_num _ H; [exact: geq_minr|exists z => //; split=> // -[]].
have := half_rsvd randn fsvd F1 F4 Q1 Q4 r Ht Hchi Sq Ss; rewrite E => -[U [sv [V [H _]]]].
by have [|z Hz [S1 S2 P]] := cut_num _ H; [exact: geq_minr|exists z => //; split=> // _; apply: P].
Qed.

Definition flat (a : tensor) : Prop := shape a = [:: 1; 1; 1; 1; p]%N.
(** the numbers have phases that cancel around every closed ring *)
Definition ring_ok (n : net) : Prop := exists g, labelled nx ny (@R2 C) (@R4 C) flat g n.
(** the numbers are not zero *)
Definition ring_nz (n : net) : Prop := forall s, in_cell nx ny s -> flat (n s SA) /\ forall k, (k < 4)%N -> one 2 (n s (SC k)) /\ one 4 (n s (SE k)).

Lemma ring_okn (n : net) : ring_ok n -> ring_nz n.
Proof.
move=> [g H] s Hs; have [HA Hk] := H s Hs; split=> // k K; have [[S1 A1] [S2 A2]] := Hk k K.
by split; split=> //; [have [] := along_neq0 A1|have [] := along_neq0 A2].
Qed.

Lemma ring_legs (n : net) : ring_nz n -> unit_legs n.
Proof. by move=> H s Hs; have [HA Hk] := H s Hs; split=> // k K; have [[-> _] [-> _]] := Hk k K. Qed.

Lemma flat_permute k a : flat a -> flat (bond_permute k a).
Proof. exact: bond_permute_shape. Qed.

(** what the kernels of a move see *)
Lemma line_nums (n : net) k c (p1 p2 : site -> tensor) : ring_nz n -> (k < 4)%N ->
  (forall s, in_cell nx ny s -> line_of k s = c -> exists ri rj, calc n k s ri = Ok (p1 s, p2 s, rj)) ->
  (forall s, in_cell nx ny s -> line_of k s = c -> let u := nbr nx ny ((k + 1) %% 4) s in
      [/\ exists x, renormalize_cj1 (n s (SC ((k + 3) %% 4))) (n s (SE ((k + 2) %% 4))) (p1 s) = Ok x,
          exists x, renormalize_cj2 (n s (SC k)) (n s (SE k)) (p2 u) = Ok x &
          exists x, renormalize_ej (n s (SE ((k + 3) %% 4))) (bond_permute k (n s SA)) (p2 s) (p1 u) = Ok x]) ->
  forall s, in_cell nx ny s -> line_of k s = c ->
    [/\ shape (p1 s) = [:: 1; 1; 1; 1]%N, shape (p2 s) = [:: 1; 1; 1; 1]%N, n4 (p1 s) != 0 /\ n4 (p2 s) != 0 &
        pt = Half \/ svd_type cfg = "full-rank" -> 0 < n4 (p1 s) * n4 (p2 s)].
Proof using Sq Ss Sf Hchi.
move=> Hn Hk Hp He s Hs Hl.
have B i : ((k + i) %% 4 < 4)%N by rewrite ltn_mod.
have [ri [rj E]] := Hp s Hs Hl; have [z Hz [S1 S2 P]] := calc_num (ring_legs Hn) Hs Hk E.
have [HA H] := Hn s Hs; have [[x E1] _ _] := He s Hs Hl.
have [[C3 _] _] := H _ (B 3%N); have [_ [E2 _]] := H _ (B 2%N).
have [Ez _ [_ _ [_ N1]]] := cj1_num C3 E2 S1 Hz E1.
pose w := nbr nx ny ((k + 3) %% 4) s; have Hw : in_cell nx ny w by apply: nbr_cell.
have Lw : line_of k w = c by rewrite /w line_prev.
have Eu : nbr nx ny ((k + 1) %% 4) w = s by rewrite /w -(dir_wrap k 1) -[(1 + 4)%N]/(3 + 2)%N -dir_add nbr_inv.
have [_ [y Ey] _] := He w Hw Lw; have [_ H'] := Hn w Hw; have [[C0 _] [E0 _]] := H' k Hk.
rewrite Eu in Ey; have [_ _ [_ _ [_ N2]]] := cj2_num C0 E0 S2 Hz Ey.
by rewrite Ez in S1 S2; split=> // Hc; apply: P.
Qed.

Lemma move_ring (n n' : net) r r' k c : pt = Half \/ svd_type cfg = "full-rank" -> ring_ok n -> (k < 4)%N -> (c < lines_of nx ny k)%coq_nat ->
  move k n r c = Ok (n', r') -> ring_ok n'.
Proof using Sq Ss Sf Hchi.
move=> Hc Hr Hk Hl E; have Hn := ring_okn Hr; case: Hr => g Hg.
have [|z Hz] := move_labels Hg Hk Hl E; last by exists (new_label nx ny k c z g).
move=> p1 p2 Hp He; exists (fun s => (n4 (p1 s))^* * g ((k + 3) %% 4)%N s) => s Hs Hsl t u.
have B i : ((k + i) %% 4 < 4)%N by rewrite ltn_mod.
have Hu : in_cell nx ny u by apply: nbr_cell.
have Lu : line_of k u = c by rewrite /u line_next.
have [S1 S2 [N1 N2] P] := line_nums Hn Hk Hp He Hs Hsl; have [S1u S2u [N1u N2u] Pu] := line_nums Hn Hk Hp He Hu Lu.
have [HA H] := Hg s Hs.
have [[C0 A0] [E0 B0]] := H k Hk; have [[C3 A3] [E3 B3]] := H _ (B 3%N); have [_ [E2 B2]] := H _ (B 2%N).
rewrite !dir_add in A3 B3 B2.
rewrite (dir_wrap k 2) (dir_wrap k 0) in A3; rewrite (dir_wrap k 1) in B3; rewrite (dir_wrap k 0) in B2.
have [_ g3 _] := along_neq0 A3; have [g3' _ _] := along_neq0 A0.
split=> x Ex.
- have [_ Sx [a a0 [V _]]] := cj1_num C3 E2 S1 (leqnn 1) Ex; split=> //; rewrite V.
  by apply: along_scale => //; apply: along_mul (along_mul B2 A3) (along_self N1 g3).
- have [_ Sx [a a0 [V _]]] := cj2_num C0 E0 S2u (leqnn 1) Ex; split=> //; rewrite V.
  by apply: along_scale => //; apply: along_mul (along_back g3' (Pu Hc)) (along_mul A0 B0).
have [Sx [a a0 V]] := ej_num E3 (flat_permute k HA) S2 S1u Ex; split=> //; rewrite V.
apply: along_scale => //; apply: along_mul (along_mul (along_back g3 (P Hc)) B3) (along_self N1u g3').
Qed.

Lemma move_nz (n n' : net) r r' k c : ring_nz n -> (k < 4)%N -> (c < lines_of nx ny k)%coq_nat -> move k n r c = Ok (n', r') -> ring_nz n'.
Proof using Sq Ss Sf Hchi.
move=> Hn Hk Hl E.
have [|z Hz] := @move_labels _ _ randn lqr lsvd fsvd cfg pt nx ny unit (fun _ _ => one 2) (fun _ _ => one 4) flat (fun _ _ => tt) n n' r r' k c Hn Hk Hl E; last by [].
move=> p1 p2 Hp He; exists (fun _ => tt) => s Hs Hsl t u.
have B i : ((k + i) %% 4 < 4)%N by rewrite ltn_mod.
have Hu : in_cell nx ny u by apply: nbr_cell.
have Lu : line_of k u = c by rewrite /u line_next.
have [S1 S2 [N1 N2] P] := line_nums Hn Hk Hp He Hs Hsl; have [S1u S2u [N1u N2u] Pu] := line_nums Hn Hk Hp He Hu Lu.
have [HA H] := Hn s Hs.
have [[C0 A0] [E0 B0]] := H k Hk; have [[C3 A3] [E3 B3]] := H _ (B 3%N); have [_ [E2 B2]] := H _ (B 2%N).
split=> x Ex.
- have [_ Sx [a a0 [V _]]] := cj1_num C3 E2 S1 (leqnn 1) Ex; split=> //; rewrite /= V.
  by rewrite !mulf_neq0 // lt0r_neq0.
- have [_ Sx [a a0 [V _]]] := cj2_num C0 E0 S2u (leqnn 1) Ex; split=> //; rewrite /= V.
  by rewrite !mulf_neq0 // lt0r_neq0.
have [Sx [a a0 V]] := ej_num E3 (flat_permute k HA) S2 S1u Ex; split=> //; rewrite /= V.
by rewrite !mulf_neq0 // lt0r_neq0.
Qed.
End Moves.
