(** A directional move keeps the boundary tensors fitting together. *)
From Coq Require Import String Ascii.
From mathcomp Require Import all_ssreflect all_algebra.
From Verif Require Import Base Lattice LatticeFacts Mover Tensor TN Rdm Fits Linalg Rsvd RsvdFacts Renorm RenormFacts P05_Mover.
Set Implicit Arguments.
Unset Strict Implicit.
Unset Printing Implicit Defensive.

Lemma modE k j : (k < 4)%N -> (j < 4)%N -> PeanoNat.Nat.modulo (j + k)%coq_nat 4 = ((k + j) %% 4)%N.
Proof. by case: k => [|[|[|[|k]]]]; case: j => [|[|[|[|j]]]]. Qed.
Lemma modE' k j : (k < 4)%N -> (j < 4)%N -> PeanoNat.Nat.modulo (k + j)%coq_nat 4 = ((k + j) %% 4)%N.
Proof. by case: k => [|[|[|[|k]]]]; case: j => [|[|[|[|j]]]]. Qed.
Lemma modE0 k : (k < 7)%N -> PeanoNat.Nat.modulo k 4 = (k %% 4)%N.
Proof. by case: k => [|[|[|[|[|[|[|k]]]]]]]. Qed.
Lemma modE3 k : (k < 7)%N -> PeanoNat.Nat.modulo (3 + k) 4 = ((k + 3) %% 4)%N.
Proof. by case: k => [|[|[|[|[|[|[|k]]]]]]]. Qed.

Lemma dir_add k i j : (((k + i) %% 4 + j) %% 4 = (k + (i + j)) %% 4)%N.
Proof. by rewrite modnDml addnA. Qed.
Lemma dir_wrap k i : ((k + (i + 4)) %% 4 = (k + i) %% 4)%N.
Proof. by rewrite addnA modnDr. Qed.

Lemma dir_cases k j : (k < 4)%N -> (j < 4)%N ->
  [\/ j = k, j = (k + 1) %% 4, j = (k + 2) %% 4 | j = (k + 3) %% 4].
Proof.
by case: k => [|[|[|[|k]]]]; case: j => [|[|[|[|j]]]] //= _ _;
  first [by apply: Or41|by apply: Or42|by apply: Or43|by apply: Or44].
Qed.
Lemma dir_neq k i j : (i < 4)%N -> (j < 4)%N -> i != j -> ((k + i) %% 4 != (k + j) %% 4)%N.
Proof. by move=> Hi Hj; rewrite eqn_modDl !modn_small. Qed.

(** steps in adjacent directions commute *)
Lemma nbr_comm1 nx ny k s : (k < 4)%N ->
  nbr nx ny ((k + 1) %% 4) (nbr nx ny k s) = nbr nx ny k (nbr nx ny ((k + 1) %% 4) s).
Proof. by case: k => [|[|[|[|k]]]]. Qed.

Lemma nbr_inv' nx ny k s : (k < 4)%N -> in_cell nx ny s -> nbr nx ny k (nbr nx ny ((k + 2) %% 4) s) = s.
Proof.
move=> Hk Hs; rewrite -[RHS](@nbr_inv nx ny ((k + 2) %% 4) s _ Hs) ?ltn_mod // dir_add.
by rewrite -{1}(modn_small Hk) -[k in (k %% 4)%N]addn0 -dir_wrap.
Qed.

Lemma line_next nx ny k s : (k < 4)%N -> line_of k (nbr nx ny ((k + 1) %% 4) s) = line_of k s.
Proof. by case: k => [|[|[|[|k]]]]. Qed.
Lemma line_prev nx ny k s : (k < 4)%N -> line_of k (nbr nx ny ((k + 3) %% 4) s) = line_of k s.
Proof. by case: k => [|[|[|[|k]]]]. Qed.
Lemma on_lineK k s : on_line k (line_of k s) (row_of k s) = s.
Proof. by case: s => x y; case: k => [|[|[|k]]]. Qed.
Lemma line_on k c i : line_of k (on_line k c i) = c.
Proof. by case: k => [|[|[|k]]]. Qed.
Lemma row_lt nx ny k s : in_cell nx ny s -> (row_of k s < rows_of nx ny k)%coq_nat.
Proof. by case: s => x y [/= Hx Hy]; case: k => [|[|[|k]]]. Qed.

Section Move.
Variable C : numClosedFieldType.
Notation tensor := (tensor C).
Variable R : Type.
Variable randn : R -> forall n q : nat, 'M[C]_(n, q) * R.
Variable lqr : qr_fun C.
Variable lsvd : thin_svd_fun C.
Variable fsvd : full_svd_fun C.
Variable cfg : pconfig C.
Notation chi0 := (pchi cfg).
Variable pt : ptype.
Variables nx ny D p : nat.
Hypothesis chi_pos : (0 < chi0)%N.

Lemma bond_permute_shape kk (a : tensor) : shape a = [:: D; D; D; D; p] -> shape (bond_permute kk a) = [:: D; D; D; D; p].
Proof.
move=> Ha; rewrite /= Ha; have H i : nth 0%N [:: D; D; D; D; p] ((i + kk) %% 4) = D.
  by have := ltn_pmod (i + kk) (isT : (0 < 4)%N); case: (_ %% 4)%N => [|[|[|[|]]]].
by rewrite !H.
Qed.

Lemma quarter_fit chi (n : Mover.net tensor) s kk : fits nx ny D p chi n -> in_cell nx ny s -> (kk < 7)%N ->
  qfit D p (quarter_of tensor (@bond_permute C) n s kk)
    (chi (kk %% 4)%N (nbr nx ny ((kk + 2) %% 4)%N s)) (chi ((kk + 3) %% 4)%N s).
Proof.
move=> Hf Hs Hk; have [HA H] := Hf s Hs.
have B i : ((kk + i) %% 4 < 4)%N by rewrite ltn_mod.
have B0 : (kk %% 4 < 4)%N by rewrite ltn_mod.
have [HC HE] := H _ B0; have [_ HE3] := H _ (B 3%N).
exists (chi ((kk + 3) %% 4)%N (nbr nx ny ((kk + 1) %% 4)%N s)), (chi (kk %% 4)%N s).
rewrite /quarter_of (modE0 Hk) (modE3 Hk); split.
- by rewrite HC !modnDml.
- by rewrite HE modnDml.
- by rewrite HE3 dir_add (dir_wrap kk 1).
exact: bond_permute_shape.
Qed.


Notation move := (move randn lqr lsvd fsvd cfg pt nx ny).
Notation calc := (calc_at tensor R (@bond_permute C) (calculate_half_system randn lqr lsvd fsvd cfg)
   (calculate_full_system randn lqr lsvd fsvd cfg) pt nx ny).

Lemma calc_shape chi (n : Mover.net tensor) k s r : fits nx ny D p chi n -> in_cell nx ny s -> (k < 4)%N ->
  okz (calc n k s r) (proj_shape cfg (chi ((k + 3) %% 4)%N s) D).
Proof.
move=> Hf Hs Hk; rewrite calc_at_sites //; last exact/ltP.
rewrite !modE' //; set s2 := nbr _ _ ((k + 2) %% 4) s; set s4 := nbr _ _ ((k + 3) %% 4) s.
set s3 := nbr _ _ ((k + 2) %% 4) s4.
have C2 : in_cell nx ny s2 by apply: nbr_cell.
have C4 : in_cell nx ny s4 by apply: nbr_cell.
have C3 : in_cell nx ny s3 by apply: nbr_cell.
have Hk3 : (k + 3 < 7)%N by rewrite -[7]/(4 + 3)%N ltn_add2r.
have Hk2 : (k + 2 < 7)%N by apply: leq_trans Hk3; rewrite ltnS leq_add2l.
have Hk1 : (k + 1 < 7)%N by apply: leq_trans Hk3; rewrite ltnS leq_add2l.
have Hk0 : (k < 7)%N by apply: leq_trans Hk _.
have F1 := quarter_fit Hf Hs Hk0.
have F4 := quarter_fit Hf C4 Hk3.
have E4 : nbr nx ny ((k + 3 + 2) %% 4) s4 = s.
  by rewrite /s4 -modnDml nbr_inv // ltn_mod.
rewrite E4 in F4.
case: (pt); rewrite /calculate; last exact: (half_shape _ _ _ _ _ chi_pos F1 F4).
have F2 := quarter_fit Hf C2 Hk1; have F3 := quarter_fit Hf C3 Hk2.
apply: (full_shape _ _ _ _ _ chi_pos F1 _ F3).
- move: F2; rewrite -[(k + 1 + 3)%N]addnA modnDr => F2; exact: F2.
- move: F4; rewrite -(addnA k 3 3) (dir_wrap k 2) -(addnA k 2 2) (dir_wrap k 0) addn0.
  by rewrite (modn_small Hk) /s3 nbr_inv'.
Qed.


(** the legs after move k on line c: the leg of direction k+3 of every target
    site becomes the kept number of the row it came from *)
Definition new_chi (k c : nat) (z : site -> nat) (chi : nat -> site -> nat) (d : nat) (t : site) : nat :=
  if (d == (k + 3) %% 4)%N && (line_of k (nbr nx ny k t) == c) then z (nbr nx ny k t) else chi d t.

Section OneMove.
Variables (chi : nat -> site -> nat) (n : Mover.net tensor) (k c : nat).
Hypotheses (Hf : fits nx ny D p chi n) (Hk : (k < 4)%N) (Hc : (c < lines_of nx ny k)%coq_nat).

Lemma line_cell i : (i < rows_of nx ny k)%coq_nat -> in_cell nx ny (on_line k c i).
Proof. by move=> Hi; apply: on_line_in_cell => //; apply/ltP. Qed.

Variables p1 p2 : site -> tensor.
Hypothesis Hp : forall i, (i < rows_of nx ny k)%coq_nat -> let s := on_line k c i in
  exists ri rj, calc n k s ri = Ok (p1 s, p2 s, rj).
Let z (s : site) : nat := nth 0%N (shape (p1 s)) 3.

Lemma proj_dims s : in_cell nx ny s -> line_of k s = c ->
  [/\ (z s <= chi0)%N, shape (p1 s) = [:: chi ((k + 3) %% 4)%N s; D; D; z s] &
      shape (p2 s) = [:: chi ((k + 3) %% 4)%N s; D; D; z s]].
Proof.
move=> Hs Hl; have [] := Hp (row_lt k Hs); rewrite -Hl on_lineK => ri [rj E].
have := @calc_shape chi n k s ri Hf Hs Hk; rewrite E => -[w Hw [/= S1 S2]].
by rewrite /z S1.
Qed.

Lemma leg_facts s : in_cell nx ny s -> line_of k s = c ->
  let t := nbr nx ny ((k + 2) %% 4) s in let u := nbr nx ny ((k + 1) %% 4) s in
  [/\ okz (renormalize_cj1 (n s (SC ((k + 3) %% 4))) (n s (SE ((k + 2) %% 4))) (p1 s))
       (fun x => shape x = [:: chi ((k + 2) %% 4)%N s; z s]),
      okz (renormalize_cj2 (n s (SC k)) (n s (SE k)) (p2 u)) (fun x => shape x = [:: z u; chi k t]) &
      okz (renormalize_ej (n s (SE ((k + 3) %% 4))) (bond_permute k (n s SA)) (p2 s) (p1 u))
       (fun x => shape x = [:: z s; z u; D; D])].
Proof.
move=> Hs Hl t u.
have Hu : in_cell nx ny u by apply: nbr_cell.
have Lu : line_of k u = c by rewrite /u line_next.
have [_ P1s P2s] := proj_dims Hs Hl; have [_ P1u P2u] := proj_dims Hu Lu.
have B i : ((k + i) %% 4 < 4)%N by rewrite ltn_mod.
have [HA H] := Hf Hs; have [C0 E0] := H k Hk; have [C3 E3] := H _ (B 3%N); have [_ E2] := H _ (B 2%N).
rewrite !dir_add in C3 E3 E2.
split.
- apply: cj1_shape E2 _ P1s; rewrite C3.
  by rewrite (dir_wrap k 2) (dir_wrap k 0) addn0 (modn_small Hk).
- by apply: cj2_shape _ E0 P2u; rewrite C0.
apply: ej_shape E3 (bond_permute_shape _ HA) P2s _.
by rewrite P1u (dir_wrap k 1).
Qed.
End OneMove.

Lemma move_fits chi (n : Mover.net tensor) r k c :
  fits nx ny D p chi n -> (k < 4)%N -> (c < lines_of nx ny k)%coq_nat ->
  okz (move k n r c) (fun nr => exists2 z : site -> nat,
     (forall s, in_cell nx ny s -> line_of k s = c -> (z s <= chi0)%N) &
     fits nx ny D p (new_chi k c z chi) nr.1).
Proof.
move=> Hf Hk Hc; have Hk' : (k < 4)%coq_nat by apply/ltP.
case E: (move k n r c) => [[n' r']|e]; rewrite /okz; last first.
  case: (move_err _ _ _ _ _ _ _ _ _ _ _ k n r c e Hk' Hc E) => [[i [ri [Hi Ei]]]|[p1 [p2 [Hp [i [Hi]]]]]].
    by have := @calc_shape chi n k (on_line k c i) ri Hf (line_cell Hk Hc Hi) Hk; rewrite Ei.
  have Hs := line_cell Hk Hc Hi; rewrite !(modE Hk) // !(modE' Hk) //.
  have [F1 F2 F3] := leg_facts Hf Hk Hp Hs (line_on _ _ _).
  by case=> [E1|[E2|E3]]; [move: F1; rewrite E1|move: F2; rewrite E2|move: F3; rewrite E3].
have [p1 [p2 [Hp [Hw [Ho1 Ho2]]]]] := move_spec _ _ _ _ _ _ _ _ _ _ _ k n r c n' r' Hk' Hc E.
exists (fun s => nth 0%N (shape (p1 s)) 3).
  by move=> s Hs Hl; have [] := proj_dims Hf Hk Hp Hs Hl.
rewrite !(modE Hk) // in Ho2; rewrite !(modE' Hk) // in Ho1.
move=> t Ht; set z := fun s => _; have [HA H] := Hf t Ht.
split; first by rewrite /= Ho2.
have B i : ((k + i) %% 4 < 4)%N by rewrite ltn_mod.
have K0 : (k = (k + 0) %% 4)%N by rewrite addn0 modn_small.
have Hw' s : in_cell nx ny s -> line_of k s = c ->
  let t := nbr nx ny ((k + 2) %% 4) s in let u := nbr nx ny ((k + 1) %% 4) s in
  [/\ shape (n' t (SC ((k + 3) %% 4))) = [:: chi ((k + 2) %% 4)%N s; z s],
      shape (n' t (SC k)) = [:: z u; chi k t] &
      shape (n' t (SE ((k + 3) %% 4))) = [:: z s; z u; D; D]].
  move=> Hs Hl t0 u; have E0 : on_line k c (row_of k s) = s by rewrite -Hl on_lineK.
  have := Hw _ (row_lt k Hs); cbv zeta; rewrite E0.
  rewrite !(modE Hk) // !(modE' Hk) // -/t0 -/u => -[E1 [E2 E3]].
  have [] := leg_facts Hf Hk Hp Hs Hl; by rewrite E1 E2 E3.
have Hc1 : nbr nx ny k (nbr nx ny ((k + 1) %% 4) t) = nbr nx ny ((k + 1) %% 4) (nbr nx ny k t) by rewrite nbr_comm1.
have No d t' : d != (k + 3) %% 4 -> new_chi k c z chi d t' = chi d t' by rewrite /new_chi => /negbTE ->.
have D3 i : (i < 3)%N -> (k + i) %% 4 != (k + 3) %% 4 by move=> Hi; apply: dir_neq => //; case: i Hi => [|[|[|]]].
have D30 : k != (k + 3) %% 4 by have := D3 0%N isT; rewrite addn0 modn_small.
case: (eqVneq (line_of k (nbr nx ny k t)) c) => Hl.
  set s := nbr nx ny k t in Hl Hc1; have Hs : in_cell nx ny s by apply: nbr_cell.
  have Et : nbr nx ny ((k + 2) %% 4) s = t by rewrite nbr_inv.
  have [] := Hw' s Hs Hl; rewrite Et => W1 W2 W3.
  have Nk3 : new_chi k c z chi ((k + 3) %% 4) t = z s by rewrite /new_chi eqxx -/s Hl eqxx.
  have Nu : new_chi k c z chi ((k + 3) %% 4) (nbr nx ny ((k + 1) %% 4) t) = z (nbr nx ny ((k + 1) %% 4) s).
    by rewrite /new_chi eqxx Hc1 line_next // Hl eqxx.
  move=> j Hj; case: (dir_cases Hk Hj) => ->; rewrite [(n', r').1]/=.
  - rewrite Nu !No //.
    split=> //; rewrite Ho2 //; first by case: (H k Hk).
    by case=> X; rewrite -X eqxx in D30.
  - have [HC HE] := H _ (B 1%N); have N1 := D3 1%N isT.
    have N10 : (k + 1) %% 4 != k by rewrite [X in _ != X]K0 dir_neq.
    rewrite !No //; last by rewrite dir_add (dir_wrap k 0) D3.
    by split; rewrite Ho2 // => -[] X; rewrite X eqxx in N1 N10.
  - have [HC HE] := H _ (B 2%N); have N1 := D3 2%N isT.
    have N10 : (k + 2) %% 4 != k by rewrite [X in _ != X]K0 dir_neq.
    rewrite !No //; last by rewrite dir_add (dir_wrap k 1) D3.
    by split; rewrite Ho2 // => -[] X; rewrite X eqxx in N1 N10.
  rewrite Nk3 !dir_add (dir_wrap k 2) (dir_wrap k 0) (dir_wrap k 1) Nu addn0 (modn_small Hk) -/s No ?D3 //.
have U sl : n' t sl = n t sl.
  apply: Ho1 => i Hi X; move: Hl; rewrite -X nbr_inv' ?line_on ?eqxx //; exact: (line_cell Hk Hc).
have Nt d : new_chi k c z chi d t = chi d t by rewrite /new_chi (negbTE Hl) andbF.
have Nu d : new_chi k c z chi d (nbr nx ny ((k + 1) %% 4) t) = chi d (nbr nx ny ((k + 1) %% 4) t).
  by rewrite /new_chi Hc1 line_next // (negbTE Hl) andbF.
move=> j Hj; case: (dir_cases Hk Hj) => ->; rewrite [(n', r').1]/= !U !Nt.
- have [HC HE] := H k Hk; rewrite Nu No //; by split.
- have [HC HE] := H _ (B 1%N); rewrite !No ?(D3 1%N) ?(D3 2%N) //; last by rewrite dir_add (dir_wrap k 0) D3.
- have [HC HE] := H _ (B 2%N); rewrite !No ?(D3 1%N) ?(D3 2%N) //; last by rewrite dir_add (dir_wrap k 1) D3.
have [HC HE] := H _ (B 3%N); rewrite !dir_add in HC HE *.
rewrite (dir_wrap k 2) (dir_wrap k 1) Nu No ?D3 //.
by rewrite HC HE (dir_wrap k 2) (dir_wrap k 1).
Qed.


Notation moves := (moves randn lqr lsvd fsvd cfg pt nx ny).
Notation run_ctmrg := (run_ctmrg randn lqr lsvd fsvd cfg pt nx ny).

(** sequences of moves: the network fits again; no leg grows beyond chi, and the
    legs in front of a moved line become at most chi *)
Lemma moves_fits ms : (forall m, List.In m ms -> valid_move nx ny m) -> forall chi (n : Mover.net tensor) r,
  fits nx ny D p chi n ->
  okz (moves ms (n, r)) (fun nr => exists2 chi', fits nx ny D p chi' nr.1 &
    (forall d t, in_cell nx ny t -> (chi' d t <= maxn (chi d t) chi0)%N) /\
    (forall k t, in_cell nx ny t -> (k < 4)%N -> List.In (k, line_of k (nbr nx ny k t)) ms ->
       (chi' ((k + 3) %% 4)%N t <= chi0)%N)).
Proof.
elim: ms => [|[k c] ms IH] Hv chi n r Hf; first by exists chi => //; split=> // d t _; rewrite leq_maxl.
have [/ltP Hk Hc] := Hv (k, c) (or_introl erefl).
have {}IH := IH (fun m Hm => Hv m (or_intror Hm)).
rewrite /moves /run_moves /=.
apply: okz_bind (move_fits r Hf Hk Hc) _ => -[n1 r1] [z Hz Hf1].
have N t : in_cell nx ny t -> line_of k (nbr nx ny k t) = c -> (new_chi k c z chi ((k + 3) %% 4) t <= chi0)%N.
  by move=> Ht Hl; rewrite /new_chi eqxx Hl eqxx /=; apply: Hz => //; apply: nbr_cell.
apply: okz_imp (IH _ _ r1 Hf1) _ => -[n' r'] [chi' Hf' [H1 H2]]; exists chi' => //; split.
  move=> d t Ht; apply: leq_trans (H1 d t Ht) _; rewrite geq_max leq_maxr andbT /new_chi.
  case: ifP => [/andP[/eqP Ed /eqP El]|_]; last by rewrite leq_maxl.
  by rewrite leq_max (Hz _ _ El) ?orbT //; apply: nbr_cell.
move=> k' t Ht Hk' /= [[E E']|H]; last exact: H2.
apply: leq_trans (H1 _ t Ht) _; rewrite geq_max leqnn andbT -E; apply: N => //; by rewrite E' E.
Qed.

(** full steps *)
Lemma ctmrg_fits steps chi (n : Mover.net tensor) r : fits nx ny D p chi n ->
  okz (run_ctmrg steps (n, r)) (fun nr => exists2 chi', fits nx ny D p chi' nr.1 &
    (forall d t, in_cell nx ny t -> (chi' d t <= maxn (chi d t) chi0)%N) /\
    ((0 < steps)%N -> forall d t, (d < 4)%N -> in_cell nx ny t -> (chi' d t <= chi0)%N)).
Proof.
rewrite /Renorm.run_ctmrg /ctmrg.
have -> : (0 < steps)%N = (0 < size (List.seq 0 steps))%N by rewrite -[size _]/(List.length _) List.seq_length.
move: (List.seq 0 steps) => l; elim: l chi n r => [|x l IH] chi n r Hf; first by exists chi => //; split=> // d t _; rewrite leq_maxl.
cbn [for_each]; rewrite ctmrg_step_eq.
have := moves_fits (@sweep_valid nx ny) r Hf.
move=> H; apply: okz_bind H _ => -[n1 r1] [chi1 /= Hf1 [H1 H2]].
have S1 d t : (d < 4)%N -> in_cell nx ny t -> (chi1 d t <= chi0)%N.
  move=> Hd Ht; have := H2 ((d + 1) %% 4)%N t Ht; rewrite ltn_mod dir_add (dir_wrap d 0) addn0 (modn_small Hd).
  apply=> //; apply: sweep_complete; first by apply/ltP; rewrite ltn_mod.
  have [] : in_cell nx ny (nbr nx ny ((d + 1) %% 4) t) by apply: nbr_cell.
  by case: d Hd H2 => [|[|[|[|d]]]] //= _.
case: l IH => [|y l] IH; first by exists chi1.
apply: okz_imp (IH _ _ r1 Hf1) _ => -[n2 r2] [chi2 Hf2 [Hg /(_ isT) H]]; exists chi2 => //; split=> // d t Ht.
by apply: leq_trans (Hg d t Ht) _; rewrite geq_max leq_maxr andbT; apply: H1.
Qed.

End Move.
