(** Property C64: a directional move absorbs a line of sites into the boundary. *)
From Coq Require Import String Ascii.
From mathcomp Require Import all_ssreflect all_algebra.
From Verif Require Import Base Lattice LatticeFacts Mover Tensor TN Rdm RdmFacts Fits Linalg Mat Rsvd RsvdFacts Renorm RenormFacts P05_Mover MoveShape ProjFacts InitFacts Spectral ProductState EinsumLin Als AlsFacts P13_Renorm P14_Projector.
Set Implicit Arguments.
Unset Strict Implicit.
Unset Printing Implicit Defensive.
Import GRing.Theory Num.Theory.
Local Open Scope ring_scope.
Local Open Scope string_scope.

(** ** Specification, in index notation.

    The boundary next to a site, seen in the direction of the move: corner,
    edge, corner; open legs are the two outer links and the ket and bra leg. *)
Definition boundary : string := "xt,yxrR,sy->trRs".
(** the boundary of site s with the site attached: corner and edge on one side,
    edge, site and conjugate site, corner and edge on the other side *)
Definition attached : string := "ab,btuU,ealL,lurdp,LURDp,he,shdD->trRs".
(** the same with the projector pairs inserted on the two cuts *)
Definition attached_cut : string := "ab,btuU,auUx,cvVx,eclL,lvrdp,LVRDp,edDy,fgGy,hf,shgG->trRs".

(** execute an einsum of which the result is already named *)
Ltac tn_take := tn_einsum; let Y := fresh "Y" in move=> [Y]; subst.

Section Kernels.
Variable C : numClosedFieldType.
Notation tensor := (tensor C).
Notation pmat w D z P := (mat (w * D * D)%N z [:: w; D; D] [:: z] P).

Lemma tdivE (t t' : tensor) : tdiv t (norm t) = Ok t' -> exists2 c, 0 < c & t' = tscale c t.
Proof.
rewrite /tdiv; case: eqP => // /eqP N [<-]; exists (norm t)^-1 => //.
by rewrite invr_gt0 lt0r N norm_ge0.
Qed.

Section Row.
Variables (c0 e0 e3 a c3 e2 p1 p2 q1 q2 : tensor) (x0 x1 t y0 b0 s z w D p : nat).
Hypotheses (H1 : shape c0 = [:: x0; x1]) (H2 : shape e0 = [:: x1; t; D; D])
  (H3 : shape e3 = [:: y0; x0; D; D]) (H4 : shape a = [:: D; D; D; D; p])
  (H5 : shape c3 = [:: b0; y0]) (H6 : shape e2 = [:: s; b0; D; D])
  (H7 : shape q2 = [:: x0; D; D; z]) (H8 : shape q1 = [:: x0; D; D; z])
  (H9 : shape p2 = [:: y0; D; D; w]) (H10 : shape p1 = [:: y0; D; D; w]).

Lemma row_cut c0' e3' c3' : renormalize_cj2 c0 e0 q2 = Ok c0' -> renormalize_ej e3 a p2 q1 = Ok e3' ->
  renormalize_cj1 c3 e2 p1 = Ok c3' ->
  exists L M c, [/\ einsum boundary [:: c0'; e3'; c3'] = Ok L,
    einsum attached_cut [:: c0; e0; q2; q1; e3; a; conj a; p2; p1; c3; e2] = Ok M, 0 < c & teq L (tscale c M)].
Proof using All.
tn_setup [:: x0; x1; t; y0; b0; s; z; w; D; p] [:: c0; e0; e3; a; c3; e2; p1; p2; q1; q2].
rewrite /renormalize_cj2; do 2 tn_einsum; move=> /tdivE[u1 P1 E1].
match goal with R : rep _ _ _ ?x _ |- _ => match type of E1 with _ = tscale _ x => have := rep_scale u1 R; rewrite -E1 => {}R end end.
rewrite /renormalize_ej; do 4 tn_einsum; move=> /tdivE[u2 P2 E2].
match goal with R : rep _ _ _ ?x _ |- _ => match type of E2 with _ = tscale _ x => have := rep_scale u2 R; rewrite -E2 => {}R end end.
rewrite /renormalize_cj1; do 2 tn_einsum; move=> /tdivE[u3 P3 E3].
match goal with R : rep _ _ _ ?x _ |- _ => match type of E3 with _ = tscale _ x => have := rep_scale u3 R; rewrite -E3 => {}R end end.
rewrite /boundary /attached_cut; do 2 tn_einsum.
eexists _, _, (u1 * (u2 * u3)); split; [reflexivity|reflexivity|by rewrite !mulr_gt0|].
match goal with RL : rep _ _ _ ?L _, RM : rep _ _ 1 ?M _ |- teq ?L (tscale ?c ?M) =>
  have := rep_scale c RM; rewrite mulr1 => RM'; apply: (rep_teq RL RM'); vm_cast_no_check (erefl true) end.
Qed.
End Row.

(** inserting a projector pair that resolves the identity *)
Lemma cut_id (X q1 q2 : tensor) (x0 t D z : nat) c : shape X = [:: x0; t; D; D] ->
  shape q2 = [:: x0; D; D; z] -> shape q1 = [:: x0; D; D; z] -> pmat x0 D z q2 *m (pmat x0 D z q1)^T = c%:M ->
  exists2 Y, einsum "atuU,auUx,cvVx->ctvV" [:: X; q2; q1] = Ok Y & teq Y (tscale c X).
Proof.
move=> SX S2 S1 E; rewrite /einsum /= SX S2 S1 /= /dims_ok /= !eqxx /=; eexists; first by [].
split; rewrite /= ?SX // => idx /in_range4[i [j [k [o [-> Hi Hj Hk Ho]]]]] /=.
have Z a u U : (a < x0)%N -> (u < D)%N -> (U < D)%N ->
  sumn z (fun x => at_ q2 [:: a; u; U; x] * at_ q1 [:: i; k; o; x]) = c *+ (U == o) *+ (u == k) *+ (a == i).
  move=> Ha Hu HU.
  have R1 : in_range [:: x0; D; D] [:: a; u; U] by rewrite /= Ha Hu HU.
  have R2 : in_range [:: x0; D; D] [:: i; k; o] by rewrite /= Hi Hk Ho.
  have L1 := ravel_lt R1; have L2 := ravel_lt R2; rewrite -numel3 in L1 L2.
  have := congr1 (fun M : 'M_(_, _) => M (Ordinal L1) (Ordinal L2)) E; rewrite [RHS]mxE [LHS]mxE => EE.
  transitivity (\sum_(x < z) pmat x0 D z q2 (Ordinal L1) x * (pmat x0 D z q1)^T x (Ordinal L2)).
    apply: eq_bigr => x _; rewrite !mxE.
    by rewrite !ravelK // !unravel1.
  rewrite EE -val_eqE /=; have -> : (ravel [:: x0; D; D] [:: a; u; U] == ravel [:: x0; D; D] [:: i; k; o]) = [&& a == i, u == k & U == o].
    apply/eqP/and3P => [/(congr1 (unravel [:: x0; D; D]))|[/eqP-> /eqP-> /eqP->] //].
    by rewrite !ravelK // => -[-> -> ->].
  by case: (a == i); case: (u == k); case: (U == o).
transitivity (sumn x0 (fun a => sumn D (fun u => sumn D (fun U => c * at_ X [:: a; j; u; U] *+ (U == o)) *+ (u == k)) *+ (a == i))).
  apply: eq_bigr => a _; rewrite -sumrMnl; apply: eq_bigr => u _; rewrite -!sumrMnl; apply: eq_bigr => U _.
  by rewrite /factor /= -sumn_mull Z // mulrC !mulrnAl.
rewrite (sumn_delta (fun a => sumn D (fun u => sumn D (fun U => c * at_ X [:: a; j; u; U] *+ (U == o)) *+ (u == k)))) //.
rewrite (sumn_delta (fun u => sumn D (fun U => c * at_ X [:: i; j; u; U] *+ (U == o)))) //.
by rewrite (sumn_delta (fun U => c * at_ X [:: i; j; k; U])).
Qed.

Lemma row_lossless (c0 e0 e3 a c3 e2 p1 p2 q1 q2 : tensor) (x0 x1 t y0 b0 s z w D p : nat) c1 c2 c0' e3' c3' :
  shape c0 = [:: x0; x1] -> shape e0 = [:: x1; t; D; D] ->
  shape e3 = [:: y0; x0; D; D] -> shape a = [:: D; D; D; D; p] ->
  shape c3 = [:: b0; y0] -> shape e2 = [:: s; b0; D; D] ->
  shape q2 = [:: x0; D; D; z] -> shape q1 = [:: x0; D; D; z] ->
  shape p2 = [:: y0; D; D; w] -> shape p1 = [:: y0; D; D; w] ->
  renormalize_cj2 c0 e0 q2 = Ok c0' -> renormalize_ej e3 a p2 q1 = Ok e3' -> renormalize_cj1 c3 e2 p1 = Ok c3' ->
  0 < c1 -> 0 < c2 -> pmat x0 D z q2 *m (pmat x0 D z q1)^T = c1%:M -> pmat y0 D w p2 *m (pmat y0 D w p1)^T = c2%:M ->
  exists L M c, [/\ einsum boundary [:: c0'; e3'; c3'] = Ok L,
    einsum attached [:: c0; e0; e3; a; conj a; c3; e2] = Ok M, 0 < c & teq L (tscale c M)].
Proof.
move=> H1 H2 H3 H4 H5 H6 H7 H8 H9 H10 K1 K2 K3 P1 P2 E1 E2.
have [L [N [c [EL EN Pc T]]]] := row_cut H1 H2 H3 H4 H5 H6 H7 H8 H9 H10 K1 K2 K3.
have {}E2 : pmat y0 D w p1 *m (pmat y0 D w p2)^T = c2%:M by rewrite -(trmxK (pmat _ _ _ p1)) -trmx_mul E2 tr_scalar_mx.
have X1 : exists t1, einsum "ab,btuU->atuU" [:: c0; e0] = Ok t1 /\ shape t1 = [:: x0; t; D; D].
  by rewrite /einsum /= H1 H2 /= /dims_ok /= !eqxx /=; eexists.
have X3 : exists t3, einsum "hf,shgG->fsgG" [:: c3; e2] = Ok t3 /\ shape t3 = [:: y0; s; D; D].
  by rewrite /einsum /= H5 H6 /= /dims_ok /= !eqxx /=; eexists.
case: X1 => t1 [F1 S1]; case: X3 => t3 [F3 S3].
have [t2 F2 T2] := cut_id S1 H7 H8 E1; have [t4 F4 T4] := cut_id S3 H10 H9 E2.
have X6 : exists M6, einsum "ctvV,eclL,lvrdp,LVRDp,esdD->trRs" [:: t1; e3; a; conj a; t3] = Ok M6.
  tn_setup [:: x0; t; y0; s; D; p] [:: t1; e3; a; t3]; tn_einsum; by eexists.
case: X6 => M6 F6.
have [M5 [F5 [S5 V5]]] : exists M5, einsum "ctvV,eclL,lvrdp,LVRDp,esdD->trRs" [:: t2; e3; a; conj a; t4] = Ok M5 /\ scaled (c1 * c2) M5 M6.
  have [|M5 [F5 S5]] := @einsum_scaled C _ [:: c1; 1; 1; 1; c2] [:: t2; e3; a; conj a; t4] _ _ _ F6.
    have sc c' (u v : tensor) : teq u (tscale c' v) -> scaled c' u v.
      by move=> [A B]; split=> // i Hi; rewrite B //= A.
    split; first exact: sc T2.
    by do 3!(split; first exact: scaled_refl); split; first exact: sc T4.
  by exists M5; split=> //; move: S5; rewrite !big_cons big_nil !mul1r !mulr1.
move: F1 F2 F3 F4 F5 F6 EN.
tn_setup [:: x0; x1; t; y0; b0; s; z; w; D; p] [:: c0; e0; e3; a; c3; e2; p1; p2; q1; q2].
do 7 tn_take.
rewrite /attached; tn_einsum.
eexists L, _, (c * (c1 * c2)); split; [by []|by []|by rewrite !mulr_gt0|].
match goal with R5 : rep _ _ _ M5 _, RN : rep _ _ _ N _ |- _ =>
  have [SN VN] : teq N M5 by apply: (rep_teq RN R5); vm_cast_no_check (erefl true) end.
match goal with R6 : rep _ _ _ M6 _, RM : rep _ _ _ ?M _ |- teq _ (tscale _ ?M) =>
  have [SM VM] : teq M6 M by apply: (rep_teq R6 RM); vm_cast_no_check (erefl true) end.
case: T => ST VT; split; first by rewrite ST /= SN S5 SM.
move=> i Hi; rewrite VT //= VN -?ST // V5 ?VM -?S5 -?SN -?ST // ?mulrA //.
Qed.
End Kernels.

Section Move.
Variable C : numClosedFieldType.
Notation tensor := (tensor C).
Variable R : Type.
Variable randn : R -> forall n q : nat, 'M[C]_(n, q) * R.
Variable lqr : qr_fun C.
Variable lsvd : thin_svd_fun C.
Variable fsvd : full_svd_fun C.
Variable cfg : pconfig C.
Variable pt : ptype.
Variables nx ny D p : nat.
Hypothesis chi_pos : (0 < pchi cfg)%N.
Notation move := (move randn lqr lsvd fsvd cfg pt nx ny).
Notation half := (calculate_half_system randn lqr lsvd fsvd cfg).
Notation full := (calculate_full_system randn lqr lsvd fsvd cfg).
Notation calc := (calc_at tensor R (@bond_permute C) half full pt nx ny).
Notation pmat w D z P := (mat (w * D * D)%N z [:: w; D; D] [:: z] P).

(** the boundary of site t in direction k *)
Definition side (n : Mover.net tensor) (k : nat) (t : site) : res tensor :=
  einsum boundary [:: n t (SC k); n t (SE ((k + 3) %% 4)); n t (SC ((k + 3) %% 4))].
(** the same boundary of site s with the site itself attached *)
Definition side_and_site (n : Mover.net tensor) (k : nat) (s : site) : res tensor :=
  let A := bond_permute k (n s SA) in
  einsum attached [:: n s (SC k); n s (SE k); n s (SE ((k + 3) %% 4)); A; conj A; n s (SC ((k + 3) %% 4)); n s (SE ((k + 2) %% 4))].
(** and with a pair (P2, P1) inserted on the cut above and below the site *)
Definition side_and_site_cut (n : Mover.net tensor) (k : nat) (s : site) (P1 P2 : site -> tensor) : res tensor :=
  let A := bond_permute k (n s SA) in let u := nbr nx ny ((k + 1) %% 4) s in
  einsum attached_cut [:: n s (SC k); n s (SE k); P2 u; P1 u; n s (SE ((k + 3) %% 4)); A; conj A; P2 s; P1 s;
    n s (SC ((k + 3) %% 4)); n s (SE ((k + 2) %% 4))].

Variables (chi : nat -> site -> nat) (n n' : Mover.net tensor) (k c : nat) (r r' : R).
Hypotheses (Hf : fits nx ny D p chi n) (Hk : (k < 4)%N) (Hc : (c < lines_of nx ny k)%coq_nat).
Hypothesis Hm : move k n r c = Ok (n', r').

Lemma move_rows : exists P1 P2 : site -> tensor,
  (forall i, (i < rows_of nx ny k)%coq_nat -> let s := on_line k c i in exists ri rj, calc n k s ri = Ok (P1 s, P2 s, rj)) /\
  forall s, in_cell nx ny s -> line_of k s = c ->
   let t := nbr nx ny ((k + 2) %% 4) s in let u := nbr nx ny ((k + 1) %% 4) s in
   [/\ renormalize_cj1 (n s (SC ((k + 3) %% 4))) (n s (SE ((k + 2) %% 4))) (P1 s) = Ok (n' t (SC ((k + 3) %% 4))),
       renormalize_cj2 (n s (SC k)) (n s (SE k)) (P2 u) = Ok (n' t (SC k)) &
       renormalize_ej (n s (SE ((k + 3) %% 4))) (bond_permute k (n s SA)) (P2 s) (P1 u) = Ok (n' t (SE ((k + 3) %% 4)))].
Proof using Hk Hc Hm.
have Hk' : (k < 4)%coq_nat by apply/ltP.
have [p1 [p2 [Hp [Hw _]]]] := move_spec _ _ _ _ _ _ _ _ _ _ _ k n r c n' r' Hk' Hc Hm.
exists p1, p2; split=> // s Hs Hl t u.
have E0 : on_line k c (row_of k s) = s by rewrite -Hl on_lineK.
have := Hw _ (row_lt k Hs); cbv zeta; rewrite E0.
by rewrite !(modE Hk) // !(modE' Hk) // -/t -/u => -[E1 [E2 E3]].
Qed.

Lemma row_shapes s : in_cell nx ny s -> 
  let t := nbr nx ny ((k + 2) %% 4) s in let u := nbr nx ny ((k + 1) %% 4) s in
  let w s := chi ((k + 3) %% 4)%N s in
  [/\ shape (n s (SC k)) = [:: w u; chi k s], shape (n s (SE k)) = [:: chi k s; chi k t; D; D],
      shape (n s (SE ((k + 3) %% 4))) = [:: w s; w u; D; D], shape (bond_permute k (n s SA)) = [:: D; D; D; D; p] &
      exists b, shape (n s (SC ((k + 3) %% 4))) = [:: b; w s] /\ shape (n s (SE ((k + 2) %% 4))) = [:: chi ((k + 2) %% 4)%N s; b; D; D]].
Proof using Hf Hk.
move=> Hs t u w; have B i : ((k + i) %% 4 < 4)%N by rewrite ltn_mod.
have [HA H] := Hf Hs; have [C0 E0] := H k Hk; have [C3 E3] := H _ (B 3%N); have [_ E2] := H _ (B 2%N).
rewrite !dir_add in C3 E3 E2; split=> //; first by rewrite E3 (dir_wrap k 1%N).
  exact: bond_permute_shape.
by eexists; split; [exact: C3|rewrite E2 (dir_wrap k 2%N) (dir_wrap k 0%N) addn0 (modn_small Hk)].
Qed.

(** Every successful move: there are projector pairs, one per row and computed
    from the network before the move, such that the new boundary of every target
    site is the old boundary with the site attached and the pairs inserted, up to
    a positive factor (the normalisation). *)
Theorem C64_absorbs : exists P1 P2 : site -> tensor,
  forall s, in_cell nx ny s -> line_of k s = c ->
    (exists ri rj, calc n k s ri = Ok (P1 s, P2 s, rj)) /\
    exists L M a, [/\ side n' k (nbr nx ny ((k + 2) %% 4) s) = Ok L,
      side_and_site_cut n k s P1 P2 = Ok M, 0 < a & teq L (tscale a M)].
Proof using All.
have [P1 [P2 [HP Hr]]] := move_rows; exists P1, P2 => s Hs Hl; split.
  by have := HP _ (row_lt k Hs); cbv zeta; rewrite -Hl on_lineK.
have Hu : in_cell nx ny (nbr nx ny ((k + 1) %% 4) s) by apply: nbr_cell.
have Lu : line_of k (nbr nx ny ((k + 1) %% 4) s) = c by rewrite line_next.
have [_ A1 A2] := proj_dims chi_pos Hf Hk HP Hs Hl; have [_ B1 B2] := proj_dims chi_pos Hf Hk HP Hu Lu.
have [K1 K2 K3] := Hr s Hs Hl; have [S1 S2 S3 S4 [b [S5 S6]]] := row_shapes Hs.
exact: (row_cut S1 S2 S3 S4 S5 S6 B2 B1 A2 A1 K2 K3 K1).
Qed.

(** the projector pairs of the move are biorthogonal *)
Definition good_svd : Prop :=
  (svd_type cfg = "full-rank" /\ full_svd_spec fsvd) \/
  [/\ pt = Half, svd_type cfg <> "full-rank", qr_spec lqr & thin_svd_spec lsvd].

Lemma calc_biorth s ri pr : good_svd -> in_cell nx ny s -> calc n k s ri = Ok pr ->
  biorthogonal (chi ((k + 3) %% 4)%N s) D pr.
Proof using Hf Hk chi_pos.
move=> G Hs; rewrite calc_at_sites //; last exact/ltP.
rewrite !modE' //; set s2 := nbr _ _ ((k + 2) %% 4) s; set s4 := nbr _ _ ((k + 3) %% 4) s.
set s3 := nbr _ _ ((k + 2) %% 4) s4.
have C2 : in_cell nx ny s2 by apply: nbr_cell.
have C4 : in_cell nx ny s4 by apply: nbr_cell.
have C3 : in_cell nx ny s3 by apply: nbr_cell.
have Hk3 : (k + 3 < 7)%N by rewrite -[7%N]/(4 + 3)%N ltn_add2r.
have Hk2 : (k + 2 < 7)%N by apply: leq_trans Hk3; rewrite ltnS leq_add2l.
have Hk1 : (k + 1 < 7)%N by apply: leq_trans Hk3; rewrite ltnS leq_add2l.
have Hk0 : (k < 7)%N by apply: leq_trans Hk _.
have F1 := quarter_fit Hf Hs Hk0.
have F4 := quarter_fit Hf C4 Hk3.
have E4 : nbr nx ny ((k + 3 + 2) %% 4) s4 = s by rewrite /s4 -modnDml nbr_inv // ltn_mod.
rewrite E4 in F4.
have [q1 [Q1 _ _]] := quarterE False F1; have [q4 [Q4 _ _]] := quarterE False F4.
rewrite /calculate; move: G; rewrite /good_svd; case: (pt) => G E.
  have F2 := quarter_fit Hf C2 Hk1; have F3 := quarter_fit Hf C3 Hk2.
  have [q2 [Q2 _ _]] := quarterE False F2; have [q3 [Q3 _ _]] := quarterE False F3.
  case: G => [[G1 G2]|[]] //.
  rewrite -(addnA k 1%N 3%N) modnDr in F2.
  rewrite -(addnA k 2%N 2%N) (dir_wrap k 0%N) addn0 (modn_small Hk) -/s3 /s3 nbr_inv' // in F3.
  rewrite -(addnA k 3%N 3%N) (dir_wrap k 2%N) in F4.
  exact: (C20_full_full_rank F1 F2 F3 F4 Q1 Q2 Q3 Q4 G1 G2 E).
case: G => [[G1 G2]|[_ G1 G2 G3]].
  exact: (C20_half_full_rank F1 F4 Q1 Q4 G1 G2 E).
exact: (C20_half_rsvd F1 F4 Q1 Q4 G1 chi_pos G2 G3 E).
Qed.

(** If the new edge keeps the whole cut (its links have the dimension of the old
    link times the ket and bra leg), nothing is lost: the new boundary is the old
    one with the site attached, up to a positive factor. *)
Theorem C64_lossless s w w' : good_svd -> in_cell nx ny s -> line_of k s = c ->
  shape (n s (SE ((k + 3) %% 4))) = [:: w; w'; D; D] ->
  shape (n' (nbr nx ny ((k + 2) %% 4) s) (SE ((k + 3) %% 4))) = [:: w * D * D; w' * D * D; D; D]%N ->
  exists L M a, [/\ side n' k (nbr nx ny ((k + 2) %% 4) s) = Ok L, side_and_site n k s = Ok M, 0 < a & teq L (tscale a M)].
Proof using All.
move=> G Hs Hl Ew Ew'.
have [P1 [P2 [HP Hr]]] := move_rows.
have Hu : in_cell nx ny (nbr nx ny ((k + 1) %% 4) s) by apply: nbr_cell.
have Lu : line_of k (nbr nx ny ((k + 1) %% 4) s) = c by rewrite line_next.
have [_ A1 A2] := proj_dims chi_pos Hf Hk HP Hs Hl; have [_ B1 B2] := proj_dims chi_pos Hf Hk HP Hu Lu.
have [K1 K2 K3] := Hr s Hs Hl; have [S1 S2 S3 S4 [b [S5 S6]]] := row_shapes Hs.
have := ej_shape S3 S4 A2 B1; rewrite K3 /= Ew' => -[Z1 Z2].
move: Ew; rewrite S3 => -[W1 W2]; rewrite -{}W1 in Z1 *; rewrite -{}W2 in Z2 *.
have full_id v P1s P2s rr : calc n k v rr.1 = Ok (P1s, P2s, rr.2) -> in_cell nx ny v ->
  shape P1s = [:: chi ((k + 3) %% 4)%N v; D; D; (chi ((k + 3) %% 4) v * D * D)%N] ->
  exists2 x, 0 < x & pmat (chi ((k + 3) %% 4)%N v) D (chi ((k + 3) %% 4) v * D * D)%N P2s *m
     (pmat (chi ((k + 3) %% 4)%N v) D (chi ((k + 3) %% 4) v * D * D)%N P1s)^T = x%:M.
  move=> E Hv Sz; have [z [x [/= T1 T2 x0]]] := calc_biorth G Hv E.
  move: T1 T2; rewrite Sz => -[<-] T2 B; exists x => //.
  have B' : (x^-1 *: (pmat (chi ((k + 3) %% 4)%N v) D (chi ((k + 3) %% 4) v * D * D)%N P1s)^T) *m
     pmat (chi ((k + 3) %% 4)%N v) D (chi ((k + 3) %% 4) v * D * D)%N P2s = 1%:M.
    by rewrite -scalemxAl B scale_scalar_mx mulVf ?lt0r_neq0.
  have := mulmx1C B'; rewrite -scalemxAr => /(congr1 (fun X => x *: X)).
  by rewrite scalerA divff ?lt0r_neq0 // scale1r scale_scalar_mx mulr1.
have [ri [rj Es]] : exists ri rj, calc n k s ri = Ok (P1 s, P2 s, rj).
  by have := HP _ (row_lt k Hs); cbv zeta; rewrite -Hl on_lineK.
have [rk [rl Eu]] : exists ri rj, calc n k (nbr nx ny ((k + 1) %% 4) s) ri = Ok (P1 (nbr nx ny ((k + 1) %% 4) s), P2 (nbr nx ny ((k + 1) %% 4) s), rj).
  by have := HP _ (row_lt k Hu); cbv zeta; rewrite -Lu on_lineK.
rewrite -Z1 in A1 A2; rewrite -Z2 in B1 B2.
have [a1 Pa1 I1] := full_id _ _ _ (rk, rl) Eu Hu B1; have [a2 Pa2 I2] := full_id _ _ _ (ri, rj) Es Hs A1.
exact: (row_lossless S1 S2 S3 S4 S5 S6 B2 B1 A2 A1 K2 K3 K1 Pa1 Pa2 I1 I2).
Qed.
End Move.

(** The hypotheses can be met: on product states every move of either projector
    type succeeds and loses nothing; for instance all spins up. *)
Section Runs.
Variable C : numClosedFieldType.
Notation tensor := (tensor C).

Theorem C64_product_states (R : Type) (randn : R -> forall n q : nat, 'M[C]_(n, q) * R) lqr lsvd fsvd (cfg : pconfig C) pt
    nx ny p (n : Mover.net tensor) k c r s :
  svd_type cfg = "full-rank" -> full_svd_spec fsvd -> (0 < pchi cfg)%N -> 0 <= svd_cutoff cfg -> svd_cutoff cfg < 1 ->
  one_net nx ny p n -> (k < 4)%N -> (c < lines_of nx ny k)%coq_nat -> in_cell nx ny s -> line_of k s = c ->
  exists n' r' L M a, [/\ move randn lqr lsvd fsvd cfg pt nx ny k n r c = Ok (n', r'),
    side n' k (nbr nx ny ((k + 2) %% 4) s) = Ok L, side_and_site n k s = Ok M, 0 < a & teq L (tscale a M)].
Proof.
move=> Ht Sp Hchi H0 H1 On Hk Hc Hs Hl.
have [[n' r'] [E O']] := move_one randn lqr lsvd Ht Sp Hchi H0 H1 pt r On Hk Hc.
have fit (m : Mover.net tensor) : one_net nx ny p m -> fits nx ny 1 p (fun _ _ => 1%N) m.
  move=> O v Hv; have [[SA' _] H] := O v Hv; split=> // j Hj.
  by have [[-> _] [-> _]] := H j Hj.
have B i : ((k + i) %% 4 < 4)%N by rewrite ltn_mod.
have [_ /(_ _ (B 3%N)) [_ E3]] := fit _ On s Hs.
have Ht' : in_cell nx ny (nbr nx ny ((k + 2) %% 4) s) by apply: nbr_cell.
have [_ /(_ _ (B 3%N)) [_ E3']] := fit _ O' _ Ht'.
have G : good_svd lqr lsvd fsvd cfg pt by left.
have [L [M [a [A1 A2 A3 A4]]]] := C64_lossless Hchi (fit _ On) Hk Hc E G Hs Hl E3 E3'.
by exists n', r', L, M, a.
Qed.

Example C64_example nx ny (k : nat) : (k < 4)%N -> (0 < nx)%N -> (0 < ny)%N -> exists n' (r' : unit) L M a,
  [/\ move (fun r _ _ => (0, r)) (@some_qr C) (@some_thin_svd C) (@some_full_svd C) (PConfig "full-rank" 0 2 2 3) Half nx ny k (@up_net C) tt 0 = Ok (n', r'),
    side n' k (nbr nx ny ((k + 2) %% 4) (0%N, 0%N)) = Ok L, side_and_site (@up_net C) k (0%N, 0%N) = Ok M, 0 < a & teq L (tscale a M)].
Proof.
move=> Hk Hx Hy; apply: (@C64_product_states _ _ _ _ _ _ _ nx ny 2) => //.
- exact: some_full_svd_spec.
- exact: ltr01.
- move=> s Hs; split.
    by split=> //; exists 0%N => //=; rewrite oner_eq0.
  by case=> [|[|[|[|j]]]] // _; do 2!split=> //=; rewrite oner_eq0.
- by case: k Hk => [|[|[|[|k]]]] // _; apply/ltP.
- by split; apply/ltP.
by case: k Hk => [|[|[|[|k]]]].
Qed.
End Runs.

Print Assumptions C64_absorbs.
Print Assumptions C64_lossless.
Print Assumptions C64_product_states.
