(** Properties C20-C22: the projector pair of a cut. *)
From Coq Require Import String Ascii.
From mathcomp Require Import all_ssreflect all_algebra.
From Verif Require Import Base Lattice LatticeFacts Mover Tensor TN Rdm RdmFacts Fits Linalg Mat Rsvd RsvdFacts Renorm RenormFacts ProjFacts Spectral.
Set Implicit Arguments.
Unset Strict Implicit.
Unset Printing Implicit Defensive.
Import GRing.Theory Num.Theory.
Local Open Scope ring_scope.
Local Open Scope string_scope.

Section Spec.
Variable C : numClosedFieldType.
Notation tensor := (tensor C).
Variable R : Type.

(** a projector as a matrix from the kept space to the cut *)
Notation pmat w D z P := (mat (w * D * D)%N z [:: w; D; D] [:: z] P).

(** P1^T P2 = c * identity on the kept space *)
Definition biorthogonal w D (pr : tensor * tensor * R) : Prop :=
  exists z c, [/\ shape pr.1.1 = [:: w; D; D; z], shape pr.1.2 = [:: w; D; D; z], 0 < c &
    (pmat w D z pr.1.1)^T *m pmat w D z pr.1.2 = c%:M].

(** if the kept space is as large as the rank of the environment R1 R2, the
    projectors inserted in the cut reproduce it *)
Definition exact m n w D (R1 : 'M[C]_(m, (w * D * D)%N)) (R2 : 'M[C]_((w * D * D)%N, n)) (pr : tensor * tensor * R) : Prop :=
  forall z, shape pr.1.1 = [:: w; D; D; z] -> (\rank (R1 *m R2) <= z)%N ->
    exists2 c, 0 < c & R1 *m (pmat w D z pr.1.2 *m (pmat w D z pr.1.1)^T) *m R2 = c *: (R1 *m R2).

(** the rank is the number of non-zero singular values *)
Lemma rank_usv m n k (A : 'M[C]_(m, n)) (U : tensor) (s : seq C) (V : tensor) : svd_of k A U s V ->
  usv m n k U s V = A -> \rank A = \rank (diag_mx (row_of_seq k s)).
Proof.
move=> [HU HV _ _] E; apply/eqP; rewrite eqn_leq; apply/andP; split.
  by rewrite -E /usv; apply: leq_trans (mxrankM_maxl _ _) (mxrankM_maxr _ _).
have -> : diag_mx (row_of_seq k s) = adj (mx_of m k U) *m A *m mx_of n k V.
  by rewrite -E /usv !mulmxA HU mul1mx -mulmxA HV mulmx1.
exact: leq_trans (mxrankM_maxl _ _) (mxrankM_maxr _ _).
Qed.

Lemma rank_diag k (s : seq C) i : sv_ok (row_of_seq k s) -> (i < k)%N -> nth 0 s i != 0 -> (i < \rank (diag_mx (row_of_seq k s)))%N.
Proof.
move=> [G M] Hi N.
have Hp j : (j <= i)%N -> nth 0 s j != 0.
  move=> Hj; have := M (Ordinal (leq_ltn_trans Hj Hi)) (Ordinal Hi) Hj; rewrite !mxE /= => L.
  have Gi := G (Ordinal Hi); rewrite mxE /= in Gi.
  have P : 0 < nth 0 s i by rewrite lt0r N.
  by apply: lt0r_neq0; apply: Order.POrderTheory.lt_le_trans P L.
rewrite -[X in (X <= _)%N](@rank_pid_mx C k k) //.
have -> : pid_mx i.+1 = diag_mx (\row_(j < k) if (j < i.+1)%N then (nth 0 s j)^-1 else 0) *m diag_mx (row_of_seq k s).
  rewrite mulmx_diag; apply/matrixP => a b; rewrite !mxE -val_eqE /=; case: eqP => [->|_]; last by rewrite mulr0n.
  by rewrite /= mulr1n; case: ltnP => Hb; rewrite ?mul0r // mulVf // Hp.
exact: mxrankM_maxr.
Qed.

Lemma diag_rank_le k (s : seq C) : sv_ok (row_of_seq k s) -> size s = k ->
  (\rank (diag_mx (row_of_seq k s)) <= count (fun x : C => 0 < x)%R s)%N.
Proof.
move=> [G M] Hs; set c := count _ _.
have -> : diag_mx (row_of_seq k s) = pid_mx c *m diag_mx (row_of_seq k s).
  have -> : pid_mx c = diag_mx (\row_(j < k) ((j < c)%N%:R : C)).
    by apply/matrixP => a b; rewrite !mxE -val_eqE /=; case: eqP => //= ->; rewrite mulr1n.
  rewrite mulmx_diag; congr diag_mx; apply/matrixP => a b; rewrite !mxE.
  case: ltnP => Hb; rewrite ?mul1r // mul0r.
  have := G b; rewrite mxE le0r => /orP[/eqP //|P].
  suff : (b < c)%N by rewrite ltnNge Hb.
  rewrite /c -(cat_take_drop b.+1 s) count_cat (@leq_trans (count (fun x : C => 0 < x)%R (take b.+1 s))) ?leq_addr //.
  have Ht : size (take b.+1 s) = b.+1 by rewrite size_takel // Hs.
  have /eqP -> : count (fun x : C => 0 < x)%R (take b.+1 s) == size (take b.+1 s); last by rewrite Ht.
  rewrite -all_count; apply/(all_nthP 0) => j; rewrite Ht ltnS => Hj.
  rewrite nth_take //; apply: Order.POrderTheory.lt_le_trans P _.
  by have := M (Ordinal (leq_ltn_trans Hj (ltn_ord b))) b Hj; rewrite !mxE.
by apply: leq_trans (mxrankM_maxl _ _) _; rewrite rank_pid_mx // -Hs count_size.
Qed.

Variable cfg : pconfig C.

Lemma cut_exact_rank m n w D (R1 : 'M[C]_(m, (w * D * D)%N)) (R2 : 'M[C]_((w * D * D)%N, n)) k U s V (pr : tensor * tensor * R) :
  cut_fact cfg R1^T R1 R2 k U s V pr -> usv m n k U s V = R1 *m R2 -> exact R1 R2 pr.
Proof.
move=> H E z Sz Hr; have [HS [Hs Hz] _ [S1 _] _] := H.
have Ez : z = nkeep cfg s by move: Sz; rewrite S1 => -[].
rewrite Ez; apply: (cut_exact H E) => i /andP[Hi Hk]; apply/eqP; apply/negPn/negP => N.
have [_ _ Hv _] := HS; have := rank_diag Hv Hk N; rewrite -(rank_usv HS E).
by rewrite ltnNge (leq_trans Hr) // Ez.
Qed.

Lemma cut_biorthogonal m n w D (R1 : 'M[C]_(m, (w * D * D)%N)) (R2 : 'M[C]_((w * D * D)%N, n)) k U s V (pr : tensor * tensor * R) :
  cut_fact cfg R1^T R1 R2 k U s V pr -> biorthogonal w D pr.
Proof.
move=> H; have [c c0 E] := cut_biorth H; have [_ _ _ [S1 S2] _] := H.
by exists (nkeep cfg s), c.
Qed.

(** with cutoff 0 and chi at least the rank, the kept space is large enough *)
Lemma cut_rank m n w D (L : 'M[C]_((w * D * D)%N, m)) (R1 : 'M[C]_(m, (w * D * D)%N)) (R2 : 'M[C]_((w * D * D)%N, n)) k U s V (pr : tensor * tensor * R) :
  cut_fact cfg L R1 R2 k U s V pr -> usv m n k U s V = R1 *m R2 ->
  svd_cutoff cfg = 0 -> (\rank (R1 *m R2) <= pchi cfg)%N -> forall z, shape pr.1.1 = [:: w; D; D; z] -> (\rank (R1 *m R2) <= z)%N.
Proof.
move=> [HS [Hs Hz] [s0 _] [S1 _] _] E H0 Hr z; rewrite S1 => -[<-]; rewrite /nkeep leq_min Hr /=.
have [_ _ Hv _] := HS; rewrite (rank_usv HS E); apply: leq_trans (diag_rank_le Hv Hs) _.
by rewrite H0; apply/eq_leq/eq_count => x /=; rewrite pmulr_lgt0 // invr_gt0.
Qed.

Variable randn : R -> forall n q : nat, 'M[C]_(n, q) * R.
Variable lqr : qr_fun C.
Variable lsvd : thin_svd_fun C.
Variable fsvd : full_svd_fun C.
Notation half := (calculate_half_system randn lqr lsvd fsvd cfg).
Notation full := (calculate_full_system randn lqr lsvd fsvd cfg).
Notation qmat c e D t := (mat (c * D * D)%N (e * D * D)%N [:: c; D; D] [:: e; D; D] t).

Section Half.
Variables (g1 g4 : quarter tensor) (D p c1 w e4 : nat) (q1 q4 : tensor).
Hypotheses (F1 : qfit D p g1 c1 w) (F4 : qfit D p g4 w e4).
Hypotheses (Q1 : quarter_flat g1 = Ok q1) (Q4 : quarter_flat g4 = Ok q4).
Let R1 := qmat c1 w D q1.
Let R2 := qmat w e4 D q4.

Theorem C20_half_full_rank r pr : svd_type cfg = "full-rank" -> full_svd_spec fsvd ->
  half r g1 g4 = Ok pr -> biorthogonal w D pr.
Proof.
move=> Ht Sp E; have := half_full randn lqr lsvd F1 F4 Q1 Q4 r Ht Sp; rewrite E => -[U [s [V [H _]]]].
exact: cut_biorthogonal H.
Qed.

(** also with the randomised SVD, for every draw *)
Theorem C20_half_rsvd r pr : svd_type cfg <> "full-rank" -> (0 < pchi cfg)%N -> qr_spec lqr -> thin_svd_spec lsvd ->
  half r g1 g4 = Ok pr -> biorthogonal w D pr.
Proof.
move=> Ht Hc S1 S2 E; have := half_rsvd randn fsvd F1 F4 Q1 Q4 r Ht Hc S1 S2; rewrite E => -[U [s [V [H _]]]].
exact: cut_biorthogonal H.
Qed.

Theorem C21_half_full_rank r pr : svd_type cfg = "full-rank" -> full_svd_spec fsvd ->
  half r g1 g4 = Ok pr -> exact R1 R2 pr /\
  (svd_cutoff cfg = 0 -> (\rank (R1 *m R2) <= pchi cfg)%N -> forall z, shape pr.1.1 = [:: w; D; D; z] -> (\rank (R1 *m R2) <= z)%N).
Proof.
move=> Ht Sp E; have := half_full randn lqr lsvd F1 F4 Q1 Q4 r Ht Sp; rewrite E => -[U [s [V [H E']]]].
by split; [apply: cut_exact_rank H E'|apply: cut_rank H E'].
Qed.

Theorem C21_half_rsvd r pr : svd_type cfg <> "full-rank" -> (0 < pchi cfg)%N -> qr_spec lqr -> thin_svd_spec lsvd ->
  let k := minn (pchi cfg + rsvd_oversampling cfg) (minn (c1 * D * D) (e4 * D * D)) in
  in_cols (R1 *m R2) (R1 *m R2 *m (randn r (e4 * D * D) k).1) ->
  half r g1 g4 = Ok pr -> exact R1 R2 pr.
Proof.
move=> Ht Hc S1 S2 k Hs E; have := half_rsvd randn fsvd F1 F4 Q1 Q4 r Ht Hc S1 S2; rewrite E => -[U [s [V [H /(_ Hs) E']]]].
exact: cut_exact_rank H E'.
Qed.
End Half.

Section Full.
Variables (g1 g2 g3 g4 : quarter tensor) (D p c1 c2 c3 w e3 : nat) (q1 q2 q3 q4 : tensor).
Hypotheses (F1 : qfit D p g1 c1 w) (F2 : qfit D p g2 c2 c1) (F3 : qfit D p g3 c3 e3) (F4 : qfit D p g4 w c3).
Hypotheses (Q1 : quarter_flat g1 = Ok q1) (Q2 : quarter_flat g2 = Ok q2) (Q3 : quarter_flat g3 = Ok q3) (Q4 : quarter_flat g4 = Ok q4).
Let R1 := qmat c2 c1 D q2 *m qmat c1 w D q1.
Let R2 := qmat w c3 D q4 *m qmat c3 e3 D q3.

Theorem C20_full_full_rank r pr : svd_type cfg = "full-rank" -> full_svd_spec fsvd ->
  full r g1 g2 g3 g4 = Ok pr -> biorthogonal w D pr.
Proof.
move=> Ht Sp E; have := full_full randn lqr lsvd F1 F2 F3 F4 Q1 Q2 Q3 Q4 r Ht Sp; rewrite E => -[U [s [V [H _]]]].
exact: cut_biorthogonal H.
Qed.

Theorem C21_full_full_rank r pr : svd_type cfg = "full-rank" -> full_svd_spec fsvd ->
  full r g1 g2 g3 g4 = Ok pr -> exact R1 R2 pr /\
  (svd_cutoff cfg = 0 -> (\rank (R1 *m R2) <= pchi cfg)%N -> forall z, shape pr.1.1 = [:: w; D; D; z] -> (\rank (R1 *m R2) <= z)%N).
Proof.
move=> Ht Sp E; have := full_full randn lqr lsvd F1 F2 F3 F4 Q1 Q2 Q3 Q4 r Ht Sp; rewrite E => -[U [s [V [H E']]]].
by split; [apply: cut_exact_rank H E'|apply: cut_rank H E'].
Qed.

(** ** C22: the full-system rsvd path *)

(** the quarter is built from real tensors *)
Definition real_tensor (t : tensor) : Prop := forall i, in_range (shape t) i -> at_ t i \is Num.real.
Definition real_quarter (q : quarter tensor) : Prop :=
  [/\ real_tensor (q_c _ q), real_tensor (q_e1 _ q), real_tensor (q_e2 _ q) & real_tensor (q_a _ q)].

Lemma real_flat q c e f : qfit D p q c e -> quarter_flat q = Ok f -> real_quarter q ->
  forall x1 x2 x3 x4 x5 x6, [&& x1 < c, x2 < D, x3 < D, x4 < e, x5 < D & x6 < D]%N -> at_ f [:: x1; x2; x3; x4; x5; x6] \is Num.real.
Proof.
move=> [a [b [H1 H2 H3 H4]]]; rewrite /quarter_flat /einsum /= H1 H2 H3 H4 /= /dims_ok /= !eqxx /= => -[<-] [Rc R1' R2' Ra].
move=> x1 x2 x3 x4 x5 x6 /andP[L1 /andP[L2 /andP[L3 /andP[L4 /andP[L5 L6]]]]]; rewrite /= /sumn.
have cr (x : C) : x \is Num.real -> x^* \is Num.real by rewrite !CrealE conjCK eq_sym.
do 7!(apply: rpred_sum => ? _; rewrite /=).
by rewrite /factor /=; do !apply: rpredM; rewrite ?cr //; (apply: Rc || apply: R1' || apply: R2' || apply: Ra); rewrite ?H1 ?H2 ?H3 ?H4 /= ?ltn_ord ?L1 ?L2 ?L3 ?L4 ?L5 ?L6.
Qed.

Lemma real_qmat q c e f : qfit D p q c e -> quarter_flat q = Ok f -> real_quarter q ->
  adj (qmat c e D f) = (qmat c e D f)^T.
Proof.
move=> Hq Hf Hr; apply/matrixP => i j; rewrite !mxE; apply: conj_Creal.
have Hi : in_range [:: c; D; D] (unravel [:: c; D; D] j) by apply: unravel_range; rewrite -numel3.
have Hj : in_range [:: e; D; D] (unravel [:: e; D; D] i) by apply: unravel_range; rewrite -numel3.
have X d1 d2 d3 v : in_range [:: d1; d2; d3] v -> exists a b c, v = [:: a; b; c] /\ [/\ a < d1, b < d2 & c < d3]%N.
  by case: v => [|a [|b [|c0 [|]]]] //=; rewrite ?andbF // andbT => /and3P[? ? ?]; exists a, b, c0.
have [x1 [x2 [x3 [-> [A1 A2 A3]]]]] := X _ _ _ _ Hi; have [y1 [y2 [y3 [-> [B1 B2 B3]]]]] := X _ _ _ _ Hj.
by apply: (real_flat Hq Hf Hr); rewrite A1 A2 A3 B1 B2 B3.
Qed.

(** Real tensors: the projectors of the rsvd path are the ones of the full-rank
    path, R1^T conj(U) s^-1/2 and R2 V s^-1/2, up to positive factors, so they are
    biorthogonal and exact. *)
Theorem C22_full_rsvd_real r pr : svd_type cfg <> "full-rank" -> (0 < pchi cfg)%N -> qr_spec lqr -> thin_svd_spec lsvd ->
  real_quarter g1 -> real_quarter g2 -> full r g1 g2 g3 g4 = Ok pr ->
  let k := minn (pchi cfg + rsvd_oversampling cfg) (minn (c2 * D * D) (e3 * D * D)) in
  biorthogonal w D pr /\
  (in_cols (R1 *m R2) (R1 *m R2 *m (randn r (e3 * D * D) k).1) -> exact R1 R2 pr) /\
  exists U s V z, [/\ svd_of k (R1 *m R2) U s V, shape pr.1.1 = [:: w; D; D; z] & exists b1 b2, [/\ 0 < b1, 0 < b2,
    pmat w D z pr.1.1 = b1 *: (R1^T *m map_mx (fun x : C => x^* ) (mx_of (c2 * D * D) z U) *m diag_mx (\row_i (sqrtC (nth 0 s i))^-1)) &
    pmat w D z pr.1.2 = b2 *: (R2 *m mx_of (e3 * D * D) z V *m diag_mx (\row_i (sqrtC (nth 0 s i))^-1))]].
Proof.
move=> Ht Hc S1 S2 G1 G2 E k; have := full_rsvd randn fsvd F1 F2 F3 F4 Q1 Q2 Q3 Q4 r Ht Hc S1 S2; rewrite E => -[U [s [V [H E']]]].
have T : adj R1 = R1^T by rewrite /R1 adjM trmx_mul (real_qmat F1 Q1 G1) (real_qmat F2 Q2 G2).
rewrite -/R1 T in H; split; first exact: cut_biorthogonal H.
split; first by move=> Hs; apply: cut_exact_rank H (E' Hs).
by have [HS _ _ [Sz _] HP] := H; exists U, s, V, (nkeep cfg s).
Qed.

(** For complex tensors the conjugate of R1 enters. *)
Theorem C22_full_rsvd_complex r pr : svd_type cfg <> "full-rank" -> (0 < pchi cfg)%N -> qr_spec lqr -> thin_svd_spec lsvd ->
  full r g1 g2 g3 g4 = Ok pr ->
  let k := minn (pchi cfg + rsvd_oversampling cfg) (minn (c2 * D * D) (e3 * D * D)) in
  exists U s V z, [/\ svd_of k (R1 *m R2) U s V, shape pr.1.1 = [:: w; D; D; z] & exists b1 b2, [/\ 0 < b1, 0 < b2,
    pmat w D z pr.1.1 = b1 *: (map_mx (fun x : C => x^* ) R1^T *m map_mx (fun x : C => x^* ) (mx_of (c2 * D * D) z U) *m diag_mx (\row_i (sqrtC (nth 0 s i))^-1)) &
    pmat w D z pr.1.2 = b2 *: (R2 *m mx_of (e3 * D * D) z V *m diag_mx (\row_i (sqrtC (nth 0 s i))^-1))]].
Proof.
move=> Ht Hc S1 S2 E k; have := full_rsvd randn fsvd F1 F2 F3 F4 Q1 Q2 Q3 Q4 r Ht Hc S1 S2; rewrite E => -[U [s [V [H E']]]].
by have [HS _ _ [Sz _] HP] := H; exists U, s, V, (nkeep cfg s).
Qed.
End Full.
End Spec.

(** ** A complex environment on which the full-system rsvd projectors are not
    biorthogonal: D = p = 1, boundary dimension 2, one quarter diag(i, 1) *)
Section Witness.
Variable C : numClosedFieldType.
Notation tensor := (tensor C).
Notation pmat w D z P := (mat (w * D * D)%N z [:: w; D; D] [:: z] P).

(** a quarter whose matrix is diag(x, 1) *)
Definition diag_quarter (x : C) : quarter tensor :=
  let e : tensor := Tensor [:: 2; 2; 1; 1]%N (fun i => if nth 0%N i 0 == nth 0%N i 1 then 1 else 0) in
  Quarter _ (Tensor [:: 1; 1; 1; 1; 1]%N (fun _ => 1))
    (Tensor [:: 2; 2]%N (fun i => if nth 0%N i 0 == nth 0%N i 1 then if nth 0%N i 0 == 0%N then x else 1 else 0)) e e.

Lemma diag_flat x : qfit 1 1 (diag_quarter x) 2 2 /\
  exists2 f, quarter_flat (diag_quarter x) = Ok f &
    mat (2 * 1 * 1)%N (2 * 1 * 1)%N [:: 2; 1; 1]%N [:: 2; 1; 1]%N f = diag_mx (\row_i if i == 0 then x else 1).
Proof.
split; first by exists 2%N, 2%N.
rewrite /quarter_flat /einsum /=; eexists; first by [].
have H2 (i : 'I_(2 * 1 * 1)) : i = 0 \/ i = 1.
  by case: i => [[|[|m]] Hm] //; [left|right]; apply/val_inj.
apply/matrixP => i j; rewrite !mxE /= /sumn !big_ord_recl !big_ord0 /= conjC1.
by case: (H2 i) => ->; case: (H2 j) => -> /=; rewrite ?big_ord0 /= !(mulr0, mul0r, mulr1, addr0, add0r).
Qed.

Lemma unitary_svd N (A : 'M[C]_N) (U : tensor) (s : seq C) (V : tensor) : A *m adj A = 1%:M ->
  svd_of N A U s V -> forall i, (i < N)%N -> nth 0 s i = 1.
Proof.
move=> HA [HU HV [G _] E] i Hi; pose o := Ordinal Hi.
have : (adj (mx_of N N U) *m A) *m adj (adj (mx_of N N U) *m A) = 1%:M.
  by rewrite adjM adjK !mulmxA -(mulmxA _ A) HA mulmx1 HU.
rewrite E adjM adjK -!mulmxA (mulmxA (adj _)) HV mul1mx => /matrixP/(_ o o).
have Go := G o; rewrite mxE /= in Go.
rewrite mul_diag_mx !mxE /= eqxx mulr1n conj_Creal ?ger0_real // => /eqP.
by rewrite -expr2 sqrf_eq1 => /orP[/eqP //|/eqP E1]; move: Go; rewrite E1 oppr_ge0 ler10.
Qed.

Lemma biorth_conj N (A : 'M[C]_N) (U V : tensor) (s : seq C) b1 b2 c : A *m adj A = 1%:M ->
  svd_of N A U s V -> usv N N N U s V = A -> 0 < b1 -> 0 < b2 ->
  (b1 *: (adj A *m map_mx (fun x : C => x^* ) (mx_of N N U) *m dinv N s))^T *m (b2 *: (mx_of N N V *m dinv N s)) = c%:M ->
  exists c', forall i j, (A i j)^* = c' * A i j.
Proof.
move=> HA HS EA B1 B2; have s1 := unitary_svd HA HS; have [HU HV _ _] := HS.
have Ed : dinv N s = 1%:M.
  by rewrite -diag_const_mx; congr diag_mx; apply/matrixP => a b; rewrite !mxE s1 // sqrtC1 invr1.
have Es : diag_mx (row_of_seq N s) = 1%:M.
  by rewrite -diag_const_mx; congr diag_mx; apply/matrixP => a b; rewrite !mxE s1.
rewrite Ed !mulmx1; set B := mx_of N N U; set W := mx_of N N V.
have -> : (b1 *: (adj A *m map_mx (fun x : C => x^* ) B))^T = b1 *: (adj B *m map_mx (fun x : C => x^* ) A).
  apply/matrixP => a b; rewrite !mxE; congr (_ * _); apply: eq_bigr => l _; by rewrite !mxE mulrC.
rewrite -scalemxAl -scalemxAr scalerA => E; set cA := map_mx _ A in E.
have HU' : B *m adj B = 1%:M by apply: mulmx1C.
have HV' : W *m adj W = 1%:M by apply: mulmx1C.
have b0 : b1 * b2 != 0 by rewrite mulf_neq0 ?lt0r_neq0.
exists (c / (b1 * b2)) => i j.
have Ec : cA = (c / (b1 * b2)) *: A.
  rewrite -EA /usv Es mulmx1 -/B -/W; apply: (scalerI b0); rewrite scalerA mulrCA divff // mulr1.
  have -> : cA = B *m (adj B *m cA *m W) *m adj W by rewrite !mulmxA HU' mul1mx -mulmxA HV' mulmx1.
  by rewrite scalemxAl scalemxAr E mul_mx_scalar -scalemxAl.
by have := congr1 (fun M : 'M_N => M i j) Ec; rewrite !mxE.
Qed.

Notation N := (2 * 1 * 1)%N.

Theorem C22_complex_refuted (R : Type) (randn : R -> forall n q : nat, 'M[C]_(n, q) * R) lqr lsvd fsvd (cfg : pconfig C) r :
  svd_type cfg <> "full-rank" -> (1 < pchi cfg)%N -> qr_spec lqr -> thin_svd_spec lsvd ->
  0 <= svd_cutoff cfg -> svd_cutoff cfg < 1 -> (randn r (2 * 1 * 1)%N 2%N).1 = 1%:M ->
  exists2 pr, calculate_full_system randn lqr lsvd fsvd cfg r (diag_quarter 1) (diag_quarter 'i) (diag_quarter 1) (diag_quarter 1) = Ok pr &
    ~ biorthogonal 2 1 pr.
Proof.
move=> Ht Hc S1 S2 H0 H1 Hr.
have [F1 [q1 Q1 D1]] := diag_flat 1; have [Fi [qi Qi Di]] := diag_flat 'i.
have := full_rsvd randn fsvd F1 Fi F1 F1 Q1 Qi Q1 Q1 r Ht (ltnW Hc) S1 S2; cbv zeta.
have -> : minn (pchi cfg + rsvd_oversampling cfg) (minn (2 * 1 * 1) (2 * 1 * 1)) = 2%N.
  by apply/minn_idPr; apply: leq_trans Hc (leq_addr _ _).
have DI : diag_mx (\row_(i < N) (if i == 0 then 1 else 1)) = 1%:M :> 'M[C]_N.
  by rewrite -diag_const_mx; congr diag_mx; apply/matrixP => a b; rewrite !mxE; case: eqP.
rewrite D1 Di DI !mulmx1; set A := diag_mx _.
rewrite Hr mulmx1; have Hin : in_cols A A by exists 1%:M; rewrite mulmx1.
have A0 : A 0 0 = 'i by rewrite !mxE eqxx mulr1n.
have A1 : A (Ordinal (isT : (1 < N)%N)) (Ordinal (isT : (1 < N)%N)) = 1 by rewrite !mxE eqxx mulr1n.
have HA : A *m adj A = 1%:M.
  rewrite mul_diag_mx -diag_const_mx; apply/matrixP => a b; rewrite !mxE.
  case: (eqVneq a b) => [->|Nab]; last first.
    by rewrite !mulr0n rmorph0 mulr0.
  by rewrite !mulr1n; case: eqP => _; rewrite ?rmorph1 ?mulr1 // conjCi mulrN -expr2 sqrCi opprK.
case: calculate_full_system => [pr|e] /=; last first.
  case=> _ [/matrixP/(_ 0 0)|//|//]; rewrite A0 mxE => /eqP; by rewrite (negbTE (neq0Ci _)).
move=> [U [s [V [[HS [Hs Hz] [s0 _] [T1 T2] [b1 [b2 [B1 B2 E1 E2]]]] /(_ Hin) EU]]]]; exists pr => //.
have HS' : svd_of 2 A U s V by move: HS; rewrite mulmx1.
have s1 : forall i, (i < 2)%N -> nth 0 s i = 1 by apply: (unitary_svd HA HS').
have Es : s = [:: 1; 1].
  apply: (@eq_from_nth _ 0) => [|i]; rewrite ?Hs // => Hi; rewrite s1 //.
  by case: i Hi => [|[|i]].
have Ez : nkeep cfg s = 2%N by rewrite /nkeep Es /= divr1 H1 (minn_idPr Hc).
case=> z [c [T1' _ c0]].
have -> : z = nkeep cfg s by move: T1'; rewrite T1 => -[].
rewrite E1 E2 Ez mul1mx => Ec.
have [c' Hc'] := biorth_conj HA HS' EU B1 B2 Ec.
have := Hc' (Ordinal (isT : (1 < N)%N)) (Ordinal (isT : (1 < N)%N)); rewrite A1 rmorph1 mulr1 => E.
have := Hc' 0 0; rewrite A0 conjCi -E mul1r => /eqP; rewrite eq_sym -subr_eq0 opprK -mulr2n mulrn_eq0 /=.
by rewrite (negbTE (neq0Ci _)).
Qed.

(** on the same complex quarters the full-rank path succeeds, is biorthogonal
    and, with cutoff 0 and chi = 2, exact *)
Example C20_C21_example (pt : ptype) : let cfg := PConfig "full-rank" (0 : C) 2 2 2 in
  exists2 pr : tensor * tensor * unit,
    match pt with
    | Half => calculate_half_system (fun r _ _ => (0, r)) (@some_qr C) (@some_thin_svd C) (@some_full_svd C) cfg tt (diag_quarter 'i) (diag_quarter 1) = Ok pr
    | Full => calculate_full_system (fun r _ _ => (0, r)) (@some_qr C) (@some_thin_svd C) (@some_full_svd C) cfg tt (diag_quarter 1) (diag_quarter 'i) (diag_quarter 1) (diag_quarter 1) = Ok pr
    end & biorthogonal 2 1 pr.
Proof.
move=> cfg; have [F1 [q1 Q1 D1]] := diag_flat 1; have [Fi [qi Qi Di]] := diag_flat 'i.
have DI : diag_mx (\row_(i < N) (if i == 0 then 1 else 1)) = 1%:M :> 'M[C]_N.
  by rewrite -diag_const_mx; congr diag_mx; apply/matrixP => a b; rewrite !mxE; case: eqP.
have A0 : (diag_mx (\row_(i < N) (if i == 0 then 'i else 1)) : 'M[C]_N) 0 0 = 'i by rewrite !mxE eqxx mulr1n.
have Nz : (diag_mx (\row_(i < N) (if i == 0 then 'i else 1)) : 'M[C]_N) <> 0.
  by move=> E; move: A0; rewrite E mxE => /eqP; rewrite eq_sym (negbTE (neq0Ci _)).
case: pt.
  have := full_full (cfg := cfg) (fun (r : unit) _ _ => (0, r)) (@some_qr C) (@some_thin_svd C) F1 Fi F1 F1 Q1 Qi Q1 Q1 tt erefl (@some_full_svd_spec C).
  case E: calculate_full_system => [pr|e] /=.
    by move=> [U [s [V [H _]]]]; exists pr => //; apply: cut_biorthogonal H.
  by rewrite D1 Di DI !mulmx1 => -[_ [/Nz //|]]; rewrite Order.POrderTheory.lexx.
have := half_full (cfg := cfg) (fun (r : unit) _ _ => (0, r)) (@some_qr C) (@some_thin_svd C) Fi F1 Qi Q1 tt erefl (@some_full_svd_spec C).
case E: calculate_half_system => [pr|e] /=.
  by move=> [U [s [V [H _]]]]; exists pr => //; apply: cut_biorthogonal H.
by rewrite D1 Di DI !mulmx1 => -[_ [/Nz //|]]; rewrite Order.POrderTheory.lexx.
Qed.
End Witness.

Print Assumptions C20_half_full_rank.
Print Assumptions C20_half_rsvd.
Print Assumptions C20_full_full_rank.
Print Assumptions C21_half_full_rank.
Print Assumptions C21_half_rsvd.
Print Assumptions C21_full_full_rank.
Print Assumptions C22_full_rsvd_real.
Print Assumptions C22_full_rsvd_complex.
Print Assumptions C22_complex_refuted.
