(** Properties C13-C15, C56: renormalisation moves and initial tensors. *)
From Coq Require Import String Ascii.
From mathcomp Require Import all_ssreflect all_algebra.
From Verif Require Import Base Lattice LatticeFacts Mover Tensor TN Rdm RdmFacts Fits Linalg Mat Rsvd RsvdFacts Renorm RenormFacts P05_Mover MoveShape ProjFacts InitFacts Spectral ProductState.
Set Implicit Arguments.
Unset Strict Implicit.
Unset Printing Implicit Defensive.
Import GRing.Theory Num.Theory.
Local Open Scope ring_scope.
Local Open Scope string_scope.

Section C56.
Variable C : numClosedFieldType.
Notation tensor := (tensor C).

(** the entries before normalisation: noise * rand, plus the product state on
    the component with all bond indices 0 *)
Definition has_entry (D p : nat) (st : seq C) (noise : C) (rand : tensor) : Prop :=
  exists l u r d q, [/\ l < D, u < D, r < D, d < D & q < p]%N /\ site_raw st noise rand l u r d q != 0.

Theorem C56_initial_site D p (st : seq C) noise (rand : tensor) :
  shape rand = [:: D; D; D; D; p] -> (size st <= p)%N -> has_entry D p st noise rand ->
  exists A Cs Es, [/\ init_site D p st noise rand = Ok (A, Cs, Es),
    shape A = [:: D; D; D; D; p] /\ norm A = 1, size Cs = 4%N /\ size Es = 4%N &
    forall k, (k < 4)%N ->
      [/\ shape (nth A Cs k) = [:: D * D; D * D]%N, norm (nth A Cs k) = 1,
          shape (nth A Es k) = [:: D * D; D * D; D; D]%N & norm (nth A Es k) = 1] /\
      (exists2 c, 0 < c & forall d D' r R', (d < D)%N -> (D' < D)%N -> (r < D)%N -> (R' < D)%N ->
        at_ (nth A Cs k) [:: d * D + D'; r * D + R']%N =
        c * \sum_(l < D) \sum_(u < D) \sum_(q < p) turned A k l u r d q * (turned A k l u R' D' q)^* ) /\
      (exists2 c, 0 < c & forall l L r R' d D', (l < D)%N -> (L < D)%N -> (r < D)%N -> (R' < D)%N -> (d < D)%N -> (D' < D)%N ->
        at_ (nth A Es k) [:: l * D + L; r * D + R'; d; D']%N =
        c * \sum_(u < D) \sum_(q < p) turned A k l u r d q * (turned A k L u R' D' q)^* )].
Proof.
move=> Hs Hz HE; have [A [EA SA' NA [c c0 VA]]] := site_ok Hs Hz HE.
case: HE => l [u [r [d [q [[Hl Hu Hr Hd Hq] N]]]]].
have NzA : exists2 i, in_range (shape A) i & at_ A i != 0.
  exists [:: l; u; r; d; q]; first by rewrite SA' /= Hl Hu Hr Hd Hq.
  by rewrite VA // mulf_neq0 // lt0r_neq0.
have K k Hk := @corner_ok _ A k D p Hk SA' NzA; have E k Hk := @edge_ok _ A k D p Hk SA' NzA.
have [C0 [EC0 ? ? ?]] := K 0%N isT; have [C1 [EC1 ? ? ?]] := K 1%N isT.
have [C2 [EC2 ? ? ?]] := K 2%N isT; have [C3 [EC3 ? ? ?]] := K 3%N isT.
have [E0 [EE0 ? ? ?]] := E 0%N isT; have [E1 [EE1 ? ? ?]] := E 1%N isT.
have [E2 [EE2 ? ? ?]] := E 2%N isT; have [E3 [EE3 ? ? ?]] := E 3%N isT.
exists A, [:: C0; C1; C2; C3], [:: E0; E1; E2; E3]; split=> //.
  by rewrite /init_site EA /= EC0 /= EC1 /= EC2 /= EC3 /= EE0 /= EE1 /= EE2 /= EE3.
by case=> [|[|[|[|k]]]].
Qed.

(** freshly initialised sites fit together, with all boundary legs D*D *)
Theorem C56_initial_fits nx ny D p (st : site -> seq C) noise (rand : site -> tensor) (n : Mover.net tensor) :
  (forall s, in_cell nx ny s -> shape (rand s) = [:: D; D; D; D; p]) ->
  (forall s, in_cell nx ny s -> (size (st s) <= p)%N) ->
  (forall s, in_cell nx ny s -> has_entry D p (st s) noise (rand s)) ->
  (forall s, in_cell nx ny s -> exists2 t, init_site D p (st s) noise (rand s) = Ok t & n s = site_slots t) ->
  fits nx ny D p (fun _ _ => D * D)%N n.
Proof.
move=> H1 H2 H3 H4 s Hs; have [t Et Es] := H4 s Hs.
have [A [Cs [Es' [E [SA' _] _ HK]]]] := C56_initial_site (H1 s Hs) (H2 s Hs) (H3 s Hs).
move: Et; rewrite E => -[Et]; rewrite Es -Et; split=> //= k Hk.
by have [[Sc _ Se _] _] := HK k Hk; rewrite Sc Se.
Qed.

(** a state of more entries than the physical dimension is rejected, a tensor
    without entries cannot be normalised *)
Theorem C56_errors D p (st : seq C) noise (rand : tensor) : shape rand = [:: D; D; D; D; p] ->
  ((p < size st)%N -> init_site D p st noise rand = Err IndexError) /\
  ((size st <= p)%N -> (0 < D)%N -> ~ has_entry D p st noise rand -> init_site D p st noise rand = Err ZeroNorm).
Proof.
move=> Hs; split=> [H|H D0 N].
  by rewrite /init_site /initialize_site_tensor leqNgt H.
rewrite /init_site /initialize_site_tensor H D0 /= /tdiv.
set t := Tensor _ _; suff -> : norm t = 0 by rewrite eqxx.
apply/eqP; rewrite sqrtC_eq0 /sqnorm; apply/eqP; apply: big1_seq => i /andP[_]; rewrite mem_indices [shape t]/= Hs.
move=> /in_range5[a [b [c [d [e [-> [Ha Hb Hc Hd He]]]]]]].
have V : at_ t [:: a; b; c; d; e] = site_raw st noise rand a b c d e by rewrite /t /site_raw /= !eqseq_cons eqxx andbT.
rewrite V; case: (eqVneq (site_raw st noise rand a b c d e) 0) => [->|Nz]; first by rewrite normr0 expr0n.
by case: N; exists a, b, c, d, e.
Qed.

(** D = 1, the state (1, 0), no noise: everything is defined *)
Example C56_product_state : has_entry 1 2 [:: 1; 0] 0 (Tensor [:: 1; 1; 1; 1; 2]%N (fun _ => 0) : tensor).
Proof. by exists 0%N, 0%N, 0%N, 0%N, 0%N; split=> //; rewrite /site_raw /= mul0r add0r oner_eq0. Qed.
End C56.

Section Moves.
Variable C : numClosedFieldType.
Notation tensor := (tensor C).
Variable R : Type.
Variable randn : R -> forall n q : nat, 'M[C]_(n, q) * R.
Variable lqr : qr_fun C.
Variable lsvd : thin_svd_fun C.
Variable fsvd : full_svd_fun C.
Variable cfg : pconfig C.
Variable pt : ptype.
Notation moves := (moves randn lqr lsvd fsvd cfg pt).
Notation run_ctmrg := (run_ctmrg randn lqr lsvd fsvd cfg pt).

(** any sequence of moves: the only possible error is a division by a zero norm,
    and the tensors fit together again; the site tensors are untouched *)
Theorem C13_moves_never_mismatch nx ny D p chi (n : Mover.net tensor) r ms : (0 < pchi cfg)%N ->
  fits nx ny D p chi n -> (forall m, List.In m ms -> valid_move nx ny m) ->
  match moves nx ny ms (n, r) with
  | Ok (n', _) => (exists chi', fits nx ny D p chi' n') /\ (forall s, n' s SA = n s SA)
  | Err e => e = ZeroNorm
  end.
Proof.
move=> Hchi Hf Hv; have := moves_fits randn lqr lsvd fsvd pt Hchi Hv r Hf.
rewrite /Renorm.moves; case E: (run_moves _ _ _ _ _ _ _ _ _ _ _ _ _) => [[n' r']|e] //= [chi' H _]; split; first by exists chi'.
by have [] := @run_moves_good _ _ _ _ _ _ _ _ pt nx ny (fun _ => True) (fun _ => True)
  (fun _ _ _ _ _ => I) (fun _ _ _ _ _ => I) (fun _ _ _ _ _ _ => I) ms Hv n r n' r' E.
Qed.

(** after at least one full step no boundary leg exceeds chi *)
Theorem C14_boundary_dimension nx ny D p chi (n : Mover.net tensor) r steps n' r' : (0 < pchi cfg)%N ->
  fits nx ny D p chi n -> (0 < steps)%N -> run_ctmrg nx ny steps (n, r) = Ok (n', r') ->
  forall s k, in_cell nx ny s -> (k < 4)%N ->
    exists a b c d, [/\ shape (n' s (SC k)) = [:: a; b], shape (n' s (SE k)) = [:: c; d; D; D] &
      [/\ a <= pchi cfg, b <= pchi cfg, c <= pchi cfg & d <= pchi cfg]%N].
Proof.
move=> Hchi Hf Hst E s k Hs Hk.
have := ctmrg_fits randn lqr lsvd fsvd pt Hchi steps r Hf.
rewrite E => -[chi' H [_ /(_ Hst) Hc]]; have [_ /(_ k Hk) [-> ->]] := H s Hs.
do 4!eexists; split; [by []|by []|].
by split; apply: Hc; rewrite ?ltn_mod //; apply: nbr_cell; rewrite ?ltn_mod.
Qed.
End Moves.

(** ** The number of kept states *)
Section Kept.
Variable C : numClosedFieldType.
Notation tensor := (tensor C).

(** [s] lists the singular values of M, largest first *)
Definition singular_values m n (M : 'M[C]_(m, n)) (s : seq C) : Prop :=
  [/\ forall i, (i < size s)%N -> 0 <= nth 0 s i,
      forall i j, (i <= j)%N -> (j < size s)%N -> nth 0 s j <= nth 0 s i &
      exists (U : 'M[C]_(m, size s)) (V : 'M[C]_(n, size s)),
        [/\ adj U *m U = 1%:M, adj V *m V = 1%:M & M = U *m diag_mx (\row_i nth 0 s i) *m adj V]].

(** the documented kept number, from the singular values *)
Definition kept_number (chi : nat) (cutoff : C) (s : seq C) : nat :=
  minn chi (count (fun x => cutoff < x / head 0 s) s).

(** P1 and P2 are projectors of a cut of dimension w * D * D onto the kept
    space, with kept number computed from the singular values of M *)
Definition keeps (cfg : pconfig C) (R : Type) w D m n (M : 'M[C]_(m, n)) (k : nat) (pr : tensor * tensor * R) : Prop :=
  exists s z, [/\ singular_values M s, size s = k, 0 < head 0 s,
    z = kept_number (pchi cfg) (svd_cutoff cfg) s /\
    (svd_cutoff cfg < 1 -> (0 < pchi cfg)%N -> (0 < z)%N) &
    shape pr.1.1 = [:: w; D; D; z] /\ shape pr.1.2 = [:: w; D; D; z]].

Lemma sv_of_usv m n k (U : tensor) s (V : tensor) (A : 'M[C]_(m, n)) : size s = k ->
  svd_of k A U s V -> singular_values (usv m n k U s V) s.
Proof.
move=> <- [HU HV [H1 H2] _]; split.
- by move=> i Hi; have := H1 (Ordinal Hi); rewrite mxE.
- by move=> i j Hij Hj; have := H2 (Ordinal (leq_ltn_trans Hij Hj)) (Ordinal Hj) Hij; rewrite !mxE.
by exists (mx_of m (size s) U), (mx_of n (size s) V); split.
Qed.

Lemma usv_proj m n k (U : tensor) s (V : tensor) (A : 'M[C]_(m, n)) :
  svd_of k A U s V -> usv m n k U s V = mx_of m k U *m adj (mx_of m k U) *m A.
Proof. by move=> [_ _ _ H]; rewrite -mulmxA H /usv mulmxA. Qed.

Lemma cut_keeps cfg R m n w D (L : 'M[C]_((w * D * D)%N, m)) R1 (R2 : 'M_(_, n)) k U s V (pr : tensor * tensor * R) :
  cut_fact cfg L R1 R2 k U s V pr -> keeps cfg w D (usv m n k U s V) k pr.
Proof.
move=> [HS [Hs Hz] [s0 _] Hsh _]; exists s, (nkeep cfg s); rewrite -nth0; split=> //.
- exact: sv_of_usv HS.
split; first by rewrite /kept_number -nth0.
by have [_ _ Hv _] := HS; have [_ <- _ _] := keptE cfg Hs Hv (lt0r_neq0 s0).
Qed.

Section Fun.
Variable R : Type.
Variable randn : R -> forall n q : nat, 'M[C]_(n, q) * R.
Variable lqr : qr_fun C.
Variable lsvd : thin_svd_fun C.
Variable fsvd : full_svd_fun C.
Variable cfg : pconfig C.
Notation half := (calculate_half_system randn lqr lsvd fsvd cfg).
Notation full := (calculate_full_system randn lqr lsvd fsvd cfg).
Notation qmat c e D t := (mat (c * D * D)%N (e * D * D)%N [:: c; D; D] [:: e; D; D] t).

(** half system, full-rank SVD: the environment cut is M = R1 R2, the quarters
    are given by one flat contraction each *)
Theorem C15_kept_half_full_rank D p g1 g4 c1 w e4 q1 q4 r :
  svd_type cfg = "full-rank" -> full_svd_spec fsvd -> qfit D p g1 c1 w -> qfit D p g4 w e4 ->
  quarter_flat g1 = Ok q1 -> quarter_flat g4 = Ok q4 ->
  let M := qmat c1 w D q1 *m qmat w e4 D q4 in
  match half r g1 g4 with
  | Ok pr => keeps cfg w D M (minn (c1 * D * D) (e4 * D * D))%N pr
  | Err e => e = ZeroNorm /\ (M = 0 \/ ~ 0 <= svd_cutoff cfg)
  end.
Proof.
move=> Ht Sp F1 F4 Q1 Q4 M; have := half_full randn lqr lsvd F1 F4 Q1 Q4 r Ht Sp.
by case: half => [pr|e] //= [U [s [V [H E]]]]; rewrite /M -E; apply: cut_keeps H.
Qed.

Theorem C15_kept_full_full_rank D p g1 g2 g3 g4 c1 c2 c3 w e3 q1 q2 q3 q4 r :
  svd_type cfg = "full-rank" -> full_svd_spec fsvd ->
  qfit D p g1 c1 w -> qfit D p g2 c2 c1 -> qfit D p g3 c3 e3 -> qfit D p g4 w c3 ->
  quarter_flat g1 = Ok q1 -> quarter_flat g2 = Ok q2 -> quarter_flat g3 = Ok q3 -> quarter_flat g4 = Ok q4 ->
  let M := (qmat c2 c1 D q2 *m qmat c1 w D q1) *m (qmat w c3 D q4 *m qmat c3 e3 D q3) in
  match full r g1 g2 g3 g4 with
  | Ok pr => keeps cfg w D M (minn (c2 * D * D) (e3 * D * D))%N pr
  | Err e => e = ZeroNorm /\ (M = 0 \/ ~ 0 <= svd_cutoff cfg)
  end.
Proof.
move=> Ht Sp F1 F2 F3 F4 Q1 Q2 Q3 Q4 M; have := full_full randn lqr lsvd F1 F2 F3 F4 Q1 Q2 Q3 Q4 r Ht Sp.
by case: full => [pr|e] //= [U [s [V [H E]]]]; rewrite /M -E; apply: cut_keeps H.
Qed.

(** randomised SVD: the singular values are those of a projection Q Q^H M of
    the environment onto a k-dimensional subspace, which is M itself if the
    columns of M times the random draw span those of M *)
Definition keeps_sampled w D m n (M : 'M[C]_(m, n)) (k : nat) (sampled : Prop) (pr : tensor * tensor * R) : Prop :=
  exists2 Q : 'M[C]_(m, k), adj Q *m Q = 1%:M &
    keeps cfg w D (Q *m adj Q *m M) k pr /\ (sampled -> Q *m adj Q *m M = M).

Lemma cut_sampled m n w D (L : 'M[C]_((w * D * D)%N, m)) R1 (R2 : 'M_(_, n)) k U s V (pr : tensor * tensor * R) (sampled : Prop) :
  cut_fact cfg L R1 R2 k U s V pr -> (sampled -> usv m n k U s V = R1 *m R2) ->
  keeps_sampled w D (R1 *m R2) k sampled pr.
Proof.
move=> H E; have [HS _ _ _ _] := H; exists (mx_of m k U); first by case: HS.
by rewrite -(usv_proj HS); split=> //; apply: cut_keeps H.
Qed.

Theorem C15_kept_half_rsvd D p g1 g4 c1 w e4 q1 q4 r :
  svd_type cfg <> "full-rank" -> (0 < pchi cfg)%N -> qr_spec lqr -> thin_svd_spec lsvd ->
  qfit D p g1 c1 w -> qfit D p g4 w e4 -> quarter_flat g1 = Ok q1 -> quarter_flat g4 = Ok q4 ->
  let M := qmat c1 w D q1 *m qmat w e4 D q4 in
  let k := minn (pchi cfg + rsvd_oversampling cfg) (minn (c1 * D * D) (e4 * D * D)) in
  let sampled := in_cols M (M *m (randn r (e4 * D * D) k).1) in
  match half r g1 g4 with
  | Ok pr => keeps_sampled w D M k sampled pr
  | Err e => e = ZeroNorm /\ [\/ M = 0, ~ 0 <= svd_cutoff cfg | ~ sampled]
  end.
Proof.
move=> Ht Hchi S1 S2 F1 F4 Q1 Q4 M; have := half_rsvd randn fsvd F1 F4 Q1 Q4 r Ht Hchi S1 S2.
by case: half => [pr|e] //= [U [s [V [H E]]]]; apply: cut_sampled H E.
Qed.

Theorem C15_kept_full_rsvd D p g1 g2 g3 g4 c1 c2 c3 w e3 q1 q2 q3 q4 r :
  svd_type cfg <> "full-rank" -> (0 < pchi cfg)%N -> qr_spec lqr -> thin_svd_spec lsvd ->
  qfit D p g1 c1 w -> qfit D p g2 c2 c1 -> qfit D p g3 c3 e3 -> qfit D p g4 w c3 ->
  quarter_flat g1 = Ok q1 -> quarter_flat g2 = Ok q2 -> quarter_flat g3 = Ok q3 -> quarter_flat g4 = Ok q4 ->
  let M := (qmat c2 c1 D q2 *m qmat c1 w D q1) *m (qmat w c3 D q4 *m qmat c3 e3 D q3) in
  let k := minn (pchi cfg + rsvd_oversampling cfg) (minn (c2 * D * D) (e3 * D * D)) in
  let sampled := in_cols M (M *m (randn r (e3 * D * D) k).1) in
  match full r g1 g2 g3 g4 with
  | Ok pr => keeps_sampled w D M k sampled pr
  | Err e => e = ZeroNorm /\ [\/ M = 0, ~ 0 <= svd_cutoff cfg | ~ sampled]
  end.
Proof.
move=> Ht Hchi S1 S2 F1 F2 F3 F4 Q1 Q2 Q3 Q4 M.
have := full_rsvd randn fsvd F1 F2 F3 F4 Q1 Q2 Q3 Q4 r Ht Hchi S1 S2.
by case: full => [pr|e] //= [U [s [V [H E]]]]; apply: cut_sampled H E.
Qed.
End Fun.

(** the number on a literal spectrum: 8 1 1/8 0 with cutoff 1/10 keeps two
    values, chi = 1 keeps one *)
Example C15_example : let s := [:: 8%:R; 1; 8%:R^-1; 0 : C] in
  kept_number 5 (10%:R^-1) s = 2%N /\ kept_number 1 (10%:R^-1) s = 1%N.
Proof.
have H8 : (8%:R : C) != 0 by rewrite pnatr_eq0.
rewrite /kept_number /= divff // mul0r div1r -[X in X < 1]mulr1.
rewrite ltr_pdivr_mull ?ltr0n // mulr1 ltr1n ltf_pinv ?posrE ?ltr0n // ltr_nat /=.
rewrite -invfM ltf_pinv ?posrE -?natrM ?ltr0n // ltr_nat /=.
by rewrite Order.POrderTheory.le_gtF ?invr_ge0 ?ler0n.
Qed.
End Kept.

(** ** A network on which everything runs: product states *)
Section Runs.
Variable C : numClosedFieldType.
Notation tensor := (tensor C).

(** A fresh network of bond dimension 1 with non-zero site tensors, any unit
    cell, both projector types: any number of CTMRG steps succeeds. *)
Theorem C13_product_states_run (R : Type) (randn : R -> forall n q : nat, 'M[C]_(n, q) * R) lqr lsvd fsvd (cfg : pconfig C) pt
    nx ny p (st : site -> seq C) noise (rand : site -> tensor) (n : Mover.net tensor) steps r :
  svd_type cfg = "full-rank" -> full_svd_spec fsvd -> (0 < pchi cfg)%N -> 0 <= svd_cutoff cfg -> svd_cutoff cfg < 1 ->
  (forall s, in_cell nx ny s -> [/\ shape (rand s) = [:: 1; 1; 1; 1; p]%N, (size (st s) <= p)%N & has_entry 1 p (st s) noise (rand s)]) ->
  (forall s, in_cell nx ny s -> exists2 t, init_site 1 p (st s) noise (rand s) = Ok t & n s = site_slots t) ->
  exists n' r', run_ctmrg randn lqr lsvd fsvd cfg pt nx ny steps (n, r) = Ok (n', r') /\
    fits nx ny 1 p (fun _ _ => 1%N) n'.
Proof.
move=> Ht Sp Hchi H0 H1 Hr Hn.
have On : one_net nx ny p n.
  move=> s Hs; have [S1 S2 S3] := Hr s Hs; have [t Et En] := Hn s Hs.
  have [A [Cs [Es [E [SA' NA] _ HK]]]] := C56_initial_site S1 S2 S3.
  move: Et; rewrite E => -[Et]; rewrite En -Et /=.
  have OA : oneA p A.
    split=> //; case: (boolP (has (fun q => at_ A [:: 0; 0; 0; 0; q]%N != 0) (iota 0 p))).
      by move=> /hasP[q]; rewrite mem_iota add0n => /andP[_ Hq] N; exists q.
    move=> /hasPn Z; have : norm A = 0; last by rewrite NA => /eqP; rewrite oner_eq0.
    apply/eqP; rewrite sqrtC_eq0 /sqnorm; apply/eqP; apply: big1_seq => i /andP[_]; rewrite mem_indices SA'.
    move=> /in_range5[a [b [c [d [q [-> [Ha Hb Hc Hd Hq]]]]]]].
    move: Ha Hb Hc Hd; rewrite !ltnS !leqn0 => /eqP-> /eqP-> /eqP-> /eqP->.
    have := Z q; rewrite mem_iota add0n Hq /= => /(_ isT); rewrite negbK => /eqP->.
    by rewrite normr0 expr0n.
  split=> // k Hk; have [[SC' _ SE' _] [[c c0 Vc] [e e0 Ve]]] := HK k Hk.
  have [q Hq Nq] : exists2 q, (q < p)%N & turned A k 0 0 0 0 q != 0.
    by case: OA => _ [q Hq N]; exists q => //; case: k Hk {HK SC' SE' Vc Ve} => [|[|[|[|k]]]].
  have P : 0 < \sum_(q < p) turned A k 0 0 0 0 q * (turned A k 0 0 0 0 q)^*.
    by apply: (@sumo_gt0 _ _ _ (Ordinal Hq)) => [i|]; [apply: mulc_ge0|apply: mulc_gt0].
  split; split=> //.
    by have := Vc 0%N 0%N 0%N 0%N isT isT isT isT; rewrite !big_ord1 /= => ->; rewrite mulf_neq0 ?lt0r_neq0.
  by have := Ve 0%N 0%N 0%N 0%N 0%N 0%N isT isT isT isT isT isT; rewrite !big_ord1 /= => ->; rewrite mulf_neq0 ?lt0r_neq0.
have [[n' r'] [E O]] := ctmrg_one randn lqr lsvd Ht Sp Hchi H0 H1 pt steps r On.
exists n', r'; split=> // s Hs; have [[SA' _] H] := O s Hs; split=> // k Hk.
by have [[-> _] [-> _]] := H k Hk.
Qed.

(** such a network: all spins in the first state *)
Definition up_net : Mover.net tensor := fun _ => site_slots
  (Tensor [:: 1; 1; 1; 1; 2]%N (fun i => if nth 0%N i 4 == 0%N then 1 else 0),
   nseq 4 (Tensor [:: 1; 1]%N (fun _ => 1)), nseq 4 (Tensor [:: 1; 1; 1; 1]%N (fun _ => 1))).

(** the SVD used above exists *)
Example C13_runs_instance nx ny : exists n' (r' : unit),
  run_ctmrg (fun r _ _ => (0, r)) (@some_qr C) (@some_thin_svd C) (@some_full_svd C)
    (PConfig "full-rank" 0 2 2 3) Full nx ny 10
    (up_net, tt) = Ok (n', r').
Proof.
have := @ctmrg_one C unit (fun r _ _ => (0, r)) (@some_qr C) (@some_thin_svd C) (@some_full_svd C)
  (PConfig "full-rank" 0 2 2 3) erefl (@some_full_svd_spec C) isT.
move=> /(_ (Order.POrderTheory.lexx 0) ltr01 Full nx ny 2%N 10%N) H.
have O : one_net nx ny 2 up_net; last by have [[n' r'] [E _]] := H _ tt O; exists n', r'; rewrite -E.
move=> s Hs; split.
  by split=> //; exists 0%N => //=; rewrite oner_eq0.
by case=> [|[|[|[|k]]]] // _; do 2!split=> //=; rewrite oner_eq0.
Qed.
End Runs.

Print Assumptions C56_initial_site.
Print Assumptions C56_initial_fits.
Print Assumptions C56_errors.
Print Assumptions C13_moves_never_mismatch.
Print Assumptions C14_boundary_dimension.
Print Assumptions C15_kept_half_full_rank.
Print Assumptions C15_kept_full_full_rank.
Print Assumptions C15_kept_half_rsvd.
Print Assumptions C15_kept_full_rsvd.
Print Assumptions C13_product_states_run.
