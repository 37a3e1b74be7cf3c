(** The initial tensors of a site. *)
From Coq Require Import String Ascii.
From mathcomp Require Import all_ssreflect all_algebra.
From Verif Require Import Base Lattice LatticeFacts Mover Tensor TN Rdm RdmFacts Fits Linalg Mat Rsvd Renorm.
Set Implicit Arguments.
Unset Strict Implicit.
Unset Printing Implicit Defensive.
Import GRing.Theory Num.Theory.
Local Open Scope ring_scope.
Local Open Scope string_scope.

Section Init.
Variable C : numClosedFieldType.
Notation tensor := (tensor C).

Lemma sqnorm_ge0 (t : tensor) : 0 <= sqnorm t.
Proof. by apply: sumr_ge0 => i _; rewrite exprn_ge0. Qed.

Lemma norm_ge0 (t : tensor) : 0 <= norm t.
Proof. by rewrite sqrtC_ge0 sqnorm_ge0. Qed.

Lemma norm_eq0 (t : tensor) : norm t = 0 -> forall i, in_range (shape t) i -> at_ t i = 0.
Proof.
move/eqP; rewrite sqrtC_eq0 psumr_eq0 => [/allP H i Hi|i _]; last by rewrite exprn_ge0.
have := H i; rewrite mem_indices Hi => /(_ isT) /=; rewrite expf_eq0 normr_eq0 /=; exact/eqP.
Qed.

Lemma sqnorm_tscale c (t : tensor) : sqnorm (tscale c t) = `|c| ^+ 2 * sqnorm t.
Proof. by rewrite /sqnorm big_distrr /=; apply: eq_bigr => i _; rewrite normrM exprMn. Qed.

(** dividing a tensor by its norm *)
Lemma tdiv_norm (t : tensor) i : in_range (shape t) i -> at_ t i != 0 ->
  [/\ tdiv t (norm t) = Ok (tscale (norm t)^-1 t), 0 < (norm t)^-1 & norm (tscale (norm t)^-1 t) = 1].
Proof.
move=> Hi Ni; have N : norm t != 0 by apply: contra_neq Ni => Z; apply: norm_eq0 Hi.
have P : 0 < (norm t)^-1 by rewrite invr_gt0 lt0r N norm_ge0.
split=> //; first by rewrite /tdiv (negbTE N).
rewrite {1}/norm sqnorm_tscale ger0_norm ?Order.POrderTheory.ltW // -(sqrtCK (sqnorm t)) -/(norm t).
by rewrite -exprMn mulVf // expr1n sqrtC1.
Qed.

(** entry of the site tensor turned by k: the leg k takes the role of the left leg *)
Definition turned (a : tensor) (k l u r d q : nat) : C :=
  match k with
  | 0 => at_ a [:: l; u; r; d; q]
  | 1 => at_ a [:: d; l; u; r; q]
  | 2 => at_ a [:: r; d; l; u; q]
  | _ => at_ a [:: u; r; d; l; q]
  end.

Lemma bperm_turned (a : tensor) k l u r d q : (k < 4)%N -> at_ (bond_permute k a) [:: l; u; r; d; q] = turned a k l u r d q.
Proof. by case: k => [|[|[|[|k]]]]. Qed.

Lemma bperm_shape' (a : tensor) k D p : (k < 4)%N -> shape a = [:: D; D; D; D; p] -> shape (bond_permute k a) = [:: D; D; D; D; p].
Proof. by move=> Hk Ha; rewrite /= Ha; case: k Hk => [|[|[|[|k]]]]. Qed.

Lemma in_range5 (d1 d2 d3 d4 d5 : nat) idx : in_range [:: d1; d2; d3; d4; d5] idx ->
  exists a b c d e, idx = [:: a; b; c; d; e] /\ [/\ a < d1, b < d2, c < d3, d < d4 & e < d5]%N.
Proof.
case: idx => [|a [|b [|c [|d [|e [|f l]]]]]] //=; rewrite ?andbF // andbT.
by move=> /and5P[H1 H2 H3 H4 H5]; exists a, b, c, d, e.
Qed.

(** some entry of the turned tensor is non-zero *)
Lemma turned_neq0 (a : tensor) k D p : (k < 4)%N -> shape a = [:: D; D; D; D; p] ->
  (exists2 i, in_range (shape a) i & at_ a i != 0) ->
  exists l u r d q, turned a k l u r d q != 0 /\ [/\ l < D, u < D, r < D, d < D & q < p]%N.
Proof.
move=> Hk Ha [i]; rewrite Ha => /in_range5[x0 [x1 [x2 [x3 [q [-> [H0 H1 H2 H3 Hq]]]]]]] N.
case: k Hk => [|[|[|[|k]]]] // _.
- by exists x0, x1, x2, x3, q.
- by exists x1, x2, x3, x0, q.
- by exists x2, x3, x0, x1, q.
- by exists x3, x0, x1, x2, q.
Qed.

Lemma sumo_gt0 n (F : 'I_n -> C) i : (forall i, 0 <= F i) -> 0 < F i -> 0 < \sum_i F i.
Proof.
move=> G Fi; rewrite (bigD1 i) //= ltr_paddr //.
by apply: sumr_ge0 => j _; apply: G.
Qed.

Lemma mulc_gt0 (x : C) : x != 0 -> 0 < x * x^*.
Proof. by move=> N; rewrite -normCK exprn_gt0 // normr_gt0. Qed.
Lemma mulc_ge0 (x : C) : 0 <= x * x^*.
Proof. by rewrite -normCK exprn_ge0. Qed.

Lemma corner_flat (ak : tensor) D p : shape ak = [:: D; D; D; D; p] ->
  exists t, [/\ einsum "lurdp,luRDp->dDrR" [:: ak; conj ak] = Ok t, shape t = [:: D; D; D; D] &
    forall d D' r R', at_ t [:: d; D'; r; R'] =
      sumn D (fun l => sumn D (fun u => sumn p (fun q => at_ ak [:: l; u; r; d; q] * (at_ ak [:: l; u; R'; D'; q])^* )))].
Proof. by move=> Hs; rewrite /einsum /= Hs /= /dims_ok /= !eqxx /=; eexists; split. Qed.

Lemma edge_flat (ak : tensor) D p : shape ak = [:: D; D; D; D; p] ->
  exists t, [/\ einsum "lurdp,LuRDp->lLrRdD" [:: ak; conj ak] = Ok t, shape t = [:: D; D; D; D; D; D] &
    forall l L r R' d D', at_ t [:: l; L; r; R'; d; D'] =
      sumn D (fun u => sumn p (fun q => at_ ak [:: l; u; r; d; q] * (at_ ak [:: L; u; R'; D'; q])^* ))].
Proof. by move=> Hs; rewrite /einsum /= Hs /= /dims_ok /= !eqxx /=; eexists; split. Qed.

Lemma reshape_at (t : tensor) sh : numel sh = numel (shape t) ->
  exists t', [/\ reshape t sh = Ok t', shape t' = sh &
    forall i i', in_range (shape t) i -> ravel sh i' = ravel (shape t) i -> at_ t' i' = at_ t i].
Proof.
move=> E; rewrite /reshape E eqxx; eexists; split=> // i i' Hi Hr /=.
by rewrite Hr ravelK.
Qed.

Lemma pair_lt x y D : (x < D)%N -> (y < D)%N -> (x * D + y < D * D)%N.
Proof.
move=> Hx Hy; apply: leq_trans (_ : (x.+1 * D <= _)%N); last by rewrite leq_mul2r Hx orbT.
by rewrite mulSn addnC ltn_add2r.
Qed.

(** the corner: the site tensor and its conjugate, joined over two legs and the
    physical one, normalised *)
Lemma corner_ok (a : tensor) k D p : (k < 4)%N -> shape a = [:: D; D; D; D; p] ->
  (exists2 i, in_range (shape a) i & at_ a i != 0) ->
  exists t, [/\ initial_corner D k a = Ok t, shape t = [:: D * D; D * D]%N, norm t = 1 &
    exists2 c, 0 < c & forall d D' r R', (d < D)%N -> (D' < D)%N -> (r < D)%N -> (R' < D)%N ->
      at_ t [:: d * D + D'; r * D + R']%N =
      c * \sum_(l < D) \sum_(u < D) \sum_(q < p) turned a k l u r d q * (turned a k l u R' D' q)^*].
Proof.
move=> Hk Ha Nz; rewrite /initial_corner.
have [ck [-> Sk Vk]] := corner_flat (bperm_shape' Hk Ha).
have [|c2 [E2 S2 V2]] := @reshape_at ck [:: D * D; D * D]%N; first by rewrite Sk /= !muln1 !mulnA.
rewrite [bind (Ok _) _]/bind E2 [bind (Ok _) _]/bind.
have W d D' r R' : (d < D)%N -> (D' < D)%N -> (r < D)%N -> (R' < D)%N ->
    at_ c2 [:: d * D + D'; r * D + R']%N =
    \sum_(l < D) \sum_(u < D) \sum_(q < p) turned a k l u r d q * (turned a k l u R' D' q)^*.
  move=> Hd HD Hr HR; rewrite (V2 [:: d; D'; r; R']); last 2 first.
  - by rewrite Sk /= Hd HD Hr HR.
  - by rewrite Sk /= !muln1 !addn0 mulnDl -!mulnA -!addnA.
  rewrite Vk /sumn; apply: eq_bigr => l _; apply: eq_bigr => u _; apply: eq_bigr => q _.
  by rewrite -!bperm_turned.
have [l [u [r [d [q [N [Hl Hu Hr Hd Hq]]]]]]] := turned_neq0 Hk Ha Nz.
have I : in_range (shape c2) [:: d * D + d; r * D + r]%N by rewrite S2 /= !pair_lt.
have P : at_ c2 [:: d * D + d; r * D + r]%N != 0.
  apply: lt0r_neq0; rewrite W //.
  have G l' u' q' : 0 <= turned a k l' u' r d q' * (turned a k l' u' r d q')^* by apply: mulc_ge0.
  apply: (sumo_gt0 (i := Ordinal Hl)) => [i|]; first by do 2!apply: sumr_ge0 => ? _.
  apply: (sumo_gt0 (i := Ordinal Hu)) => [i|]; first by apply: sumr_ge0 => ? _.
  by apply: (sumo_gt0 (i := Ordinal Hq)) => //; apply: mulc_gt0.
have [-> P1 N1] := tdiv_norm I P; eexists; split=> //; exists (norm c2)^-1 => // d1 D1 r1 R1 H1 H2 H3 H4.
by rewrite -W.
Qed.

(** the edge: joined over one leg and the physical one *)
Lemma edge_ok (a : tensor) k D p : (k < 4)%N -> shape a = [:: D; D; D; D; p] ->
  (exists2 i, in_range (shape a) i & at_ a i != 0) ->
  exists t, [/\ initial_edge D k a = Ok t, shape t = [:: D * D; D * D; D; D]%N, norm t = 1 &
    exists2 c, 0 < c & forall l L r R' d D', (l < D)%N -> (L < D)%N -> (r < D)%N -> (R' < D)%N -> (d < D)%N -> (D' < D)%N ->
      at_ t [:: l * D + L; r * D + R'; d; D']%N =
      c * \sum_(u < D) \sum_(q < p) turned a k l u r d q * (turned a k L u R' D' q)^*].
Proof.
move=> Hk Ha Nz; rewrite /initial_edge.
have [ck [-> Sk Vk]] := edge_flat (bperm_shape' Hk Ha).
have [|c2 [E2 S2 V2]] := @reshape_at ck [:: D * D; D * D; D; D]%N; first by rewrite Sk /= !muln1 !mulnA.
rewrite [bind (Ok _) _]/bind E2 [bind (Ok _) _]/bind.
have W l L r R' d D' : (l < D)%N -> (L < D)%N -> (r < D)%N -> (R' < D)%N -> (d < D)%N -> (D' < D)%N ->
    at_ c2 [:: l * D + L; r * D + R'; d; D']%N =
    \sum_(u < D) \sum_(q < p) turned a k l u r d q * (turned a k L u R' D' q)^*.
  move=> Hl HL Hr HR Hd HD; rewrite (V2 [:: l; L; r; R'; d; D']); last 2 first.
  - by rewrite Sk /= Hd HD Hr HR Hl HL.
  - by rewrite Sk /= !muln1 !addn0 !mulnDl -!mulnA -!addnA.
  rewrite Vk /sumn; apply: eq_bigr => u _; apply: eq_bigr => q _.
  by rewrite -!bperm_turned.
have [l [u [r [d [q [N [Hl Hu Hr Hd Hq]]]]]]] := turned_neq0 Hk Ha Nz.
have I : in_range (shape c2) [:: l * D + l; r * D + r; d; d]%N by rewrite S2 /= !pair_lt ?Hd.
have P : at_ c2 [:: l * D + l; r * D + r; d; d]%N != 0.
  apply: lt0r_neq0; rewrite W //.
  have G u' q' : 0 <= turned a k l u' r d q' * (turned a k l u' r d q')^* by apply: mulc_ge0.
  apply: (sumo_gt0 (i := Ordinal Hu)) => [i|]; first by apply: sumr_ge0 => ? _.
  by apply: (sumo_gt0 (i := Ordinal Hq)) => //; apply: mulc_gt0.
have [-> P1 N1] := tdiv_norm I P; eexists; split=> //; exists (norm c2)^-1 => // l1 L1 r1 R1 d1 D1 H1 H2 H3 H4 H5 H6.
by rewrite -W.
Qed.

(** the site tensor: noise plus the product state, normalised *)
Definition site_raw (site_state : seq C) (noise : C) (rand : tensor) (l u r d q : nat) : C :=
  noise * at_ rand [:: l; u; r; d; q] +
  (if [&& l == 0, u == 0, r == 0 & d == 0]%N then nth 0 site_state q else 0).

Lemma site_ok bD pD (st : seq C) noise (rand : tensor) : shape rand = [:: bD; bD; bD; bD; pD] ->
  (size st <= pD)%N -> (exists l u r d q, [/\ l < bD, u < bD, r < bD, d < bD & q < pD]%N /\ site_raw st noise rand l u r d q != 0) ->
  exists a, [/\ initialize_site_tensor bD pD st noise rand = Ok a, shape a = [:: bD; bD; bD; bD; pD], norm a = 1 &
    exists2 c, 0 < c & forall l u r d q, (q < pD)%N -> at_ a [:: l; u; r; d; q] = c * site_raw st noise rand l u r d q].
Proof.
move=> Hs Hz [l [u [r [d [q [[Hl Hu Hr Hd Hq] N]]]]]]; rewrite /initialize_site_tensor Hz (leq_ltn_trans (leq0n l) Hl) /=.
set t := Tensor _ _.
have I : in_range (shape t) [:: l; u; r; d; q] by rewrite /= Hs /= Hl Hu Hr Hd Hq.
have V l' u' r' d' q' : at_ t [:: l'; u'; r'; d'; q'] = site_raw st noise rand l' u' r' d' q'.
  by rewrite /t /site_raw /= !eqseq_cons eqxx andbT.
have [|-> P1 N1] := tdiv_norm I; first by rewrite V.
eexists; split=> //; exists (norm t)^-1 => // l' u' r' d' q' Hq'.
by rewrite -V.
Qed.
End Init.
