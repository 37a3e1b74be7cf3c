(** Properties C48, C49: the norm tensor. *)
From Coq Require Import String Ascii.
From mathcomp Require Import all_ssreflect all_algebra.
From Verif Require Import Base Lattice LatticeFacts Mover Tensor TN Rdm RdmFacts Fits P09_Rdm FullUpdate NormFacts.
Set Implicit Arguments.
Unset Strict Implicit.
Unset Printing Implicit Defensive.
Import GRing.Theory Num.Theory.
Local Open Scope ring_scope.
Local Open Scope string_scope.

(** C48.  Bond of direction k from s1 to s2 on a network that fits together.
    For every way of writing the two site tensors, turned by k, as an outer part
    (any a1q, a2q of the right shape, isometric or not) times a reduced tensor: the
    norm tensor contracted with the reduced tensors on the ket layer and their
    conjugates on the bra layer, physical legs open, is the two-site density
    matrix that RDM computes. *)
Theorem C48_norm_is_rdm (C : numClosedFieldType) (nx ny D p k y1 y2 : nat) chi (n : Mover.net (tensor C)) (s1 : site)
    (empty : nat -> tensor C) (a1q a1r a2q a2r a1 a2 : tensor C) :
  fits nx ny D p chi n -> in_cell nx ny s1 -> (k < 4)%N ->
  let s2 := nbr nx ny k s1 in
  shape a1q = [:: D; D; D; y1] -> shape a1r = [:: y1; D; p] ->
  shape a2q = [:: D; D; D; y2] -> shape a2r = [:: y2; D; p] ->
  recompose_site_tensors a1q a1r a2q a2r = Ok (a1, a2) ->
  teq a1 (bond_permute k (n s1 SA)) -> teq a2 (bond_permute k (n s2 SA)) ->
  exists N rho f, [/\ build_norm_tensor n (Bond s1 s2 k) a1q a2q = Ok N,
    build_bond_rdm empty n (Bond s1 s2 k) = Ok rho,
    einsum "yxYX,yhp,xhq,YHP,XHQ->PQpq" [:: N; a1r; a2r; conj a1r; conj a2r] = Ok f & teq rho f].
Proof.
move=> Hf Hs1 Hk s2 Hq1 Hr1 Hq2 Hr2 Hrec T1 T2.
have [dd [C2k E2k E1k C1k1 [E1k1 C1k2 E1k2 E2k2 [C2k3 E2k3 HA1 HA2]]]] := fits_bond Hf Hs1 Hk.
have [N [u [f [EN Eu Ef Tf]]]] := norm_rdm C2k E2k E1k C1k1 E1k1 C1k2 E1k2 E2k2 C2k3 E2k3 Hq1 Hq2 Hr1 Hr2 Hrec T1 T2.
have [rho [g [u' [Er _ Eu' Tr [Tu _]]]]] := C32_bond_rdm empty Hf Hs1 Hk.
rewrite Eu in Eu'; case: Eu' => Eu'; subst u'.
exists N, rho, f; split=> //.
  by rewrite /build_norm_tensor /= addn0 (modn_small Hk); exact: EN.
case: Tr => S1 H1; case: Tu => S2 H2; case: Tf => S3 H3; split; first by rewrite S1 -S2.
by move=> i Hi; rewrite H1 // -H2 ?S2 -?S1 // H3 // S2 -S1.
Qed.

(** C48, gate terms: the overlap of the reduced tensors with the gate-applied
    product in the metric of the norm tensor is the value measure.py would
    compute for the gate as a two-site operator. *)
Theorem C48_gate_terms (C : numClosedFieldType) (nx ny D p k y1 y2 : nat) chi (n : Mover.net (tensor C)) (s1 : site)
    (a1q a1r a2q a2r a1 a2 G : tensor C) :
  fits nx ny D p chi n -> in_cell nx ny s1 -> (k < 4)%N ->
  let s2 := nbr nx ny k s1 in
  shape a1q = [:: D; D; D; y1] -> shape a1r = [:: y1; D; p] ->
  shape a2q = [:: D; D; D; y2] -> shape a2r = [:: y2; D; p] -> shape G = [:: p; p; p; p] ->
  recompose_site_tensors a1q a1r a2q a2r = Ok (a1, a2) ->
  teq a1 (bond_permute k (n s1 SA)) -> teq a2 (bond_permute k (n s2 SA)) ->
  exists N u a12 a12g f f', [/\ build_norm_tensor n (Bond s1 s2 k) a1q a2q = Ok N,
    (forall empty, exists rho, build_bond_rdm empty n (Bond s1 s2 k) = Ok rho /\ teq rho u),
    einsum "yup,xuq->yxpq" [:: a1r; a2r] = Ok a12, einsum "yxpq,pqrs->yxrs" [:: a12; G] = Ok a12g &
    [/\ einsum "yxYX,yxrs,YXrs->" [:: N; a12g; conj a12] = Ok f,
      einsum "PQpq,pqPQ->" [:: u; G] = Ok f' & at_ f [::] = at_ f' [::]]].
Proof.
move=> Hf Hs1 Hk s2 Hq1 Hr1 Hq2 Hr2 HG Hrec T1 T2.
have [dd [C2k E2k E1k C1k1 [E1k1 C1k2 E1k2 E2k2 [C2k3 E2k3 HA1 HA2]]]] := fits_bond Hf Hs1 Hk.
have [N [u [a12 [a12g [f [f' [EN Eu Ea Eg [Ef Ef' E]]]]]]]] :=
  norm_gate C2k E2k E1k C1k1 E1k1 C1k2 E1k2 E2k2 C2k3 E2k3 Hq1 Hq2 Hr1 Hr2 HG Hrec T1 T2.
exists N, u, a12, a12g, f, f'; split=> //.
  by rewrite /build_norm_tensor /= addn0 (modn_small Hk); exact: EN.
move=> empty; have [rho [g [u' [Er _ Eu' [S1 H1] [[S2 H2] _]]]]] := C32_bond_rdm empty Hf Hs1 Hk.
rewrite Eu in Eu'; case: Eu' => Eu'; subst u'; exists rho; split=> //; split; first by rewrite S1 -S2.
by move=> i Hi; rewrite H1 // H2 // S2 -S1.
Qed.

(** C49.  Whatever the preallocated memory contains, the blocked and the
    unblocked norm tensor are equal; any reduced dimension y. *)
Theorem C49_blocked (C : numClosedFieldType) (empty : nat -> tensor C)
    (c12 e12 e11 c13 e13 a1q c21 e21 e24 c24 e23 a2q : tensor C) (n s t v w x o z a b u m r d g l y : nat) :
  shape c21 = [:: n; s] -> shape e21 = [:: s; t; u; u] -> shape e11 = [:: t; v; m; m] ->
  shape c12 = [:: v; w] -> shape e12 = [:: w; x; r; r] -> shape c13 = [:: x; o] ->
  shape e13 = [:: o; z; d; d] -> shape e23 = [:: z; a; g; g] -> shape c24 = [:: a; b] ->
  shape e24 = [:: b; n; l; l] -> shape a1q = [:: r; d; m; y] -> shape a2q = [:: g; l; u; y] ->
  exists N N', [/\ norm_tensor_core c12 e12 e11 c13 e13 a1q c21 e21 e24 c24 e23 a2q = Ok N,
    norm_tensor_core_blocked empty c12 e12 e11 c13 e13 a1q c21 e21 e24 c24 e23 a2q = Ok N' & teq N N'].
Proof.
move=> H1 H2 H3 H4 H5 H6 H7 H8 H9 H10 H11 H12.
have [N [f [EN Ef Sf [S1 T1]]]] := norm_flat_eq H1 H2 H3 H4 H5 H6 H7 H8 H9 H10 H11 H12.
have [N' [f' [EN' Ef' [S2 T2]]]] := norm_blocked_flat H1 H2 H3 H4 H5 H6 H7 H8 H9 H10 H11 H12 empty erefl.
rewrite Ef in Ef'; case: Ef' => Ef'; subst f'.
exists N, N'; split=> //; split; first by rewrite S1 S2.
by move=> i Hi; rewrite T1 // T2 // S2 -S1.
Qed.

(** the blocks for a reduced dimension not divisible by the block size *)
Example C49_example : block_indices 18 8 =
  [:: (0, 0, 8, 8); (0, 8, 8, 16); (0, 16, 8, 18); (8, 0, 16, 8); (8, 8, 16, 16); (8, 16, 16, 18);
      (16, 0, 18, 8); (16, 8, 18, 16); (16, 16, 18, 18)]%N.
Proof. by []. Qed.

(** C48 on the smallest network with complex entries: the hypotheses hold for the
    trivial decomposition *)
Example C48_example : forall C : numClosedFieldType,
  let c : tensor C := Tensor [:: 1; 1]%N (fun _ => 1) in
  let e : tensor C := Tensor [:: 1; 1; 1; 1]%N (fun _ => 1) in
  let a : tensor C := Tensor [:: 1; 1; 1; 1; 2]%N (fun idx => if nth 0%N idx 4 == 0%N then 3%:R else 4%:R * 'i) in
  let q : tensor C := Tensor [:: 1; 1; 1; 1]%N (fun _ => 1) in
  let r : tensor C := Tensor [:: 1; 1; 2]%N (fun idx => if nth 0%N idx 2 == 0%N then 3%:R else 4%:R * 'i) in
  let n : Mover.net (tensor C) := fun _ sl => match sl with SA => a | SC _ => c | SE _ => e end in
  fits 1 1 1 2 (fun _ _ => 1%N) n /\
  exists a1 a2, recompose_site_tensors q r q r = Ok (a1, a2) /\ teq a1 (bond_permute 2 a) /\ teq a2 (bond_permute 2 a).
Proof.
move=> C c e a q r n; split; first by move=> s _; split=> // k _.
eexists _, _; split; first reflexivity.
split; (split=> // -[|i0 [|i1 [|i2 [|i3 [|j [|? ?]]]]]] //=; rewrite ?andbF // /factor /sumn big_ord1 /= mul1r //).
Qed.

Print Assumptions C48_norm_is_rdm.
Print Assumptions C48_gate_terms.
Print Assumptions C49_blocked.
