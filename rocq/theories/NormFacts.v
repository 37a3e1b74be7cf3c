(** Facts about the norm tensor. *)
From Coq Require Import String Ascii.
From mathcomp Require Import all_ssreflect all_algebra.
From Verif Require Import Base Lattice LatticeFacts Mover Tensor TN Rdm RdmFacts Fits FullUpdate.
Set Implicit Arguments.
Unset Strict Implicit.
Unset Printing Implicit Defensive.
Import GRing.Theory Num.Theory.
Local Open Scope ring_scope.
Local Open Scope string_scope.

(** the ring around the bond with the outer parts of the two sites, reduced legs
    y, k open: legs of a1q are right, down, up, reduced; of a2q down, left, up,
    reduced *)
Definition norm_flat : string := "ns,stuU,tvmM,vw,wxrR,xo,ozdD,zagG,ab,bnlL,rdmy,RDMY,gluk,GLUK->ykYK".

Section Norm.
Variable C : numClosedFieldType.
Variables (c12 e12 e11 c13 e13 a1q c21 e21 e24 c24 e23 a2q : tensor C).
Variables (n s t v w x o z a b u m r d g l y1 y2 : nat).
Hypotheses (Hc21 : shape c21 = [:: n; s]) (He21 : shape e21 = [:: s; t; u; u])
  (He11 : shape e11 = [:: t; v; m; m]) (Hc12 : shape c12 = [:: v; w]) (He12 : shape e12 = [:: w; x; r; r])
  (Hc13 : shape c13 = [:: x; o]) (He13 : shape e13 = [:: o; z; d; d]) (He23 : shape e23 = [:: z; a; g; g])
  (Hc24 : shape c24 = [:: a; b]) (He24 : shape e24 = [:: b; n; l; l])
  (Ha1 : shape a1q = [:: r; d; m; y1]) (Ha2 : shape a2q = [:: g; l; u; y2]).

Lemma norm_flat_eq :
  exists N f, [/\ norm_tensor_core c12 e12 e11 c13 e13 a1q c21 e21 e24 c24 e23 a2q = Ok N,
    einsum norm_flat (bond_ring c12 e12 e11 c13 e13 c21 e21 e24 c24 e23 ++ [:: a1q; conj a1q; a2q; conj a2q])%SEQ = Ok f,
    shape f = [:: y1; y2; y1; y2] & teq N f].
Proof using All.
tn_setup [:: n; s; t; v; w; x; o; z; a; b; u; m; r; d; g; l; y1; y2]
  [:: c21; e21; e11; c12; e12; c13; e13; e23; c24; e24; a1q; a2q].
rewrite /norm_tensor_core /norm_flat /bond_ring /cat.
repeat tn_einsum.
eexists _, _; split; [reflexivity|reflexivity| |tn_teq].
by match goal with H : rep _ _ _ ?t _ |- shape ?t = _ => case: H => -> _ end.
Qed.

(** one block *)
Lemma norm_block b00 b10 b01 b11 f :
  einsum norm_flat (bond_ring c12 e12 e11 c13 e13 c21 e21 e24 c24 e23 ++ [:: a1q; conj a1q; a2q; conj a2q])%SEQ = Ok f ->
  exists blk, [/\ (let! tmp_r1 := einsum "ab,bcrR->acrR" [:: c12; e12] in
    let! tmp_r1 := einsum "acrR,eauU->crReuU" [:: tmp_r1; e11] in
    let! tmp_r2 := einsum "ab,bfdD->afdD" [:: c13; e13] in
    let! tmp_l1 := einsum "ab,bcuU->acuU" [:: c21; e21] in
    let! tmp_l1 := einsum "acuU,ealL->cuUelL" [:: tmp_l1; e24] in
    let! tmp_l2 := einsum "ab,fadD->bfdD" [:: c24; e23] in
    let! tmp_r3 := einsum "crReuU,RDUY->creuDY" [:: tmp_r1; conj (slice_last a1q b00 b01)] in
    let! tmp_r3 := einsum "creuDY,rduy->ceDYdy" [:: tmp_r3; a1q] in
    let! n1_tmp := einsum "afdD,aeDYdy->feYy" [:: tmp_r2; tmp_r3] in
    let! tmp_l3 := einsum "cuUelL,DLUX->cuelXD" [:: tmp_l1; conj (slice_last a2q b10 b11)] in
    let! tmp_l3 := einsum "cuelXD,dlux->ceXDxd" [:: tmp_l3; a2q] in
    let! n2_tmp := einsum "bfdD,cbXDxd->fcXx" [:: tmp_l2; tmp_l3] in
    einsum "fcYy,fcXx->yxYX" [:: n1_tmp; n2_tmp]) = Ok blk,
  shape blk = [:: y1; y2; (b01 - b00)%N; (b11 - b10)%N] &
  forall k' o' i j, (k' < y1)%N -> (o' < y2)%N -> (i < y1)%N -> (j < y2)%N -> (b00 <= i < b01)%N -> (b10 <= j < b11)%N ->
    at_ blk [:: k'; o'; (i - b00)%N; (j - b10)%N] = at_ f [:: k'; o'; i; j]].
Proof using All.
have Hs1 : shape (slice_last a1q b00 b01) = [:: r; d; m; (b01 - b00)%N] by rewrite /= Ha1.
have Hs2 : shape (slice_last a2q b10 b11) = [:: g; l; u; (b11 - b10)%N] by rewrite /= Ha2.
tn_setup [:: n; s; t; v; w; x; o; z; a; b; u; m; r; d; g; l; y1; y2; (b01 - b00)%N; (b11 - b10)%N]
  [:: c21; e21; e11; c12; e12; c13; e13; e23; c24; e24; a1q; a2q; slice_last a1q b00 b01; slice_last a2q b10 b11].
rewrite /norm_flat /bond_ring /cat.
tn_einsum; move=> [Ef]; subst f.
do 13 tn_einsum.
match goal with
| Rf : rep _ _ _ ?f ?Nf, Rb : rep _ _ _ ?blk ?Nb |- exists b, [/\ Ok ?blk = Ok b, _ & forall i j k o, _ -> _ -> _ -> _ -> _ -> _ -> _ = at_ ?f _] =>
  let N' := eval vm_compute in (Net (nfree Nb) (nbound Nf) [seq (if f.1.2 then f.1.1.+2 else f.1.1, f.1.2, f.2) | f <- nfacs Nf]) in
  have {Rb} [Sb Hb] := rep_eq Rb (ltac:(vm_cast_no_check (erefl true)) : net_eq Nb N');
  move: Rf => [Sf Hf]; exists blk; split; [reflexivity | exact: Sb |]
end.
move=> k' o' i j Hk Ho Hi Hj /andP[I0 I1] /andP[J0 J1].
rewrite Hb ?Hf ?Sb ?Sf /= ?Hi ?Hj ?Hk ?Ho // ?ltn_sub2r ?(leq_ltn_trans I0) ?(leq_ltn_trans J0) //.
congr (_ * _); rewrite /ev; apply: eq_bigr => vv _; rewrite !big_cons !big_nil /fval /= !subnK //.
Qed.

Lemma norm_blocked_flat (empty : nat -> tensor C) : y1 = y2 ->
  exists N f, [/\ norm_tensor_core_blocked empty c12 e12 e11 c13 e13 a1q c21 e21 e24 c24 e23 a2q = Ok N,
    einsum norm_flat (bond_ring c12 e12 e11 c13 e13 c21 e21 e24 c24 e23 ++ [:: a1q; conj a1q; a2q; conj a2q])%SEQ = Ok f
    & teq N f].
Proof using All.
move=> Epq; rewrite /norm_tensor_core_blocked.
have [f [Ef Sf]] : exists f, einsum norm_flat (bond_ring c12 e12 e11 c13 e13 c21 e21 e24 c24 e23 ++ [:: a1q; conj a1q; a2q; conj a2q])%SEQ = Ok f /\
   shape f = [:: y1; y1; y1; y1].
  by have [_ [f [_ E S _]]] := norm_flat_eq; exists f; rewrite S -Epq.
have HB b00 b10 b01 b11 := norm_block b00 b10 b01 b11 Ef.
move: HB.
tn_setup [:: n; s; t; v; w; x; o; z; a; b; u; m; r; d; g; l; y1; y2]
  [:: c21; e21; e11; c12; e12; c13; e13; e23; c24; e24; a1q; a2q].
do 6 tn_einsum_keep.
rewrite /bind; cbv beta => HB; rewrite Ha1 [last _ _]/=; set BC := maxn _ _.
have HBC : (0 < BC)%N by rewrite /BC leq_max.
match goal with |- context [for_each ?bl ?body ?t] =>
  have [||rho [-> Sr Hr]] := @fill_loop C _ bl
  (fun b => let: (b00, b10, b01, b11) := b in [:: y1; y1; b01 - b00; b11 - b10]%N)
  (fun b idx => let: (b00, b10, b01, b11) := b in if idx is [:: p; q; i; j] then (b00 <= i < b01)%N && (b10 <= j < b11)%N else false)
  (fun b idx => let: (b00, b10, b01, b11) := b in if idx is [:: p; q; i; j] then [:: p; q; i - b00; j - b10]%N else idx)
  body (at_ f) t [:: y1; y1; y1; y1] end.
- by [].
- move=> [[[b00 b10] b01] b11] tt Hin Htt; have [blk [Eb Sb Hb]] := HB b00 b10 b01 b11.
  exists blk; split; [|by rewrite Sb Epq|].
    by move: Eb; do 6 (case: (einsum _ _) => // ?); move=> ->.
  case=> [//|k [//|o' [//|i [//|j [|//]]]]] /= /and5P[Hk Ho Hi Hj _] /andP[I J].
  by apply: Hb => //; rewrite -?Epq.
exists rho, f; split => //; rewrite /teq Sr Sf; split=> // idx Hi; apply: Hr => //; left.
have [k [o' [i [j [-> _ _ {}Hi Hj]]]]] := in_range4 Hi.
have [b00 [b10 [b01 [b11 [Hin I J _ _]]]]] := block_cover HBC Hi Hj.
by apply/hasP; exists (b00, b10, b01, b11) => //=; rewrite I J.
Qed.

(** the norm tensor contracted with reduced tensors on both layers is the density
    matrix of the recomposed sites *)
Lemma norm_rdm (a1r a2r a1 a2 A1 A2 : tensor C) (h p q : nat) :
  shape a1r = [:: y1; h; p] -> shape a2r = [:: y2; h; q] ->
  recompose_site_tensors a1q a1r a2q a2r = Ok (a1, a2) -> teq a1 A1 -> teq a2 A2 ->
  exists N rho f, [/\ norm_tensor_core c12 e12 e11 c13 e13 a1q c21 e21 e24 c24 e23 a2q = Ok N,
    bond_rdm_core c12 e12 e11 c13 e13 A1 c21 e21 e24 c24 e23 A2 = Ok rho,
    einsum "yxYX,yhp,xhq,YHP,XHQ->PQpq" [:: N; a1r; a2r; conj a1r; conj a2r] = Ok f & teq rho f].
Proof using All.
move=> Hr1 Hr2.
tn_setup [:: n; s; t; v; w; x; o; z; a; b; u; m; r; d; g; l; y1; y2; h; p; q]
  [:: c21; e21; e11; c12; e12; c13; e13; e23; c24; e24; a1q; a2q; a1r; a2r].
rewrite /norm_tensor_core /recompose_site_tensors /bond_rdm_core.
repeat tn_einsum; move=> [E1 E2]; rewrite -{}E1 -{}E2 => T1 T2.
match goal with R : rep _ _ _ ?t _, T : teq ?t A1 |- _ => have {T} Q1 := rep_of_teq R T end.
match goal with R : rep _ _ _ ?t _, T : teq ?t A2 |- _ => have {T} Q2 := rep_of_teq R T end.
repeat tn_einsum.
match goal with |- exists N rho f, [/\ Ok ?N' = _, Ok ?r = _, _ & _] => exists N', r end.
tn_einsum.
eexists; split; [reflexivity|reflexivity|reflexivity|tn_teq].
Qed.

(** and with the gate applied to the ket: the expectation value that measure.py
    would compute for the gate as operator *)
Lemma norm_gate (a1r a2r a1 a2 A1 A2 G : tensor C) (h p q : nat) :
  shape a1r = [:: y1; h; p] -> shape a2r = [:: y2; h; q] -> shape G = [:: p; q; p; q] ->
  recompose_site_tensors a1q a1r a2q a2r = Ok (a1, a2) -> teq a1 A1 -> teq a2 A2 ->
  exists N rho a12 a12g f f', [/\ norm_tensor_core c12 e12 e11 c13 e13 a1q c21 e21 e24 c24 e23 a2q = Ok N,
    bond_rdm_core c12 e12 e11 c13 e13 A1 c21 e21 e24 c24 e23 A2 = Ok rho,
    einsum "yup,xuq->yxpq" [:: a1r; a2r] = Ok a12, einsum "yxpq,pqrs->yxrs" [:: a12; G] = Ok a12g &
    [/\ einsum "yxYX,yxrs,YXrs->" [:: N; a12g; conj a12] = Ok f,
      einsum "PQpq,pqPQ->" [:: rho; G] = Ok f' & at_ f [::] = at_ f' [::]]].
Proof using All.
move=> Hr1 Hr2 HG.
tn_setup [:: n; s; t; v; w; x; o; z; a; b; u; m; r; d; g; l; y1; y2; h; p; q]
  [:: c21; e21; e11; c12; e12; c13; e13; e23; c24; e24; a1q; a2q; a1r; a2r; G].
rewrite /norm_tensor_core /recompose_site_tensors /bond_rdm_core.
repeat tn_einsum; move=> [E1 E2]; rewrite -{}E1 -{}E2 => T1 T2.
match goal with R : rep _ _ _ ?t _, T : teq ?t A1 |- _ => have {T} Q1 := rep_of_teq R T end.
match goal with R : rep _ _ _ ?t _, T : teq ?t A2 |- _ => have {T} Q2 := rep_of_teq R T end.
repeat tn_einsum.
match goal with |- exists N rho x _ _ _, [/\ Ok ?N' = _, Ok ?r = _, Ok ?z = _, _ & _] => exists N', r, z end.
tn_einsum.
match goal with |- exists x _ _, [/\ _, _, _, Ok ?z = _ & _] => exists z end.
repeat tn_einsum.
eexists _, _; split; [reflexivity|reflexivity|reflexivity|reflexivity|split; [reflexivity|reflexivity|]].
match goal with |- at_ ?a _ = at_ ?b _ => have [_ H] : teq a b by tn_teq end.
by apply: H; match goal with H : rep _ _ _ ?t _ |- is_true (in_range (shape ?t) _) => case: H => -> _ end.
Qed.
End Norm.
