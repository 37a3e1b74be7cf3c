(** Model of acetn/evolution/tensor_update.py (decompose/recompose) and of the
    norm tensor in acetn/evolution/full_update.py. *)
From Coq Require Import String Ascii.
From mathcomp Require Import all_ssreflect all_algebra.
From Verif Require Import Base Lattice Mover Tensor Rdm.
Set Implicit Arguments.
Unset Strict Implicit.
Unset Printing Implicit Defensive.
Import GRing.Theory Num.Theory.
Local Open Scope ring_scope.
Local Open Scope string_scope.

Section FullUpdate.
Variable C : numClosedFieldType.
Notation tensor := (tensor C).
Notation net := (Mover.net tensor).

(** tensor_update.py 71-75 *)
Definition recompose_site_tensors (a1q a1r a2q a2r : tensor) : res (tensor * tensor) :=
  let! a1 := einsum "rdux,xlp->lurdp" [:: a1q; a1r] in
  let! a2 := einsum "dlux,xrp->lurdp" [:: a2q; a2r] in
  Ok (a1, a2).

(** full_update.py 209-227 *)
Definition norm_tensor_core (c12 e12 e11 c13 e13 a1q c21 e21 e24 c24 e23 a2q : tensor) : res tensor :=
  let! tmp := einsum "ab,bcrR->acrR" [:: c12; e12] in
  let! tmp := einsum "acrR,eauU->crReuU" [:: tmp; e11] in
  let! tmp := einsum "crReuU,RDUY->creuDY" [:: tmp; conj a1q] in
  let! tmp := einsum "creuDY,rduy->ceDYdy" [:: tmp; a1q] in
  let! n1_tmp := einsum "ab,bfdD->afdD" [:: c13; e13] in
  let! n1_tmp := einsum "afdD,aeDYdy->feYy" [:: n1_tmp; tmp] in
  let! tmp := einsum "ab,bcuU->acuU" [:: c21; e21] in
  let! tmp := einsum "acuU,ealL->cuUelL" [:: tmp; e24] in
  let! tmp := einsum "cuUelL,DLUX->cuelXD" [:: tmp; conj a2q] in
  let! tmp := einsum "cuelXD,dlux->ceXDxd" [:: tmp; a2q] in
  let! n2_tmp := einsum "ab,fadD->bfdD" [:: c24; e23] in
  let! n2_tmp := einsum "bfdD,cbXDxd->fcXx" [:: n2_tmp; tmp] in
  einsum "fcYy,fcXx->yxYX" [:: n1_tmp; n2_tmp].

(** full_update.py 230-259; [empty] as in Rdm.v.  math.ceil(nD/4) is computed
    on naturals. *)
Definition norm_tensor_core_blocked (empty : nat -> tensor)
    (c12 e12 e11 c13 e13 a1q c21 e21 e24 c24 e23 a2q : tensor) : res tensor :=
  let nD := last 0%N (shape a1q) in
  let BC := maxn 8 ((nD + 3) %/ 4) in
  let! tmp_r1 := einsum "ab,bcrR->acrR" [:: c12; e12] in
  let! tmp_r1 := einsum "acrR,eauU->crReuU" [:: tmp_r1; e11] in
  let! tmp_r2 := einsum "ab,bfdD->afdD" [:: c13; e13] in
  let! tmp_l1 := einsum "ab,bcuU->acuU" [:: c21; e21] in
  let! tmp_l1 := einsum "acuU,ealL->cuUelL" [:: tmp_l1; e24] in
  let! tmp_l2 := einsum "ab,fadD->bfdD" [:: c24; e23] in
  for_each (block_indices nD BC) (fun '(b00, b10, b01, b11) n12 =>
    let! tmp_r3 := einsum "crReuU,RDUY->creuDY" [:: tmp_r1; conj (slice_last a1q b00 b01)] in
    let! tmp_r3 := einsum "creuDY,rduy->ceDYdy" [:: tmp_r3; a1q] in
    let! n1_tmp := einsum "afdD,aeDYdy->feYy" [:: tmp_r2; tmp_r3] in
    let! tmp_l3 := einsum "cuUelL,DLUX->cuelXD" [:: tmp_l1; conj (slice_last a2q b10 b11)] in
    let! tmp_l3 := einsum "cuelXD,dlux->ceXDxd" [:: tmp_l3; a2q] in
    let! n2_tmp := einsum "bfdD,cbXDxd->fcXx" [:: tmp_l2; tmp_l3] in
    let! v := einsum "fcYy,fcXx->yxYX" [:: n1_tmp; n2_tmp] in
    set_region n12 [:: nD; nD; b01 - b00; b11 - b10]%N
      (fun idx => if idx is [:: y; x; i; j] then (b00 <= i < b01)%N && (b10 <= j < b11)%N else false)
      (fun idx => if idx is [:: y; x; i; j] then [:: y; x; i - b00; j - b10]%N else idx) v)
    (Tensor [:: nD; nD; nD; nD] (at_ (empty nD))).

(** full_update.py 189-206 *)
Definition build_norm_tensor (n : net) (b : bond) (a1q a2q : tensor) : res tensor :=
  let s1 := b_s1 b in let s2 := b_s2 b in let k := b_k b in
  norm_tensor_core
    (n s1 (SC ((k + 1) %% 4)%N)) (n s1 (SE ((k + 1) %% 4)%N)) (n s1 (SE ((k + 0) %% 4)%N))
    (n s1 (SC ((k + 2) %% 4)%N)) (n s1 (SE ((k + 2) %% 4)%N)) a1q
    (n s2 (SC ((k + 0) %% 4)%N)) (n s2 (SE ((k + 0) %% 4)%N)) (n s2 (SE ((k + 3) %% 4)%N))
    (n s2 (SC ((k + 3) %% 4)%N)) (n s2 (SE ((k + 2) %% 4)%N)) a2q.
End FullUpdate.
