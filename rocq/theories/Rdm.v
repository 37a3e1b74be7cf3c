(** Model of acetn/measurement/rdm.py: reduced density matrices. *)
From Coq Require Import String Ascii.
From mathcomp Require Import all_ssreflect all_algebra.
From Verif Require Import Base Lattice Mover Tensor.
Set Implicit Arguments.
Unset Strict Implicit.
Unset Printing Implicit Defensive.
Import GRing.Theory Num.Theory.
Local Open Scope ring_scope.
Local Open Scope string_scope.

Section Rdm.
Variable C : numClosedFieldType.
Notation tensor := (tensor C).
Notation net := (Mover.net tensor).

(** site_tensor.py 150: A.permute([(i+k)%4 for i in range(4)] + [4]) *)
Definition bond_permute (k : nat) (a : tensor) : tensor :=
  permute a ([seq ((i + k) %% 4)%N | i <- iota 0 4] ++ [:: 4%N]).

(** rdm.py 58-67 *)
Definition site_rdm (c1 c2 c3 c4 e1 e2 e3 e4 a1 : tensor) : res tensor :=
  let! tmp1 := einsum "ab,bclL->aclL" [:: c4; e4] in
  let! tmp1 := einsum "aclL,eadD->clLedD" [:: tmp1; e3] in
  let! tmp1 := einsum "clLedD,LURDP->cledURP" [:: tmp1; conj a1] in
  let! tmp2 := einsum "ab,bcuU->acuU" [:: c1; e1] in
  let! tmp3 := einsum "ab,carR->bcrR" [:: c3; e2] in
  let! tmp3 := einsum "ec,bcrR->ebrR" [:: c2; tmp3] in
  let! tmp3 := einsum "ebrR,aeuU->brRauU" [:: tmp3; tmp2] in
  let! tmp3 := einsum "erRcuU,cledURP->ruldP" [:: tmp3; tmp1] in
  einsum "ruldP,lurdp->Pp" [:: tmp3; a1].

(** rdm.py 48-56 *)
Definition build_site_rdm (n : net) (s : site) : res tensor :=
  site_rdm (n s (SC 0)) (n s (SC 1)) (n s (SC 2)) (n s (SC 3))
           (n s (SE 0)) (n s (SE 1)) (n s (SE 2)) (n s (SE 3)) (n s SA).

(** rdm.py 102-120 *)
Definition bond_rdm_core (c12 e12 e11 c13 e13 a1 c21 e21 e24 c24 e23 a2 : tensor) : res tensor :=
  let! tmp := einsum "ab,bcrR->acrR" [:: c12; e12] in
  let! tmp := einsum "acrR,eauU->crReuU" [:: tmp; e11] in
  let! tmp := einsum "crReuU,LURDP->creuLDP" [:: tmp; conj a1] in
  let! tmp := einsum "creuLDP,lurdp->ceLDPldp" [:: tmp; a1] in
  let! rdm1_tmp := einsum "ab,bfdD->afdD" [:: c13; e13] in
  let! rdm1_tmp := einsum "afdD,acLDPldp->fcLPlp" [:: rdm1_tmp; tmp] in
  let! tmp := einsum "ab,bcuU->acuU" [:: c21; e21] in
  let! tmp := einsum "acuU,ealL->cuUelL" [:: tmp; e24] in
  let! tmp := einsum "cuUelL,LURDQ->cuelRDQ" [:: tmp; conj a2] in
  let! tmp := einsum "cuelRDQ,lurdq->ceRDQrdq" [:: tmp; a2] in
  let! rdm2_tmp := einsum "ae,fadD->efdD" [:: c24; e23] in
  let! rdm2_tmp := einsum "efdD,ceRDQrdq->fcRQrq" [:: rdm2_tmp; tmp] in
  einsum "fcRPrp,fcRQrq->PQpq" [:: rdm1_tmp; rdm2_tmp].

(** range(0, n, BC) and the block list of rdm.py 136-138 / full_update.py 234-236 *)
Definition block_range (n BC : nat) : seq nat := [seq (i * BC)%N | i <- iota 0 ((n + BC - 1) %/ BC)].
Definition block_indices (n BC : nat) : seq (nat * nat * nat * nat) :=
  flatten [seq [seq (b00, b10, minn n (b00 + BC), minn n (b10 + BC)) | b10 <- block_range n BC] | b00 <- block_range n BC].

(** rdm.py 123-154.  [empty] is the content of the memory returned by
    torch.empty; its entries are arbitrary. *)
Definition bond_rdm_core_blocked (empty : nat -> tensor)
    (c12 e12 e11 c13 e13 a1 c21 e21 e24 c24 e23 a2 : tensor) : res tensor :=
  let! tmp_r1 := einsum "ab,bcrR->acrR" [:: c12; e12] in
  let! tmp_r1 := einsum "acrR,eauU->crReuU" [:: tmp_r1; e11] in
  let! tmp_r2 := einsum "ab,bfdD->afdD" [:: c13; e13] in
  let! tmp_l1 := einsum "ab,bcuU->acuU" [:: c21; e21] in
  let! tmp_l1 := einsum "acuU,ealL->cuUelL" [:: tmp_l1; e24] in
  let! tmp_l2 := einsum "ae,fadD->efdD" [:: c24; e23] in
  let pD := last 0%N (shape a1) in
  let BC := 1%N in
  for_each (block_indices pD BC) (fun '(b00, b10, b01, b11) bond_rdm =>
    let! tmp_r3 := einsum "crReuU,LURDP->creuLDP" [:: tmp_r1; conj (slice_last a1 b00 b01)] in
    let! tmp_r3 := einsum "creuLDP,lurdp->ceLDPldp" [:: tmp_r3; a1] in
    let! rdm1_tmp := einsum "afdD,acLDPldp->fcLPlp" [:: tmp_r2; tmp_r3] in
    let! tmp_l3 := einsum "cuUelL,LURDQ->cuelRDQ" [:: tmp_l1; conj (slice_last a2 b10 b11)] in
    let! tmp_l3 := einsum "cuelRDQ,lurdq->ceRDQrdq" [:: tmp_l3; a2] in
    let! rdm2_tmp := einsum "efdD,ceRDQrdq->fcRQrq" [:: tmp_l2; tmp_l3] in
    let! v := einsum "fcRPrp,fcRQrq->PQpq" [:: rdm1_tmp; rdm2_tmp] in
    set_region bond_rdm [:: b01 - b00; b11 - b10; pD; pD]%N
      (fun idx => if idx is [:: i; j; p; q] then (b00 <= i < b01)%N && (b10 <= j < b11)%N else false)
      (fun idx => if idx is [:: i; j; p; q] then [:: i - b00; j - b10; p; q]%N else idx) v)
    (Tensor [:: pD; pD; pD; pD] (at_ (empty pD))).

(** rdm.py 82-99 *)
Definition build_bond_rdm (empty : nat -> tensor) (n : net) (b : bond) : res tensor :=
  let s1 := b_s1 b in let s2 := b_s2 b in let k := b_k b in
  bond_rdm_core_blocked empty
    (n s1 (SC ((k + 1) %% 4)%N)) (n s1 (SE ((k + 1) %% 4)%N)) (n s1 (SE ((k + 0) %% 4)%N))
    (n s1 (SC ((k + 2) %% 4)%N)) (n s1 (SE ((k + 2) %% 4)%N)) (bond_permute k (n s1 SA))
    (n s2 (SC ((k + 0) %% 4)%N)) (n s2 (SE ((k + 0) %% 4)%N)) (n s2 (SE ((k + 3) %% 4)%N))
    (n s2 (SC ((k + 3) %% 4)%N)) (n s2 (SE ((k + 2) %% 4)%N)) (bond_permute k (n s2 SA)).

End Rdm.
