(** Specification: the boundary tensors of a network fit together.  Along each
    side the boundary legs form chains; [chi k s] is the dimension of the leg
    that enters edge k of site s. *)
From Coq Require Import Arith Lia.
From mathcomp Require Import all_ssreflect all_algebra.
From Verif Require Import Base Lattice LatticeFacts Mover Tensor.
Set Implicit Arguments.
Unset Strict Implicit.
Unset Printing Implicit Defensive.

Lemma nbr_inv nx ny k s : (k < 4)%N -> in_cell nx ny s ->
  nbr nx ny ((k + 2) %% 4) (nbr nx ny k s) = s.
Proof.
move=> Hk Hs; have := @nbr_there_back nx ny k s (ltP Hk) Hs.
by case: k Hk => [|[|[|[|k]]]].
Qed.

Definition fits (C : numClosedFieldType) (nx ny D p : nat) (chi : nat -> site -> nat)
    (n : Mover.net (tensor C)) : Prop :=
  forall s, in_cell nx ny s ->
  shape (n s SA) = [:: D; D; D; D; p] /\
  forall k, (k < 4)%N ->
    shape (n s (SC k)) = [:: chi ((k + 3) %% 4)%N (nbr nx ny ((k + 1) %% 4)%N s); chi k s] /\
    shape (n s (SE k)) = [:: chi k s; chi k (nbr nx ny ((k + 2) %% 4)%N s); D; D].

(** the shapes of the ten boundary tensors around a bond of direction k *)
Lemma fits_bond (C : numClosedFieldType) nx ny D p chi (n : Mover.net (tensor C)) s1 k :
  fits nx ny D p chi n -> in_cell nx ny s1 -> (k < 4)%N ->
  let s2 := nbr nx ny k s1 in
  let k1 := ((k + 1) %% 4)%N in let k2 := ((k + 2) %% 4)%N in let k3 := ((k + 3) %% 4)%N in
  exists d : nat -> nat,
  [/\ shape (n s2 (SC k)) = [:: d 0; d 1], shape (n s2 (SE k)) = [:: d 1; d 2; D; D],
      shape (n s1 (SE k)) = [:: d 2; d 3; D; D], shape (n s1 (SC k1)) = [:: d 3; d 4] &
  [/\ shape (n s1 (SE k1)) = [:: d 4; d 5; D; D], shape (n s1 (SC k2)) = [:: d 5; d 6],
      shape (n s1 (SE k2)) = [:: d 6; d 7; D; D], shape (n s2 (SE k2)) = [:: d 7; d 8; D; D] &
  [/\ shape (n s2 (SC k3)) = [:: d 8; d 9], shape (n s2 (SE k3)) = [:: d 9; d 0; D; D],
      shape (n s1 SA) = [:: D; D; D; D; p] & shape (n s2 SA) = [:: D; D; D; D; p]]]].
Proof.
move=> Hf Hs1 Hk s2 k1 k2 k3.
have Hs2 : in_cell nx ny s2 by apply: nbr_cell.
have Hinv : nbr nx ny k2 s2 = s1 by apply: nbr_inv.
have [HA1 H1] := Hf s1 Hs1; have [HA2 H2] := Hf s2 Hs2.
have B j : ((k + j) %% 4 < 4)%N by rewrite ltn_mod.
have [C2k E2k] := H2 k Hk; have [_ E1k] := H1 k Hk.
have [C1k1 E1k1] := H1 k1 (B 1%N); have [C1k2 E1k2] := H1 k2 (B 2%N).
have [_ E2k2] := H2 k2 (B 2%N); have [C2k3 E2k3] := H2 k3 (B 3%N).
rewrite -/k2 Hinv in E2k.
have Ek2 : nbr nx ny ((k2 + 2) %% 4)%N s1 = s2.
  by rewrite /k2 /s2; case: (k) Hk => [|[|[|[|]]]].
rewrite Ek2 in E1k2.
have E1 : ((k1 + 3) %% 4 = k)%N by rewrite /k1; case: (k) Hk => [|[|[|[|]]]].
have E2 : ((k1 + 1) %% 4 = k2)%N by rewrite /k1 /k2; case: (k) Hk => [|[|[|[|]]]].
have E3 : ((k2 + 3) %% 4 = k1)%N by rewrite /k2 /k1; case: (k) Hk => [|[|[|[|]]]].
have E4 : ((k2 + 1) %% 4 = k3)%N by rewrite /k2 /k3; case: (k) Hk => [|[|[|[|]]]].
have E5 : ((k3 + 3) %% 4 = k2)%N by rewrite /k3 /k2; case: (k) Hk => [|[|[|[|]]]].
have E6 : ((k3 + 1) %% 4 = k)%N by rewrite /k3; case: (k) Hk => [|[|[|[|]]]].
have E7 : ((k1 + 2) %% 4 = k3)%N by rewrite /k1 /k3; case: (k) Hk => [|[|[|[|]]]].
have E8 : ((k3 + 2) %% 4 = k1)%N by rewrite /k1 /k3; case: (k) Hk => [|[|[|[|]]]].
have E9 : ((k2 + 2) %% 4 = k)%N by rewrite /k2; case: (k) Hk => [|[|[|[|]]]].
rewrite ?E1 ?E2 ?E3 ?E4 ?E5 ?E6 ?E7 ?E8 ?E9 -/k1 -/k2 -/k3 in C1k1 E1k1 C1k2 E1k2 E2k2 C2k3 E2k3 C2k E2k E1k.
exists (fun i => match i with
  | 0 => chi k3 (nbr nx ny k1 s2) | 1 => chi k s2 | 2 => chi k s1 | 3 => chi k (nbr nx ny k2 s1)
  | 4 => chi k1 s1 | 5 => chi k1 (nbr nx ny k3 s1) | 6 => chi k2 s1 | 7 => chi k2 s2
  | 8 => chi k2 (nbr nx ny k s2) | _ => chi k3 s2 end).
by do 2 (split=> //).
Qed.
