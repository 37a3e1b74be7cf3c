(** Properties C10, C31, C32: leg permutation and reduced density matrices. *)
From Coq Require Import String Ascii.
From mathcomp Require Import all_ssreflect all_algebra.
From Verif Require Import Base Lattice LatticeFacts Mover Tensor TN Rdm RdmFacts Fits.
Set Implicit Arguments.
Unset Strict Implicit.
Unset Printing Implicit Defensive.
Import GRing.Theory Num.Theory.
Local Open Scope ring_scope.
Local Open Scope string_scope.

(** ---- C10 ---- *)

(** C10.  For each direction k: permuting by k and then by 4-k (tensor_update.py
    32 and 34) gives the same tensor back, and leg i of the permuted tensor is
    leg (i+k) mod 4 of the original; the physical leg stays last. *)
Theorem C10_permute_back (C : numClosedFieldType) (a : tensor C) (d0 d1 d2 d3 p k : nat) :
  shape a = [:: d0; d1; d2; d3; p] -> (k < 4)%N ->
  teq (bond_permute (4 - k) (bond_permute k a)) a /\
  shape (bond_permute k a) = rcons (rot k [:: d0; d1; d2; d3]) p /\
  (forall i0 i1 i2 i3 q, at_ (bond_permute k a) (rcons (rot k [:: i0; i1; i2; i3]) q) = at_ a [:: i0; i1; i2; i3; q]).
Proof.
move=> Hs; have H5 sh idx : shape a = sh -> in_range [:: d0; d1; d2; d3; p] idx ->
  exists i0 i1 i2 i3 q, idx = [:: i0; i1; i2; i3; q].
  move=> _; case: idx => [|i0 [|i1 [|i2 [|i3 [|q [|? ?]]]]]] //=; rewrite ?andbF // => _.
  by exists i0, i1, i2, i3, q.
case: k => [|[|[|[|k]]]] // _; (split; [split; rewrite /= ?Hs // => idx Hi|split; rewrite /= ?Hs //]);
  have [i0 [i1 [i2 [i3 [q ->]]]]] := H5 _ idx Hs Hi; by [].
Qed.

Example C10_example : forall C : numClosedFieldType,
  shape (bond_permute 1 (Tensor [:: 2; 3; 4; 5; 6]%N (fun idx => (nth 0%N idx 0)%:R : C))) = [:: 3; 4; 5; 2; 6]%N.
Proof. by []. Qed.

(** ---- C31 ---- *)

(** C31.  On a network whose tensors fit together the one-site density matrix is
    the contraction of the closed ring C0 E0 C1 E1 C2 E2 C3 E3 around the site:
    E0 on the upper, E1 the right, E2 the lower, E3 the left leg, of the site tensor
    (small letters) and its conjugate (capitals).  The conjugate's physical leg is
    the row index. *)
Theorem C31_site_rdm (C : numClosedFieldType) (nx ny D p : nat) chi (n : Mover.net (tensor C)) (s : site) :
  fits nx ny D p chi n -> in_cell nx ny s ->
  exists rho f, [/\ build_site_rdm n s = Ok rho,
    einsum "ns,stuU,tv,vwrR,wx,xydD,yz,znlL,lurdp,LURDP->Pp"
      [:: n s (SC 0); n s (SE 0); n s (SC 1); n s (SE 1); n s (SC 2); n s (SE 2); n s (SC 3); n s (SE 3);
          n s SA; conj (n s SA)] = Ok f,
    shape rho = [:: p; p] & teq rho f].
Proof.
move=> Hf Hs; have [HA H] := Hf s Hs.
have [H0 H0'] := H 0%N isT; have [H1 H1'] := H 1%N isT; have [H2 H2'] := H 2%N isT; have [H3 H3'] := H 3%N isT.
have [rho [f [E F T]]] := site_rdm_flat H0 H0' H1 H1' H2 H2' H3 H3' HA.
exists rho, f; split=> //; case: T => -> _.
move: F; rewrite /einsum /=; rewrite H0 H0' H1 H1' H2 H2' H3 H3' HA /=.
by case: ifP => // _ [<-].
Qed.

(** the pure-state case: all dimensions 1 except the physical one; the density
    matrix is conj(A_P) A_p, row index first *)
Example C31_example : forall C : numClosedFieldType,
  let one2 : tensor C := Tensor [:: 1; 1]%N (fun _ => 1) in
  let one4 : tensor C := Tensor [:: 1; 1; 1; 1]%N (fun _ => 1) in
  let a : tensor C := Tensor [:: 1; 1; 1; 1; 2]%N (fun idx => if nth 0%N idx 4 == 0%N then 3%:R else 4%:R * 'i) in
  exists rho, site_rdm one2 one2 one2 one2 one4 one4 one4 one4 a = Ok rho /\
    at_ rho [:: 0; 1]%N = 12%:R * 'i /\ at_ rho [:: 1; 0]%N = - (12%:R * 'i) /\ at_ rho [:: 1; 1]%N = 16%:R.
Proof.
move=> C one2 one4 a; eexists; split; first reflexivity.
rewrite /= /factor /= /sumn !big_ord1 /= ?mul1r ?mulr1 rmorphM /= conjCi !conjC_nat.
rewrite mulrA -natrM mulrN !mulNr; split=> //; split; first by rewrite mulrAC -natrM.
by rewrite mulrACA -natrM -expr2 sqrCi mulrN1 opprK.
Qed.

(** ---- C32 ---- *)

(** labels of the legs of the two site tensors for a bond of direction k: the
    tensor is turned by k positions *)
Definition turned (k : nat) (l0 l1 l2 l3 p : string) : string :=
  match k with
  | 0 => l0 ++ l1 ++ l2 ++ l3 ++ p | 1 => l3 ++ l0 ++ l1 ++ l2 ++ p
  | 2 => l2 ++ l3 ++ l0 ++ l1 ++ p | _ => l1 ++ l2 ++ l3 ++ l0 ++ p
  end.
Definition bond_spec (k : nat) : string :=
  "ns,stuU,tvmM,vw,wxrR,xy,yzdD,zagG,ab,bnlL," ++ turned k "h" "m" "r" "d" "p" ++ "," ++ turned k "H" "M" "R" "D" "P" ++ ","
    ++ turned k "l" "u" "h" "g" "q" ++ "," ++ turned k "L" "U" "H" "G" "Q" ++ "->PQpq".

Section Turn.
Variable C : numClosedFieldType.
Variables (c12 e12 e11 c13 e13 a1 c21 e21 e24 c24 e23 a2 : tensor C).
Variables (n s t v w x y z a b D p : nat).
Hypotheses (Hc21 : shape c21 = [:: n; s]) (He21 : shape e21 = [:: s; t; D; D])
  (He11 : shape e11 = [:: t; v; D; D]) (Hc12 : shape c12 = [:: v; w]) (He12 : shape e12 = [:: w; x; D; D])
  (Hc13 : shape c13 = [:: x; y]) (He13 : shape e13 = [:: y; z; D; D]) (He23 : shape e23 = [:: z; a; D; D])
  (Hc24 : shape c24 = [:: a; b]) (He24 : shape e24 = [:: b; n; D; D])
  (Ha1 : shape a1 = [:: D; D; D; D; p]) (Ha2 : shape a2 = [:: D; D; D; D; p]).

(** turning the labels is the same as permuting the legs *)
Lemma bond_turn k : (k < 4)%N ->
  exists f f', [/\ einsum bond_flat [:: c21; e21; e11; c12; e12; c13; e13; e23; c24; e24;
                     bond_permute k a1; conj (bond_permute k a1); bond_permute k a2; conj (bond_permute k a2)] = Ok f,
    einsum (bond_spec k) [:: c21; e21; e11; c12; e12; c13; e13; e23; c24; e24; a1; conj a1; a2; conj a2] = Ok f'
    & teq f f'].
Proof using All.
tn_setup [:: n; s; t; v; w; x; y; z; a; b; D; p] [:: c21; e21; e11; c12; e12; c13; e13; e23; c24; e24; a1; a2].
rewrite /bond_flat; case: k => [|[|[|[|k]]]] // _.
- tn_bperm 0%N a1; tn_bperm 0%N a2; rewrite /bond_spec /turned /append; do 2 tn_einsum.
  by eexists _, _; split; [reflexivity|reflexivity|tn_teq].
- tn_bperm 1%N a1; tn_bperm 1%N a2; rewrite /bond_spec /turned /append; do 2 tn_einsum.
  by eexists _, _; split; [reflexivity|reflexivity|tn_teq].
- tn_bperm 2%N a1; tn_bperm 2%N a2; rewrite /bond_spec /turned /append; do 2 tn_einsum.
  by eexists _, _; split; [reflexivity|reflexivity|tn_teq].
- tn_bperm 3%N a1; tn_bperm 3%N a2; rewrite /bond_spec /turned /append; do 2 tn_einsum.
  by eexists _, _; split; [reflexivity|reflexivity|tn_teq].
Qed.
End Turn.

(** C32.  For a bond of direction k from s1 to its neighbour s2: the blocked
    computation succeeds and, whatever the preallocated memory contains, equals
    the contraction of the ring around the two sites joined by leg h/H, and so does
    the unblocked one. *)
Theorem C32_bond_rdm (C : numClosedFieldType) (nx ny D p k : nat) chi (n : Mover.net (tensor C)) (s1 : site)
    (empty : nat -> tensor C) :
  fits nx ny D p chi n -> in_cell nx ny s1 -> (k < 4)%N ->
  let s2 := nbr nx ny k s1 in
  let k1 := ((k + 1) %% 4)%N in let k2 := ((k + 2) %% 4)%N in let k3 := ((k + 3) %% 4)%N in
  exists rho f u, [/\ build_bond_rdm empty n (Bond s1 s2 k) = Ok rho,
    einsum (bond_spec k)
      [:: n s2 (SC k); n s2 (SE k); n s1 (SE k); n s1 (SC k1); n s1 (SE k1); n s1 (SC k2); n s1 (SE k2);
          n s2 (SE k2); n s2 (SC k3); n s2 (SE k3); n s1 SA; conj (n s1 SA); n s2 SA; conj (n s2 SA)] = Ok f,
    bond_rdm_core (n s1 (SC k1)) (n s1 (SE k1)) (n s1 (SE k)) (n s1 (SC k2)) (n s1 (SE k2)) (bond_permute k (n s1 SA))
      (n s2 (SC k)) (n s2 (SE k)) (n s2 (SE k3)) (n s2 (SC k3)) (n s2 (SE k2)) (bond_permute k (n s2 SA)) = Ok u,
    teq rho f & teq u f /\ shape f = [:: p; p; p; p]].
Proof.
move=> Hf Hs1 Hk s2 k1 k2 k3.
have [dd [C2k E2k E1k C1k1 [E1k1 C1k2 E1k2 E2k2 [C2k3 E2k3 HA1 HA2]]]] := fits_bond Hf Hs1 Hk.
have P1 : shape (bond_permute k (n s1 SA)) = [:: D; D; D; D; p] by rewrite /= HA1; case: (k) Hk => [|[|[|[|]]]].
have P2 : shape (bond_permute k (n s2 SA)) = [:: D; D; D; D; p] by rewrite /= HA2; case: (k) Hk => [|[|[|[|]]]].
have [u [f [Eu Ef Sf Tu]]] := bond_rdm_flat C2k E2k E1k C1k1 E1k1 C1k2 E1k2 E2k2 C2k3 E2k3 P1 P2.
have [rho [f' [Er]]] := bond_rdm_blocked_flat C2k E2k E1k C1k1 E1k1 C1k2 E1k2 E2k2 C2k3 E2k3 P1 P2 empty erefl.
rewrite Ef => -[<-] Tr {f'}.
have [f1 [f2 []]] := bond_turn C2k E2k E1k C1k1 E1k1 C1k2 E1k2 E2k2 C2k3 E2k3 HA1 HA2 Hk.
move: Ef; rewrite /bond_ring /cat => -> [<-] Ef2 T2.
have Tt a b : teq a f -> a = b -> teq b f2.
  move=> [S H] <-; case: T2 => S' H'; split; first by rewrite S.
  by move=> i Hi; rewrite H // H' // -S.
exists rho, f2, u; split=> //.
- by rewrite /build_bond_rdm /= addn0 (modn_small Hk); exact: Er.
- exact: Tt Tr erefl.
- by split; [exact: Tt Tu erefl|case: T2 => <-].
Qed.

Print Assumptions C10_permute_back.
Print Assumptions C31_site_rdm.
Print Assumptions C32_bond_rdm.
