(** Facts about the reduced density matrices: both are the flat contraction of
    the CTM picture, and the blocked computation writes every entry. *)
From Coq Require Import String Ascii.
From mathcomp Require Import all_ssreflect all_algebra.
From Verif Require Import Base Lattice Mover Tensor TN Rdm.
Set Implicit Arguments.
Unset Strict Implicit.
Unset Printing Implicit Defensive.
Import GRing.Theory Num.Theory.
Local Open Scope ring_scope.
Local Open Scope string_scope.

(** ---- block loops ---- *)


Lemma mem_block_range n BC i : (0 < BC)%N -> (i < n)%N -> (i %/ BC * BC)%N \in block_range n BC.
Proof.
move=> HB Hi; apply/mapP; exists (i %/ BC)%N => //; rewrite mem_iota /= add0n.
have -> : ((n + BC - 1) = (n - 1) + BC)%N by rewrite addnBAC // (leq_ltn_trans _ Hi).
rewrite divnDr ?dvdnn // divnn HB addn1 ltnS leq_div2r //.
by case: n Hi => // n; rewrite subn1.
Qed.

(** every pair of indices lies in a block *)
Lemma block_cover n BC i j : (0 < BC)%N -> (i < n)%N -> (j < n)%N ->
  exists b00 b10 b01 b11, [/\ (b00, b10, b01, b11) \in block_indices n BC,
    (b00 <= i < b01)%N, (b10 <= j < b11)%N, (b01 <= n)%N & (b11 <= n)%N].
Proof.
move=> HB Hi Hj.
exists (i %/ BC * BC)%N, (j %/ BC * BC)%N, (minn n (i %/ BC * BC + BC)), (minn n (j %/ BC * BC + BC)).
have L k : (k < n)%N -> (k %/ BC * BC <= k < minn n (k %/ BC * BC + BC))%N.
  by move=> Hk; rewrite leq_trunc_div leq_min Hk /= addnC -mulSn -ltn_divLR.
split; rewrite ?L ?geq_minl //.
apply/flattenP; eexists; first by apply/mapP; exists (i %/ BC * BC)%N; [exact: mem_block_range|reflexivity].
by apply/mapP; exists (j %/ BC * BC)%N; [exact: mem_block_range|].
Qed.

Lemma block_bounds n BC b00 b10 b01 b11 : (b00, b10, b01, b11) \in block_indices n BC ->
  (b01 <= n)%N /\ (b11 <= n)%N.
Proof.
move=> /flattenP[s /mapP[x _ ->] /mapP[y _ [_ _ -> ->]]]; by rewrite !geq_minl.
Qed.

Lemma in_range4 (d1 d2 d3 d4 : nat) idx : in_range [:: d1; d2; d3; d4] idx ->
  exists i j k o, [/\ idx = [:: i; j; k; o], i < d1, j < d2, k < d3 & o < d4]%N.
Proof.
case: idx => [|i [|j [|k [|o [|? ?]]]]] //=; rewrite ?andbF // => /and5P[? ? ? ? _].
by exists i, j, k, o.
Qed.

(** a loop that fills a tensor region by region *)
Lemma fill_loop (C : numClosedFieldType) (B : eqType) (blocks : seq B) (vs : B -> seq nat)
  (inb : B -> seq nat -> bool) (sub : B -> seq nat -> seq nat)
  (body : B -> tensor C -> res (tensor C)) (f : seq nat -> C) (t : tensor C) sh :
  shape t = sh ->
  (forall b t, b \in blocks -> shape t = sh -> exists v, [/\ body b t = set_region t (vs b) (inb b) (sub b) v,
      shape v = vs b & forall idx, in_range sh idx -> inb b idx -> at_ v (sub b idx) = f idx]) ->
  exists t', [/\ for_each blocks body t = Ok t', shape t' = sh &
    forall idx, in_range sh idx -> (has (fun b => inb b idx) blocks \/ at_ t idx = f idx) -> at_ t' idx = f idx].
Proof.
elim: blocks t => [|b blocks IH] t Hs Hb /=.
  by exists t; split=> // idx _ [].
have [|v [-> Hv Hf]] := Hb b t _ Hs; first by rewrite mem_head.
rewrite /set_region Hv eqxx /=.
have [||t' [-> Ht' H]] := IH (Tensor (shape t) (fun idx => if inb b idx then at_ v (sub b idx) else at_ t idx)).
- exact: Hs.
- by move=> b' t'' Hb'; apply: Hb; rewrite inE Hb' orbT.
exists t'; split=> // idx Hi Hor; apply: H => //=.
case: ifP => Hin; first by right; apply: Hf.
by case: Hor; [rewrite Hin /=; left|right].
Qed.

(** representation of a turned site tensor *)
Ltac tn_bperm k a :=
  match goal with
  | H : rep ?ds ?atoms ?c a ?N |- _ =>
      let R := fresh "R" in
      let p := eval vm_compute in (cat [seq ((i + k) %% 4)%N | i <- iota 0 4] [:: 4%N]) in
      let N' := eval vm_compute in (perm_net p N) in
      have R : rep ds atoms c (bond_permute k a) N' by exact (@rep_permute _ _ _ _ _ _ p H isT isT)
  end.

Section Kernels.
Variable C : numClosedFieldType.

(** site density matrix: the closed ring of corners and edges around the site *)
Definition site_spec : string := "ns,stuU,tv,vwrR,wx,xydD,yz,znlL,lurdp,LURDP->Pp".

Lemma site_rdm_flat (c1 c2 c3 c4 e1 e2 e3 e4 a : tensor C) (n s t v w x y z l u r d p : nat) :
  shape c1 = [:: n; s] -> shape e1 = [:: s; t; u; u] -> shape c2 = [:: t; v] -> shape e2 = [:: v; w; r; r] ->
  shape c3 = [:: w; x] -> shape e3 = [:: x; y; d; d] -> shape c4 = [:: y; z] -> shape e4 = [:: z; n; l; l] ->
  shape a = [:: l; u; r; d; p] ->
  exists rho f, [/\ site_rdm c1 c2 c3 c4 e1 e2 e3 e4 a = Ok rho,
    einsum site_spec [:: c1; e1; c2; e2; c3; e3; c4; e4; a; conj a] = Ok f
    & teq rho f].
Proof.
move=> H1 H2 H3 H4 H5 H6 H7 H8 H9.
tn_setup [:: n; s; t; v; w; x; y; z; l; u; r; d; p] [:: c1; e1; c2; e2; c3; e3; c4; e4; a].
rewrite /site_rdm /site_spec.
do 10 tn_einsum.
eexists _, _; split; [reflexivity|reflexivity|tn_teq].
Qed.

(** bond density matrix: the ring around the two sites, seen with the bond
    horizontal, site 1 on the right *)
Definition bond_flat : string := "ns,stuU,tvmM,vw,wxrR,xy,yzdD,zagG,ab,bnlL,hmrdp,HMRDP,luhgq,LUHGQ->PQpq".

Section Bond.
Variables (c12 e12 e11 c13 e13 a1 c21 e21 e24 c24 e23 a2 : tensor C).
Variables (n s t v w x y z a b u m r d g l h p q : nat).
Hypotheses (Hc21 : shape c21 = [:: n; s]) (He21 : shape e21 = [:: s; t; u; u])
  (He11 : shape e11 = [:: t; v; m; m]) (Hc12 : shape c12 = [:: v; w]) (He12 : shape e12 = [:: w; x; r; r])
  (Hc13 : shape c13 = [:: x; y]) (He13 : shape e13 = [:: y; z; d; d]) (He23 : shape e23 = [:: z; a; g; g])
  (Hc24 : shape c24 = [:: a; b]) (He24 : shape e24 = [:: b; n; l; l])
  (Ha1 : shape a1 = [:: h; m; r; d; p]) (Ha2 : shape a2 = [:: l; u; h; g; q]).

Definition bond_ring : seq (tensor C) := [:: c21; e21; e11; c12; e12; c13; e13; e23; c24; e24].

Lemma bond_rdm_flat :
  exists rho f, [/\ bond_rdm_core c12 e12 e11 c13 e13 a1 c21 e21 e24 c24 e23 a2 = Ok rho,
    einsum bond_flat (bond_ring ++ [:: a1; conj a1; a2; conj a2]) = Ok f,
    shape f = [:: p; q; p; q] & teq rho f].
Proof using All.
tn_setup [:: n; s; t; v; w; x; y; z; a; b; u; m; r; d; g; l; h; p; q]
  [:: c21; e21; e11; c12; e12; c13; e13; e23; c24; e24; a1; a2].
rewrite /bond_rdm_core /bond_flat /bond_ring /cat.
do 14 tn_einsum.
eexists _, _; split; [reflexivity|reflexivity| |tn_teq].
by match goal with H : rep _ _ _ ?t _ |- shape ?t = _ => case: H => -> _ end.
Qed.

(** one block *)
Lemma bond_rdm_block b00 b10 b01 b11 f :
  einsum bond_flat (bond_ring ++ [:: a1; conj a1; a2; conj a2]) = Ok f ->
  exists blk, [/\ (let! tmp_r1 := einsum "ab,bcrR->acrR" [:: c12; e12] in
    let! tmp_r1 := einsum "acrR,eauU->crReuU" [:: tmp_r1; e11] in
    let! tmp_r2 := einsum "ab,bfdD->afdD" [:: c13; e13] in
    let! tmp_l1 := einsum "ab,bcuU->acuU" [:: c21; e21] in
    let! tmp_l1 := einsum "acuU,ealL->cuUelL" [:: tmp_l1; e24] in
    let! tmp_l2 := einsum "ae,fadD->efdD" [:: c24; e23] in
    let! tmp_r3 := einsum "crReuU,LURDP->creuLDP" [:: tmp_r1; conj (slice_last a1 b00 b01)] in
    let! tmp_r3 := einsum "creuLDP,lurdp->ceLDPldp" [:: tmp_r3; a1] in
    let! rdm1_tmp := einsum "afdD,acLDPldp->fcLPlp" [:: tmp_r2; tmp_r3] in
    let! tmp_l3 := einsum "cuUelL,LURDQ->cuelRDQ" [:: tmp_l1; conj (slice_last a2 b10 b11)] in
    let! tmp_l3 := einsum "cuelRDQ,lurdq->ceRDQrdq" [:: tmp_l3; a2] in
    let! rdm2_tmp := einsum "efdD,ceRDQrdq->fcRQrq" [:: tmp_l2; tmp_l3] in
    einsum "fcRPrp,fcRQrq->PQpq" [:: rdm1_tmp; rdm2_tmp]) = Ok blk,
  shape blk = [:: (b01 - b00)%N; (b11 - b10)%N; p; q] &
  forall i j k o, (i < p)%N -> (j < q)%N -> (k < p)%N -> (o < q)%N -> (b00 <= i < b01)%N -> (b10 <= j < b11)%N ->
    at_ blk [:: (i - b00)%N; (j - b10)%N; k; o] = at_ f [:: i; j; k; o]].
Proof using All.
have Hs1 : shape (slice_last a1 b00 b01) = [:: h; m; r; d; (b01 - b00)%N] by rewrite /= Ha1.
have Hs2 : shape (slice_last a2 b10 b11) = [:: l; u; h; g; (b11 - b10)%N] by rewrite /= Ha2.
tn_setup [:: n; s; t; v; w; x; y; z; a; b; u; m; r; d; g; l; h; p; q; (b01 - b00)%N; (b11 - b10)%N]
  [:: c21; e21; e11; c12; e12; c13; e13; e23; c24; e24; a1; a2; slice_last a1 b00 b01; slice_last a2 b10 b11].
rewrite /bond_flat /bond_ring /cat.
tn_einsum; move=> [Ef]; subst f.
do 13 tn_einsum.
match goal with
| Rf : rep _ _ _ ?f ?Nf, Rb : rep _ _ _ ?blk ?Nb |- exists b, [/\ Ok ?blk = Ok b, _ & forall i j k o, _ -> _ -> _ -> _ -> _ -> _ -> _ = at_ ?f _] =>
  let N' := eval vm_compute in (Net (nfree Nb) (nbound Nf) [seq (if f.1.2 then f.1.1.+2 else f.1.1, f.1.2, f.2) | f <- nfacs Nf]) in
  have {Rb} [Sb Hb] := rep_eq Rb (ltac:(vm_cast_no_check (erefl true)) : net_eq Nb N');
  move: Rf => [Sf Hf]; exists blk; split; [reflexivity | exact: Sb |]
end.
move=> i j k o Hi Hj Hk Ho /andP[I0 I1] /andP[J0 J1].
rewrite Hb ?Hf ?Sb ?Sf /= ?Hi ?Hj ?Hk ?Ho // ?ltn_sub2r ?(leq_ltn_trans I0) ?(leq_ltn_trans J0) //.
congr (_ * _); rewrite /ev; apply: eq_bigr => vv _; rewrite !big_cons !big_nil /fval /= !subnK //.
Qed.

(** the blocked computation gives the same, whatever the preallocated memory
    contained; the physical dimensions of the two sites must be equal because
    the blocks are taken from the first one's *)
Lemma bond_rdm_blocked_flat (empty : nat -> tensor C) : p = q ->
  exists rho f, [/\ bond_rdm_core_blocked empty c12 e12 e11 c13 e13 a1 c21 e21 e24 c24 e23 a2 = Ok rho,
    einsum bond_flat (bond_ring ++ [:: a1; conj a1; a2; conj a2]) = Ok f & teq rho f].
Proof using All.
move=> Epq; rewrite /bond_rdm_core_blocked.
have [f [Ef Sf]] : exists f, einsum bond_flat (bond_ring ++ [:: a1; conj a1; a2; conj a2]) = Ok f /\
   shape f = [:: p; p; p; p].
  by have [_ [f [_ E S _]]] := bond_rdm_flat; exists f; rewrite S -Epq.
have HB b00 b10 b01 b11 := bond_rdm_block b00 b10 b01 b11 Ef.
move: HB.
tn_setup [:: n; s; t; v; w; x; y; z; a; b; u; m; r; d; g; l; h; p; q]
  [:: c21; e21; e11; c12; e12; c13; e13; e23; c24; e24; a1; a2].
do 6 tn_einsum_keep.
rewrite /bind; cbv beta => HB; rewrite Ha1 [last _ _]/=.
match goal with |- context [for_each ?bl ?body ?t] =>
  have [||rho [-> Sr Hr]] := @fill_loop C _ bl
  (fun b => let: (b00, b10, b01, b11) := b in [:: b01 - b00; b11 - b10; p; p]%N)
  (fun b idx => let: (b00, b10, b01, b11) := b in if idx is [:: i; j; p; q] then (b00 <= i < b01)%N && (b10 <= j < b11)%N else false)
  (fun b idx => let: (b00, b10, b01, b11) := b in if idx is [:: i; j; p; q] then [:: i - b00; j - b10; p; q]%N else idx)
  body (at_ f) t [:: p; p; p; p] end.
- by [].
- move=> [[[b00 b10] b01] b11] tt Hin Htt; have [blk [Eb Sb Hb]] := HB b00 b10 b01 b11.
  exists blk; split; [|by rewrite Sb Epq|].
    by move: Eb; do 6 (case: (einsum _ _) => // ?); move=> ->.
  case=> [//|i [//|j [//|k [//|o [|//]]]]] /= /and5P[Hi Hj Hk Ho _] /andP[I J].
  by apply: Hb => //; rewrite -?Epq.
exists rho, f; split => //; rewrite /teq Sr Sf; split=> // idx Hi; apply: Hr => //; left.
have [i [j [k [o [-> {}Hi Hj _ _]]]]] := in_range4 Hi.
have [b00 [b10 [b01 [b11 [Hin I J _ _]]]]] := block_cover (BC := 1) isT Hi Hj.
by apply/hasP; exists (b00, b10, b01, b11) => //=; rewrite I J.
Qed.
End Bond.
End Kernels.
