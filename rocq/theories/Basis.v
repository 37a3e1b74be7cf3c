(** Site tensors seen in another basis of the physical space: how the density
    matrices and the expectation values change. *)
From Coq Require Import String Ascii.
From mathcomp Require Import all_ssreflect all_algebra.
From Verif Require Import Base Lattice LatticeFacts Mover Tensor TN Rdm RdmFacts Fits Measure MeasureFacts Linalg EinsumLin Renorm RenormFacts
  MoveShape Mat AlsFacts P09_Rdm Layer.
Set Implicit Arguments.
Unset Strict Implicit.
Unset Printing Implicit Defensive.
Import GRing.Theory Num.Theory.
Local Open Scope ring_scope.
Local Open Scope string_scope.

Section Basis.
Variable C : numClosedFieldType.
Notation tensor := (tensor C).

(** the columns of the p' x p matrix V are orthonormal *)
Definition isometry (p p' : nat) (V : nat -> nat -> C) : Prop :=
  forall k l, (k < p)%N -> (l < p)%N -> sumn p' (fun q => V q k * (V q l)^* ) = (k == l)%:R.

(** the site tensor a with V applied to its physical leg *)
Definition turned_site (D p p' : nat) (V : nat -> nat -> C) (a a' : tensor) : Prop :=
  [/\ shape a = [:: D; D; D; D; p], shape a' = [:: D; D; D; D; p'] &
      forall i q, in_range [:: D; D; D; D] i -> (q < p')%N ->
        at_ a' (rcons i q) = sumn p (fun k => V q k * at_ a (rcons i k))].

Lemma sumnE n (F : nat -> C) : sumn n F = \sum_(i < n) F i. Proof. by []. Qed.

Lemma turned_layer D p p' V (a a' : tensor) : isometry p p' V -> turned_site D p p' V a a' -> same_layer D p p' a a'.
Proof.
move=> HV [Ha Ha' H]; split=> //; exists 1 => [|i j Hi Hj]; first exact: ltr01.
rewrite mul1r /layer.
transitivity (sumn p' (fun q => sumn p (fun k => sumn p (fun l => (V q k * (V q l)^*) * (at_ a (rcons i k) * (at_ a (rcons j l))^*))))); last first.
  apply: eq_sumn => q Hq; rewrite !H // sumn_mulr; apply: eq_sumn => k _.
  by rewrite sumn_conj sumn_mull; apply: eq_sumn => l _; rewrite rmorphM mulrACA.
rewrite sumnC; apply: eq_sumn => k Hk; rewrite sumnC.
rewrite (eq_sumn (G := fun l => (k == l)%:R * (at_ a (rcons i k) * (at_ a (rcons j l))^*))) => [|l Hl]; last first.
  by rewrite -(HV k l Hk Hl) sumn_mulr.
rewrite /sumn (bigD1 (Ordinal Hk)) //= eqxx mul1r big1 ?addr0 // => l; rewrite -val_eqE /= eq_sym => /negbTE ->.
by rewrite mul0r.
Qed.

(** V as a tensor *)
Definition vten (p p' : nat) (V : nat -> nat -> C) : tensor := Tensor [:: p'; p] (fun i => V (nth 0%N i 0) (nth 0%N i 1)).

Lemma turned_einsum D p p' V (a a' : tensor) : turned_site D p p' V a a' ->
  exists2 t, einsum "qk,lurdk->lurdq" [:: vten p p' V; a] = Ok t & teq a' t.
Proof.
move=> [Ha Ha' H]; rewrite /einsum /= Ha /= /dims_ok /= !eqxx /=; eexists; first reflexivity.
split; rewrite Ha' // => -[|l [|u [|r [|d [|q [|? ?]]]]]] //=; rewrite ?andbF // andbT => /and5P[Hl Hu Hr Hd Hq].
rewrite (H [:: l; u; r; d] q) //= ?Hl ?Hu ?Hr ?Hd //.
Qed.

Lemma turned_permute k D p p' V (a a' : tensor) : turned_site D p p' V a a' ->
  turned_site D p p' V (bond_permute k a) (bond_permute k a').
Proof.
move=> [Ha Ha' H]; split; try exact: bond_permute_shape.
have P : forall (b : tensor) i q, in_range [:: D; D; D; D] i ->
  at_ (bond_permute k b) (rcons i q) =
  at_ b (rcons [seq nth 0%N i (index j [seq ((i + k) %% 4)%N | i <- iota 0 4]) | j <- iota 0 4] q).
  move=> b [|l [|u [|r [|d [|? ?]]]]] q //=; rewrite ?andbF // => _.
  rewrite /bond_permute /permute /=.
  rewrite -!(modnDmr _ k); have := ltn_pmod k (isT : (0 < 4)%N).
  by set m := (k %% 4)%N; clearbody m; case: m => [|[|[|[|m]]]] Hm.
move=> i q Hi Hq; rewrite P // H //; first by apply: eq_sumn => x _; rewrite P.
rewrite /= -!(modnDmr _ k); have := ltn_pmod k (isT : (0 < 4)%N).
move: Hi; case: i => [|l [|u [|r [|d [|? ?]]]]] //=; rewrite ?andbF // ?andbT.
by move=> /and4P[? ? ? ?]; set m := (k %% 4)%N; clearbody m; case: m => [|[|[|[|m]]]] Hm //=; do ?(apply/andP; split).
Qed.

Lemma site_rdm_turned (c1 c2 c3 c4 e1 e2 e3 e4 a v b f f' : tensor) (n s t w x y z o D p p' : nat) :
  shape c1 = [:: n; s] -> shape e1 = [:: s; t; D; D] -> shape c2 = [:: t; w] -> shape e2 = [:: w; x; D; D] ->
  shape c3 = [:: x; y] -> shape e3 = [:: y; z; D; D] -> shape c4 = [:: z; o] -> shape e4 = [:: o; n; D; D] ->
  shape a = [:: D; D; D; D; p] -> shape v = [:: p'; p] ->
  einsum "qk,lurdk->lurdq" [:: v; a] = Ok b ->
  einsum site_spec [:: c1; e1; c2; e2; c3; e3; c4; e4; a; conj a] = Ok f ->
  einsum site_spec [:: c1; e1; c2; e2; c3; e3; c4; e4; b; conj b] = Ok f' ->
  exists2 g, einsum "Kk,QK,qk->Qq" [:: f; conj v; v] = Ok g & teq f' g.
Proof.
move=> H1 H2 H3 H4 H5 H6 H7 H8 H9 H10.
tn_setup [:: n; s; t; w; x; y; z; o; D; p; p'] [:: c1; e1; c2; e2; c3; e3; c4; e4; a; v].
rewrite /site_spec; tn_einsum => -[<-]; tn_einsum => -[<-]; tn_einsum => -[<-].
tn_einsum; eexists; [reflexivity|tn_teq].
Qed.

Lemma bond_rdm_turned (c12 e12 e11 c13 e13 a1 c21 e21 e24 c24 e23 a2 v1 v2 b1 b2 f f' : tensor) (n s t v w x y z a b D p p' : nat) :
  shape c21 = [:: n; s] -> shape e21 = [:: s; t; D; D] -> shape e11 = [:: t; v; D; D] -> shape c12 = [:: v; w] ->
  shape e12 = [:: w; x; D; D] -> shape c13 = [:: x; y] -> shape e13 = [:: y; z; D; D] -> shape e23 = [:: z; a; D; D] ->
  shape c24 = [:: a; b] -> shape e24 = [:: b; n; D; D] -> shape a1 = [:: D; D; D; D; p] -> shape a2 = [:: D; D; D; D; p] ->
  shape v1 = [:: p'; p] -> shape v2 = [:: p'; p] ->
  einsum "qk,lurdk->lurdq" [:: v1; a1] = Ok b1 -> einsum "qk,lurdk->lurdq" [:: v2; a2] = Ok b2 ->
  einsum bond_flat [:: c21; e21; e11; c12; e12; c13; e13; e23; c24; e24; a1; conj a1; a2; conj a2] = Ok f ->
  einsum bond_flat [:: c21; e21; e11; c12; e12; c13; e13; e23; c24; e24; b1; conj b1; b2; conj b2] = Ok f' ->
  exists2 g, einsum "ABab,PA,QB,pa,qb->PQpq" [:: f; conj v1; conj v2; v1; v2] = Ok g & teq f' g.
Proof.
move=> H1 H2 H3 H4 H5 H6 H7 H8 H9 H10 H11 H12 H13 H14.
tn_setup [:: n; s; t; v; w; x; y; z; a; b; D; p; p'] [:: c21; e21; e11; c12; e12; c13; e13; e23; c24; e24; a1; a2; v1; v2].
rewrite /bond_flat; tn_einsum => -[<-]; tn_einsum => -[<-]; tn_einsum => -[<-]; tn_einsum => -[<-].
tn_einsum; eexists; [reflexivity|tn_teq].
Qed.

Lemma sandwich1E p p' V (f g : tensor) : shape f = [:: p; p] ->
  einsum "Kk,QK,qk->Qq" [:: f; conj (vten p p' V); vten p p' V] = Ok g ->
  forall Q q, at_ g [:: Q; q] = sumn p (fun K => sumn p (fun k => at_ f [:: K; k] * ((V Q K)^* * V q k))).
Proof.
move=> Sf; rewrite /einsum /= Sf; case: ifP => // _ [<-] Q q /=.
by apply: eq_sumn => K _; apply: eq_sumn => k _; rewrite /factor /= ?mulr1.
Qed.

Lemma sandwich2E p p' V1 V2 (f g : tensor) : shape f = [:: p; p; p; p] ->
  einsum "ABab,PA,QB,pa,qb->PQpq" [:: f; conj (vten p p' V1); conj (vten p p' V2); vten p p' V1; vten p p' V2] = Ok g ->
  forall P Q r q, at_ g [:: P; Q; r; q] = sumn p (fun A => sumn p (fun B => sumn p (fun a => sumn p (fun b =>
    at_ f [:: A; B; a; b] * ((V1 P A)^* * ((V2 Q B)^* * (V1 r a * V2 q b))))))).
Proof.
move=> Sf; rewrite /einsum /= Sf; case: ifP => // _ [<-] P Q r q /=.
by do 4 (apply: eq_sumn => ? _); rewrite /factor /= ?mulr1.
Qed.

(** ---- density matrices of whole networks ---- *)
Notation net := (Mover.net tensor).

(** the second network holds the first one's site tensors turned by V s at each
    site s, and the same corners and edges *)
Definition turned_net (nx ny D p p' : nat) (V : site -> nat -> nat -> C) (n n' : net) : Prop :=
  forall s, in_cell nx ny s -> turned_site D p p' (V s) (n s SA) (n' s SA) /\
  forall d, (d < 4)%N -> teq (n s (SC d)) (n' s (SC d)) /\ teq (n s (SE d)) (n' s (SE d)).

Lemma turned_nrel nx ny D p p' V n n' : (forall s, in_cell nx ny s -> isometry p p' (V s)) ->
  turned_net nx ny D p p' V n n' -> nrel nx ny D p p' (@teq C) n n'.
Proof. by move=> HV H s Hs; have [H1 H2] := H s Hs; split=> //; apply: turned_layer (HV s Hs) H1. Qed.

Lemma turned_fits nx ny D p p' V chi n n' : turned_net nx ny D p p' V n n' -> fits nx ny D p chi n -> fits nx ny D p' chi n'.
Proof.
move=> H Hf s Hs; have [[_ E _] H2] := H s Hs; have [_ F] := Hf s Hs; split=> // k Hk.
by have [[<- _] [<- _]] := H2 k Hk; apply: F.
Qed.

Section Rdms.
Variables (nx ny D p p' : nat) (V : site -> nat -> nat -> C) (chi : nat -> site -> nat) (n n' : net).
Hypothesis (Hf : fits nx ny D p chi n) (Ht : turned_net nx ny D p p' V n n').

Lemma net_site_rdm s : in_cell nx ny s ->
  exists rho rho', [/\ build_site_rdm n s = Ok rho, build_site_rdm n' s = Ok rho', shape rho = [:: p; p], shape rho' = [:: p'; p'] &
    forall Q q, (Q < p')%N -> (q < p')%N -> at_ rho' [:: Q; q] =
      sumn p (fun K => sumn p (fun k => at_ rho [:: K; k] * ((V s Q K)^* * V s q k)))].
Proof.
move=> Hs; have Hf' := turned_fits Ht Hf.
have [rho [f [E1 Ef S1 T1]]] := C31_site_rdm Hf Hs.
have [rho' [f' [E2 Ef' S2 T2]]] := C31_site_rdm Hf' Hs.
exists rho, rho'; split=> //.
have [Ha HCE] := Ht Hs; have [t Et Tt] := turned_einsum Ha.
have [HA _ _] := Ha.
have [t1 t2] := HCE 0%N isT; have [t3 t4] := HCE 1%N isT; have [t5 t6] := HCE 2%N isT; have [t7 t8] := HCE 3%N isT.
have TA : teq_all [:: n' s (SC 0); n' s (SE 0); n' s (SC 1); n' s (SE 1); n' s (SC 2); n' s (SE 2); n' s (SC 3); n' s (SE 3); n' s SA; conj (n' s SA)]
   [:: n s (SC 0); n s (SE 0); n s (SC 1); n s (SE 1); n s (SC 2); n s (SE 2); n s (SC 3); n s (SE 3); t; conj t].
  by do 8 (split; first exact: teq_sym); do 2 (split; first by [|apply: conj_cong]).
have := einsum_cong site_spec TA; rewrite {1}/site_spec Ef'.
case Eg: (einsum site_spec _) => [g|e] // Tg.
have [_ F] := Hf Hs.
have [F1 F2] := F 0%N isT; have [F3 F4] := F 1%N isT; have [F5 F6] := F 2%N isT; have [F7 F8] := F 3%N isT.
have [h Eh Th] := site_rdm_turned F1 F2 F3 F4 F5 F6 F7 F8 HA (erefl : shape (vten p p' (V s)) = _) Et Ef Eg.
have Sf : shape f = [:: p; p] by case: T1 => <-.
move=> Q q HQ Hq.
have R' : in_range [:: p'; p'] [:: Q; q] by rewrite /= HQ Hq.
have -> : at_ rho' [:: Q; q] = at_ h [:: Q; q].
  have [S T] : teq rho' h by apply: teq_trans T2 (teq_trans Tg Th).
  by apply: T; rewrite S2.
rewrite (sandwich1E Sf Eh); apply: eq_sumn => K HK; apply: eq_sumn => k Hk.
by case: T1 => _ ->; rewrite // S1 /= HK Hk.
Qed.

Lemma net_bond_rdm empty s1 k : in_cell nx ny s1 -> (k < 4)%N -> let s2 := nbr nx ny k s1 in
  exists rho rho', [/\ build_bond_rdm empty n (Bond s1 s2 k) = Ok rho, build_bond_rdm empty n' (Bond s1 s2 k) = Ok rho',
    shape rho = [:: p; p; p; p], shape rho' = [:: p'; p'; p'; p'] &
    forall P Q r q, (P < p')%N -> (Q < p')%N -> (r < p')%N -> (q < p')%N -> at_ rho' [:: P; Q; r; q] =
      sumn p (fun A => sumn p (fun B => sumn p (fun a => sumn p (fun b =>
        at_ rho [:: A; B; a; b] * ((V s1 P A)^* * ((V s2 Q B)^* * (V s1 r a * V s2 q b)))))))].
Proof.
move=> Hs Hk s2; have Hf' := turned_fits Ht Hf.
have [rho [f [u [E1 Ef _ T1 [_ Sf]]]]] := C32_bond_rdm empty Hf Hs Hk.
have [rho' [f' [u' [E2 Ef' _ T2 [_ Sf']]]]] := C32_bond_rdm empty Hf' Hs Hk.
have S1 : shape rho = [:: p; p; p; p] by case: (T1) => ->.
have S2 : shape rho' = [:: p'; p'; p'; p'] by case: (T2) => ->.
exists rho, rho'; split=> //.
have Hs2 : in_cell nx ny s2 by apply: nbr_cell.
have [Ha1 HCE1] := Ht Hs; have [Ha2 HCE2] := Ht Hs2.
have [t1 Et1 Tt1] := turned_einsum (turned_permute k Ha1); have [t2 Et2 Tt2] := turned_einsum (turned_permute k Ha2).
have B j : ((k + j) %% 4 < 4)%N by rewrite ltn_mod.
have [d [D1 D2 D3 D4 [D5 D6 D7 D8 [D9 D10 HA1 HA2]]]] := fits_bond Hf Hs Hk.
have [d' [D1' D2' D3' D4' [D5' D6' D7' D8' [D9' D10' HA1' HA2']]]] := fits_bond Hf' Hs Hk.
have [fp [fs [Efp Efs Tp]]] := bond_turn D1 D2 D3 D4 D5 D6 D7 D8 D9 D10 HA1 HA2 Hk.
have [fp' [fs' [Efp' Efs' Tp']]] := bond_turn D1' D2' D3' D4' D5' D6' D7' D8' D9' D10' HA1' HA2' Hk.
move: Efs Efs'; rewrite Ef Ef' => -[E] [E']; subst fs fs'.
have [q1 q2] := HCE2 k Hk; have [_ q3] := HCE1 k Hk; have [q4 q5] := HCE1 _ (B 1%N); have [q6 q7] := HCE1 _ (B 2%N).
have [_ q8] := HCE2 _ (B 2%N); have [q9 q10] := HCE2 _ (B 3%N).
have TA : teq_all [:: n' s2 (SC k); n' s2 (SE k); n' s1 (SE k); n' s1 (SC ((k + 1) %% 4)%N); n' s1 (SE ((k + 1) %% 4)%N); n' s1 (SC ((k + 2) %% 4)%N); n' s1 (SE ((k + 2) %% 4)%N);
          n' s2 (SE ((k + 2) %% 4)%N); n' s2 (SC ((k + 3) %% 4)%N); n' s2 (SE ((k + 3) %% 4)%N);
          bond_permute k (n' s1 SA); conj (bond_permute k (n' s1 SA)); bond_permute k (n' s2 SA); conj (bond_permute k (n' s2 SA))]
   [:: n s2 (SC k); n s2 (SE k); n s1 (SE k); n s1 (SC ((k + 1) %% 4)%N); n s1 (SE ((k + 1) %% 4)%N); n s1 (SC ((k + 2) %% 4)%N); n s1 (SE ((k + 2) %% 4)%N);
          n s2 (SE ((k + 2) %% 4)%N); n s2 (SC ((k + 3) %% 4)%N); n s2 (SE ((k + 3) %% 4)%N); t1; conj t1; t2; conj t2].
  do 10 (split; first exact: teq_sym).
  split; first by []. split; first exact: conj_cong. split; first by []. by split; first exact: conj_cong.
have := einsum_cong bond_flat TA; rewrite {1}Efp'.
case Eg: (einsum bond_flat _) => [g|e] // Tg.
have [h Eh Th] := bond_rdm_turned D1 D2 D3 D4 D5 D6 D7 D8 D9 D10 (bond_permute_shape k HA1) (bond_permute_shape k HA2)
  (erefl : shape (vten p p' (V s1)) = _) (erefl : shape (vten p p' (V s2)) = _) Et1 Et2 Efp Eg.
have Sfp : shape fp = [:: p; p; p; p] by case: Tp => ->.
move=> P Q r q HP HQ Hr Hq.
have R' : in_range (shape f') [:: P; Q; r; q] by rewrite Sf' /= HP HQ Hr Hq.
have -> : at_ rho' [:: P; Q; r; q] = at_ h [:: P; Q; r; q].
  have [S T] : teq rho' h by apply: teq_trans T2 (teq_trans (teq_sym Tp') (teq_trans Tg Th)).
  by apply: T; rewrite S2 -Sf'.
rewrite (sandwich2E Sfp Eh); apply: eq_sumn => A HA; apply: eq_sumn => B' HB; apply: eq_sumn => a HHa; apply: eq_sumn => b Hb.
have [S T] : teq rho fp by apply: teq_trans T1 (teq_sym Tp).
by rewrite T // S1 /= HA HB HHa Hb.
Qed.
End Rdms.

(** ---- traces and expectation values ---- *)
Section Trace.
Variables (I J : finType) (W : J -> I -> C).
Hypothesis HW : forall k l, \sum_q W q k * (W q l)^* = (k == l)%:R.
Variables (r o : I -> I -> C) (r' o' : J -> J -> C).
Hypothesis Hr : forall Q q, r' Q q = \sum_K \sum_k r K k * ((W Q K)^* * W q k).
Hypothesis Ho : forall q Q, o' q Q = \sum_i \sum_j (W q i)^* * o i j * W Q j.

Lemma pick (F : I -> C) i : \sum_j (i == j)%:R * F j = F i.
Proof. by rewrite (bigD1 i) //= eqxx mul1r big1 ?addr0 // => j; rewrite eq_sym => /negbTE ->; rewrite mul0r. Qed.

Lemma trace_turned : \sum_q r' q q = \sum_k r k k.
Proof.
transitivity (\sum_K \sum_k r K k * \sum_q (W q k * (W q K)^*)).
  rewrite (eq_bigr _ (fun q _ => Hr q q)) exchange_big; apply: eq_bigr => K _.
  rewrite exchange_big; apply: eq_bigr => k _; rewrite mulr_sumr; apply: eq_bigr => q _.
  by rewrite [(W q K)^* * _]mulrC.
apply: eq_bigr => K _; rewrite -[RHS](pick (fun k => r K k)); apply: eq_bigr => k _.
by rewrite HW eq_sym mulrC.
Qed.

Lemma expect_turned : \sum_Q \sum_q r' Q q * o' q Q = \sum_K \sum_k r K k * o k K.
Proof.
transitivity (\sum_K \sum_k r K k * \sum_i \sum_j o i j * ((\sum_Q W Q j * (W Q K)^*) * (\sum_q W q k * (W q i)^*))); last first.
  apply: eq_bigr => K _; apply: eq_bigr => k _; congr (_ * _).
  rewrite -[RHS](pick (fun i => o i K)); apply: eq_bigr => i _.
  rewrite -[in RHS](pick (fun j => o i j)) mulr_sumr; apply: eq_bigr => j _.
  by rewrite !HW [j == K]eq_sym mulrC [X in X * _]mulrC -mulrA.
transitivity (\sum_Q \sum_q \sum_K \sum_k \sum_i \sum_j (r K k * ((W Q K)^* * W q k)) * ((W q i)^* * o i j * W Q j)).
  apply: eq_bigr => Q _; apply: eq_bigr => q _; rewrite Hr Ho mulr_suml; apply: eq_bigr => K _.
  rewrite mulr_suml; apply: eq_bigr => k _; rewrite mulr_sumr; apply: eq_bigr => i _; by rewrite mulr_sumr.
rewrite pair_big /= exchange_big; apply: eq_bigr => K _.
rewrite exchange_big; apply: eq_bigr => k _; rewrite exchange_big mulr_sumr; apply: eq_bigr => i _.
rewrite exchange_big mulr_sumr; apply: eq_bigr => j _.
rewrite big_distrlr /= pair_big /= mulr_sumr mulr_sumr; apply: eq_bigr => -[Q q] _ /=.
by rewrite [LHS](AC ((1*2)*3) (1*(5*((6*2)*(3*4)))))%AC.
Qed.
End Trace.

(** an operator seen in the new basis: conj(V) O V^T.  (The density matrices have
    the conjugated leg as row index and are contracted as Tr(rho O), so O acts on
    the states as its transpose, C63; in terms of that transpose this is
    V O^T V^+.) *)
Definition turned_op (p p' : nat) (V : nat -> nat -> C) (o o' : tensor) : Prop :=
  [/\ shape o = [:: p; p], shape o' = [:: p'; p'] &
      forall q Q, (q < p')%N -> (Q < p')%N ->
        at_ o' [:: q; Q] = sumn p (fun i => sumn p (fun j => (V q i)^* * at_ o [:: i; j] * V Q j))].
(** the same for two sites, index (i1, i2) at row i1*p + i2 *)
Definition turned_op2 (p p' : nat) (V1 V2 : nat -> nat -> C) (o o' : tensor) : Prop :=
  [/\ shape o = [:: p * p; p * p]%N, shape o' = [:: p' * p'; p' * p']%N &
      forall q r Q R, (q < p')%N -> (r < p')%N -> (Q < p')%N -> (R < p')%N ->
        at_ o' [:: q * p' + r; Q * p' + R]%N =
        sumn p (fun i => sumn p (fun k => sumn p (fun j => sumn p (fun l =>
          ((V1 q i)^* * (V2 r k)^*) * at_ o [:: i * p + k; j * p + l]%N * (V1 Q j * V2 R l)))))].

Definition turned_rho (p p' : nat) (V : nat -> nat -> C) (rho rho' : tensor) : Prop :=
  [/\ shape rho = [:: p; p], shape rho' = [:: p'; p'] &
    forall Q q, (Q < p')%N -> (q < p')%N -> at_ rho' [:: Q; q] =
      sumn p (fun K => sumn p (fun k => at_ rho [:: K; k] * ((V Q K)^* * V q k)))].
Definition turned_rho2 (p p' : nat) (V1 V2 : nat -> nat -> C) (rho rho' : tensor) : Prop :=
  [/\ shape rho = [:: p; p; p; p], shape rho' = [:: p'; p'; p'; p'] &
    forall P Q r q, (P < p')%N -> (Q < p')%N -> (r < p')%N -> (q < p')%N -> at_ rho' [:: P; Q; r; q] =
      sumn p (fun A => sumn p (fun B => sumn p (fun a => sumn p (fun b =>
        at_ rho [:: A; B; a; b] * ((V1 P A)^* * ((V2 Q B)^* * (V1 r a * V2 q b)))))))].

Lemma iso_ord p p' V : isometry p p' V -> forall k l : 'I_p, \sum_(q < p') V q k * (V q l)^* = (k == l)%:R.
Proof. by move=> H k l; rewrite -val_eqE -(H _ _ (ltn_ord k) (ltn_ord l)). Qed.

Lemma site_norm_turned p p' V rho rho' : isometry p p' V -> turned_rho p p' V rho rho' -> site_norm rho = site_norm rho'.
Proof.
move=> HV [S1 S2 H]; rewrite (site_normE S1) (site_normE S2); congr (Ok ('Re _)); symmetry.
apply: (trace_turned (iso_ord HV) (r := fun K k => at_ rho [:: nat_of_ord K; nat_of_ord k])
  (r' := fun K k => at_ rho' [:: nat_of_ord K; nat_of_ord k])).
by move=> Q q; rewrite H.
Qed.

Lemma one_turned p p' V rho rho' o o' : isometry p p' V -> turned_rho p p' V rho rho' -> turned_op p p' V o o' ->
  measure_one_site rho o = measure_one_site rho' o'.
Proof.
move=> HV [S1 S2 H] [S3 S4 Ho]; rewrite /measure_one_site /einsum /= S1 S2 S3 S4 /= /dims_ok /= !eqxx /=.
congr (Ok ('Re _)); symmetry.
apply: (expect_turned (iso_ord HV) (r := fun K k => at_ rho [:: nat_of_ord K; nat_of_ord k])
  (r' := fun K k => at_ rho' [:: nat_of_ord K; nat_of_ord k]) (o := fun K k => at_ o [:: nat_of_ord K; nat_of_ord k])
  (o' := fun K k => at_ o' [:: nat_of_ord K; nat_of_ord k])).
- by move=> Q q; rewrite H.
- by move=> q Q; rewrite Ho.
Qed.

Section Two.
Variables (p p' : nat) (V1 V2 : nat -> nat -> C) (rho rho' : tensor).
Hypotheses (HV1 : isometry p p' V1) (HV2 : isometry p p' V2) (Hr : turned_rho2 p p' V1 V2 rho rho').
Let W (q : 'I_p' * 'I_p') (k : 'I_p * 'I_p) : C := V1 q.1 k.1 * V2 q.2 k.2.

Lemma iso2 (k l : 'I_p * 'I_p) : \sum_q W q k * (W q l)^* = (k == l)%:R.
Proof.
rewrite -(pair_bigA _ (fun q1 q2 => W (q1, q2) k * (W (q1, q2) l)^*)) /= /W /=.
under eq_bigr => i _ do under eq_bigr => j _ do rewrite rmorphM mulrACA.
by rewrite -big_distrlr /= !iso_ord // -natrM mulnb -pair_eqE.
Qed.

Let r (k l : 'I_p * 'I_p) : C := at_ rho [:: nat_of_ord k.1; nat_of_ord k.2; nat_of_ord l.1; nat_of_ord l.2].
Let r' (k l : 'I_p' * 'I_p') : C := at_ rho' [:: nat_of_ord k.1; nat_of_ord k.2; nat_of_ord l.1; nat_of_ord l.2].

Lemma rho2_pair Q q : r' Q q = \sum_K \sum_k r K k * ((W Q K)^* * W q k).
Proof.
case: Hr => S1 S2 H; rewrite /r' H // /sumn pair_bigA /=; apply: eq_bigr => K _.
rewrite pair_bigA /=; apply: eq_bigr => k _; rewrite /W rmorphM; congr (_ * _).
by rewrite !mulrA.
Qed.

Lemma bond_norm_turned : bond_norm rho = bond_norm rho'.
Proof.
case: (Hr) => S1 S2 H; rewrite (bond_normE S1) (bond_normE S2); congr (Ok ('Re _)); symmetry.
have := trace_turned iso2 rho2_pair.
by rewrite -(pair_bigA _ (fun a b => r' (a, b) (a, b))) -(pair_bigA _ (fun a b => r (a, b) (a, b))).
Qed.

Lemma measure2_sum d (x op : tensor) : shape x = [:: d; d; d; d] -> shape op = [:: d * d; d * d]%N ->
  (let! op := reshape op (nseq 4 d) in measure_two_site x op) =
  Ok ('Re (\sum_(P < d) \sum_(Q < d) \sum_(p < d) \sum_(q < d)
        at_ x [:: nat_of_ord P; nat_of_ord Q; nat_of_ord p; nat_of_ord q] * at_ op [:: (p * d + q)%N; (P * d + Q)%N])).
Proof.
move=> Hx Ho; rewrite /reshape Ho /= !muln1 !mulnA eqxx.
rewrite /measure_two_site /einsum /= Hx /= /dims_ok /= !eqxx /=; congr (Ok ('Re _)).
apply: eq_bigr => P _; apply: eq_bigr => Q _; apply: eq_bigr => a _; apply: eq_bigr => q _.
rewrite /factor /= !muln1 !addn0.
have d0 : (0 < d)%N by case: (d) P => // -[].
have lt : (P * d + Q < d * d)%N.
  apply: (@leq_trans (P.+1 * d)); last by rewrite leq_mul2r ltn_ord orbT.
  by rewrite mulSn addnC ltn_add2r.
have -> : (a * (d * d * d) + (q * (d * d) + (P * d + Q)) = (a * d + q) * (d * d) + (P * d + Q))%N.
  by rewrite mulnDl !mulnA addnA.
by rewrite divnMDl ?muln_gt0 ?d0 // divn_small // addn0 modnMDl modn_small // divn1.
Qed.

Lemma sum4 d (F : 'I_d -> 'I_d -> 'I_d -> 'I_d -> C) :
  \sum_P \sum_Q \sum_a \sum_b F P Q a b = \sum_(K : 'I_d * 'I_d) \sum_(k : 'I_d * 'I_d) F K.1 K.2 k.1 k.2.
Proof. by rewrite [LHS]pair_bigA /=; apply: eq_bigr => K _; rewrite pair_bigA. Qed.

Lemma two_turned o o' : turned_op2 p p' V1 V2 o o' ->
  (let! op := reshape o (nseq 4 p) in measure_two_site rho op) = (let! op := reshape o' (nseq 4 p') in measure_two_site rho' op).
Proof.
case: (Hr) => S1 S2 _ [S3 S4 Ho]; rewrite (measure2_sum S1 S3) (measure2_sum S2 S4); congr (Ok ('Re _)); symmetry.
have HO := expect_turned iso2 rho2_pair (o := fun k l => at_ o [:: k.1 * p + k.2; l.1 * p + l.2]%N)
  (o' := fun k l => at_ o' [:: k.1 * p' + k.2; l.1 * p' + l.2]%N).
rewrite [LHS](sum4 (fun P Q a b => at_ rho' [:: nat_of_ord P; nat_of_ord Q; nat_of_ord a; nat_of_ord b] * at_ o' [:: a * p' + b; P * p' + Q]%N)).
rewrite [RHS](sum4 (fun P Q a b => at_ rho [:: nat_of_ord P; nat_of_ord Q; nat_of_ord a; nat_of_ord b] * at_ o [:: a * p + b; P * p + Q]%N)).
apply: HO => q Q.
rewrite Ho // /sumn pair_bigA /=; apply: eq_bigr => K _; rewrite pair_bigA /=; apply: eq_bigr => k _.
by rewrite /W rmorphM.
Qed.
End Two.

(** ---- measuring ---- *)
Definition turned_ops (T : tensor -> tensor -> Prop) (l l' : dict tensor) : Prop :=
  List.Forall2 (fun x y => x.1 = y.1 /\ T x.2 y.2) l l'.

Section Meas.
Variables (m m' : model C) (f1 f1' : site -> res tensor) (f2 f2' : bond -> res tensor).

(** the two density matrices give the same numbers for corresponding operators *)
Definition site_alike (s : site) (rho rho' : tensor) : Prop :=
  [/\ site_norm rho = site_norm rho',
      (forall x, measure_site_energy m s rho x = measure_site_energy m' s rho' x) &
      turned_ops (fun o o' => measure_one_site rho o = measure_one_site rho' o') (one_site_observables m s) (one_site_observables m' s)].
Definition bond_alike (b : bond) (rho rho' : tensor) : Prop :=
  [/\ bond_norm rho = bond_norm rho',
      (forall x, measure_bond_energy m b rho x = measure_bond_energy m' b rho' x) &
      turned_ops (fun o o' => (let! op := reshape o (nseq 4 (m_dim m)) in measure_two_site rho op) =
                              (let! op := reshape o' (nseq 4 (m_dim m')) in measure_two_site rho' op))
        (two_site_observables m b) (two_site_observables m' b)].

Lemma for_each_eq A S (l : seq A) (f g : A -> S -> res S) x :
  (forall a y, List.In a l -> f a y = g a y) -> for_each l f x = for_each l g x.
Proof.
elim: l x => [|a l IH] x H //=; rewrite (H a) //; last by left.
by case: (g a x) => //= y; apply: IH => b z Hb; apply: H; right.
Qed.

Lemma ops_keys T l l' : turned_ops T l l' -> keys l = keys l'.
Proof. by elim=> // x y {}l {}l' [E _] _; rewrite /keys /= E => ->. Qed.

Lemma ops_loop T l l' (F G : tensor -> res C) ave : turned_ops T l l' -> (forall x y, T x y -> F x = G y) ->
  for_each l (fun '(k, o) ave => let! v := F o in dict_add k v ave) ave =
  for_each l' (fun '(k, o) ave => let! v := G o in dict_add k v ave) ave.
Proof.
move=> H HT; elim: H ave => // -[k o] [k' o'] {}l {}l' [/= <- Ho] _ IH ave; rewrite /= (HT _ _ Ho).
by case: (G o') => //= v; case: (dict_add _ _ _).
Qed.

Lemma bind_assoc A B D (x : res A) (f : A -> res B) (g : B -> res D) :
  (let! b := (let! a := x in f a) in g b) = (let! a := x in let! b := f a in g b).
Proof. by case: x. Qed.

Lemma measure_alike sites bonds :
  (forall s, List.In s sites -> both (site_alike s) (f1 s) (f1' s)) ->
  (forall b, List.In b bonds -> both (bond_alike b) (f2 b) (f2' b)) ->
  keys (one_site_observables m (0, 0)%N) = keys (one_site_observables m' (0, 0)%N) ->
  (forall b, List.In b bonds -> keys (two_site_observables m b) = keys (two_site_observables m' b)) ->
  measure m f1 f2 sites bonds = measure m' f1' f2' sites bonds.
Proof.
move=> H1 H2 K1 K2; rewrite /measure.
have -> : forall ave, calculate_one_site_measurements m f1 sites ave = calculate_one_site_measurements m' f1' sites ave.
  move=> ave; rewrite /calculate_one_site_measurements K1.
  rewrite (@for_each_eq _ _ _ _ (fun s ave =>
    let! rho := f1' s in
    let! nrm := site_norm rho in
    let! e := measure_site_energy m' s rho nrm in
    let! ave := dict_add "Energy" e ave in
    if nonempty (keys (one_site_observables m' (0, 0)%N)) then measure_site_observables m' s rho nrm ave else Ok ave)) //.
  move=> s {}ave Hs; move: (H1 s Hs); case: (f1 s) => [rho|e]; case: (f1' s) => [rho'|e'] //=; last by move=> ->.
  case=> -> HE HO; case: (site_norm rho') => //= x; rewrite HE; case: (measure_site_energy m' s rho' x) => //= e.
  case: (dict_add _ _ _) => //= a; case: (nonempty _) => //; rewrite /measure_site_observables.
  transitivity (for_each (one_site_observables m s) (fun '(k, o) ave => let! v := (let! y := measure_one_site rho o in rdiv y x) in dict_add k v ave) a).
    by apply: for_each_eq => -[k o] y _; rewrite bind_assoc.
  rewrite (ops_loop (G := fun o => let! y := measure_one_site rho' o in rdiv y x) _ HO) => [|o o' ->] //.
  by apply: for_each_eq => -[k o] y _; rewrite bind_assoc.
case: (calculate_one_site_measurements _ _ _ _) => //= ave.
have -> : calculate_two_site_measurements m f2 bonds ave = calculate_two_site_measurements m' f2' bonds ave => //.
case: bonds H2 K2 => [|b0 bonds] H2 K2 //; rewrite /calculate_two_site_measurements K2; last by left.
rewrite (@for_each_eq _ _ _ _ (fun b ave =>
      let! rho := f2' b in
      let! nrm := bond_norm rho in
      let! e := measure_bond_energy m' b rho nrm in
      let! ave := dict_add "Energy" e ave in
      if nonempty (keys (two_site_observables m' b0)) then measure_bond_observables m' b rho nrm ave else Ok ave)) //.
move=> b {}ave Hb; move: (H2 b Hb); case: (f2 b) => [rho|e]; case: (f2' b) => [rho'|e'] //=; last by move=> ->.
case=> -> HE HO; case: (bond_norm rho') => //= x; rewrite HE; case: (measure_bond_energy m' b rho' x) => //= e.
case: (dict_add _ _ _) => //= a; case: (nonempty _) => //; rewrite /measure_bond_observables.
transitivity (for_each (two_site_observables m b) (fun '(k, o) ave =>
  let! v := (let! y := (let! op := reshape o (nseq 4 (m_dim m)) in measure_two_site rho op) in rdiv y x) in dict_add k v ave) a).
  by apply: for_each_eq => -[k o] y _; rewrite !bind_assoc; case: (reshape _ _) => //= op; rewrite bind_assoc.
rewrite (ops_loop (G := fun o => let! y := (let! op := reshape o (nseq 4 (m_dim m')) in measure_two_site rho' op) in rdiv y x) _ HO) => [|o o' ->] //.
by apply: for_each_eq => -[k o] y _; rewrite !bind_assoc; case: (reshape _ _) => //= op; rewrite bind_assoc.
Qed.
End Meas.

(** a model whose operators at every site and bond are those of another one seen
    in the new bases, under the same names *)
Definition turned_model (nx ny p p' : nat) (V : site -> nat -> nat -> C) (m m' : model C) : Prop :=
  [/\ m_dim m = p, m_dim m' = p',
      forall s, in_cell nx ny s ->
        turned_ops (turned_op p p' (V s)) (one_site_observables m s) (one_site_observables m' s) /\
        match one_site_hamiltonian m s, one_site_hamiltonian m' s with
        | Some h, Some h' => turned_op p p' (V s) h h' | None, None => True | _, _ => False end &
      forall s k, in_cell nx ny s -> (k < 4)%N -> let b := Bond s (nbr nx ny k s) k in
        turned_ops (turned_op2 p p' (V s) (V (nbr nx ny k s))) (two_site_observables m b) (two_site_observables m' b) /\
        turned_op2 p p' (V s) (V (nbr nx ny k s)) (two_site_hamiltonian m b) (two_site_hamiltonian m' b)].

Lemma ops_imp (T T' : tensor -> tensor -> Prop) l l' : (forall x y, T x y -> T' x y) -> turned_ops T l l' -> turned_ops T' l l'.
Proof. by move=> H; elim=> [|x y {}l {}l' [E Hx] _ IH]; constructor=> //; split=> //; apply: H. Qed.

Section Full.
Variables (nx ny D p p' : nat) (V : site -> nat -> nat -> C) (chi : nat -> site -> nat) (n n' : net) (m m' : model C).
Hypothesis (nx0 : (0 < nx)%N) (ny0 : (0 < ny)%N).
Hypothesis (HV : forall s, in_cell nx ny s -> isometry p p' (V s)).
Hypothesis (Hf : fits nx ny D p chi n) (Ht : turned_net nx ny D p p' V n n') (Hm : turned_model nx ny p p' V m m').

Lemma measure_turned empty sites bonds :
  (forall s, List.In s sites -> in_cell nx ny s) ->
  (forall b, List.In b bonds -> exists s k, [/\ in_cell nx ny s, (k < 4)%N & b = Bond s (nbr nx ny k s) k]) ->
  measure m (build_site_rdm n) (build_bond_rdm empty n) sites bonds =
  measure m' (build_site_rdm n') (build_bond_rdm empty n') sites bonds.
Proof.
move=> Hss Hbs; case: Hm => d d' M1 M2; apply: measure_alike.
- move=> s /Hss Hs; have [rho [rho' [-> -> S1 S2 H]]] := net_site_rdm Hf Ht Hs.
  have HR : turned_rho p p' (V s) rho rho' by [].
  have [O E] := M1 s Hs; have Vs := HV Hs; split.
  + exact: site_norm_turned Vs HR.
  + move=> x; rewrite /measure_site_energy; move: E; case: (one_site_hamiltonian m s) => [h|]; case: (one_site_hamiltonian m' s) => [h'|] // E.
    by rewrite (one_turned Vs HR E).
  + by apply: ops_imp O => o o'; apply: one_turned.
- move=> b /Hbs[s [k [Hs Hk ->]]]; have [rho [rho' [-> -> S1 S2 H]]] := net_bond_rdm Hf Ht empty Hs Hk.
  have HR : turned_rho2 p p' (V s) (V (nbr nx ny k s)) rho rho' by [].
  have Hs2 : in_cell nx ny (nbr nx ny k s) by apply: nbr_cell.
  have [O E] := M2 s k Hs Hk; have V1 := HV Hs; have V2 := HV Hs2; split.
  + exact: bond_norm_turned V1 V2 HR.
  + move=> x; rewrite /measure_bond_energy d d'.
    by move: (congr1 (fun z => let! y := z in rdiv y x) (two_turned V1 V2 HR E)); rewrite !bind_assoc.
  + by apply: ops_imp O => o o'; rewrite d d'; apply: two_turned.
- have [|/ops_keys -> //] := M1 (0, 0)%N; by split; apply/ltP.
- by move=> b /Hbs[s [k [Hs Hk ->]]]; have [/ops_keys ->] := M2 s k Hs Hk.
Qed.
End Full.
End Basis.
