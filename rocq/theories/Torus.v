(** Wave functions of finite periodic lattices built from the tensors of the unit
    cell, and how they change when the tensors of a bond change.

    Specification side: nothing here comes from the program.  A lattice is a
    finite set of points with four neighbours each; the legs of the tensors at
    neighbouring points are joined as acetn/ipeps/site_tensor.py orders them
    (0 left, 1 up, 2 right, 3 down, 4 physical). *)
From Coq Require Import String Ascii.
From mathcomp Require Import all_ssreflect all_algebra.
From Verif Require Import Base Lattice Mover Tensor TN Rdm RdmFacts Fits FullUpdate Linalg Mat Psd Als AlsFacts UpdFacts P16_Als P17_Reduced P20_Simple P22_SimpleUpdate.
Set Implicit Arguments.
Unset Strict Implicit.
Unset Printing Implicit Defensive.
Import GRing.Theory Num.Theory.
Local Open Scope ring_scope.

Section Lattice.
Variable T : finType.
Variable nb : nat -> T -> T.

(** going one step and back *)
Definition paired : Prop := forall k t, (k < 4)%N -> nb ((k + 2) %% 4)%N (nb k t) = t.

(** the line between t and its neighbour in direction k: named after its left or
    lower end, with a flag for vertical ones *)
Definition line (t : T) (k : nat) : T * bool :=
  match k with
  | 0 => (nb 0%N t, false)
  | 1 => (t, true)
  | 2 => (t, false)
  | _ => (nb 3%N t, true)
  end.

Hypothesis nbK : paired.

Let K0 t : nb 2%N (nb 0%N t) = t. Proof. exact: (@nbK 0%N t isT). Qed.
Let K1 t : nb 3%N (nb 1%N t) = t. Proof. exact: (@nbK 1%N t isT). Qed.
Let K2 t : nb 0%N (nb 2%N t) = t. Proof. exact: (@nbK 2%N t isT). Qed.
Let K3 t : nb 1%N (nb 3%N t) = t. Proof. exact: (@nbK 3%N t isT). Qed.

Lemma line_nb t k : (k < 4)%N -> line (nb k t) ((k + 2) %% 4)%N = line t k.
Proof. by case: k => [|[|[|[|]]]] // _ /=; rewrite ?K1 ?K2. Qed.

Lemma line_inj t k t' k' : (k < 4)%N -> (k' < 4)%N -> line t' k' = line t k ->
  (t' = t /\ k' = k) \/ (t' = nb k t /\ k' = (k + 2) %% 4)%N.
Proof.
case: k => [|[|[|[|]]]] //; case: k' => [|[|[|[|]]]] // _ _ /= [E].
- by left; rewrite -[t']K0 //= E K0.
- by right; rewrite E.
- by left; rewrite E.
- by right; rewrite -[t']K3 //= E.
- by right; rewrite -[t']K0 //= E.
- by left; rewrite E.
- by right; rewrite E.
- by left; rewrite -[t']K3 //= E K3.
Qed.

Section Psi.
Variable C : numClosedFieldType.
Notation tensor := (tensor C).
Variable b : nat.

(** the entry of the tensor at t that belongs to an assignment of bond states to
    lines and of physical states to points *)
Definition entry (A : T -> tensor) (m : {ffun T * bool -> 'I_b}) (s : T -> nat) (t : T) : C :=
  at_ (A t) [:: nat_of_ord (m (line t 0)); nat_of_ord (m (line t 1)); nat_of_ord (m (line t 2)); nat_of_ord (m (line t 3)); s t].

(** amplitude of the physical configuration s *)
Definition psi (A : T -> tensor) (s : T -> nat) : C := \sum_(m : {ffun T * bool -> 'I_b}) \prod_t entry A m s t.

(** a configuration, an assignment of tensors, with one point changed *)
Definition put {X : Type} (f : T -> X) (t : T) (x : X) : T -> X := fun t' => if t' == t then x else f t'.

(** an operator on the physical states of two points *)
Definition act2 p (K : nat -> nat -> nat -> nat -> C) (t1 t2 : T) (f : (T -> nat) -> C) : (T -> nat) -> C := fun s =>
  sumn p (fun P => sumn p (fun Q => f (put (put s t1 P) t2 Q) * K P Q (s t1) (s t2))).

(** contraction of two tensors over their bond in direction k *)
Definition joined k (a1 a2 : tensor) : nat -> nat -> nat -> nat -> C := fun P Q y x =>
  sumn b (fun v => at_ a1 (leg1 k v (unravel [:: b; b; b] y) P) * at_ a2 (leg2 k v (unravel [:: b; b; b] x) Q)).

Lemma sum_split (l : T * bool) (v0 : 'I_b) (F : {ffun T * bool -> 'I_b} -> C) :
  \sum_m F m = \sum_(m : {ffun T * bool -> 'I_b} | m l == v0) \sum_v F [ffun x => if x == l then v else m x].
Proof.
pose up (m : {ffun T * bool -> 'I_b}) v : {ffun T * bool -> 'I_b} := [ffun x => if x == l then v else m x].
have U1 m v : up m v l = v by rewrite ffunE eqxx.
have UU m v w : up (up m v) w = up m w by apply/ffunP => x; rewrite !ffunE; case: eqP.
have Uid m : up m (m l) = m by apply/ffunP => x; rewrite !ffunE; case: eqP => [->|].
rewrite (partition_big (fun m => up m v0) (fun m => m l == v0)) /=; last by move=> m _; rewrite U1.
apply: eq_bigr => m /eqP Hm.
rewrite (reindex_onto (fun v => up m v) (fun m' : {ffun T * bool -> 'I_b} => m' l)) /=.
  by apply: eq_bigl => v; rewrite U1 eqxx andbT UU -Hm Uid eqxx.
by move=> m' /eqP <-; rewrite UU Uid.
Qed.

Lemma ravel3_lt (i j k : 'I_b) : (ravel [:: b; b; b] [:: nat_of_ord i; nat_of_ord j; nat_of_ord k] < b ^ 3)%N.
Proof.
have -> : (b ^ 3 = numel [:: b; b; b])%N by rewrite /numel /= muln1 !expnS expn0 muln1.
by apply: ravel_lt => //=; rewrite !ltn_ord.
Qed.

Lemma legs1 k v P (f : nat -> nat) : (k < 4)%N ->
  [:: if 0%N == k then v else f 0%N; if 1%N == k then v else f 1%N; if 2%N == k then v else f 2%N; if 3%N == k then v else f 3%N; P]
  = leg1 k v [:: f ((k + 2) %% 4)%N; f ((k + 3) %% 4)%N; f ((k + 1) %% 4)%N] P.
Proof. by case: k => [|[|[|[|]]]]. Qed.
Lemma legs2 k v P (f : nat -> nat) : (k < 4)%N -> let k' := ((k + 2) %% 4)%N in
  [:: if 0%N == k' then v else f 0%N; if 1%N == k' then v else f 1%N; if 2%N == k' then v else f 2%N; if 3%N == k' then v else f 3%N; P]
  = leg2 k v [:: f ((k + 3) %% 4)%N; f k; f ((k + 1) %% 4)%N] P.
Proof. by case: k => [|[|[|[|]]]]. Qed.

Lemma psi_pair p c K (A : T -> tensor) k t a1 a2 : (k < 4)%N -> (0 < b)%N -> nb k t != t ->
  (forall r s y x, (r < p)%N -> (s < p)%N -> (y < b ^ 3)%N -> (x < b ^ 3)%N ->
     joined k a1 a2 r s y x = c * sumn p (fun P => sumn p (fun Q => joined k (A t) (A (nb k t)) P Q y x * K P Q r s))) ->
  forall s, (s t < p)%N -> (s (nb k t) < p)%N ->
    psi (put (put A t a1) (nb k t) a2) s = c * act2 p K t (nb k t) (psi A) s.
Proof.
move=> Hk b0 N H s H1 H2; set t2 := nb k t in N H H2 *; pose v0 := Ordinal b0; pose l := line t k.
pose up (m : {ffun T * bool -> 'I_b}) v : {ffun T * bool -> 'I_b} := [ffun x => if x == l then v else m x].
pose o1 (m : {ffun T * bool -> 'I_b}) := ravel [:: b; b; b] [:: nat_of_ord (m (line t ((k + 2) %% 4))); nat_of_ord (m (line t ((k + 3) %% 4))); nat_of_ord (m (line t ((k + 1) %% 4)))].
pose o2 (m : {ffun T * bool -> 'I_b}) := ravel [:: b; b; b] [:: nat_of_ord (m (line t2 ((k + 3) %% 4))); nat_of_ord (m (line t2 k)); nat_of_ord (m (line t2 ((k + 1) %% 4)))].
have N' : (t == t2) = false by rewrite eq_sym (negbTE N).
have L1 k' : (k' < 4)%N -> line t k' == l = (k' == k).
  move=> Hk'; apply/eqP/eqP => [E|-> //].
  by case: (line_inj Hk Hk' E) => -[E1 E2] //; move: N; rewrite /t2 -E1 eqxx.
have L2 k' : (k' < 4)%N -> line t2 k' == l = (k' == (k + 2) %% 4)%N.
  move=> Hk'; apply/eqP/eqP => [E|->]; last exact: line_nb.
  by case: (line_inj Hk Hk' E) => -[E1 E2] //; move: N; rewrite E1 eqxx.
have L3 t' k' : (k' < 4)%N -> t' != t -> t' != t2 -> line t' k' == l = false.
  by move=> Hk' N1 N2; apply/eqP => E; case: (line_inj Hk Hk' E) => -[E1 _]; [move: N1|move: N2]; rewrite E1 eqxx.
have UR (i j q : 'I_b) : unravel [:: b; b; b] (ravel [:: b; b; b] [:: nat_of_ord i; nat_of_ord j; nat_of_ord q]) = [:: nat_of_ord i; nat_of_ord j; nat_of_ord q] :> seq nat.
  by apply: ravelK; rewrite /= !ltn_ord.
have E1 (B : T -> tensor) (x : T -> nat) m v : entry B (up m v) x t = at_ (B t) (leg1 k v (unravel [:: b; b; b] (o1 m)) (x t)).
  rewrite /entry /o1 UR -(legs1 _ _ (fun i => nat_of_ord (m (line t i)))) // !ffunE !L1 //.
  by congr (at_ _ [:: _; _; _; _; _]); case: ifP.
have E2 (B : T -> tensor) (x : T -> nat) m v : entry B (up m v) x t2 = at_ (B t2) (leg2 k v (unravel [:: b; b; b] (o2 m)) (x t2)).
  rewrite /entry /o2 UR -(legs2 _ _ (fun i => nat_of_ord (m (line t2 i)))) // !ffunE !L2 //.
  by congr (at_ _ [:: _; _; _; _; _]); case: ifP.
pose rest (B : T -> tensor) (x : T -> nat) m := \prod_(t' | (t' != t) && (t' != t2)) entry B m x t'.
have PS (B : T -> tensor) (x : T -> nat) : psi B x = \sum_(m : {ffun T * bool -> 'I_b} | m l == v0) joined k (B t) (B t2) (x t) (x t2) (o1 m) (o2 m) * rest B x m.
  rewrite /psi (sum_split l v0); apply: eq_bigr => m _; rewrite /joined /sumn mulr_suml; apply: eq_bigr => v _.
  rewrite -/(up m v) (bigD1 t) //= (bigD1 t2) //= E1 E2 mulrA; congr (_ * _).
  apply: eq_bigr => t' /andP[N1 N2]; rewrite /entry !ffunE !L3 //.
rewrite PS /act2 sumn_mull.
have -> : \sum_(m : {ffun T * bool -> 'I_b} | m l == v0) joined k (put (put A t a1) t2 a2 t) (put (put A t a1) t2 a2 t2) (s t) (s t2) (o1 m) (o2 m) * rest (put (put A t a1) t2 a2) s m
  = \sum_(m : {ffun T * bool -> 'I_b} | m l == v0) sumn p (fun P => c * sumn p (fun Q => joined k (A t) (A t2) P Q (o1 m) (o2 m) * K P Q (s t) (s t2) * rest A s m)).
  apply: eq_bigr => m _; rewrite /put N' !eqxx H // ?ravel3_lt // sumn_mull sumn_mulr; apply: eq_sumn => P _.
  rewrite -mulrA; congr (_ * _); rewrite sumn_mulr; apply: eq_sumn => Q _; congr (_ * _).
  by apply: eq_bigr => t' /andP[/negbTE N1 /negbTE N2]; rewrite /entry N1 N2.
rewrite /sumn exchange_big; apply: eq_bigr => P _; rewrite -mulr_sumr; congr (_ * _).
rewrite exchange_big; apply: eq_bigr => Q _; rewrite PS mulr_suml; apply: eq_bigr => m _.
rewrite /put N' !eqxx -!mulrA; congr (_ * _); rewrite mulrC; congr (_ * _).
by apply: eq_bigr => t' /andP[/negbTE N1 /negbTE N2]; rewrite /entry N1 N2.
Qed.

Lemma psi_ext (A B : T -> tensor) s s' : (forall t, A t = B t) -> (forall t, s t = s' t) -> psi A s = psi B s'.
Proof. by move=> E Es; apply: eq_bigr => m _; apply: eq_bigr => t _; rewrite /entry E Es. Qed.

Lemma act2_ext p K t1 t2 (f g : (T -> nat) -> C) s : (forall P Q, (P < p)%N -> (Q < p)%N -> f (put (put s t1 P) t2 Q) = g (put (put s t1 P) t2 Q)) ->
  act2 p K t1 t2 f s = act2 p K t1 t2 g s.
Proof. by move=> H; apply: eq_sumn => P HP; apply: eq_sumn => Q HQ; rewrite H. Qed.

Lemma act2_scale p K t1 t2 c (f : (T -> nat) -> C) s : act2 p K t1 t2 (fun s => c * f s) s = c * act2 p K t1 t2 f s.
Proof. by rewrite /act2 sumn_mull; apply: eq_sumn => P _; rewrite sumn_mull; apply: eq_sumn => Q _; rewrite mulrA. Qed.

(** configurations of p-state systems *)
Definition config p (s : T -> nat) : Prop := forall t, (s t < p)%N.
Lemma config_put p s t P : config p s -> (P < p)%N -> config p (put s t P).
Proof. by move=> H HP t'; rewrite /put; case: eqP. Qed.

(** ---- a lattice that repeats the unit cell ---- *)
Variables (nx ny : nat) (cell : T -> site).
Definition covers : Prop := [/\ paired, forall t, in_cell nx ny (cell t) & forall k t, (k < 4)%N -> cell (nb k t) = nbr nx ny k (cell t)].

(** the operator acts on every copy of a bond *)
Definition copies (x : site) : seq T := [seq t <- enum T | cell t == x].
Definition act_copies p K k (x : site) (f : (T -> nat) -> C) : (T -> nat) -> C :=
  foldr (fun t => act2 p K t (nb k t)) f (copies x).

Lemma act_list_ext p K k l (f g : (T -> nat) -> C) : (forall s, config p s -> f s = g s) ->
  forall s, config p s -> foldr (fun t => act2 p K t (nb k t)) f l s = foldr (fun t => act2 p K t (nb k t)) g l s.
Proof. by move=> H; elim: l => [|t l IH] s Hs /=; [apply: H|apply: act2_ext => P Q HP HQ; apply: IH; apply: config_put => //; apply: config_put]. Qed.
Lemma act_list_scale p K k l c (f : (T -> nat) -> C) s :
  foldr (fun t => act2 p K t (nb k t)) (fun s => c * f s) l s = c * foldr (fun t => act2 p K t (nb k t)) f l s.
Proof. by elim: l s => [|t l IH] s //=; rewrite -act2_scale; apply: act2_ext => P Q _ _; apply: IH. Qed.

Lemma psi_bond p c K (n n' : site -> tensor) k x : covers -> (k < 4)%N -> (0 < b)%N -> in_cell nx ny x -> nbr nx ny k x <> x ->
  (forall r s y z, (r < p)%N -> (s < p)%N -> (y < b ^ 3)%N -> (z < b ^ 3)%N ->
     joined k (n' x) (n' (nbr nx ny k x)) r s y z = c * sumn p (fun P => sumn p (fun Q => joined k (n x) (n (nbr nx ny k x)) P Q y z * K P Q r s))) ->
  (forall y, y <> x -> y <> nbr nx ny k x -> n' y = n y) ->
  forall s, config p s -> psi (n' \o cell) s = c ^+ size (copies x) * act_copies p K k x (psi (n \o cell)) s.
Proof.
move=> [_ _ Hc] Hk b0 Hx N H O; set x' := nbr nx ny k x in N H O *.
pose B (l : seq T) (t : T) := if t \in l then n' x else if (nb ((k + 2) %% 4)%N t \in l) then n' x' else n (cell t).
have back t : nb ((k + 2) %% 4)%N (nb k t) = t by apply: nbK.
have fwd t : nb k (nb ((k + 2) %% 4)%N t) = t.
  have Hk2 : ((k + 2) %% 4 < 4)%N by rewrite ltn_pmod.
  by have := nbK t Hk2; have -> : (((k + 2) %% 4 + 2) %% 4 = k)%N by case: (k) Hk => [|[|[|[|]]]].
have gen l : uniq l -> (forall t, t \in l -> cell t = x) -> forall s, config p s ->
    psi (B l) s = c ^+ size l * foldr (fun t => act2 p K t (nb k t)) (psi (n \o cell)) l s.
  elim: l => [|t l IH] /=; first by move=> _ _ s _; rewrite expr0 mul1r; apply: psi_ext.
  move=> /andP[Nt Ul] Hl s Hs; have Et := Hl t (mem_head _ _).
  have Hl' t' : t' \in l -> cell t' = x by move=> M; apply: Hl; rewrite inE M orbT.
  have N1 : nb k t != t by apply/eqP => E; apply: N; rewrite /x' -Et -Hc // E.
  have M1 : nb k t \in l = false by apply/negP => /Hl'; rewrite Hc // Et.
  have Bt : B l t = n x.
    rewrite /B (negbTE Nt) Et; case: ifP => // M; exfalso; apply: N.
    by have E := Hl' _ M; rewrite /x' -{1}E -Hc // fwd.
  have Bt' : B l (nb k t) = n x' by rewrite /B M1 back (negbTE Nt) Hc // Et.
  have -> : psi (B (t :: l)) s = psi (put (put (B l) t (n' x)) (nb k t) (n' x')) s.
    apply: psi_ext => // t'; rewrite /put /B !inE.
    case: (eqVneq t' (nb k t)) => [->|N2]; first by rewrite (negbTE N1) M1 back eqxx.
    case: (eqVneq t' t) => [->|N3] //=.
    case: (t' \in l) => //=; case: (eqVneq (nb _ t') t) => [E|//].
    by exfalso; move/eqP: N2; apply; rewrite -E fwd.
  rewrite (psi_pair (p := p) (c := c) (K := K)) //; last by rewrite Bt Bt'.
  rewrite exprS -mulrA; congr (_ * _); rewrite -act2_scale; apply: act2_ext => P Q HP HQ.
  by apply: IH => //; apply: config_put => //; apply: config_put.
have M t : (t \in copies x) = (cell t == x) by rewrite mem_filter mem_enum andbT.
have Uc : uniq (copies x) by apply: filter_uniq; exact: enum_uniq.
move=> s Hs; rewrite /act_copies -(gen _ Uc) //; last by move=> t; rewrite M => /eqP.
apply: psi_ext => // t; rewrite /B !M /=.
case: eqP => [->//|N1]; case: eqP => [E|N2].
  by rewrite -[t in cell t]fwd Hc // E.
by apply: O => // E; apply: N2; rewrite Hc ?ltn_pmod // E nbr_inv.
Qed.
End Psi.
End Lattice.
