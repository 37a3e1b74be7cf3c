(** C69: the full update of a bond on the network (acetn/evolution/full_update.py,
    tensor_update.py), from the site tensors and their surroundings to the new
    site tensors. *)
From Coq Require Import String Ascii.
From mathcomp Require Import all_ssreflect all_algebra.
From Verif Require Import Base Lattice LatticeFacts Mover Tensor TN EinsumLin Rdm RdmFacts Fits FullUpdate NormFacts Linalg Mat Rsvd RsvdFacts Renorm RenormFacts Spectral ProjFacts Psd Als AlsFacts EighChol UpdFacts P09_Rdm P16_Als P17_Reduced P18_Positive P19_Gauge Eckart P20_Simple P22_SimpleUpdate P23_Solver P24_FullUpdate.
Set Implicit Arguments.
Unset Strict Implicit.
Unset Printing Implicit Defensive.
Import GRing.Theory Num.Theory.
Local Open Scope ring_scope.
Local Open Scope string_scope.

(** ---- specification ---- *)
Section Spec.
Variable C : numClosedFieldType.
Notation tensor := (tensor C).
Notation net := (Mover.net tensor).
Notation pair := (nat -> nat -> nat -> nat -> C).

(** the ten boundary tensors around a bond of direction k, contracted along the
    boundary; the legs towards the first site are r, d, m, those towards the
    second g, l, u; capitals belong to the conjugated layer *)
Definition around : string := "ns,stuU,tvmM,vw,wxrR,xo,ozdD,zagG,ab,bnlL->rdmgluRDMGLU".
Definition surroundings (n : net) (s1 s2 : site) (k : nat) : res tensor :=
  let k1 := ((k + 1) %% 4)%N in let k2 := ((k + 2) %% 4)%N in let k3 := ((k + 3) %% 4)%N in
  einsum around (bond_ring (n s1 (SC k1)) (n s1 (SE k1)) (n s1 (SE k)) (n s1 (SC k2)) (n s1 (SE k2))
    (n s2 (SC k)) (n s2 (SE k)) (n s2 (SE k3)) (n s2 (SC k3)) (n s2 (SE k2))).
(** the same with the three legs of a site as one *)
Definition metric b (E : tensor) : tensor := Tensor [:: b ^ 3; b ^ 3; b ^ 3; b ^ 3]%N (fun i =>
  let u j := unravel [:: b; b; b] (nth 0%N i j) in at_ E (u 0 ++ u 1 ++ u 2 ++ u 3)%N%SEQ).

(** the state of the two sites of a bond of direction k: contraction over the
    bond; y and x number the combinations of the outer legs *)
Definition bond_state b k (a1 a2 : tensor) : pair := fun P Q y x =>
  sumn b (fun v => at_ a1 (leg1 k v (unravel [:: b; b; b] y) P) * at_ a2 (leg2 k v (unravel [:: b; b; b] x) Q)).
(** the outer part of e is made of the outer parts of a *)
Definition within b p (leg : nat -> seq nat -> nat -> seq nat) (a e : tensor) : Prop :=
  exists f : nat -> nat -> nat -> nat -> C, forall v y P, (v < b)%N -> (y < b ^ 3)%N -> (P < p)%N ->
    at_ e (leg v (unravel [:: b; b; b] y) P) =
    sumn b (fun u => sumn p (fun R => at_ a (leg u (unravel [:: b; b; b] y) R) * f u R v P)).
(** sum of the squared moduli of the entries of a site tensor *)
Definition weight b p (leg : nat -> seq nat -> nat -> seq nat) (a : tensor) : C :=
  sumn b (fun v => overlap b p (fun v y P => at_ a (leg v (unravel [:: b; b; b] y) P)) v v).
End Spec.

(** ---- the norm tensor is the metric seen through the outer parts ---- *)
Section Pull.
Variable C : numClosedFieldType.
Notation tensor := (tensor C).
Variables (c12 e12 e11 c13 e13 a1q c21 e21 e24 c24 e23 a2q : tensor).
Variables (n s t v w x o z a b u m r d g l y1 y2 : nat).
Hypotheses (Hc21 : shape c21 = [:: n; s]) (He21 : shape e21 = [:: s; t; u; u])
  (He11 : shape e11 = [:: t; v; m; m]) (Hc12 : shape c12 = [:: v; w]) (He12 : shape e12 = [:: w; x; r; r])
  (Hc13 : shape c13 = [:: x; o]) (He13 : shape e13 = [:: o; z; d; d]) (He23 : shape e23 = [:: z; a; g; g])
  (Hc24 : shape c24 = [:: a; b]) (He24 : shape e24 = [:: b; n; l; l])
  (Ha1 : shape a1q = [:: r; d; m; y1]) (Ha2 : shape a2q = [:: g; l; u; y2]).

Definition pull : string := "rdmgluRDMGLU,rdmy,gluk,RDMY,GLUK->ykYK".

Lemma norm_pull :
  exists N E f, [/\ (let! N := norm_tensor_core c12 e12 e11 c13 e13 a1q c21 e21 e24 c24 e23 a2q in
      let! E := einsum around (bond_ring c12 e12 e11 c13 e13 c21 e21 e24 c24 e23) in
      let! f := einsum pull [:: E; a1q; a2q; conj a1q; conj a2q] in Ok (N, E, f)) = Ok (N, E, f),
    shape E = [:: r; d; m; g; l; u; r; d; m; g; l; u], shape N = [:: y1; y2; y1; y2] & teq N f].
Proof using All.
tn_setup [:: n; s; t; v; w; x; o; z; a; b; u; m; r; d; g; l; y1; y2]
  [:: c21; e21; e11; c12; e12; c13; e13; e23; c24; e24; a1q; a2q].
rewrite /norm_tensor_core /around /pull /bond_ring.
repeat tn_einsum.
match goal with |- context [Ok (?N, ?E, ?f)] => exists N, E, f; split=> //; last by tn_teq end.
  by match goal with H : rep _ _ _ ?t _ |- shape ?t = _ => case: H => -> _ end.
by match goal with H : rep _ _ _ ?t _ |- shape ?t = _ => case: H => -> _ end.
Qed.
End Pull.

Section Forms.
Variable C : numClosedFieldType.
Notation tensor := (tensor C).
Notation pair := (nat -> nat -> nat -> nat -> C).

Lemma sum3 b (F : seq nat -> C) :
  sumn (b ^ 3) (fun y => F (unravel [:: b; b; b] y)) = sumn b (fun i => sumn b (fun j => sumn b (fun k => F [:: i; j; k]))).
Proof.
rewrite /sumn -(sum_unravel F (sh := [:: b; b; b])); last by rewrite /= muln1 !expnS expn0 muln1.
rewrite indices_cons; apply: eq_bigr => i _; rewrite indices_cons; apply: eq_bigr => j _.
by rewrite indices_cons; apply: eq_bigr => k _; rewrite big_seq1.
Qed.

Lemma sum3x4 b (G : seq nat -> seq nat -> seq nat -> seq nat -> C) : let U := unravel [:: b; b; b] in
  sumn (b ^ 3) (fun y => sumn (b ^ 3) (fun x => sumn (b ^ 3) (fun Y => sumn (b ^ 3) (fun X => G (U y) (U x) (U Y) (U X))))) =
  sumn b (fun i => sumn b (fun j => sumn b (fun k => sumn b (fun i' => sumn b (fun j' => sumn b (fun k' =>
  sumn b (fun l => sumn b (fun m => sumn b (fun o => sumn b (fun l' => sumn b (fun m' => sumn b (fun o' =>
    G [:: i; j; k] [:: i'; j'; k'] [:: l; m; o] [:: l'; m'; o'])))))))))))).
Proof.
move=> U; rewrite (sum3 b (fun y => sumn _ (fun x => sumn _ (fun Y => sumn _ (fun X => G y (U x) (U Y) (U X)))))).
do 3 (apply: eq_sumn => ? _); rewrite (sum3 b (fun x => sumn _ (fun Y => sumn _ (fun X => G _ x (U Y) (U X))))).
do 3 (apply: eq_sumn => ? _); rewrite (sum3 b (fun Y => sumn _ (fun X => G _ _ Y (U X)))).
do 3 (apply: eq_sumn => ? _); by rewrite (sum3 b (fun X => G _ _ _ X)).
Qed.

Lemma pullE b n1 n2 (E q1 q2 f : tensor) : shape E = [:: b; b; b; b; b; b; b; b; b; b; b; b] ->
  shape q1 = [:: b; b; b; n1] -> shape q2 = [:: b; b; b; n2] -> einsum pull [:: E; q1; q2; conj q1; conj q2] = Ok f ->
  forall z z' Z Z', at_ f [:: z; z'; Z; Z'] = sumn (b ^ 3) (fun y => sumn (b ^ 3) (fun x => sumn (b ^ 3) (fun Y => sumn (b ^ 3) (fun X =>
    at_ (metric b E) [:: y; x; Y; X] * qat b q1 y z * qat b q2 x z' * (qat b q1 Y Z)^* * (qat b q2 X Z')^* )))).
Proof.
move=> SE S1 S2; rewrite /einsum /= SE S1 S2 /= /dims_ok /= !eqxx /= => -[<-] z z' Z Z'.
rewrite [LHS]/= /factor [LHS]/= (sum3x4 b (fun y x Y X =>
  at_ E (y ++ x ++ Y ++ X)%SEQ * at_ q1 (rcons y z) * at_ q2 (rcons x z') * (at_ q1 (rcons Y Z))^* * (at_ q2 (rcons X Z'))^* )) /=.
by do 12 (apply: eq_sumn => ? _); rewrite !mulrA.
Qed.

(** the two outer parts as one matrix *)
Definition qq b n (q1 q2 : tensor) : 'M[C]_(b ^ 3 * b ^ 3, n * n) := \matrix_(i, j)
  (qat b q1 (nth 0 (unravel [:: b ^ 3; b ^ 3] i) 0)%N (nth 0 (unravel [:: n; n] j) 0)%N *
   qat b q2 (nth 0 (unravel [:: b ^ 3; b ^ 3] i) 1)%N (nth 0 (unravel [:: n; n] j) 1)%N).

Lemma sum2 n (F : seq nat -> C) : \sum_(i < n * n) F (unravel [:: n; n] i) = sumn n (fun y => sumn n (fun x => F [:: y; x])).
Proof.
rewrite -(sum_unravel F (sh := [:: n; n])); last by rewrite /= muln1.
by rewrite indices_cons; apply: eq_bigr => i _; rewrite indices_cons; apply: eq_bigr => j _; rewrite big_seq1.
Qed.

Lemma vec_lift b n q1 q2 (f : pair) P Q : vec (b ^ 3) (lift b n q1 q2 f P Q) = qq b n q1 q2 *m vec n (f P Q).
Proof.
apply/matrixP => i j; rewrite !mxE /lift -(sum2 n (fun s => qat b q1 _ (nth 0%N s 0) * qat b q2 _ (nth 0%N s 1) * f P Q (nth 0%N s 0) (nth 0%N s 1))).
by apply: eq_bigr => k _; rewrite !mxE.
Qed.

Definition pulled b n (E q1 q2 N : tensor) : Prop := forall z z' Z Z', (z < n)%N -> (z' < n)%N -> (Z < n)%N -> (Z' < n)%N ->
  at_ N [:: z; z'; Z; Z'] = sumn (b ^ 3) (fun y => sumn (b ^ 3) (fun x => sumn (b ^ 3) (fun Y => sumn (b ^ 3) (fun X =>
    at_ E [:: y; x; Y; X] * qat b q1 y z * qat b q2 x z' * (qat b q1 Y Z)^* * (qat b q2 X Z')^* )))).

Lemma unravel2_lt n i : (i < n * n)%N -> exists y x, unravel [:: n; n] i = [:: y; x] /\ (y < n)%N /\ (x < n)%N.
Proof.
move=> Hi; have : in_range [:: n; n] (unravel [:: n; n] i) by apply: unravel_range; rewrite /= muln1.
case: (unravel _ _) => [|y [|x [|? ?]]] //=; rewrite ?andbF // => /and3P[? ? _]; by exists y, x.
Qed.

Lemma nmat_pull b n (E q1 q2 N : tensor) : pulled b n E q1 q2 N -> nmat n N = adj (qq b n q1 q2) *m nmat (b ^ 3) E *m qq b n q1 q2.
Proof.
move=> H; apply/matrixP => i j; rewrite nmatE [RHS]mxE.
have [Z [Z' [Ei [HZ HZ']]]] := unravel2_lt (ltn_ord i).
have [z [z' [Ej [Hz Hz']]]] := unravel2_lt (ltn_ord j); rewrite Ei Ej /= H //.
rewrite -(sum2 (b ^ 3) (fun s => sumn (b ^ 3) (fun Y => sumn (b ^ 3) (fun X => at_ E [:: nth 0%N s 0; nth 0%N s 1; Y; X] *
  qat b q1 (nth 0%N s 0) z * qat b q2 (nth 0%N s 1) z' * (qat b q1 Y Z)^* * (qat b q2 X Z')^* )))).
apply: eq_bigr => y _; have [y1 [y2 [Ey [Hy1 Hy2]]]] := unravel2_lt (ltn_ord y); rewrite Ey /= 2!mxE.
rewrite Ej Ey /= big_distrl /=.
rewrite -(sum2 (b ^ 3) (fun s => at_ E [:: y1; y2; nth 0%N s 0; nth 0%N s 1] *
  qat b q1 y1 z * qat b q2 y2 z' * (qat b q1 (nth 0%N s 0) Z)^* * (qat b q2 (nth 0%N s 1) Z')^* )).
apply: eq_bigr => x _; have [x1 [x2 [Ex [Hx1 Hx2]]]] := unravel2_lt (ltn_ord x); rewrite adjE nmatE mxE Ei Ey Ex /= rmorphM /=.
rewrite [X in X * (qat b q1 y1 z * _)]mulrC -!mulrA; congr (_ * _).
by rewrite [RHS]mulrA [RHS]mulrC -!mulrA.
Qed.

Lemma nform_pull b n (E q1 q2 N : tensor) (f g : pair) P Q : pulled b n E q1 q2 N ->
  nform n N (f P Q) (g P Q) = nform (b ^ 3) E (lift b n q1 q2 f P Q) (lift b n q1 q2 g P Q).
Proof. by move=> H; rewrite !nformE (nmat_pull H) !vec_lift adjM !mulmxA. Qed.

Lemma len2_pull b n p q (E q1 q2 N : tensor) (f : pair) : pulled b n E q1 q2 N ->
  len2 n p q N f = len2 (b ^ 3) p q E (lift b n q1 q2 f).
Proof. by move=> H; apply: eq_sumn => Q _; apply: eq_sumn => P _; rewrite (nform_pull _ _ _ _ H). Qed.

Lemma herm_pull b n (E q1 q2 N : tensor) : pulled b n E q1 q2 N -> norm_herm (b ^ 3) E -> norm_herm n N.
Proof.
move=> H HE y x Y X Hy Hx HY HX.
have Ha : adj (nmat n N) = nmat n N by rewrite (nmat_pull H) !adjM adjK (norm_hermE HE) mulmxA.
have Hk : forall y x, (y < n)%N -> (x < n)%N -> exists i : 'I_(n * n), unravel [:: n; n] i = [:: y; x].
  move=> a b' Ha' Hb'; have I : (a * n + b' < n * n)%N.
    by apply: (@leq_trans (a.+1 * n)%N); rewrite ?leq_mul2r ?Ha' ?orbT // mulSn addnC ltn_add2r.
  by exists (Ordinal I); rewrite /= !muln1 divn1 modnMDl divnMDl ?(leq_ltn_trans _ Hb') // modn_small // divn_small // addn0.
have [i Ei] := Hk y x Hy Hx; have [j Ej] := Hk Y X HY HX.
have := congr1 (fun A : 'M[C]_(n * n) => A i j) Ha; by rewrite adjE !nmatE Ei Ej /= => <-.
Qed.
End Forms.

(** ---- from the network to the reduced tensors and back ---- *)
Section Site.
Variable C : numClosedFieldType.
Notation tensor := (tensor C).
Notation net := (Mover.net tensor).
Notation pair := (nat -> nat -> nat -> nat -> C).

Lemma leg1_rot b k (a : tensor) v y P : (k < 4)%N -> at_ a (leg1 k v (unravel [:: b; b; b] y) P) = rent1 b (bond_permute k a) v y P.
Proof. by move=> Hk; rewrite /rent1 permE. Qed.
Lemma leg2_rot b k (a : tensor) v y P : (k < 4)%N -> at_ a (leg2 k v (unravel [:: b; b; b] y) P) = rent2 b (bond_permute k a) v y P.
Proof. by move=> Hk; rewrite /rent2 permE. Qed.
Lemma leg1_back b k (X : tensor) v y P : (k < 4)%N -> at_ (bond_permute (4 - k) X) (leg1 k v (unravel [:: b; b; b] y) P) = rent1 b X v y P.
Proof. by move=> Hk; rewrite /leg1 permE'. Qed.
Lemma leg2_back b k (X : tensor) v y P : (k < 4)%N -> at_ (bond_permute (4 - k) X) (leg2 k v (unravel [:: b; b; b] y) P) = rent2 b X v y P.
Proof. by move=> Hk; rewrite /leg2 permE'. Qed.

Lemma bond_rot b k (a1 a2 : tensor) P Q y x : (k < 4)%N ->
  bond_state b k a1 a2 P Q y x = rot_state b (bond_permute k a1) (bond_permute k a2) P Q y x.
Proof. by move=> Hk; apply: eq_sumn => v _; rewrite leg1_rot ?leg2_rot. Qed.
Lemma bond_back b k (X1 X2 : tensor) P Q y x : (k < 4)%N ->
  bond_state b k (bond_permute (4 - k) X1) (bond_permute (4 - k) X2) P Q y x = rot_state b X1 X2 P Q y x.
Proof. by move=> Hk; apply: eq_sumn => v _; rewrite leg1_back ?leg2_back. Qed.

Lemma wprod1 ex w i : wprod ex w (fun _ : C => 1) i = 1.
Proof. by rewrite /wprod big1. Qed.
Lemma bond_pair b k w (a1 a2 : tensor) P Q y x : bond_state b k a1 a2 P Q y x = pair_state b k (fun _ => 1) w w a1 a2 P Q y x.
Proof. by apply: eq_sumn => v _; rewrite /entry1 /entry2 !wprod1 !mul1r. Qed.

(** sum of squares over the entries, the legs in another order *)
Lemma sqnorm5 b p (X : tensor) : shape X = [:: b; b; b; b; p] -> sqnorm X =
  sumn b (fun l => sumn b (fun u => sumn b (fun r => sumn b (fun d => sumn p (fun P => (at_ X [:: l; u; r; d; P])^* * at_ X [:: l; u; r; d; P]))))).
Proof.
move=> S; rewrite /sqnorm S; do 5 (rewrite indices_cons; apply: eq_sumn => ? _).
by rewrite big_seq1 normCKC.
Qed.

Lemma sqnorm1 b p (X : tensor) : shape X = [:: b; b; b; b; p] -> sqnorm X = sumn b (fun v => overlap b p (rent1 b X) v v).
Proof.
move=> S; rewrite (sqnorm5 S); apply: eq_sumn => v _.
rewrite /overlap (sum3 b (fun o => sumn p (fun P => (at_ X [:: v; nth 0 o 2; nth 0 o 0; nth 0 o 1; P]%N)^* * at_ X [:: v; nth 0 o 2; nth 0 o 0; nth 0 o 1; P]%N))).
by rewrite sumnC; apply: eq_sumn => r _; rewrite sumnC.
Qed.
Lemma sqnorm2 b p (X : tensor) : shape X = [:: b; b; b; b; p] -> sqnorm X = sumn b (fun v => overlap b p (rent2 b X) v v).
Proof.
move=> S; rewrite (sqnorm5 S).
transitivity (sumn b (fun r => sumn b (fun l => sumn b (fun u => sumn b (fun d => sumn p (fun P => (at_ X [:: l; u; r; d; P])^* * at_ X [:: l; u; r; d; P])))))).
  by rewrite [RHS]sumnC; apply: eq_sumn => l _; rewrite sumnC.
apply: eq_sumn => v _.
rewrite /overlap (sum3 b (fun o => sumn p (fun P => (at_ X [:: nth 0 o 1; nth 0 o 2; v; nth 0 o 0; P]%N)^* * at_ X [:: nth 0 o 1; nth 0 o 2; v; nth 0 o 0; P]%N))).
by rewrite [RHS]sumnC; apply: eq_sumn => l _; rewrite sumnC.
Qed.

Lemma sumn_eq0 n (F : nat -> C) : (forall i, (i < n)%N -> 0 <= F i) -> sumn n F = 0 -> forall i, (i < n)%N -> F i = 0.
Proof.
move=> P /eqP; rewrite /sumn psumr_eq0 => [/allP H i Hi|i _]; last exact: P.
by have /eqP := H (Ordinal Hi) (mem_index_enum _).
Qed.

(** positive total weight of a balanced pair *)
Lemma balanced_weight n D p (b1 b2 : tensor) w : total n D p b1 b2 = 1 -> (forall u, (u < D)%N -> 0 <= w u) ->
  (forall u v, (u < D)%N -> (v < D)%N -> gram n p b1 u v = w u *+ (u == v)) -> 0 < sumn D w.
Proof.
move=> T w0 G; rewrite Order.POrderTheory.lt_neqAle; apply/andP; split; last by rewrite /sumn sumr_ge0 // => u _; apply: w0.
apply/eqP => /esym Z; have /eqP := T; rewrite (_ : total _ _ _ _ _ = 0) 1?eq_sym ?oner_eq0 //.
have N0 (a : C) : 0 <= a^* * a by rewrite -normCKC exprn_ge0.
have E0 u y P : (u < D)%N -> (y < n)%N -> (P < p)%N -> at_ b1 [:: y; u; P] = 0.
  move=> Hu Hy HP; have := G u u Hu Hu; rewrite eqxx (sumn_eq0 w0 Z Hu) => /sumn_eq0 H.
  have /sumn_eq0 H1 := H (fun y' _ => sumr_ge0 _ (fun P' _ => N0 _)) y Hy.
  by have /eqP := H1 (fun P' _ => N0 _) P HP; rewrite -normCKC expf_eq0 /= normr_eq0 => /eqP.
rewrite /total /sumn; do 4 (apply: big1 => ? _).
by rewrite /state /sumn big1 ?normr0 ?expr0n // => u _; rewrite E0 ?mul0r.
Qed.

(** the two site tensors have orthogonal parts on the bond with the same ordered
    weights, which sum to one: both have norm one *)
Definition canonical b p k (a1 a2 : tensor) : Prop := exists w : nat -> C,
  [/\ forall u, (u < b)%N -> 0 <= w u, forall u v, (u <= v)%N -> (v < b)%N -> w v <= w u, sumn b w = 1,
      forall u v, (u < b)%N -> (v < b)%N -> overlap b p (fun v y P => at_ a1 (leg1 k v (unravel [:: b; b; b] y) P)) u v = w u *+ (u == v) &
      forall u v, (u < b)%N -> (v < b)%N -> overlap b p (fun v y P => at_ a2 (leg2 k v (unravel [:: b; b; b] y) P)) u v = w u *+ (u == v)].

(** the last steps of the update, from the new reduced tensors *)
Definition back k (a1q a2q b1 b2 : tensor) (one : option (tensor * tensor)) : res (tensor * tensor) :=
  let! (a1, a2) := recompose_site_tensors a1q b1 a2q b2 in
  let! a1 := tdiv a1 (norm a1) in
  let! a2 := tdiv a2 (norm a2) in
  let a1 := bond_permute (4 - k) a1 in
  let a2 := bond_permute (4 - k) a2 in
  match one with
  | None => Ok (a1, a2)
  | Some (g1, g2) =>
      let! a1 := einsum "pq,lurdp->lurdq" [:: g1; a1] in
      let! a2 := einsum "pq,lurdp->lurdq" [:: g2; a2] in
      Ok (a1, a2)
  end.

Lemma overlap_scale b p (e f : nat -> nat -> nat -> C) (h : C) u v : (forall v y P, e v y P = h * f v y P) ->
  overlap b p e u v = h^* * h * overlap b p f u v.
Proof.
move=> E; rewrite /overlap sumn_mull; apply: eq_sumn => y _; rewrite sumn_mull; apply: eq_sumn => P _.
by rewrite !E rmorphM /= mulrACA.
Qed.

Lemma backE b p k n (q1 q2 b1 b2 : tensor) one : (k < 4)%N -> shape q1 = [:: b; b; b; n] -> shape q2 = [:: b; b; b; n] ->
  isometric b n q1 -> isometric b n q2 -> shape b1 = [:: n; b; p] -> shape b2 = [:: n; b; p] -> balanced n b p b1 b2 ->
  (if one is Some (g1, g2) then shape g1 = [:: p; p] /\ shape g2 = [:: p; p] else True) ->
  exists a1 a2 c, [/\ back k q1 q2 b1 b2 one = Ok (a1, a2), shape a1 = [:: b; b; b; b; p] /\ shape a2 = [:: b; b; b; b; p], 0 < c,
    forall P Q y x, bond_state b k a1 a2 P Q y x = c * one_site_gates p one (lift b n q1 q2 (state b b1 b2)) P Q y x &
    one = None -> canonical b p k a1 a2].
Proof.
move=> Hk Q1 Q2 I1 I2 B1 B2 [T [w [w0 wd G1 G2]]] So; rewrite /back.
have [X1 [X2 [-> S1 S2 E1 E2]]] := recomposeE Q1 Q2 B1 B2; rewrite [bind (Ok (X1, X2)) _]/bind.
have W0 : 0 < sumn b w := balanced_weight T w0 G1.
have O1 u v : overlap b p (rent1 b X1) u v = gram n p b1 u v by apply: (overlap_iso p I1 E1).
have O2 u v : overlap b p (rent2 b X2) u v = gram n p b2 u v by apply: (overlap_iso p I2 E2).
have N1 : sqnorm X1 = sumn b w by rewrite (sqnorm1 S1); apply: eq_sumn => v Hv; rewrite O1 G1 // eqxx.
have N2 : sqnorm X2 = sumn b w by rewrite (sqnorm2 S2); apply: eq_sumn => v Hv; rewrite O2 G2 // eqxx.
rewrite /tdiv /norm N1 N2 sqrtC_eq0 (Order.POrderTheory.gt_eqF W0).
have [h Eh] : exists h : C, h = (sqrtC (sumn b w))^-1 by eexists.
have h0 : 0 < h by rewrite Eh invr_gt0 sqrtC_gt0.
have hr : h^* = h by apply: CrealP; rewrite realE Order.POrderTheory.ltW.
have hh : h * h * sumn b w = 1 by rewrite Eh -{3}(sqrtCK (sumn b w)) expr2 -mulrA mulKf ?mulVf // sqrtC_eq0 (Order.POrderTheory.gt_eqF W0).
rewrite -Eh [bind (Ok (tscale h X1)) _]/bind [bind (Ok (tscale h X2)) _]/bind.
have F1 v y P : at_ (bond_permute (4 - k) (tscale h X1)) (leg1 k v (unravel [:: b; b; b] y) P) = h * rent1 b X1 v y P by rewrite leg1_back.
have F2 v y P : at_ (bond_permute (4 - k) (tscale h X2)) (leg2 k v (unravel [:: b; b; b] y) P) = h * rent2 b X2 v y P by rewrite leg2_back.
have ST1 : shape (bond_permute (4 - k) (tscale h X1)) = [:: b; b; b; b; p] by apply: perm_shape.
have ST2 : shape (bond_permute (4 - k) (tscale h X2)) = [:: b; b; b; b; p] by apply: perm_shape.
have Ep P Q y x : bond_state b k (bond_permute (4 - k) (tscale h X1)) (bond_permute (4 - k) (tscale h X2)) P Q y x = h * h * lift b n q1 q2 (state b b1 b2) P Q y x.
  rewrite -(rot_lift E1 E2) /bond_state /rot_state sumn_mull; apply: eq_sumn => v _; by rewrite F1 F2 mulrACA.
have hp : 0 < h * h by apply: mulr_gt0.
case: one So => [[g1 g2]|] So; last first.
  exists (bond_permute (4 - k) (tscale h X1)), (bond_permute (4 - k) (tscale h X2)), (h * h); split=> // _.
  exists (fun u => h * h * w u); split.
  - by move=> u Hu; apply: mulr_ge0; [apply: Order.POrderTheory.ltW|apply: w0].
  - by move=> u v Huv Hv; rewrite ler_pmul2l // wd.
  - by rewrite -sumn_mull.
  - by move=> u v Hu Hv; rewrite (overlap_scale _ _ _ _ F1) hr O1 G1 // mulrnAr.
  by move=> u v Hu Hv; rewrite (overlap_scale _ _ _ _ F2) hr O2 G2 // mulrnAr.
case: So => So1 So2; have [u1 [-> U1 EU1]] := one_site_shape So1 ST1; rewrite [bind (Ok u1) _]/bind.
have [u2 [-> U2 EU2]] := one_site_shape So2 ST2; rewrite [bind (Ok u2) _]/bind.
exists u1, u2, (h * h); split=> // P Q y x; rewrite (bond_pair _ _ (fun _ => u1)) (pair_gates _ _ _ _ _ EU1 EU2) /= sumn_mull; apply: eq_sumn => P' HP'.
by rewrite sumn_mull; apply: eq_sumn => Q' HQ'; rewrite -bond_pair Ep -(mulrA (h * h)).
Qed.
End Site.

(** ---- the metric of the update, on the sites ---- *)
Section Metric.
Variable C : numClosedFieldType.
Notation tensor := (tensor C).
Notation pair := (nat -> nat -> nat -> nat -> C).

Lemma unravel_inj n (i j : 'I_(n * n)) : (unravel [:: n; n] i == unravel [:: n; n] j) = (i == j).
Proof.
apply/eqP/eqP => [H|-> //]; apply: ord_inj; have := congr1 (ravel [:: n; n]) H.
by rewrite !unravelK //= ?muln1.
Qed.

Lemma nmat_shifted n (N : tensor) d : nmat n (shifted n N d) = nmat n N + d%:M.
Proof.
apply/matrixP => i j; rewrite nmatE !mxE -unravel_inj.
have [y [x [Ei _]]] := unravel2_lt (ltn_ord i); have [Y [X [Ej _]]] := unravel2_lt (ltn_ord j); rewrite Ei Ej /=.
by rewrite [[:: y; x] == _]eq_sym !eqseq_cons andbT.
Qed.

Lemma qq_iso b n (q1 q2 : tensor) : isometric b n q1 -> isometric b n q2 -> adj (qq b n q1 q2) *m qq b n q1 q2 = 1%:M.
Proof.
move=> /qmat_iso I1 /qmat_iso I2; apply/matrixP => i j; rewrite !mxE -unravel_inj.
have [z [z' [Ei [Hz Hz']]]] := unravel2_lt (ltn_ord i); have [Z [Z' [Ej [HZ HZ']]]] := unravel2_lt (ltn_ord j).
transitivity (\sum_(k < b ^ 3 * b ^ 3) (fun s => (qat b q1 (nth 0%N s 0) z * qat b q2 (nth 0%N s 1) z')^* *
    (qat b q1 (nth 0%N s 0) Z * qat b q2 (nth 0%N s 1) Z')) (unravel [:: b ^ 3; b ^ 3]%N k)).
  by apply: eq_bigr => k _; rewrite adjE !mxE Ei Ej.
rewrite (sum2 (b ^ 3) (fun s => (qat b q1 (nth 0%N s 0) z * qat b q2 (nth 0%N s 1) z')^* *
    (qat b q1 (nth 0%N s 0) Z * qat b q2 (nth 0%N s 1) Z'))) [LHS]/=.
have H (q : tensor) (I : adj (qmat b n q) *m qmat b n q = 1%:M) u v : (u < n)%N -> (v < n)%N -> sumn (b ^ 3) (fun y => (qat b q y u)^* * qat b q y v) = (u == v)%:R.
  move=> Hu Hv; have := congr1 (fun A : 'M[C]_n => A (Ordinal Hu) (Ordinal Hv)) I; rewrite !mxE => <-.
  by apply: eq_bigr => y _; rewrite adjE !mxE.
transitivity (sumn (b ^ 3) (fun y => (qat b q1 y z)^* * qat b q1 y Z) * sumn (b ^ 3) (fun x => (qat b q2 x z')^* * qat b q2 x Z')).
  rewrite sumn_mulr; apply: eq_sumn => y _; rewrite sumn_mull; apply: eq_sumn => x _; by rewrite rmorphM mulrACA.
by rewrite !H // Ei Ej !eqseq_cons andbT -natrM mulnb.
Qed.

Lemma nmat_ext n (N M : tensor) : (forall y x Y X, (y < n)%N -> (x < n)%N -> (Y < n)%N -> (X < n)%N -> at_ N [:: y; x; Y; X] = at_ M [:: y; x; Y; X]) ->
  nmat n N = nmat n M.
Proof.
move=> H; apply/matrixP => i j; rewrite !nmatE.
have [y [x [Ei [Hy Hx]]]] := unravel2_lt (ltn_ord i); have [Y [X [Ej [HY HX]]]] := unravel2_lt (ltn_ord j); rewrite Ei Ej /=; exact: H.
Qed.

Lemma lower_id n (N : tensor) : norm_herm n N -> nmat n (lower n N) = nmat n N.
Proof.
move=> H; apply: nmat_ext => y x Y X Hy Hx HY HX /=.
case: ifP => // B; case: ifP => B'; first by rewrite -H.
have [-> ->] : y = Y /\ x = X.
  move: B B'; rewrite /before; case: ltngtP => //= -> ; by case: ltngtP.
by apply/Creal_ReP; rewrite CrealE -H.
Qed.

Section At.
Variables (b n : nat) (E q1 q2 N : tensor).
Hypotheses (I1 : isometric b n q1) (I2 : isometric b n q2) (HN : pulled b n E q1 q2 N) (HE : norm_herm (b ^ 3) E).
Notation K := (qq b n q1 q2).

Lemma shifted_pull d : nmat n (shifted n (lower n N) d) = adj K *m nmat (b ^ 3) (shifted (b ^ 3) E d) *m K.
Proof using I1 I2 HN HE.
rewrite !nmat_shifted (lower_id (herm_pull HN HE)) (nmat_pull HN) mulmxDr mulmxDl; congr (_ + _).
by rewrite scalar_mxC -mulmxA qq_iso // mulmx1.
Qed.

Lemma len2_shifted d p (f : pair) : len2 n p p (shifted n (lower n N) d) f = len2 (b ^ 3) p p (shifted (b ^ 3) E d) (lift b n q1 q2 f).
Proof using I1 I2 HN HE.
by apply: eq_sumn => Q _; apply: eq_sumn => P _; rewrite !nformE shifted_pull !vec_lift adjM !mulmxA.
Qed.

Lemma vlen_vec m (v : nat -> nat -> C) : vlen m v = (adj (vec m v) *m vec m v) 0 0.
Proof.
rewrite mxE /vlen -(sum2 m (fun s => `|v (nth 0 s 0)%N (nth 0 s 1)%N| ^+ 2)); apply: eq_bigr => i _.
by rewrite adjE !mxE normCKC.
Qed.

Lemma above_pull c : P18_Positive.above (b ^ 3) E c -> P18_Positive.above n (lower n N) c.
Proof using I1 I2 HN HE.
move=> A v; have := A (lift b n q1 q2 (fun _ _ => v) 0%N 0%N); rewrite !vlen_vec !nformE !vec_lift adjM.
by rewrite (lower_id (herm_pull HN HE)) (nmat_pull HN) !mulmxA -(mulmxA (adj (vec n v))) qq_iso // mulmx1.
Qed.
End At.
End Metric.

(** ---- real data ---- *)
Section Real.
Variable C : numClosedFieldType.
Notation tensor := (tensor C).

(** all entries are real, as with a real dtype *)
Definition entries_real (t : tensor) : Prop := forall i, in_range (shape t) i -> at_ t i \is Num.real.

Lemma sum_labels_conj ls env (f : seq (label * nat) -> C) : (sum_labels ls env f)^* = sum_labels ls env (fun e => (f e)^* ).
Proof. by elim: ls env => [|[l d] ls IH] env //=; rewrite sumn_conj; apply: eq_sumn => i _; apply: IH. Qed.

Lemma factors_conj env ins (ts : seq tensor) : prod_list (factors env ins [seq conj t | t <- ts]) = (prod_list (factors env ins ts))^*.
Proof.
rewrite !prod_listE; elim: ins ts => [|ls ins IH] [|t ts] /=; rewrite ?big_nil ?rmorph1 // !big_cons IH rmorphM; congr (_ * _).
Qed.

Lemma einsum_conj_all spec (ts : seq tensor) f : einsum spec ts = Ok f ->
  exists2 g, einsum spec [seq conj t | t <- ts] = Ok g & shape g = shape f /\ forall i, at_ g i = (at_ f i)^*.
Proof.
rewrite /einsum; case: (parse spec) => [[ins out]|] //.
have -> : ranks_ok ins [seq conj t | t <- ts] = ranks_ok ins ts by elim: ins ts => [|l ins IH] [|t ts] //=; rewrite IH.
have -> : dim_env ins [seq conj t | t <- ts] = dim_env ins ts by elim: ins ts => [|l ins IH] [|t ts] //=; rewrite IH.
case: ifP => // _; case: ifP => // _ [<-]; eexists; first by [].
split=> // i /=; rewrite sum_labels_conj; elim: [seq _ | _ <- _] (zip _ _) => [|[l d] ls IH] env /=; first exact: factors_conj.
by apply: eq_sumn => j _; apply: IH.
Qed.

Lemma einsum_real spec (ts : seq tensor) f : foldr (fun t P => entries_real t /\ P) True ts -> einsum spec ts = Ok f -> entries_real f.
Proof.
move=> Hr Ef.
have Hs : scaled_all (nseq (size ts) 1) [seq conj t | t <- ts] ts.
  elim: ts Hr {Ef} => [|t ts IH] //= [Ht Hts]; split; last exact: IH.
  by split=> // i Hi; rewrite mul1r /=; apply: conj_Creal; apply: Ht.
have [f' [Ef' [_ Sf]]] := einsum_scaled Hs Ef.
have [g Eg [_ Hg]] := einsum_conj_all Ef; move: Ef'; rewrite Eg => -[?]; subst f'.
move=> i Hi; rewrite CrealE -Hg Sf //.
by rewrite big_nseq; elim: (size ts) => [|m IH] //=; rewrite ?mul1r // -mulrA.
Qed.

Lemma reshape_real (t t' : tensor) sh : entries_real t -> reshape t sh = Ok t' -> entries_real t'.
Proof.
rewrite /reshape; case: eqP => // E Ht [<-] i /= Hi; apply: Ht; apply: unravel_range; rewrite -E; exact: ravel_lt.
Qed.

Lemma conj_real (t : tensor) : entries_real t -> entries_real (conj t).
Proof. by move=> H i Hi; rewrite /= CrealE conjCK eq_sym -CrealE; apply: H. Qed.

Lemma qr_real lqr (t q r : tensor) : real_qr lqr -> entries_real t -> qr lqr t = Ok (q, r) -> entries_real q /\ entries_real r.
Proof.
move=> Rq Ht; rewrite /qr; case St : (shape t) => [|m [|n [|? ?]]] //; case E : (lqr _) => [Q R] [<- <-].
have [|RQ RR] := Rq _ _ (mx_of m n t); first by move=> i j; rewrite mxE; apply: Ht; rewrite St /= !ltn_ord.
by rewrite E in RQ RR; split=> i _; apply: of_mx_real.
Qed.

Lemma decompose_real lqr (a1 a2 q1 r1 q2 r2 : tensor) : real_qr lqr -> entries_real a1 -> entries_real a2 ->
  decompose_site_tensors lqr a1 a2 = Ok (q1, r1, q2, r2) -> [/\ entries_real q1, entries_real r1, entries_real q2 & entries_real r2].
Proof.
move=> Rq H1 H2; rewrite /decompose_site_tensors; case: (drop 3 _) => [|b [|p [|? ?]]] //.
case E1 : (einsum _ _) => [t1|] //; rewrite [bind (Ok _) _]/bind; case F1 : (reshape _ _) => [u1|] //; rewrite [bind (Ok _) _]/bind.
case G1 : (qr _ _) => [[x1 y1]|] //; rewrite [bind (Ok _) _]/bind; case K1 : (reshape _ _) => [x1'|] //; rewrite [bind (Ok _) _]/bind.
case L1 : (reshape _ _) => [y1'|] //; rewrite [bind (Ok _) _]/bind.
case E2 : (einsum _ _) => [t2|] //; rewrite [bind (Ok _) _]/bind; case F2 : (reshape _ _) => [u2|] //; rewrite [bind (Ok _) _]/bind.
case G2 : (qr _ _) => [[x2 y2]|] //; rewrite [bind (Ok _) _]/bind; case K2 : (reshape _ _) => [x2'|] //; rewrite [bind (Ok _) _]/bind.
case L2 : (reshape _ _) => [y2'|] //; rewrite [bind (Ok _) _]/bind => -[<- <- <- <-].
have T1 := einsum_real (ts := [:: a1]) (Logic.conj H1 I) E1; have T2 := einsum_real (ts := [:: a2]) (Logic.conj H2 I) E2.
have [X1 Y1] := qr_real Rq (reshape_real T1 F1) G1; have [X2 Y2] := qr_real Rq (reshape_real T2 F2) G2.
by split; [exact: reshape_real K1|exact: reshape_real L1|exact: reshape_real K2|exact: reshape_real L2].
Qed.

Lemma permute_real k b p (a : tensor) : (k < 4)%N -> shape a = [:: b; b; b; b; p] -> entries_real a -> entries_real (bond_permute k a).
Proof.
move=> Hk Sa Ha i; rewrite (perm_shape k Sa) => Hi; rewrite /bond_permute /permute [at_ _ _]/=; apply: Ha; rewrite Sa.
case: i Hi => [|i0 [|i1 [|i2 [|i3 [|i4 [|? ?]]]]]] //=; rewrite ?andbF // => /and5P[H0 H1 H2 H3 /andP[H4 _]].
by case: k Hk => [|[|[|[|?]]]] //= _; rewrite H0 H1 H2 H3 H4.
Qed.

Lemma unravel3 b y : (y < b ^ 3)%N -> in_range [:: b; b; b] (unravel [:: b; b; b] y).
Proof. by move=> Hy; apply: unravel_range; rewrite /= muln1 mulnn -expnS. Qed.

Lemma in_range_cat s1 s2 v w : in_range s1 v -> in_range s2 w -> in_range (s1 ++ s2)%SEQ (v ++ w)%SEQ.
Proof. by elim: s1 v => [|d s1 IH] [|x v] //= /andP[-> /IH H] /H. Qed.

Lemma qat_real b n (q : tensor) y z : shape q = [:: b; b; b; n] -> entries_real q -> (y < b ^ 3)%N -> (z < n)%N -> qat b q y z \is Num.real.
Proof.
move=> Sq H Hy Hz; apply: H; rewrite Sq -[[:: b; b; b; n]]/(cat [:: b; b; b] [:: n]) -cats1.
by apply: in_range_cat; [exact: unravel3|rewrite /= Hz].
Qed.

Lemma metric_real b (E : tensor) y x Y X : shape E = nseq 12 b -> entries_real E -> (y < b ^ 3)%N -> (x < b ^ 3)%N -> (Y < b ^ 3)%N -> (X < b ^ 3)%N ->
  at_ (metric b E) [:: y; x; Y; X] \is Num.real.
Proof.
move=> SE RE Hy Hx HY HX; apply: RE; rewrite SE -[nseq 12 b]/(cat [:: b; b; b] (cat [:: b; b; b] (cat [:: b; b; b] [:: b; b; b]))).
by do !apply: in_range_cat; apply: unravel3.
Qed.

Lemma surroundings_real (n : Mover.net tensor) s1 s2 k (E : tensor) : (forall w, entries_real (n s1 w)) -> (forall w, entries_real (n s2 w)) ->
  surroundings n s1 s2 k = Ok E -> entries_real E.
Proof. by move=> H1 H2; apply: einsum_real; do ?split; first [exact: H1|exact: H2]. Qed.

(** the reduced state back from the lifted one *)
Lemma drop_lift b n (q1 q2 : tensor) (f : nat -> nat -> nat -> nat -> C) P Q z z' : isometric b n q1 -> isometric b n q2 -> (z < n)%N -> (z' < n)%N ->
  f P Q z z' = sumn (b ^ 3) (fun y => sumn (b ^ 3) (fun x => (qat b q1 y z)^* * (qat b q2 x z')^* * lift b n q1 q2 f P Q y x)).
Proof.
move=> /qmat_iso I1 /qmat_iso I2 Hz Hz'.
have /matrixP/(_ (Ordinal Hz) (Ordinal Hz')) : adj (qmat b n q1) *m slice (b ^ 3) (lift b n q1 q2 f) P Q *m adj ((qmat b n q2)^T) = slice n f P Q.
  by rewrite slice_lift !mulmxA I1 mul1mx -mulmxA isoT // mulmx1.
rewrite [RHS]mxE /= => <-; rewrite mxE /sumn exchange_big; apply: eq_bigr => x _ /=.
rewrite mxE mulr_suml; apply: eq_bigr => y _; by rewrite !(adjE, mxE) /= mulrAC.
Qed.
End Real.

(** ---- C69 ---- *)
Section C69.
Variable C : numClosedFieldType.
Notation tensor := (tensor C).
Notation net := (Mover.net tensor).
Notation pair := (nat -> nat -> nat -> nat -> C).
Variable lqr : qr_fun C.
Variable lsvd : thin_svd_fun C.
Variable fsvd : full_svd_fun C.
Variable leigh : eigh_fun C.
Variable lchol : chol_fun C.
Variable rtol : nat -> nat -> C.
Variable cfg : econfig C.
Hypothesis Sq : qr_spec lqr.
Hypothesis Ss : thin_svd_spec lsvd.
Hypothesis Sf : full_svd_spec fsvd.
Hypothesis Se : eigh_spec leigh.
Hypothesis Hm : als_method cfg = "cholesky" \/ als_method cfg = "pinv".
Hypothesis tot : forall m (A : 'M[C]_m), leigh A.
Notation cutoff := (positive_approx_cutoff cfg).
Hypothesis c0 : 0 <= cutoff.
Notation update := (full_bond_update lqr lsvd fsvd leigh lchol rtol cfg).
Notation reduced := (update_reduced_tensors lqr lsvd fsvd leigh lchol rtol cfg).

Section Bond.
Variables (nx ny b p k : nat) (chi : nat -> site -> nat) (n : net) (s1 : site).
Hypotheses (Hf : fits nx ny b p chi n) (Hs : in_cell nx ny s1) (Hk : (k < 4)%N).
Notation s2 := (nbr nx ny k s1).
Notation a1 := (n s1 SA).
Notation a2 := (n s2 SA).
Notation nn := (minn (b ^ 3) (p * b)).

Lemma in5 v y P : (v < b)%N -> (y < b ^ 3)%N -> (P < p)%N -> let o := unravel [:: b; b; b] y in
  in_range [:: b; b; b; b; p] [:: v; nth 0 o 2; nth 0 o 0; nth 0 o 1; P]%N /\ in_range [:: b; b; b; b; p] [:: nth 0 o 1; nth 0 o 2; v; nth 0 o 0; P]%N.
Proof. by move=> Hv /unravel3_lt [r [d [u [-> [Hr Hd Hu]]]]] HP; rewrite /= Hv Hr Hd Hu HP. Qed.

Lemma open_bond : exists q1 r1 q2 r2 N E,
  [/\ decompose_site_tensors lqr (bond_permute k a1) (bond_permute k a2) = Ok (q1, r1, q2, r2),
      [/\ shape q1 = [:: b; b; b; nn], shape q2 = [:: b; b; b; nn], shape r1 = [:: nn; b; p] & shape r2 = [:: nn; b; p]],
      isometric b nn q1 /\ isometric b nn q2,
      [/\ surroundings n s1 s2 k = Ok E, build_norm_tensor n (Bond s1 s2 k) q1 q2 = Ok N, shape N = [:: nn; nn; nn; nn], pulled b nn (metric b E) q1 q2 N & shape E = nseq 12 b] &
      forall v y P, (v < b)%N -> (y < b ^ 3)%N -> (P < p)%N ->
        at_ a1 (leg1 k v (unravel [:: b; b; b] y) P) = sumn nn (fun z => qat b q1 y z * at_ r1 [:: z; v; P]) /\
        at_ a2 (leg2 k v (unravel [:: b; b; b] y) P) = sumn nn (fun z => qat b q2 y z * at_ r2 [:: z; v; P])].
Proof using Sq Hf Hs Hk.
have [dd [C2k E2k E1k C1k1 [E1k1 C1k2 E1k2 E2k2 [C2k3 E2k3 HA1 HA2]]]] := fits_bond Hf Hs Hk.
have A1 : shape (bond_permute k a1) = [:: b; b; b; b; p] by apply: perm_shape.
have A2 : shape (bond_permute k a2) = [:: b; b; b; b; p] by apply: perm_shape.
have [q1 [r1 [q2 [r2 [Ed [[Q1 Q2] [R1 R2] [I1 I2] [c1 [c2 [Ec [Sc1 Hc1] [Sc2 Hc2]]]]]]]]]] := C47_lossless Sq A1 A2.
have [N [E [f [H SE SN [_ TN]]]]] := norm_pull C2k E2k E1k C1k1 E1k1 C1k2 E1k2 E2k2 C2k3 E2k3 Q1 Q2.
move: H; case EN : norm_tensor_core => [N1|] //=; case EE : einsum => [E1|] //=; case Ef : einsum => [f1|] //= -[? ? ?]; subst N1 E1 f1.
exists q1, r1, q2, r2, N, E; split=> //.
  split=> //; first by rewrite /build_norm_tensor /= addn0 (modn_small Hk).
  by move=> z z' Z Z' Hz Hz' HZ HZ'; rewrite TN ?SN /= ?Hz ?Hz' ?HZ ?HZ' // (pullE SE Q1 Q2 Ef).
have [X1 [X2 [Eb _ _ X1E X2E]]] := recomposeE Q1 Q2 R1 R2; move: Eb; rewrite Ec => -[? ?]; subst X1 X2.
move=> v y P Hv Hy HP; rewrite leg1_rot // leg2_rot // -X1E -X2E /rent1 /rent2.
have [i1 i2] := in5 Hv Hy HP; by rewrite Hc1 ?Hc2 // ?Sc1 ?Sc2 ?A1 ?A2.
Qed.

Lemma updateE fuel gate one q1 r1 q2 r2 N x : decompose_site_tensors lqr (bond_permute k a1) (bond_permute k a2) = Ok (q1, r1, q2, r2) ->
  build_norm_tensor n (Bond s1 s2 k) q1 q2 = Ok N -> reduced fuel r1 r2 N gate = Some x ->
  update fuel n (Bond s1 s2 k) gate one = Some (let! (b1, b2) := x in back k q1 q2 b1 b2 one).
Proof.
move=> Ed EN Ex; rewrite /full_bond_update /full_tensor_update [b_k _]/= [b_s1 _]/= [b_s2 _]/= Ed [bind (Ok (q1, r1, q2, r2)) _]/bind EN.
rewrite [bind (Ok N) _]/bind Ex; case: (x) => [[b1 b2]|] //; rewrite /back [bind (Ok (b1, b2)) _]/bind [bind (Ok (b1, b2)) _]/bind.
case: recompose_site_tensors => [[X1 X2]|] //; rewrite [bind (Ok (X1, X2)) _]/bind [bind (Ok (X1, X2)) _]/bind.
by case: (tdiv X1) => [Y1|] //; rewrite [bind (Ok Y1) _]/bind [bind (Ok Y1) _]/bind; case: (tdiv X2).
Qed.

(** a reduced tensor for every tensor within the old one *)
Lemma within_reduced (leg : nat -> seq nat -> nat -> seq nat) (q r a e : tensor) : shape r = [:: nn; b; p] ->
  (forall v y P, (v < b)%N -> (y < b ^ 3)%N -> (P < p)%N -> at_ a (leg v (unravel [:: b; b; b] y) P) = sumn nn (fun z => qat b q y z * at_ r [:: z; v; P])) ->
  within b p leg a e -> exists2 t, shape t = [:: nn; b; p] &
    forall v y P, (v < b)%N -> (y < b ^ 3)%N -> (P < p)%N -> at_ e (leg v (unravel [:: b; b; b] y) P) = sumn nn (fun z => qat b q y z * at_ t [:: z; v; P]).
Proof.
move=> Sr Ea [f Ee].
exists (Tensor [:: nn; b; p] (fun i => sumn b (fun u => sumn p (fun R => at_ r [:: nth 0 i 0; u; R]%N * f u R (nth 0 i 1)%N (nth 0 i 2)%N)))) => // v y P Hv Hy HP.
rewrite Ee //=.
transitivity (sumn b (fun u => sumn p (fun R => sumn nn (fun z => qat b q y z * (at_ r [:: z; u; R] * f u R v P))))).
  apply: eq_sumn => u Hu; apply: eq_sumn => R HR; rewrite Ea // sumn_mulr; by apply: eq_sumn => z _; rewrite mulrA.
rewrite [RHS](_ : _ = sumn nn (fun z => sumn b (fun u => sumn p (fun R => qat b q y z * (at_ r [:: z; u; R] * f u R v P))))); last first.
  by apply: eq_sumn => z _; rewrite sumn_mull; apply: eq_sumn => u _; rewrite sumn_mull.
by rewrite [RHS]sumnC; apply: eq_sumn => u _; rewrite sumnC.
Qed.

Lemma weight_reduced (leg : nat -> seq nat -> nat -> seq nat) (q t e : tensor) : isometric b nn q ->
  (forall v y P, (v < b)%N -> (y < b ^ 3)%N -> (P < p)%N -> at_ e (leg v (unravel [:: b; b; b] y) P) = sumn nn (fun z => qat b q y z * at_ t [:: z; v; P])) ->
  weight b p leg e = sq3 nn b p t.
Proof.
move=> I He; rewrite /weight /sq3 [RHS]sumnC; apply: eq_sumn => v Hv.
transitivity (overlap b p (fun v y P => sumn nn (fun z => qat b q y z * at_ t [:: z; v; P])) v v).
  by apply: eq_sumn => y Hy; apply: eq_sumn => P HP; rewrite !He.
rewrite (overlap_iso (r := t) p I) // /gram; apply: eq_sumn => y _; apply: eq_sumn => P _; by rewrite normCKC.
Qed.

(** site states through reduced ones *)
Lemma bond_lift (q1 q2 t1 t2 f1 f2 : tensor) :
  (forall v y P, (v < b)%N -> (y < b ^ 3)%N -> (P < p)%N -> at_ f1 (leg1 k v (unravel [:: b; b; b] y) P) = sumn nn (fun z => qat b q1 y z * at_ t1 [:: z; v; P])) ->
  (forall v y P, (v < b)%N -> (y < b ^ 3)%N -> (P < p)%N -> at_ f2 (leg2 k v (unravel [:: b; b; b] y) P) = sumn nn (fun z => qat b q2 y z * at_ t2 [:: z; v; P])) ->
  forall P Q y x, (P < p)%N -> (Q < p)%N -> (y < b ^ 3)%N -> (x < b ^ 3)%N ->
  bond_state b k f1 f2 P Q y x = lift b nn q1 q2 (state b t1 t2) P Q y x.
Proof.
move=> H1 H2 P Q y x HP HQ Hy Hx; rewrite /bond_state /lift /state.
transitivity (sumn b (fun v => sumn nn (fun z => sumn nn (fun z' => qat b q1 y z * qat b q2 x z' * (at_ t1 [:: z; v; P] * at_ t2 [:: z'; v; Q]))))).
  apply: eq_sumn => v Hv; rewrite H1 // H2 // sumn_mulr; apply: eq_sumn => z _; rewrite sumn_mull; apply: eq_sumn => z' _; exact: mulrACA.
by rewrite sumnC; apply: eq_sumn => z _; rewrite sumnC; apply: eq_sumn => z' _; rewrite sumn_mull.
Qed.

Lemma gates_congr one (f g : pair) : (forall P Q y x, (P < p)%N -> (Q < p)%N -> (y < b ^ 3)%N -> (x < b ^ 3)%N -> f P Q y x = g P Q y x) ->
  forall P Q y x, (P < p)%N -> (Q < p)%N -> (y < b ^ 3)%N -> (x < b ^ 3)%N -> one_site_gates p one f P Q y x = one_site_gates p one g P Q y x.
Proof.
move=> H P Q y x HP HQ Hy Hx; case: one => [[g1 g2]|] /=; last exact: H.
by apply: eq_sumn => P' HP'; apply: eq_sumn => Q' HQ'; rewrite H.
Qed.
Lemma gates_scale one c (f : pair) P Q y x : one_site_gates p one (fun P Q y x => c * f P Q y x) P Q y x = c * one_site_gates p one f P Q y x.
Proof.
case: one => [[g1 g2]|] //=; rewrite sumn_mull; apply: eq_sumn => P' HP'; rewrite sumn_mull; apply: eq_sumn => Q' HQ'; by rewrite -(mulrA c).
Qed.

Definition one_ok (one : option (tensor * tensor)) : Prop :=
  if one is Some (g1, g2) then shape g1 = [:: p; p] /\ shape g2 = [:: p; p] else True.

(** C69.  A full update of a bond whose surroundings are Hermitian.  It may fail
    with a zero norm or in a linear solve.  Otherwise the new site tensors have the
    old shapes and describe, up to a positive factor and with the one-site gates
    on top, the state of a pair (e1, e2) such that no second tensor within the
    outer legs of the old one is closer than e2 to the gate-applied state; the
    distance is the one of the surroundings, plus d times the plain one, d being
    zero if the surroundings are above the cutoff.  Both new tensors have norm
    one and the canonical form (unless one-site gates are applied). *)
Theorem C69_full_update E gate one fuel : (0 < b)%N -> (0 < p)%N -> shape gate = [:: p; p; p; p] -> one_ok one ->
  (use_gauge_fix cfg -> 0 < gauge_fix_atol cfg /\ gauge_fix_atol cfg ^+ 2 < cutoff *+ nn) ->
  surroundings n s1 s2 k = Ok E -> norm_herm (b ^ 3) (metric b E) ->
  let goal := two_site_gate p gate (bond_state b k a1 a2) in
  exists d, [/\ 0 <= d, P18_Positive.above (b ^ 3) (metric b E) cutoff -> d = 0 &
    exists2 r, update fuel.+1 n (Bond s1 s2 k) gate one = Some r &
    r = Err ZeroNorm \/ r = Err RuntimeError \/
    exists a1' a2' e1 e2 c, [/\ r = Ok (a1', a2'),
      [/\ shape a1' = shape a1, shape a2' = shape a2, shape e1 = shape a1 & shape e2 = shape a2],
      0 < c /\ (forall P Q y x, (P < p)%N -> (Q < p)%N -> (y < b ^ 3)%N -> (x < b ^ 3)%N ->
        bond_state b k a1' a2' P Q y x = c * one_site_gates p one (bond_state b k e1 e2) P Q y x),
      one = None -> canonical b p k a1' a2' &
      (0 < als_niter cfg)%N ->
        let away e := len2 (b ^ 3) p p (shifted (b ^ 3) (metric b E) d) (fun P Q y x => bond_state b k e1 e P Q y x - goal P Q y x) in
        (exact_method leigh lchol cfg -> forall e, within b p (leg2 k) a2 e -> away e2 <= away e) /\
        (als_method cfg = "cholesky" -> chol_spec lchol -> 0 <= als_epsilon cfg -> use_gauge_fix cfg = false ->
         exists2 m, 0 <= m & forall e, within b p (leg2 k) a2 e ->
           away e2 <= away e + als_epsilon cfg * m * (weight b p (leg2 k) e - weight b p (leg2 k) e2))]].
Proof using Sq Ss Sf Se Hm tot c0 Hf Hs Hk.
move=> b0 p0 Sg So HG EE HE goal.
have [q1 [r1 [q2 [r2 [N [E' [Ed [Q1 Q2 R1 R2] [I1 I2] [EE' EN SN PN _] EA]]]]]]] := open_bond.
move: EE'; rewrite EE => -[?]; subst E'.
have n0 : (0 < nn)%N by rewrite leq_min expn_gt0 b0 muln_gt0 p0.
have Hb : (b <= nn * p)%N.
  apply: (@leq_trans nn); last by rewrite leq_pmulr.
  by rewrite leq_min leq_pmull // andbT expnS leq_pmulr // expn_gt0 b0.
have [d [N' [W1 [W2 [V1 [V2 [[d0 Hab Hd] [J1 J2 HF Heye] [r Er Hr]]]]]]]] :=
  C67_reduced lchol rtol Sq Ss Sf Se Hm tot c0 fuel n0 p0 Hb R1 R2 SN Sg HG.
exists d; split=> //; first by move=> A; apply: Hd; apply: (above_pull I1 I2 PN HE A).
have EU := updateE one Ed EN Er.
case: Hr EU => [->|[->|[b1 [b2 [t1 [t2 [c [-> [B1 B2 T1 T2] [cp Hc] Bal Opt]]]]]]]] EU.
- by exists (Err ZeroNorm); [exact: EU|left].
- by exists (Err RuntimeError); [exact: EU|right; left].
have [a1' [a2' [c' [Eb [S1 S2] cp' Hc' Can]]]] := backE Hk Q1 Q2 I1 I2 B1 B2 Bal So.
exists (Ok (a1', a2')); first by rewrite EU /= Eb.
right; right.
have [X1 [X2 [_ SX1 SX2 EX1 EX2]]] := recomposeE Q1 Q2 T1 T2.
have F1 v y P : (v < b)%N -> (y < b ^ 3)%N -> (P < p)%N -> at_ (bond_permute (4 - k) X1) (leg1 k v (unravel [:: b; b; b] y) P) = sumn nn (fun z => qat b q1 y z * at_ t1 [:: z; v; P]).
  by move=> _ _ _; rewrite leg1_back.
have F2 v y P : (v < b)%N -> (y < b ^ 3)%N -> (P < p)%N -> at_ (bond_permute (4 - k) X2) (leg2 k v (unravel [:: b; b; b] y) P) = sumn nn (fun z => qat b q2 y z * at_ t2 [:: z; v; P]).
  by move=> _ _ _; rewrite leg2_back.
have [SA1 _] := Hf Hs; have Hs2 : in_cell nx ny s2 by apply: nbr_cell.
have [SA2 _] := Hf Hs2.
exists a1', a2', (bond_permute (4 - k) X1), (bond_permute (4 - k) X2), (c' * c); split=> //.
- by rewrite SA1 SA2 S1 S2; split=> //; rewrite (perm_shape (4 - k) (b := b) (p := p)).
- split=> [|P Q y x HP HQ Hy Hx]; first exact: mulr_gt0.
  rewrite Hc' -mulrA; congr (_ * _); rewrite -gates_scale; apply: gates_congr => // {}P {}Q {}y {}x {}HP {}HQ {}Hy {}Hx.
  rewrite (bond_lift F1 F2) // /lift sumn_mull; apply: eq_sumn => z Hz; rewrite sumn_mull; apply: eq_sumn => z' Hz'.
  by rewrite Hc // mulrCA.
move=> ni away; have [O1 O2] := Opt ni.
have Aw e t : (forall v y P, (v < b)%N -> (y < b ^ 3)%N -> (P < p)%N -> at_ e (leg2 k v (unravel [:: b; b; b] y) P) = sumn nn (fun z => qat b q2 y z * at_ t [:: z; v; P])) ->
    away e = len2 nn p p (shifted nn (lower nn N) d) (fun P Q y x => state b t1 t P Q y x - gated b p r1 r2 gate P Q y x).
  move=> Fe; rewrite (len2_shifted I1 I2 PN HE); apply: len2_ext => // P Q y x HP HQ Hy Hx.
  rewrite (bond_lift F1 Fe) //.
  have -> : goal P Q y x = lift b nn q1 q2 (gated b p r1 r2 gate) P Q y x.
    rewrite -[gated b p r1 r2 gate]/(two_site_gate p gate (state b r1 r2)) -gate_lift.
    apply: eq_sumn => P' HP'; apply: eq_sumn => Q' HQ'; congr (_ * _); apply: bond_lift => // v z R Hv Hz HR; by have [] := EA v z R Hv Hz HR.
  rewrite /lift /sumn -sumrB; apply: eq_bigr => z _; rewrite -sumrB; apply: eq_bigr => z' _; by rewrite mulrBr.
split=> [ex e We|mc lc e0 nog].
  have [t St Ft] := within_reduced R2 (fun v y P Hv Hy HP => proj2 (EA v y P Hv Hy HP)) We.
  by rewrite (Aw _ _ F2) (Aw _ _ Ft); apply: O1.
have [m [m0 _ _] Hm'] := O2 mc lc e0; exists m => // e We.
have [t St Ft] := within_reduced R2 (fun v y P Hv Hy HP => proj2 (EA v y P Hv Hy HP)) We.
have Sq3 x : shape x = [:: nn; b; p] -> sq3 nn b p (gauged nn W2 x) = sq3 nn b p x.
  move=> Sx; have [_ ->] := Heye nog; apply: eq_sumn => y Hy; apply: eq_sumn => u Hu; apply: eq_sumn => P HP; by rewrite (gauged_eye Sx).
by have := Hm' t St; rewrite (Aw _ _ F2) (Aw _ _ Ft) (weight_reduced I2 F2) (weight_reduced I2 Ft) !Sq3.
Qed.
(** C69: with real data, exact solves and a positive cutoff, the update is exact
    whenever it can be: if the gate-applied state has the bond dimension of the
    bond and is not zero, the new site tensors describe it (with the one-site
    gates on top), up to a positive factor.  This needs no property of the
    surroundings. *)
Theorem C69_exact (f1 f2 gate : tensor) one fuel : (0 < b)%N -> (0 < p)%N -> shape gate = [:: p; p; p; p] -> one_ok one ->
  (use_gauge_fix cfg -> 0 < gauge_fix_atol cfg /\ gauge_fix_atol cfg ^+ 2 < cutoff *+ nn) ->
  0 < cutoff -> exact_method leigh lchol cfg -> (0 < als_niter cfg)%N ->
  real_svd fsvd -> real_qr lqr -> real_eigh leigh -> (forall s w, in_cell nx ny s -> entries_real (n s w)) -> entries_real gate ->
  let goal := two_site_gate p gate (bond_state b k a1 a2) in
  (forall P Q y x, (P < p)%N -> (Q < p)%N -> (y < b ^ 3)%N -> (x < b ^ 3)%N -> goal P Q y x = bond_state b k f1 f2 P Q y x) ->
  (exists P Q y x, [/\ (P < p)%N, (Q < p)%N, (y < b ^ 3)%N, (x < b ^ 3)%N & goal P Q y x != 0]) ->
  exists2 r, update fuel.+1 n (Bond s1 s2 k) gate one = Some r &
  (r = Err RuntimeError /\ als_method cfg = "cholesky") \/
  exists a1' a2' c, [/\ r = Ok (a1', a2'), shape a1' = shape a1 /\ shape a2' = shape a2,
    0 < c /\ (forall P Q y x, (P < p)%N -> (Q < p)%N -> (y < b ^ 3)%N -> (x < b ^ 3)%N ->
      bond_state b k a1' a2' P Q y x = c * one_site_gates p one goal P Q y x) &
    one = None -> canonical b p k a1' a2'].
Proof using Sq Ss Sf Se Hm tot c0 Hf Hs Hk.
move=> b0 p0 Sg Ho HG cp Hex ni Rs Rq Re Rn Rg goal Eg [P0 [Q0 [y0 [x0 [HP0 HQ0 Hy0 Hx0 N0]]]]].
have [q1 [r1 [q2 [r2 [N [E [Ed [Q1 Q2 R1 R2] [I1 I2] [EE EN SN PN SE] EA]]]]]]] := open_bond.
have Hs2 : in_cell nx ny s2 by apply: nbr_cell.
have [SA1 _] := Hf Hs; have [SA2 _] := Hf Hs2.
have [Rq1 Rr1 Rq2 Rr2] := decompose_real Rq (permute_real Hk SA1 (Rn s1 SA Hs)) (permute_real Hk SA2 (Rn s2 SA Hs2)) Ed.
have n0 : (0 < nn)%N by rewrite leq_min expn_gt0 b0 muln_gt0 p0.
have Hb : (b <= nn * p)%N.
  apply: (@leq_trans nn); last by rewrite leq_pmulr.
  by rewrite leq_min leq_pmull // andbT expnS leq_pmulr // expn_gt0 b0.
have EG P Q y x : (P < p)%N -> (Q < p)%N -> (y < b ^ 3)%N -> (x < b ^ 3)%N -> goal P Q y x = lift b nn q1 q2 (gated b p r1 r2 gate) P Q y x.
  move=> HP HQ Hy Hx; rewrite -[gated b p r1 r2 gate]/(two_site_gate p gate (state b r1 r2)) -gate_lift.
  apply: eq_sumn => P' HP'; apply: eq_sumn => Q' HQ'; congr (_ * _); apply: bond_lift => // v z R Hv Hz HR; by have [] := EA v z R Hv Hz HR.
pose red (leg : nat -> nat -> seq nat -> nat -> seq nat) (q f : tensor) := Tensor [:: nn; b; p] (fun i => sumn (b ^ 3) (fun y =>
  (qat b q y (nth 0 i 0)%N)^* * at_ f (leg k (nth 0 i 1)%N (unravel [:: b; b; b] y) (nth 0 i 2)%N))).
have HG' P Q z z' : (P < p)%N -> (Q < p)%N -> (z < nn)%N -> (z' < nn)%N ->
    gated b p r1 r2 gate P Q z z' = state b (red leg1 q1 f1) (red leg2 q2 f2) P Q z z'.
  move=> HP HQ Hz Hz'; rewrite (drop_lift (gated b p r1 r2 gate) P Q I1 I2 Hz Hz').
  transitivity (sumn (b ^ 3) (fun y => sumn (b ^ 3) (fun x => sumn b (fun v =>
      ((qat b q1 y z)^* * at_ f1 (leg1 k v (unravel [:: b; b; b] y) P)) * ((qat b q2 x z')^* * at_ f2 (leg2 k v (unravel [:: b; b; b] x) Q)))))).
    apply: eq_sumn => y Hy; apply: eq_sumn => x Hx; rewrite -EG // Eg // /bond_state sumn_mull; apply: eq_sumn => v _; by rewrite mulrACA.
  rewrite /state /=; transitivity (sumn b (fun v => sumn (b ^ 3) (fun y => sumn (b ^ 3) (fun x =>
      ((qat b q1 y z)^* * at_ f1 (leg1 k v (unravel [:: b; b; b] y) P)) * ((qat b q2 x z')^* * at_ f2 (leg2 k v (unravel [:: b; b; b] x) Q)))))).
    rewrite [RHS]sumnC; apply: eq_sumn => y _; exact: sumnC.
  apply: eq_sumn => v _; rewrite sumn_mulr; apply: eq_sumn => y _; by rewrite sumn_mull.
have sr m (F : nat -> C) : (forall i, (i < m)%N -> F i \is Num.real) -> sumn m F \is Num.real.
  by move=> H; rewrite /sumn; apply: rpred_sum => i _; apply: H.
have cr (x : C) : x \is Num.real -> x^* \is Num.real by rewrite !CrealE conjCK eq_sym.
have RE : entries_real E := surroundings_real (fun w => Rn s1 w Hs) (fun w => Rn s2 w Hs2) EE.
have RN : real4 nn N.
  move=> z z' Z Z' Hz Hz' HZ HZ'; rewrite PN //.
  apply: (sr) => y Hy; apply: (sr) => x Hx; apply: (sr) => Y HY; apply: (sr) => X HX.
  have q1r := qat_real Q1 Rq1; have q2r := qat_real Q2 Rq2.
  by do !apply: rpredM; rewrite ?cr ?q1r ?q2r //; apply: metric_real.
have RG P Q z z' : (P < p)%N -> (Q < p)%N -> (z < nn)%N -> (z' < nn)%N -> gated b p r1 r2 gate P Q z z' \is Num.real.
  move=> HP HQ Hz Hz'; apply: (sr) => P' HP'; apply: (sr) => Q' HQ'; apply: rpredM; last by apply: Rg; rewrite Sg /= HP' HQ' HP HQ.
  apply: (sr) => v Hv; apply: rpredM; [apply: Rr1; rewrite R1|apply: Rr2; rewrite R2]; by rewrite /= ?Hz ?Hz' ?Hv ?HP' ?HQ'.
have NZ : exists P Q z z', [/\ (P < p)%N, (Q < p)%N, (z < nn)%N, (z' < nn)%N & gated b p r1 r2 gate P Q z z' != 0].
  case: (boolP [exists z : 'I_nn, [exists z' : 'I_nn, gated b p r1 r2 gate P0 Q0 z z' != 0]]).
    by case/existsP => z /existsP[z' Hz]; exists P0, Q0, z, z'.
  rewrite negb_exists => /forallP H; case/negP: N0; rewrite EG // /lift /sumn; apply/eqP; apply: big1 => z _; apply: big1 => z' _.
  by have := H z; rewrite negb_exists => /forallP/(_ z'); rewrite negbK => /eqP ->; rewrite mulr0.
have [r Er Hr] := C67_exact rtol Sq Ss Sf Se Hm tot c0 fuel n0 p0 Hb R1 R2 SN Sg HG cp Hex ni Rs Rq Re RN RG HG' NZ.
have EU := updateE one Ed EN Er.
case: Hr EU => [[-> mc]|[b1 [b2 [c [-> [B1 B2] [c1 Hc] Bal]]]]] EU; first by exists (Err RuntimeError); [exact: EU|left].
have [a1' [a2' [c' [Eb [S1 S2] c'0 Hc' Hcan]]]] := backE Hk Q1 Q2 I1 I2 B1 B2 Bal Ho.
exists (Ok (a1', a2')); first by rewrite EU /= Eb.
right; exists a1', a2', (c' * c); split=> //; first by rewrite SA1 SA2 S1 S2.
split=> [|P Q y x HP HQ Hy Hx]; first exact: mulr_gt0.
rewrite Hc' -mulrA; congr (_ * _); rewrite -gates_scale; apply: gates_congr => // {}P {}Q {}y {}x {}HP {}HQ {}Hy {}Hx.
rewrite EG // /lift sumn_mull; apply: eq_sumn => z Hz; rewrite sumn_mull; apply: eq_sumn => z' Hz'.
by rewrite Hc // mulrCA.
Qed.

(** C69: with real data the identity as gate leaves the state of the two sites as
    it is, up to the normalisation *)
Corollary C69_identity_gate gate fuel : (0 < b)%N -> (0 < p)%N -> shape gate = [:: p; p; p; p] -> identity_gate p gate ->
  (use_gauge_fix cfg -> 0 < gauge_fix_atol cfg /\ gauge_fix_atol cfg ^+ 2 < cutoff *+ nn) ->
  0 < cutoff -> exact_method leigh lchol cfg -> (0 < als_niter cfg)%N ->
  real_svd fsvd -> real_qr lqr -> real_eigh leigh -> (forall s w, in_cell nx ny s -> entries_real (n s w)) ->
  (exists P Q y x, [/\ (P < p)%N, (Q < p)%N, (y < b ^ 3)%N, (x < b ^ 3)%N & bond_state b k a1 a2 P Q y x != 0]) ->
  exists2 r, update fuel.+1 n (Bond s1 s2 k) gate None = Some r &
  (r = Err RuntimeError /\ als_method cfg = "cholesky") \/
  exists a1' a2' c, [/\ r = Ok (a1', a2'), shape a1' = shape a1 /\ shape a2' = shape a2,
    0 < c /\ (forall P Q y x, (P < p)%N -> (Q < p)%N -> (y < b ^ 3)%N -> (x < b ^ 3)%N ->
      bond_state b k a1' a2' P Q y x = c * bond_state b k a1 a2 P Q y x) &
    canonical b p k a1' a2'].
Proof using Sq Ss Sf Se Hm tot c0 Hf Hs Hk.
move=> b0 p0 Sg Hi HG cp Hex ni Rs Rq Re Rn [P0 [Q0 [y0 [x0 [HP0 HQ0 Hy0 Hx0 N0]]]]].
have Eg P Q y x : (P < p)%N -> (Q < p)%N -> (y < b ^ 3)%N -> (x < b ^ 3)%N -> two_site_gate p gate (bond_state b k a1 a2) P Q y x = bond_state b k a1 a2 P Q y x.
  move=> HP HQ _ _; rewrite /two_site_gate (eq_sumn (G := fun P' => bond_state b k a1 a2 P' Q y x *+ (P' == P))) => [|P' HP'].
    by rewrite (sumn_delta (fun P' => bond_state b k a1 a2 P' Q y x)).
  rewrite (eq_sumn (G := fun Q' => (bond_state b k a1 a2 P' Q' y x *+ (P' == P)) *+ (Q' == Q))) => [|Q' HQ'].
    by rewrite (sumn_delta (fun Q' => bond_state b k a1 a2 P' Q' y x *+ (P' == P))).
  by rewrite Hi // -mulrnA mulnb mulr_natr.
have Rg : entries_real gate.
  move=> i; rewrite Sg; case: i => [|i0 [|i1 [|i2 [|i3 [|? ?]]]]] //=; rewrite ?andbF // => /and5P[H0 H1 H2 H3 _].
  by rewrite Hi // realn.
have [|r Er Hr] := C69_exact (one := None) fuel b0 p0 Sg I HG cp Hex ni Rs Rq Re Rn Rg Eg.
  by exists P0, Q0, y0, x0; rewrite Eg.
exists r => //; case: Hr => [E|[a1' [a2' [c [E S [c1 H] B]]]]]; [by left|right; exists a1', a2', c; split=> //; last exact: B].
by split=> // P Q y x HP HQ Hy Hx; rewrite H //= Eg.
Qed.
End Bond.
End C69.

(** ---- a concrete case: the GHZ network in a product environment ---- *)
Section Case.
Variable C : numClosedFieldType.
Notation tensor := (tensor C).

Definition ghz : tensor := Tensor [:: 2; 2; 2; 2; 2]%N (fun i => (all (fun x => x == nth 0%N i 4) (take 4 i))%:R).
Definition ghz_net : Mover.net tensor := fun _ w => match w with
  | SA => ghz
  | SC _ => Tensor [:: 1; 1]%N (fun _ => 1)
  | SE _ => Tensor [:: 1; 1; 2; 2]%N (fun i => (nth 0 i 2 == nth 0 i 3)%N%:R)
  end.

Lemma ghz_fits : fits 2 2 2 2 (fun _ _ => 1%N) ghz_net.
Proof. by move=> s _; split. Qed.

Example C69_surroundings k : (k < 4)%N -> exists2 E, surroundings ghz_net (0, 0)%N (nbr 2 2 k (0, 0)%N) k = Ok E & norm_herm (2 ^ 3) (metric 2 E).
Proof.
move=> Hk; rewrite /surroundings /einsum /=; eexists; first by [].
move=> y x Y X Hy Hx HY HX; rewrite /metric /=.
rewrite /factor /= /sumn !big_ord1 /= !mul1r !rmorphM !conjC_nat.
by do 5!(congr (_ * _); first by rewrite eq_sym); rewrite eq_sym.
Qed.

Example C69_ghz rtol k : (k < 4)%N -> exists a1 a2 c, [/\
  full_bond_update (@some_qr C) (@some_thin_svd C) (@some_full_svd C) (@some_eigh C) (fun _ _ => None) rtol (cfg_full C) 1 ghz_net
    (Bond (0, 0)%N (nbr 2 2 k (0, 0)%N) k) (id_gate C 2) None = Some (Ok (a1, a2)),
  0 < c, canonical 2 2 k a1 a2 &
  forall P Q y x, (P < 2)%N -> (Q < 2)%N -> (y < 8)%N -> (x < 8)%N -> bond_state 2 k a1 a2 P Q y x = c * bond_state 2 k ghz ghz P Q y x].
Proof.
move=> Hk.
have c0 : 0 <= positive_approx_cutoff (cfg_full C) by rewrite ler01.
have Hs : in_cell 2 2 (0, 0)%N by split; apply/ltP.
have [| | | |r Er] := C69_identity_gate (lchol := fun _ _ => None) (cfg := cfg_full C) rtol (@some_qr_spec C) (@some_thin_svd_spec C) (@some_full_svd_spec C) (@some_eigh_spec C) (or_intror erefl)
  (fun _ _ => isT) c0 ghz_fits Hs Hk 0 (isT : (0 < 2)%N) (isT : (0 < 2)%N)
  (erefl : shape (id_gate C 2) = [:: 2; 2; 2; 2]%N) (@id_gateP C 2) _ ltr01 _ (isT : (0 < 3)%N) (@some_full_svd_real C) (@some_qr_real C) (@some_eigh_real C).
- move=> _ /=; rewrite invr_gt0 ltr0n; split=> //; rewrite expr2 -invfM -natrM (@Order.POrderTheory.lt_trans _ _ 1) // ?invf_lt1 ?ltr0n ?ltr1n //.
- by split=> //; right; split=> //; apply: some_eigh_spec.
- by move=> s [|j|j] _ i _ /=; rewrite ?real1 ?realn.
- exists 0%N, 0%N, 0%N, 0%N; split=> //; rewrite /bond_state /sumn !big_ord_recl big_ord0 addr0.
  by case: (k) Hk => [|[|[|[|?]]]] //= _; rewrite ?(mulr1, mulr0, addr0, oner_eq0).
case=> [[_ //]|[a1 [a2 [c [E _ [c1 H] Ca]]]]]; exists a1, a2, c; split=> //; by rewrite Er E.
Qed.
End Case.

Print Assumptions C69_full_update.
Print Assumptions C69_exact.
Print Assumptions C69_identity_gate.
