(** C96: what the models report, and between which values it lies. *)
From Coq Require Import String Ascii Permutation.
From mathcomp Require Import all_ssreflect all_algebra.
From Verif Require Import Base Lattice LatticeFacts Neel Mover Tensor TN Rdm RdmFacts Fits EinsumLin P09_Rdm Measure MeasureFacts P11_Measure Linalg Rsvd Renorm Als Session P29_Session P30_Product Pauli P12_Pauli Samples Observables.
Set Implicit Arguments.
Unset Strict Implicit.
Unset Printing Implicit Defensive.
Import GRing.Theory Num.Theory Order.POrderTheory.
Local Open Scope ring_scope.
Local Open Scope string_scope.

(** ---- specification ---- *)
Section Spec.
Variable C : numClosedFieldType.

(** the largest value an expression of Pauli operators can take: a letter has values
    between -1 and 1, numbers enter with their absolute value *)
Fixpoint weight (e : pexpr C) : C :=
  match e with
  | PL _ => 1
  | PMul a b => weight a * weight b
  | PAdd a b | PSub a b => weight a + weight b
  | PNeg a => weight a
  | PScale _ c a => `|c| * weight a
  | PDiv _ a c => weight a / `|c|
  end.

(** positive density matrices of one and of two sites *)
Definition positive1 (d : nat) (rho : tensor C) : Prop :=
  (forall i j, (i < d)%N -> (j < d)%N -> at_ rho [:: i; j] = (at_ rho [:: j; i])^*) /\
  forall v : nat -> C, 0 <= \sum_(i < d) \sum_(j < d) (v i)^* * at_ rho [:: nat_of_ord i; nat_of_ord j] * v j.
Definition positive2 (d : nat) (rho : tensor C) : Prop :=
  (forall i i' j j', (i < d)%N -> (i' < d)%N -> (j < d)%N -> (j' < d)%N -> at_ rho [:: i; i'; j; j'] = (at_ rho [:: j; j'; i; i'])^*) /\
  forall v : nat -> nat -> C, 0 <= \sum_(i < d) \sum_(i' < d) \sum_(j < d) \sum_(j' < d)
    (v i i')^* * at_ rho [:: nat_of_ord i; nat_of_ord i'; nat_of_ord j; nat_of_ord j'] * v j j'.
End Spec.

(** ---- sums of unitary matrices ---- *)
Section Mixture.
Variable C : numClosedFieldType.
Notation mat := (nat -> nat -> C).

Definition unitary (n : nat) (W : mat) : Prop :=
  forall i j, (i < n)%N -> (j < n)%N -> \sum_(k < n) W i k * (W j k)^* = (i == j)%:R.

Inductive mixture (n : nat) : C -> mat -> Prop :=
| MixUnit W : unitary n W -> mixture n 1 W
| MixScale c K W : mixture n K W -> mixture n (`|c| * K) (fun i j => c * W i j)
| MixAdd K K' W W' : mixture n K W -> mixture n K' W' -> mixture n (K + K') (fun i j => W i j + W' i j)
| MixExt K W W' : mixture n K W -> (forall i j, (i < n)%N -> (j < n)%N -> W' i j = W i j) -> mixture n K W'.

Definition mkron (n : nat) (A B : mat) : mat := fun i j => A (i %/ n)%N (j %/ n)%N * B (i %% n)%N (j %% n)%N.

Lemma sum_split m n (G : nat -> nat -> C) : \sum_(k < m * n) G (k %/ n)%N (k %% n)%N = \sum_(a < m) \sum_(b < n) G a b.
Proof.
case: n => [|n].
  rewrite muln0 big_ord0; apply/esym; apply: big1 => a _; by rewrite big_ord0.
elim: m => [|m IH]; first by rewrite mul0n !big_ord0.
rewrite [RHS]big_ord_recr /= -IH mulSn addnC big_split_ord /=; congr (_ + _).
by apply: eq_bigr => b _; rewrite divnMDl // modnMDl divn_small ?addn0 ?modn_small.
Qed.

Lemma divmod_lt m n i : (i < m * n)%N -> ((i %/ n < m) /\ (i %% n < n))%N.
Proof.
case: n => [|n]; first by rewrite muln0.
by move=> H; rewrite ltn_divLR // H ltn_pmod.
Qed.

Lemma unitary_kron m n A B : unitary m A -> unitary n B -> unitary (m * n) (mkron n A B).
Proof.
move=> UA UB i j Hi Hj; have [i1 i2] := divmod_lt Hi; have [j1 j2] := divmod_lt Hj.
rewrite /mkron (sum_split m n (fun a b => A (i %/ n)%N a * B (i %% n)%N b * (A (j %/ n)%N a * B (j %% n)%N b)^*)).
transitivity ((\sum_(a < m) A (i %/ n)%N a * (A (j %/ n)%N a)^*) * (\sum_(b < n) B (i %% n)%N b * (B (j %% n)%N b)^*)).
  rewrite big_distrl /=; apply: eq_bigr => a _; rewrite big_distrr /=; apply: eq_bigr => b _.
  by rewrite rmorphM mulrACA.
rewrite UA // UB // -natrM mulnb; congr (_ %:R); congr nat_of_bool.
apply/andP/eqP => [[/eqP E1 /eqP E2]|->]; last by [].
by rewrite (divn_eq i n) (divn_eq j n) E1 E2.
Qed.

Lemma mixture_kron m n K K' A B : mixture m K A -> mixture n K' B -> mixture (m * n) (K * K') (mkron n A B).
Proof.
move=> MA; elim: MA B K' => {K A} [W UW|c K W MW IH|K1 K2 W W' _ IH1 _ IH2|K W W' _ IH E] B K' MB.
- elim: MB => {K' B} [V UV|c K V _ IH|K1 K2 V V' _ IH1 _ IH2|K V V' _ IH E].
  + by rewrite mulr1; apply: MixUnit; apply: unitary_kron.
  + rewrite mulrCA; apply: MixExt (MixScale c IH) _ => i j _ _; by rewrite /mkron mulrCA.
  + rewrite mulrDr; apply: MixExt (MixAdd IH1 IH2) _ => i j _ _; by rewrite /mkron mulrDr.
  + apply: MixExt IH _ => i j Hi Hj; have [_ i2] := divmod_lt Hi; have [_ j2] := divmod_lt Hj; by rewrite /mkron E.
- rewrite -mulrA; apply: MixExt (MixScale c (IH _ _ MB)) _ => i j _ _; by rewrite /mkron mulrA.
- rewrite mulrDl; apply: MixExt (MixAdd (IH1 _ _ MB) (IH2 _ _ MB)) _ => i j _ _; by rewrite /mkron mulrDl.
- apply: MixExt (IH _ _ MB) _ => i j Hi Hj; have [i1 _] := divmod_lt Hi; have [j1 _] := divmod_lt Hj; by rewrite /mkron E.
Qed.

(** ---- traces with positive matrices ---- *)
Variables (n : nat) (r : mat).
Hypothesis Hr : forall i j, (i < n)%N -> (j < n)%N -> r i j = (r j i)^*.
Hypothesis Pr : forall v : nat -> C, 0 <= \sum_(i < n) \sum_(j < n) (v i)^* * r i j * v j.
Definition mtr (W : mat) : C := \sum_(i < n) \sum_(j < n) r i j * W j i.

Lemma tr_conj W : (mtr W)^* = \sum_(i < n) \sum_(j < n) r i j * (W i j)^*.
Proof.
rewrite /mtr rmorph_sum exchange_big /=; apply: eq_bigr => i _; rewrite rmorph_sum; apply: eq_bigr => j _.
by rewrite rmorphM -Hr.
Qed.

Lemma delta_sum (F : nat -> C) (i : 'I_n) : \sum_(k < n) F k * (k == i)%:R = F i.
Proof.
rewrite (bigD1 i) //= eqxx mulr1 big1 ?addr0 // => k; rewrite -val_eqE => /negbTE /= ->; by rewrite mulr0.
Qed.

Lemma pair_alg (a c x y t t' : C) : (a - t' * y) * (c - t * x) = c * a - t * x * a - t' * (y * c) + t * t' * (x * y).
Proof.
rewrite mulrBl !mulrBr opprB [a * c]mulrC [a * (t * x)]mulrC -!addrA; congr (_ + (_ + _)).
by rewrite [t' * y * (t * x)]mulrC [t * x * (t' * y)]mulrACA addrC -[t' * y * c]mulrA.
Qed.

Lemma unitary_trace W : unitary n W -> `|mtr W| <= \sum_(i < n) r i i.
Proof.
move=> UW; set z := mtr W; set t := \sum_(i < n) _.
have key th : th * th^* = 1 -> 0 <= 2%:R * t - th * z - (th * z)^*.
  move=> th1; have : 0 <= \sum_(k < n) \sum_(i < n) \sum_(j < n) ((i == k)%:R - th * W i k)^* * r i j * ((j == k)%:R - th * W j k).
    apply: sumr_ge0 => k _; exact: (Pr (fun i => (i == k)%:R - th * W i k)).
  rewrite exchange_big /=; under eq_bigr do rewrite exchange_big /=.
  suff -> : \sum_(i < n) \sum_(j < n) \sum_(k < n) ((i == k)%:R - th * W i k)^* * r i j * ((j == k)%:R - th * W j k) = 2%:R * t - th * z - (th * z)^* by [].
  transitivity (\sum_(i < n) \sum_(j < n) (r i j * (2%:R * (j == i)%:R) - th * (r i j * W j i) - th^* * (r i j * (W i j)^*))).
    apply: eq_bigr => i _; apply: eq_bigr => j _.
    transitivity (r i j * \sum_(k < n) (((i == k)%:R - th * W i k)^* * ((j == k)%:R - th * W j k))).
      rewrite big_distrr /=; apply: eq_bigr => k _; by rewrite mulrAC mulrC.
    have -> : \sum_(k < n) (((i == k)%:R - th * W i k)^* * ((j == k)%:R - th * W j k)) = 2%:R * (j == i)%:R - th * W j i - th^* * (W i j)^*.
      transitivity (\sum_(k < n) ((j == k)%:R * (k == i)%:R - th * W j k * (k == i)%:R - th^* * ((W i k)^* * (k == j)%:R) + (th * th^*) * (W j k * (W i k)^*))).
        by apply: eq_bigr => k _; rewrite rmorphB rmorphM rmorph_nat pair_alg [i == k]eq_sym [j == k]eq_sym.
      rewrite big_split /= !sumrB -!big_distrr /= th1 mul1r UW //.
      have -> : \sum_(k < n) (j == k :> nat)%:R * (k == i :> nat)%:R = (j == i)%:R :> C.
        by rewrite (delta_sum (fun k => (nat_of_ord j == k)%:R)).
      rewrite (delta_sum (fun k => (W i k)^*)).
      have -> : \sum_(k < n) th * W j k * (k == i :> nat)%:R = th * W j i by rewrite (delta_sum (fun k => th * W j k)).
      by rewrite mulr_natl mulr2n addrC !addrA.
    by rewrite !mulrBr [r i j * (th * _)]mulrCA [r i j * (th^* * _)]mulrCA.
  under eq_bigr do rewrite !sumrB -!big_distrr /=.
  rewrite !sumrB -!big_distrr /= rmorphM tr_conj; congr (_ - _ - _).
  rewrite /t big_distrr /=; apply: eq_bigr => i _.
  by rewrite (eq_bigr (fun j : 'I_n => 2%:R * r i j * (j == i :> nat)%:R)) ?(delta_sum (fun j => 2%:R * r i j)) // => j _; rewrite mulrCA mulrA.
case: (eqVneq z 0) => [z0|z0].
  by have := key 1; rewrite rmorph1 mulr1 z0 mulr0 rmorph0 !subr0 normr0 pmulr_rge0 ?ltr0n // => /(_ erefl).
pose th := z^* / `|z|.
have n0 : `|z| != 0 by rewrite normr_eq0.
have thz : th * z = `|z| by rewrite /th mulrAC [z^* * z]mulrC -normCK expr2 mulfK.
have := key th; rewrite thz; move=> H.
have {}H : 0 <= 2%:R * t - `|z| - `|z|^*.
  apply: H; rewrite -normCK /th normrM norm_conjC normfV normr_id divff //; by rewrite expr1n.
move: H; rewrite (conj_Creal (normr_real z)) -addrA -opprD subr_ge0 -mulr2n -mulr_natl.
by rewrite ler_pmul2l ?ltr0n.
Qed.

Lemma mixture_trace K W : mixture n K W -> `|mtr W| <= K * \sum_(i < n) r i i.
Proof.
elim=> {K W} [W UW|c K W _ IH|K1 K2 W W' _ IH1 _ IH2|K W W' _ IH E].
- by rewrite mul1r; apply: unitary_trace.
- have -> : mtr (fun i j => c * W i j) = c * mtr W.
    rewrite /mtr big_distrr /=; apply: eq_bigr => i _; rewrite big_distrr /=; apply: eq_bigr => j _; by rewrite mulrCA.
  by rewrite normrM -mulrA ler_wpmul2l.
- have -> : mtr (fun i j => W i j + W' i j) = mtr W + mtr W'.
    rewrite /mtr -big_split; apply: eq_bigr => i _; rewrite -big_split; apply: eq_bigr => j _; by rewrite /= mulrDr.
  by rewrite mulrDl (le_trans (ler_norm_add _ _)) // ler_add.
- have -> : mtr W' = mtr W by apply: eq_bigr => i _; apply: eq_bigr => j _; rewrite E.
  exact: IH.
Qed.
End Mixture.

(** ---- operators ---- *)
Section Operators.
Variable C : numClosedFieldType.
Notation tensor := (tensor C).
Definition entry (t : tensor) : nat -> nat -> C := fun i j => at_ t [:: i; j].

Lemma letter_unitary cx l : unitary 2 (entry (mat (make_letter C cx l))).
Proof.
have ii : 'i * ('i)^* = 1 :> C by rewrite -normCK normCi expr1n.
have Cm : (-1 : C)^* = -1 by rewrite rmorphN rmorph1.
move=> [|[|//]] [|[|//]] _ _; rewrite !big_ord_recr big_ord0 /entry /= add0r;
  case: l; case: cx; rewrite /= ?rmorph0 ?rmorph1 ?Cm ?mul0r ?mulr0 ?mul1r ?mulr1 ?addr0 ?add0r ?mulrNN ?mul1r //;
  by rewrite ?rmorphM ?rmorph0 ?rmorph1 ?Cm ?mulr0 ?mulr1 ?mulrN1 ?rmorphN ?mulrNN ?mul0r ?mulr0 ?rmorph0 ?mulr0 ?addr0 ?add0r ?ii.
Qed.

(** every operator a user can write is a sum of unitary matrices of at most its weight *)
Lemma peval_mixture cx e q : peval cx e = Ok q -> exists2 n, shape (mat q) = [:: n; n] & mixture n (weight e) (entry (mat q)).
Proof.
elim: e q => [l|a IHa b IHb|a IHa b IHb|a IHa b IHb|a IHa|cc c a IHa|cc a IHa c] q /=.
- case=> <-; exists 2%N; last by apply: MixUnit; apply: letter_unitary.
  by case: l; case: cx.
- case Ea: (peval cx a) => [x|] //=; case Eb: (peval cx b) => [y|] //=.
  have [m Sx Mx] := IHa _ Ea; have [n Sy My] := IHb _ Eb.
  rewrite /pmul /kron Sx Sy /= => -[<-] /=; exists (m * n)%N => //.
  set ph := (if _ then _ else _); have Hph : `|ph| = 1 by rewrite /ph; case: (~~ cplx x) => //; [case: ifP => _|]; rewrite ?normrN1 ?normr1.
  rewrite -[weight a * weight b]mul1r -Hph; apply: MixExt (MixScale ph (mixture_kron Mx My)) _ => i j _ _; by [].
- case Ea: (peval cx a) => [x|] //=; case Eb: (peval cx b) => [y|] //=.
  have [m Sx Mx] := IHa _ Ea; have [n Sy My] := IHb _ Eb.
  rewrite /padd /tadd Sx Sy; case: eqP => //= -[E _] [<-] /=; exists m; first by rewrite ?Sx.
  subst n; exact: MixAdd.
- case Ea: (peval cx a) => [x|] //=; case Eb: (peval cx b) => [y|] //=.
  have [m Sx Mx] := IHa _ Ea; have [n Sy My] := IHb _ Eb.
  rewrite /psub /tadd /= Sx Sy; case: eqP => //= -[E _] [<-] /=; exists m; first by rewrite ?Sx.
  subst n; have -> : weight b = `|-1| * weight b by rewrite normrN1 mul1r.
  exact: MixAdd Mx (MixScale (-1) My).
- case Ea: (peval cx a) => [x|] //= [<-]; have [m Sx Mx] := IHa _ Ea; exists m => //.
  have -> : weight a = `|-1| * weight a by rewrite normrN1 mul1r.
  exact: MixScale.
- case Ea: (peval cx a) => [x|] //= [<-]; have [m Sx Mx] := IHa _ Ea; exists m => //.
  exact: MixScale.
- case Ea: (peval cx a) => [x|] //=; rewrite /pdiv /tdiv; case: eqP => //= c0 [<-]; have [m Sx Mx] := IHa _ Ea; exists m => //.
  rewrite mulrC -normfV; exact: MixScale.
Qed.

Lemma weight_ge0 e : 0 <= weight e :> C.
Proof.
by elim: e => //= *; rewrite ?ler01 ?mulr_ge0 ?addr_ge0 ?invr_ge0.
Qed.

(** a value measured with a positive density matrix *)
Lemma exp1_bound d (rho : tensor) cx e q : positive1 d rho -> peval cx e = Ok q -> shape (mat q) = [:: d; d] -> `|exp1 d rho (mat q)| <= weight e.
Proof.
move=> [Hr Pr] Eq Sq; have [n Sn M] := peval_mixture Eq.
have {Sn} ?: n = d by move: Sn; rewrite Sq => -[]. subst n.
have B := mixture_trace (r := entry rho) Hr Pr M.
have t0 : 0 <= tr1 d rho.
  apply: sumr_ge0 => i _; have := Pr (fun j => (j == i)%:R).
  rewrite (eq_bigr (fun a : 'I_d => at_ rho [:: nat_of_ord a; nat_of_ord i] * (a == i :> nat)%:R)) => [|a _]; last first.
    by rewrite (@delta_sum C d (fun j => ((a == i :> nat)%:R)^* * at_ rho [:: nat_of_ord a; j]) i) rmorph_nat mulrC.
  by rewrite (@delta_sum C d (fun a => at_ rho [:: a; nat_of_ord i]) i).
rewrite /exp1 (Creal_ReP _ (ger0_real t0)) normrM normfV (ger0_norm t0).
have [->|t1] := eqVneq (tr1 d rho) 0; first by rewrite invr0 mulr0 weight_ge0.
rewrite ler_pdivr_mulr ?lt_def ?t1 //; apply: le_trans B; exact: leif_normC_Re_Creal.
Qed.

(** the two-site density matrix as a matrix *)
Definition flat (d : nat) (rho : tensor) : tensor :=
  Tensor [:: d * d; d * d]%N (fun idx => match idx with
    | [:: i; j] => at_ rho [:: (i %/ d)%N; (i %% d)%N; (j %/ d)%N; (j %% d)%N] | _ => 0 end).

Lemma flat_positive d (rho : tensor) : positive2 d rho -> positive1 (d * d) (flat d rho).
Proof.
move=> [Hr Pr]; split=> [i j Hi Hj|v] /=.
  by have [i1 i2] := divmod_lt Hi; have [j1 j2] := divmod_lt Hj; apply: Hr.
have := Pr (fun a b => v (a * d + b)%N); congr (0 <= _).
rewrite -(sum_split d d (fun i i' => \sum_(j < d) \sum_(j' < d) (v (i * d + i')%N)^* * at_ rho [:: i; i'; nat_of_ord j; nat_of_ord j'] * v (j * d + j')%N)).
apply: eq_bigr => i _; rewrite -(sum_split d d (fun j j' => (v (i %/ d * d + i %% d)%N)^* * at_ rho [:: (i %/ d)%N; (i %% d)%N; j; j'] * v (j * d + j')%N)).
by apply: eq_bigr => j _; rewrite -!divn_eq.
Qed.

Lemma exp2_flat d rho op : exp2 d rho op = exp1 (d * d) (flat d rho) op.
Proof.
rewrite /exp2 /exp1 /tr1 /tr2 /=; congr ('Re _ / 'Re _).
  rewrite -(sum_split d d (fun P Q => \sum_(p < d) \sum_(q < d) at_ rho [:: P; Q; nat_of_ord p; nat_of_ord q] * at_ op [:: (p * d + q)%N; (P * d + Q)%N])).
  apply: eq_bigr => i _; rewrite -(sum_split d d (fun p q => at_ rho [:: (i %/ d)%N; (i %% d)%N; p; q] * at_ op [:: (p * d + q)%N; (i %/ d * d + i %% d)%N])).
  by apply: eq_bigr => j _; rewrite -!divn_eq.
by rewrite -(sum_split d d (fun p q => at_ rho [:: p; q; p; q])).
Qed.

Lemma exp2_bound d (rho : tensor) cx e q : positive2 d rho -> peval cx e = Ok q -> shape (mat q) = [:: d * d; d * d]%N -> `|exp2 d rho (mat q)| <= weight e.
Proof. by move=> P Eq Sq; rewrite exp2_flat; apply: exp1_bound Eq Sq; apply: flat_positive. Qed.
End Operators.

(** ---- measurements ---- *)
Section Range.
Variable C : numClosedFieldType.
Notation tensor := (tensor C).
Variables nx ny : nat.
Hypotheses (nx0 : (0 < nx)%N) (ny0 : (0 < ny)%N).
Variable cx : bool.

(** the expression has a matrix of this size *)
Definition shaped (n : nat) (e : pexpr C) : Prop := exists2 q, peval cx e = Ok q & shape (mat q) = [:: n; n].

(** the operators of a model have matrices of the right sizes, all sites offer the same
    names, and so do all bonds; "Energy" is not one of them and no name is used twice *)
Definition well_formed (r : recipe C) : Prop :=
  let d := r_dim r in
  [/\ forall s, in_cell nx ny s -> (forall e, r_site r s = Some e -> shaped d e) /\
        (forall X e, List.In (X, e) (r_one r s) -> shaped d e) /\ keys (r_one r s) = keys (r_one r (0, 0)%N),
      forall b, List.In b (build_bond_list nx ny) -> (exists2 e, r_bond r b = Some e & shaped (d * d) e) /\
        (forall X e, List.In (X, e) (r_two r b) -> shaped (d * d) e) /\
        forall b', List.In b' (build_bond_list nx ny) -> keys (r_two r b) = keys (r_two r b'),
      forall s, uniq_keys (keys (r_one r s)), forall b, uniq_keys (keys (r_two r b)) &
      forall b, List.In b (build_bond_list nx ny) ->
        uniq_keys ("Energy" :: keys (r_one r (0, 0)%N) ++ keys (r_two r b))%SEQ].

(** density matrices are there, of the right size, and with a norm *)
Definition available (d : nat) (rdm1 : site -> res tensor) (rdm2 : bond -> res tensor) : Prop :=
  (forall s, in_cell nx ny s -> exists rho, [/\ rdm1 s = Ok rho, shape rho = [:: d; d] & 'Re (tr1 d rho) != 0]) /\
  (forall b, List.In b (build_bond_list nx ny) -> exists rho, [/\ rdm2 b = Ok rho, shape rho = [:: d; d; d; d] & 'Re (tr2 d rho) != 0]).
(** and they are positive *)
Definition all_positive (d : nat) (rdm1 : site -> res tensor) (rdm2 : bond -> res tensor) : Prop :=
  (forall s rho, in_cell nx ny s -> rdm1 s = Ok rho -> positive1 d rho) /\
  (forall b rho, List.In b (build_bond_list nx ny) -> rdm2 b = Ok rho -> positive2 d rho).

(** X is reported, with a value between -K and K *)
Definition within (ave : dict C) (X : string) (K : C) : Prop := exists2 x, dget X ave = Some x & x \is Num.real /\ `|x| <= K.

Lemma dget_taken X (d : dict (pexpr C)) : dget X (taken cx d) = omap (matrix cx) (dget X d).
Proof. by elim: d => [|[k e] d IH] //=; case: String.eqb. Qed.
Lemma keys_taken (d : dict (pexpr C)) : keys (taken cx d) = keys d.
Proof. by rewrite /keys /taken -map_comp. Qed.
Lemma dget_In V X (d : dict V) e : dget X d = Some e -> List.In (X, e) d.
Proof. by elim: d => [|[k v] d IH] //=; case: (seqbP X k) => [-> [->]|_ /IH]; [left|right]. Qed.
Lemma inks_cat X ks ks' : inks X (ks ++ ks')%SEQ = inks X ks || inks X ks'.
Proof. by rewrite /inks has_cat. Qed.
Lemma uniq_cat ks ks' X : uniq_keys (ks ++ ks')%SEQ -> ~~ (inks X ks && inks X ks').
Proof.
elim: ks => [|k ks IH] //= /andP[A /IH B]; move: A; rewrite inks_cat negb_or => /andP[_ A].
by rewrite /inks /= -/(inks X ks); case: (seqbP X k) => [->|_] /=; rewrite ?(negbTE A).
Qed.
Lemma taken_In kv (d : dict (pexpr C)) : List.In kv (taken cx d) -> exists2 e, List.In (kv.1, e) d & kv.2 = matrix cx e.
Proof. by move/List.in_map_iff => [[k e] [<- H]]; exists e. Qed.
Lemma shaped_matrix n e : shaped n e -> exists2 q, peval cx e = Ok q & matrix cx e = mat q /\ shape (mat q) = [:: n; n].
Proof. by case=> q E S; exists q => //; rewrite /matrix E. Qed.

Lemma sum_bound A (l : seq A) (f : A -> C) K : (forall a, List.In a l -> `|f a| <= K) -> `|\sum_(a <- l) f a| <= K *+ size l.
Proof.
elim: l => [|a l IH] H; first by rewrite big_nil normr0 mulr0n.
rewrite big_cons mulrS (le_trans (ler_norm_add _ _)) // ler_add //; [by apply: H; left|by apply: IH => x Hx; apply: H; right].
Qed.
Lemma sum_real A (l : seq A) (f : A -> C) : (forall a, List.In a l -> f a \is Num.real) -> \sum_(a <- l) f a \is Num.real.
Proof.
elim: l => [|a l IH] H; first by rewrite big_nil rpred0.
rewrite big_cons rpredD //; [by apply: H; left|by apply: IH => x Hx; apply: H; right].
Qed.

(** the bonds that leave the sites to the right and upwards *)
Lemma sum_bonds (f : bond -> C) : \sum_(b <- build_bond_list nx ny) f b = \sum_(s <- build_site_list nx ny) (f (hbond nx s) + f (vbond ny s)).
Proof.
rewrite /build_bond_list big_cat /= horizontal_map vertical_map !big_map big_split /=; congr (_ + _).
exact: (@perm_sum _ C _ _ (fun s => f (vbond ny s)) (site_list_yx_perm nx ny)).
Qed.

Lemma cellN : (0 : C) < (nx * ny)%:R. Proof. by rewrite ltr0n muln_gt0 nx0. Qed.
Lemma divide_bound (x K : C) n : (0 < n)%N -> `|x| <= K *+ n -> `|x / n%:R| <= K.
Proof.
move=> n0 H; rewrite normrM normfV normr_nat ler_pdivr_mulr ?ltr0n //; by rewrite mulr_natr.
Qed.


(** all reported values are real numbers within the bounds of the operators; the bounds
    H and V are those of the horizontal and the vertical bonds *)
Definition bounded (r : recipe C) (ave : dict C) : Prop :=
  [/\ forall X K, inks X (keys (r_one r (0, 0)%N)) ->
        (forall s e, in_cell nx ny s -> dget X (r_one r s) = Some e -> weight e <= K) -> within ave X K,
      forall X K b0, List.In b0 (build_bond_list nx ny) -> inks X (keys (r_two r b0)) ->
        (forall b e, List.In b (build_bond_list nx ny) -> dget X (r_two r b) = Some e -> weight e <= K) -> within ave X K &
      forall K H V, (forall s e, in_cell nx ny s -> r_site r s = Some e -> weight e <= K) -> 0 <= K ->
        (forall s e, in_cell nx ny s -> r_bond r (hbond nx s) = Some e -> weight e <= H) ->
        (forall s e, in_cell nx ny s -> r_bond r (vbond ny s) = Some e -> weight e <= V) -> within ave "Energy" (K + H + V)].

Definition opt0 {A} (f : A -> C) (o : option A) : C := if o is Some a then f a else 0.

Lemma bounded_by (r : recipe C) (f1 : site -> pexpr C -> C) (f2 : bond -> pexpr C -> C) ave : well_formed r ->
  (forall s e, f1 s e \is Num.real) -> (forall b e, f2 b e \is Num.real) ->
  (forall s e, in_cell nx ny s -> shaped (r_dim r) e -> `|f1 s e| <= weight e) ->
  (forall b e, List.In b (build_bond_list nx ny) -> shaped (r_dim r * r_dim r) e -> `|f2 b e| <= weight e) ->
  dget "Energy" ave = Some ((\sum_(s <- build_site_list nx ny) opt0 (f1 s) (r_site r s) + \sum_(b <- build_bond_list nx ny) opt0 (f2 b) (r_bond r b)) / (nx * ny)%:R) ->
  (forall X, inks X (keys (r_one r (0, 0)%N)) -> dget X ave = Some ((\sum_(s <- build_site_list nx ny) opt0 (f1 s) (dget X (r_one r s))) / (nx * ny)%:R)) ->
  (forall X b0, List.In b0 (build_bond_list nx ny) -> inks X (keys (r_two r b0)) ->
    dget X ave = Some ((\sum_(b <- build_bond_list nx ny) opt0 (f2 b) (dget X (r_two r b))) / (2 * (nx * ny))%:R)) ->
  bounded r ave.
Proof.
move=> [W1 W2 U1 U2 U3] value1_real value2_real value1_bound value2_bound E2 E3 E4; split=> //.
- move=> X K HX B; rewrite /within E3 //; eexists; first by []; split.
    by rewrite rpredM ?rpredV ?realn // sum_real // => s _; case: dget => [e|] /=; [apply: value1_real|apply: rpred0].
  apply: divide_bound; first by rewrite muln_gt0 nx0.
  have := @sum_bound _ (build_site_list nx ny) (fun s => opt0 (f1 s) (dget X (r_one r s))) K; rewrite (length_site_list nx ny : size (build_site_list nx ny) = _); apply=> s /in_site_list Hs.
  case E: (dget X (r_one r s)) => [e|] /=.
    by apply: le_trans (B s e Hs E); apply: value1_bound => //; have [_ [H _]] := W1 s Hs; apply: H (dget_In E).
  by move: HX; have [_ [_ <-]] := W1 s Hs; rewrite dget_keys E.
- move=> X K b0 Hb0 HX B; rewrite /within (E4 X b0) //; eexists; first by []; split.
    by rewrite rpredM ?rpredV ?realn // sum_real // => s _; case: dget => [e|] /=; [apply: value2_real|apply: rpred0].
  apply: divide_bound; first by rewrite !muln_gt0 nx0.
  have := @sum_bound _ (build_bond_list nx ny) (fun b => opt0 (f2 b) (dget X (r_two r b))) K; rewrite (length_bond_list nx ny : size (build_bond_list nx ny) = _); apply=> b Hb.
  case E: (dget X (r_two r b)) => [e|] /=.
    by apply: le_trans (B b e Hb E); apply: value2_bound => //; have [_ [H _]] := W2 b Hb; apply: H (dget_In E).
  by move: HX; have [_ [_ /(_ _ Hb) ->]] := W2 b0 Hb0; rewrite dget_keys E.
- move=> K H V B1 K0 B2 B3; rewrite /within E2; eexists; first by []; split.
    rewrite rpredM ?rpredV ?realn // rpredD // sum_real // => a _.
      by case: (r_site r a) => [e|] /=; [apply: value1_real|apply: rpred0].
    by case: (r_bond r a) => [e|] /=; [apply: value2_real|apply: rpred0].
  apply: divide_bound; first by rewrite muln_gt0 nx0.
  rewrite sum_bonds -big_split /=.
  have := @sum_bound _ (build_site_list nx ny) (fun s => opt0 (f1 s) (r_site r s) + (opt0 (f2 (hbond nx s)) (r_bond r (hbond nx s)) + opt0 (f2 (vbond ny s)) (r_bond r (vbond ny s)))) (K + H + V).
  rewrite (length_site_list nx ny : size (build_site_list nx ny) = _); apply=> s /in_site_list Hs.
  have Hh : List.In (hbond nx s) (build_bond_list nx ny) by apply/in_bond_list; exists s; split=> //; left.
  have Hv : List.In (vbond ny s) (build_bond_list nx ny) by apply/in_bond_list; exists s; split=> //; right.
  rewrite -addrA (le_trans (ler_norm_add _ _)) // ler_add //.
    case E: (r_site r s) => [e|] /=; last by rewrite normr0.
    by apply: le_trans (B1 s e Hs E); apply: value1_bound => //; have [Hw _] := W1 s Hs; apply: Hw.
  rewrite (le_trans (ler_norm_add _ _)) // ler_add //.
    have [[e E Se] _] := W2 _ Hh; rewrite E /=; apply: le_trans (B2 s e Hs E); exact: value2_bound.
  have [[e E Se] _] := W2 _ Hv; rewrite E /=; apply: le_trans (B3 s e Hs E); exact: value2_bound.
Qed.

Variable r : recipe C.
Notation d := (r_dim r).
Notation m := (as_model cx r).
Hypothesis W : well_formed r.
Variables (rdm1 : site -> res tensor) (rdm2 : bond -> res tensor).
Hypothesis Av : available d rdm1 rdm2.
Variable bl : seq bond.
Hypothesis HP : Permutation bl (build_bond_list nx ny).
Notation sites := (build_site_list nx ny).

(** the density matrices *)
Definition rho1 (s : site) : tensor := if rdm1 s is Ok t then t else Tensor [::] (fun _ => 0).
Definition rho2 (b : bond) : tensor := if rdm2 b is Ok t then t else Tensor [::] (fun _ => 0).
(** the expectation value of an expression at a site and at a bond *)
Definition value1 (s : site) (e : pexpr C) : C := exp1 d (rho1 s) (matrix cx e).
Definition value2 (b : bond) (e : pexpr C) : C := exp2 d (rho2 b) (matrix cx e).
Lemma measured : exists ave, [/\ measure m rdm1 rdm2 sites bl = Ok ave,
  dget "Energy" ave = Some ((\sum_(s <- sites) opt0 (value1 s) (r_site r s) + \sum_(b <- build_bond_list nx ny) opt0 (value2 b) (r_bond r b)) / (nx * ny)%:R),
  forall X, inks X (keys (r_one r (0, 0)%N)) -> dget X ave = Some ((\sum_(s <- sites) opt0 (value1 s) (dget X (r_one r s))) / (nx * ny)%:R) &
  forall X b0, List.In b0 (build_bond_list nx ny) -> inks X (keys (r_two r b0)) ->
    dget X ave = Some ((\sum_(b <- build_bond_list nx ny) opt0 (value2 b) (dget X (r_two r b))) / (2 * (nx * ny))%:R)].
Proof.
case: W => W1 W2 U1 U2 U3; case: Av => A1 A2.
have In00 : in_cell nx ny (0, 0)%N by split; apply/ltP.
have G1 s : List.In s sites -> site_good m rdm1 s (rho1 s).
  move=> /in_site_list Hs; have [rho [E S T]] := A1 s Hs; have [H1 [H2 _]] := W1 s Hs.
  rewrite /rho1 E; split=> //=.
    by case E': (r_site r s) => [e|] //= h [<-]; have [q _ [-> ->]] := shaped_matrix (H1 _ E').
  by apply: all_In => kv /taken_In[e /H2 He ->]; have [q _ [-> ->]] := shaped_matrix He.
have G2 b : List.In b bl -> bond_good m rdm2 b (rho2 b).
  move=> /(Permutation_in _ HP) Hb; have [rho [E S T]] := A2 b Hb; have [[e E' H1] [H2 _]] := W2 b Hb.
  rewrite /rho2 E; split=> //=.
    by rewrite E' /=; have [q _ [-> ->]] := shaped_matrix H1.
  by apply: all_In => kv /taken_In[e' /H2 He ->]; have [q _ [-> ->]] := shaped_matrix He.
have S0 : sites <> [::] by have := proj2 (in_site_list nx ny (0, 0)%N) In00; case: sites.
have lenS : size sites = (nx * ny)%N by exact: length_site_list.
have lenB : size bl = (2 * (nx * ny))%N by exact: etrans (Permutation_length HP) (length_bond_list nx ny).
case Ebl: bl => [|b0 bl'].
  by have := muln_gt0 2 (nx * ny); rewrite -lenB Ebl muln_gt0 nx0 ny0.
have Hb0 : List.In b0 (build_bond_list nx ny) by apply: (Permutation_in _ HP); rewrite Ebl; left.
have U3' := U3 b0 Hb0; move: (U3'); rewrite /= inks_cat negb_or => /andP[/andP[nE1 nE2] UU].
have := @C27_averages C m rdm1 rdm2 rho1 rho2 sites b0 bl'.
case=> //.
- by move=> b; rewrite -Ebl; apply: G2.
- by move=> s /=; rewrite keys_taken.
- by move=> b /=; rewrite keys_taken.
- by move=> s /in_site_list Hs X /=; rewrite !keys_taken; have [_ [_ ->]] := W1 s Hs.
- move=> b; rewrite -Ebl => /(Permutation_in _ HP) Hb X /=; rewrite !keys_taken; by have [_ [_ /(_ _ Hb0) ->]] := W2 b Hb.
- by rewrite /= keys_taken.
- by rewrite /= keys_taken.
- by move=> X /=; rewrite !keys_taken; apply: uniq_cat.
move=> ave [E1 E2 E3 E4 _]; exists ave; split=> //.
- rewrite E2 lenS /sum_site_energy /sum_bond_energy -Ebl; congr (Some ((_ + _) / _)).
    by apply: eq_big_In => s _; rewrite /site_energy /=; case: (r_site r s).
  rewrite (perm_sum _ HP); apply: eq_big_In => b Hb; rewrite /bond_energy /=.
  by have [[e -> _] _] := W2 b Hb.
- move=> X HX; rewrite E3 /= ?keys_taken // lenS; congr (Some (_ / _)).
  by apply: eq_big_In => s _; rewrite /named /= dget_taken; case: dget.
- move=> X b HB HX; have [_ [_ /(_ _ Hb0) Kb]] := W2 b HB.
  rewrite E4; last by rewrite /= keys_taken -Kb.
  rewrite -Ebl lenB; congr (Some (_ / _)).
  rewrite /sum_bond -Ebl (perm_sum _ HP); by apply: eq_big_In => b' _; rewrite /named /= dget_taken; case: dget.
Qed.

Hypothesis Po : all_positive d rdm1 rdm2.

Lemma value1_real s e : value1 s e \is Num.real.
Proof. by rewrite /value1 /exp1 rpredM ?rpredV ?Creal_Re. Qed.
Lemma value2_real b e : value2 b e \is Num.real.
Proof. by rewrite /value2 /exp2 rpredM ?rpredV ?Creal_Re. Qed.

Lemma value1_bound s e : in_cell nx ny s -> shaped d e -> `|value1 s e| <= weight e.
Proof.
move=> Hs /shaped_matrix[q Eq [Em Sq]]; rewrite /value1 Em /rho1.
have [rho [E _ _]] := Av.1 s Hs; rewrite E; apply: exp1_bound Eq Sq; exact: Po.1 E.
Qed.
Lemma value2_bound b e : List.In b (build_bond_list nx ny) -> shaped (d * d) e -> `|value2 b e| <= weight e.
Proof.
move=> Hs /shaped_matrix[q Eq [Em Sq]]; rewrite /value2 Em /rho2.
have [rho [E _ _]] := Av.2 b Hs; rewrite E; apply: exp2_bound Eq Sq; exact: Po.2 E.
Qed.

(** C96.  Every value reported by measure() is a real number between the bounds the
    operators have. *)
Theorem C96_range : exists2 ave, measure m rdm1 rdm2 sites bl = Ok ave & bounded r ave.
Proof using W Av HP Po nx0 ny0.
have [ave [E1 E2 E3 E4]] := measured; exists ave => //.
apply: (bounded_by W value1_real value2_real value1_bound value2_bound E2 E3 E4).
Qed.
End Range.
(** ---- the models of the library and of the samples ---- *)
Section Models.
Variable C : numClosedFieldType.
Variables nx ny : nat.
Hypotheses (nx0 : (0 < nx)%N) (ny0 : (0 < ny)%N).
Variable cx : bool.

(** whatever density matrices of the right size there are, measuring gives a result with
    this property *)
Definition always (r : recipe C) (P : dict C -> Prop) : Prop :=
  forall rdm1 rdm2 bl, available nx ny (r_dim r) rdm1 rdm2 -> Permutation bl (build_bond_list nx ny) ->
  exists2 ave, measure (as_model cx r) rdm1 rdm2 (build_site_list nx ny) bl = Ok ave & P ave.
(** the same if the density matrices are positive *)
Definition physically (r : recipe C) (P : dict C -> Prop) : Prop :=
  forall rdm1 rdm2 bl, available nx ny (r_dim r) rdm1 rdm2 -> all_positive nx ny (r_dim r) rdm1 rdm2 -> Permutation bl (build_bond_list nx ny) ->
  exists2 ave, measure (as_model cx r) rdm1 rdm2 (build_site_list nx ny) bl = Ok ave & P ave.

Lemma in00 : in_cell nx ny (0, 0)%N. Proof. by split; apply/ltP. Qed.
Lemma b00 : List.In (hbond nx (0, 0)%N) (build_bond_list nx ny).
Proof. by apply/in_bond_list; exists (0, 0)%N; split; [apply: in00|left]. Qed.

Lemma shaped_div n cc (e : pexpr C) c : shaped cx n e -> c != 0 -> shaped cx n (PDiv cc e c).
Proof.
by case=> q E S c0; rewrite /shaped /= E /= /pdiv /tdiv (negbTE c0) /=; eexists.
Qed.

Ltac shape := by (case: cx; eexists; reflexivity).
Ltac listed := by move=> *; repeat match goal with
  | |- shaped _ _ (PDiv _ _ _) => apply: shaped_div; [|by rewrite pnatr_eq0]
  | H : List.In _ _ |- _ => simpl in H
  | H : _ \/ _ |- _ => case: H => H
  | H : (_, _) = (_, _) |- _ => case: H => ? ?; subst
  | H : False |- _ => case: H end; shape.

Lemma well_ising (jz hx : C) : well_formed nx ny cx (ising_recipe jz hx).
Proof.
split=> //= [s Hs|b Hb].
  split; first by move=> e [<-]; shape.
  split=> //; listed.
split=> //; eexists=> //; shape.
Qed.

Lemma well_heisenberg (J : C) : well_formed nx ny cx (heisenberg_recipe J).
Proof.
split=> //= [s Hs|b Hb|s].
- split=> //; rewrite /staggered_observables; split; last by case: observables_negated.
  case: observables_negated; listed.
- split=> //; eexists=> //; shape.
- by rewrite /staggered_observables; case: observables_negated.
Qed.

Lemma well_compass (jx jz hx hz : C) : well_formed nx ny cx (compass_recipe jx jz hx hz).
Proof.
split=> //= [s Hs|b Hb|b|b Hb].
- split; first by move=> e [<-]; shape.
  split=> //; listed.
- split; first by have /in_bond_list [s [_ [->|->]]] := Hb; rewrite /compass_two /=; eexists=> //; shape.
  split.
    have /in_bond_list [s [_ [->|->]]] := Hb; rewrite /compass_observables /=; clear Hb; listed.
  by move=> b'; have /in_bond_list [s [_ [->|->]]] := Hb; move/in_bond_list => [s' [_ [->|->]]].
- by rewrite /compass_observables; case: bond_direction => // a; case: ifP => // _; case: ifP.
- by have /in_bond_list [s [_ [->|->]]] := Hb.
Qed.

Lemma well_honeycomb (jz hx : C) : well_formed nx ny cx (honeycomb_recipe jz hx).
Proof.
split=> //= [s Hs|b Hb].
  split; first by move=> e [<-]; shape.
  split=> //; listed.
split=> //; have /in_bond_list [s [_ [->|->]]] := Hb; rewrite /honeycomb_two /=; eexists=> //; shape.
Qed.

Lemma well_kagome (jz hx : C) : well_formed nx ny cx (kagome_recipe jz hx).
Proof.
split=> //= [s Hs|b Hb].
  split; first by move=> e [<-]; shape.
  split=> //; listed.
split=> //; have /in_bond_list [s [_ [->|->]]] := Hb; rewrite /kagome_two /=; eexists=> //; shape.
Qed.

Lemma three1 : 1 + 1 + 1 = 3%:R :> C. Proof. by rewrite -addrA. Qed.
Lemma within_le (ave : dict C) X K K' : K <= K' -> within ave X K -> within ave X K'.
Proof. by move=> H [x E [R B]]; exists x => //; split=> //; apply: le_trans H. Qed.

(** C96.  The transverse-field Ising model, also the one of sample 03. *)
Theorem C96_ising (jz hx : C) : physically (ising_recipe jz hx) (fun ave =>
  [/\ within ave "sx" 1, within ave "sz" 1 & within ave "Energy" (`|hx| + 2%:R * `|jz|)]).
Proof using nx0 ny0.
move=> rdm1 rdm2 bl Av Po HP; have [ave E [B1 B2 B3]] := C96_range nx0 ny0 (well_ising jz hx) Av HP Po; exists ave => //; split.
- by apply: B1 => // s e _ [<-].
- by apply: B1 => // s e _ [<-].
- rewrite mulr_natl mulr2n addrA; apply: B3 => [s e _ [<-]||s e _ [<-]|s e _ [<-]]; by rewrite ?addr_ge0 //= ?normrN ?mulr1.
Qed.

(** C96.  The Heisenberg model; the magnetisations are the staggered ones. *)
Theorem C96_heisenberg (J : C) : physically (heisenberg_recipe J) (fun ave =>
  [/\ within ave "sx" 1, within ave "sz" 1 & within ave "Energy" (3%:R / 2%:R * `|J|)]).
Proof using nx0 ny0.
move=> rdm1 rdm2 bl Av Po HP; have [ave E [B1 B2 B3]] := C96_range nx0 ny0 (well_heisenberg J) Av HP Po; exists ave => //; split.
- by apply: B1 => //= s e _; rewrite /staggered_observables; case: ifP => _ /= [<-].
- by apply: B1 => //= s e _; rewrite /staggered_observables; case: ifP => _ /= [<-].
- have H : `|4%:R^-1 * J| * (1 * 1 + 1 * 1 + 1 * 1) <= 3%:R / 4%:R * `|J|.
    by rewrite normrM normfV normr_nat !mulr1 three1 mulrC mulrA.
  apply: within_le (B3 0 (3%:R / 4%:R * `|J|) (3%:R / 4%:R * `|J|) _ _ _ _) => //.
  + rewrite add0r -mulrDl -mulrDl -natrD ler_wpmul2r //.
    have -> : (3 + 3)%:R / 4%:R = 3%:R / 2%:R :> C.
      apply/eqP; rewrite eqr_div ?pnatr_eq0 // -!natrM; by [].
    by [].
  + by move=> s e _ [<-].
  + by move=> s e _ [<-].
Qed.

(** C96.  The compass model of sample 04. *)
Theorem C96_compass (jx jz hx hz : C) : physically (compass_recipe jx jz hx hz) (fun ave =>
  [/\ within ave "sx" 1, within ave "sz" 1, within ave "phi" 1, within ave "chi" 2%:R & within ave "Energy" (`|hx| + `|hz| + `|jx| + `|jz|)]).
Proof using nx0 ny0.
move=> rdm1 rdm2 bl Av Po HP; have [ave E [B1 B2 B3]] := C96_range nx0 ny0 (well_compass jx jz hx hz) Av HP Po; exists ave => //; split.
- by apply: B1 => // s e _ [<-].
- by apply: B1 => // s e _ [<-].
- apply: (B2 _ _ _ b00) => //= b e /in_bond_list [s [_ [->|->]]] /= [<-] /=; by rewrite mul1r.
- apply: (B2 _ _ _ b00) => //= b e /in_bond_list [s [_ [->|->]]] /= [<-] /=; by rewrite !mul1r -mulr2n.
- apply: B3 => [s e _ [<-]||s e _ [<-]|s e _ [<-]]; by rewrite ?addr_ge0 //= ?normrN ?mulr1.
Qed.

(** C96.  The Ising model on the honeycomb lattice, sample 05: a site of the network
    holds two spins, and the energy is that of a pair with its three bonds. *)
Theorem C96_honeycomb (jz hx : C) : physically (honeycomb_recipe jz hx) (fun ave =>
  [/\ within ave "mag_x(A)" 1 /\ within ave "mag_x(B)" 1, within ave "mag_z(A)" 1 /\ within ave "mag_z(B)" 1,
      within ave "mag_x" 2%:R, within ave "mag_z" 2%:R & within ave "Energy" (3%:R * `|jz| + 2%:R * `|hx|)]).
Proof using nx0 ny0.
move=> rdm1 rdm2 bl Av Po HP; have [ave E [B1 B2 B3]] := C96_range nx0 ny0 (well_honeycomb jz hx) Av HP Po; exists ave => //; split.
- by split; apply: B1 => // s e _ [<-] /=; rewrite mul1r.
- by split; apply: B1 => // s e _ [<-] /=; rewrite mul1r.
- by apply: B1 => // s e _ [<-] /=; rewrite !mul1r -mulr2n.
- by apply: B1 => // s e _ [<-] /=; rewrite !mul1r -mulr2n.
- have -> : 3%:R * `|jz| + 2%:R * `|hx| = `|jz| + 2%:R * `|hx| + `|jz| + `|jz|.
    by move: (`|jz|) (2%:R * `|hx|) => a h; rewrite -three1 !mulrDl !mul1r [a + h + a]addrAC [a + a + h + a]addrAC.
  apply: B3 => [s e _ [<-]||s e _ [<-]|s e _ [<-]]; rewrite ?addr_ge0 ?mulr_ge0 ?ler0n //= ?normrN ?mulr1 // -mulr2n mulrC; by [].
Qed.

(** C96.  The Ising model on the kagome lattice, sample 06: three spins with six bonds. *)
Theorem C96_kagome (jz hx : C) : physically (kagome_recipe jz hx) (fun ave =>
  [/\ forall X, List.In X [:: "mag_x(A)"; "mag_x(B)"; "mag_x(C)"; "mag_z(A)"; "mag_z(B)"; "mag_z(C)"] -> within ave X 1,
      within ave "mx" 1, within ave "mz" 1 & within ave "Energy" (6%:R * `|jz| + 3%:R * `|hx|)]).
Proof using nx0 ny0.
move=> rdm1 rdm2 bl Av Po HP; have [ave E [B1 B2 B3]] := C96_range nx0 ny0 (well_kagome jz hx) Av HP Po; exists ave => //; split.
- by move=> X; do 6 (case=> [<-|]; first by apply: B1 => // s e _ [<-] /=; rewrite !mul1r).
- by apply: B1 => // s e _ [<-] /=; rewrite !mul1r normr_nat three1 divff ?pnatr_eq0.
- by apply: B1 => // s e _ [<-] /=; rewrite !mul1r normr_nat three1 divff ?pnatr_eq0.
- have -> : 6%:R * `|jz| + 3%:R * `|hx| = (2%:R * `|jz| + 3%:R * `|hx|) + 2%:R * `|jz| + 2%:R * `|jz|.
    by rewrite [2%:R * _ + _ + _]addrAC -mulrDl -natrD [_ + _ + 2%:R * _]addrAC -mulrDl -natrD.
  apply: B3 => [s e _ [<-]||s e _ [<-]|s e _ [<-]]; rewrite ?addr_ge0 ?mulr_ge0 ?ler0n //= ?normrN ?mulr1 ?mul1r.
  + by rewrite three1 -mulr2n [_ * 2%:R]mulrC [_ * 3%:R]mulrC.
  + by rewrite mulr_natl mulr2n.
  + by rewrite mulr_natl mulr2n.
Qed.

(** ---- sums of observables ---- *)
Lemma exp1_add n (rho A B S : tensor C) : (forall i j, (i < n)%N -> (j < n)%N -> at_ S [:: i; j] = at_ A [:: i; j] + at_ B [:: i; j]) ->
  exp1 n rho S = exp1 n rho A + exp1 n rho B.
Proof.
move=> H; rewrite /exp1 -mulrDl -raddfD -big_split /=; congr ('Re _ / _).
by apply: eq_bigr => i _; rewrite -big_split; apply: eq_bigr => j _; rewrite H // mulrDr.
Qed.
Lemma exp1_div n (rho A S : tensor C) c : c \is Num.real -> (forall i j, (i < n)%N -> (j < n)%N -> at_ S [:: i; j] = c^-1 * at_ A [:: i; j]) ->
  exp1 n rho S = exp1 n rho A / c.
Proof.
move=> Rc H; rewrite /exp1 mulrAC; congr (_ / _).
rewrite mulrC -P11_Measure.ReM ?rpredV //; congr ('Re _); rewrite big_distrr; apply: eq_bigr => i _; rewrite big_distrr; apply: eq_bigr => j _.
by rewrite /= H // mulrCA.
Qed.

Variables (r : recipe C) (rdm1 : site -> res (tensor C)).
Notation value := (value1 cx r rdm1).
Lemma value_add s n a b : shaped cx n a -> shaped cx n b -> value s (PAdd a b) = value s a + value s b.
Proof.
case=> x Ea Sa [y Eb Sb]; apply: exp1_add => i j _ _.
by rewrite /matrix /= Ea Eb /= /padd /tadd Sa Sb eqxx.
Qed.
Lemma value_div s n cc a c : shaped cx n a -> c != 0 -> c \is Num.real -> value s (PDiv cc a c) = value s a / c.
Proof.
case=> x Ea Sa c0 Rc; apply: exp1_div => // i j _ _.
by rewrite /matrix /= Ea /= /pdiv /tdiv (negbTE c0).
Qed.
End Models.

Section Sums.
Variable C : numClosedFieldType.
Variables nx ny : nat.
Hypotheses (nx0 : (0 < nx)%N) (ny0 : (0 < ny)%N).
Variable cx : bool.
Notation always := (@always C nx ny cx).
Ltac shape := by (case: cx; eexists; reflexivity).

(** C96.  mag_x and mag_z of sample 05 are the sums over the two spins of a site, not
    their averages; positive density matrices are not needed. *)
Theorem C96_honeycomb_sums (jz hx : C) : always (honeycomb_recipe jz hx) (fun ave =>
  exists a b a' b', [/\ dget "mag_x(A)" ave = Some a, dget "mag_x(B)" ave = Some b, dget "mag_z(A)" ave = Some a' , dget "mag_z(B)" ave = Some b' &
    dget "mag_x" ave = Some (a + b) /\ dget "mag_z" ave = Some (a' + b')]).
Proof using nx0 ny0.
move=> rdm1 rdm2 bl Av HP; have [ave [E _ M _]] := measured nx0 ny0 (well_honeycomb nx ny cx jz hx) Av HP; exists ave => //.
do 4 eexists; split; [by apply: M|by apply: M|by apply: M|by apply: M|].
split; rewrite M //= -mulrDl -big_split /=; congr (Some (_ / _)); apply: eq_bigr => s _; apply: (@value_add _ _ _ _ s 4); shape.
Qed.

(** C96.  mx and mz of sample 06 are the averages over the three spins. *)
Theorem C96_kagome_sums (jz hx : C) : always (kagome_recipe jz hx) (fun ave =>
  exists a b c a' b' c', [/\ dget "mag_x(A)" ave = Some a /\ dget "mag_z(A)" ave = Some a', dget "mag_x(B)" ave = Some b /\ dget "mag_z(B)" ave = Some b',
    dget "mag_x(C)" ave = Some c /\ dget "mag_z(C)" ave = Some c', dget "mx" ave = Some ((a + b + c) / 3%:R) & dget "mz" ave = Some ((a' + b' + c') / 3%:R)]).
Proof using nx0 ny0.
move=> rdm1 rdm2 bl Av HP; have [ave [E _ M _]] := measured nx0 ny0 (well_kagome nx ny cx jz hx) Av HP; exists ave => //.
do 6 eexists; split; [by split; apply: M|by split; apply: M|by split; apply: M| |];
  rewrite M //= -!mulrDl -!big_split mulrAC; congr (Some (_ / _)); rewrite big_distrl; apply: eq_bigr => s _;
  (rewrite /= (@value_div _ _ _ _ s 8) ?pnatr_eq0 ?realn //; last shape);
  (rewrite (@value_add _ _ _ _ s 8); [|shape|shape]); congr ((_ + _) / _); apply: (@value_add _ _ _ _ s 8); shape.
Qed.
End Sums.

(** ---- sessions with bond dimension 1 ---- *)
Section MeanField.
Variable C : numClosedFieldType.
Notation tensor := (tensor C).

(** a product state has positive density matrices *)
Definition pure1 (p : nat) (w : nat -> C) : tensor :=
  Tensor [:: p; p] (fun idx => match idx with [:: i; j] => (w i)^* * w j | _ => 0 end).
Lemma pure_positive p w : positive1 p (pure1 p w).
Proof.
split=> [i j _ _|v] /=; first by rewrite rmorphM conjCK mulrC.
have -> : \sum_(i < p) \sum_(j < p) (v i)^* * ((w i)^* * w j) * v j = `|\sum_(i < p) v i * w i| ^+ 2.
  rewrite normCK mulrC rmorph_sum big_distrl; apply: eq_bigr => i _; rewrite big_distrr; apply: eq_bigr => j _.
  by rewrite /= rmorphM mulrA -mulrA [w j * v j]mulrC.
by rewrite exprn_ge0.
Qed.
Lemma norm_sum p (w : nat -> C) : 'Re (\sum_(q < p) (w q)^* * w q) = \sum_(q < p) `|w q| ^+ 2.
Proof.
rewrite (eq_bigr (fun q : 'I_p => `|w q| ^+ 2)) => [|q _]; last by rewrite normCK mulrC.
by apply/Creal_ReP; apply: sum_real => q _; rewrite rpredX ?normr_real.
Qed.
Lemma pexp1_pure p (v : site -> nat -> C) s op : pexp1 p v s op = exp1 p (pure1 p (v s)) op.
Proof.
rewrite /pexp1 /exp1 /tr1 /= norm_sum; congr ('Re _ / _).
by apply: eq_bigr => i _; apply: eq_bigr => j _; rewrite mulrAC.
Qed.
Lemma pexp2_pure p (v : site -> nat -> C) s1 s2 op :
  pexp2 p v s1 s2 op = exp1 (p * p) (pure1 (p * p) (fun k => v s1 (k %/ p)%N * v s2 (k %% p)%N)) op.
Proof.
rewrite /pexp2 /exp1 /tr1 /= (norm_sum (p * p) (fun k => v s1 (k %/ p)%N * v s2 (k %% p)%N)); congr ('Re _ / _).
  rewrite -(sum_split p p (fun i i' => \sum_(j < p) \sum_(j' < p) (v s1 i * v s2 i')^* * at_ op [:: (j * p + j')%N; (i * p + i')%N] * (v s1 j * v s2 j'))).
  apply: eq_bigr => i _; rewrite -(sum_split p p (fun j j' => (v s1 (i %/ p)%N * v s2 (i %% p)%N)^* * at_ op [:: (j * p + j')%N; (i %/ p * p + i %% p)%N] * (v s1 j * v s2 j'))).
  by apply: eq_bigr => j _; rewrite -!divn_eq mulrAC.
by rewrite -(sum_split p p (fun q r => `|v s1 q * v s2 r| ^+ 2)).
Qed.

Lemma product_bounded nx ny cx (r : recipe C) v d : (0 < nx)%N -> (0 < ny)%N -> well_formed nx ny cx r ->
  product_values nx ny (r_dim r) (as_model cx r) v d -> bounded nx ny r d.
Proof.
move=> nx0 ny0 W [E1 E2 E3 _]; set p := r_dim r in E1 E2 E3.
apply: (@bounded_by C nx ny nx0 ny0 cx r (fun s e => pexp1 p v s (matrix cx e)) (fun b e => pexp2 p v (b_s1 b) (b_s2 b) (matrix cx e)) d W).
- by move=> s e; rewrite pexp1_pure /exp1 rpredM ?rpredV ?Creal_Re.
- by move=> s e; rewrite pexp2_pure /exp1 rpredM ?rpredV ?Creal_Re.
- by move=> s e _ /shaped_matrix[q Eq [-> Sq]]; rewrite pexp1_pure; apply: exp1_bound Eq Sq; apply: pure_positive.
- by move=> s e _ /shaped_matrix[q Eq [-> Sq]]; rewrite pexp2_pure; apply: exp1_bound Eq Sq; apply: pure_positive.
- rewrite E1; congr (Some ((_ + _) / _)).
    by apply: eq_bigr => s _ /=; case: (r_site r s).
  by apply: eq_big_In => b Hb /=; case: W => _ /(_ b Hb) [[e -> _] _].
- move=> X HX; rewrite E2 /= ?keys_taken //; congr (Some (_ / _)).
  by apply: eq_bigr => s _; rewrite /named dget_taken; case: dget.
- move=> X b Hb HX; rewrite (E3 X b) /= ?keys_taken //; congr (Some (_ / _)).
  by apply: eq_bigr => b' _; rewrite /named dget_taken; case: dget.
Qed.

Lemma well_model (u : setup C) cx r : (0 < u_nx u)%N -> (0 < u_ny u)%N -> r_dim r = u_phys u -> well_formed (u_nx u) (u_ny u) cx r -> model_ok u (as_model cx r) /\ names_ok (u_nx u) (u_ny u) (as_model cx r).
Proof.
move=> nx0 ny0 Hd [W1 W2 U1 U2 U3]; rewrite Hd in W1 W2; split; split=> //=.
- move=> s Hs; have [H1 [H2 H3]] := W1 s Hs; split; [|split].
  + by case E: (r_site r s) => [e|] //= h [<-]; have [q _ [-> ->]] := shaped_matrix (H1 _ E).
  + by move=> kv /taken_In[e /H2 He ->]; have [q _ [-> ->]] := shaped_matrix He.
  + by rewrite !keys_taken.
- move=> b Hb; have [[e E H1] [H2 H3]] := W2 b Hb; split; [|split].
  + by rewrite E /=; have [q _ [-> ->]] := shaped_matrix H1.
  + by move=> kv /taken_In[e' /H2 He ->]; have [q _ [-> ->]] := shaped_matrix He.
  + by move=> b' Hb'; rewrite !keys_taken; apply: H3.
- by move=> s; rewrite keys_taken.
- by move=> s; rewrite keys_taken.
- by have := U3 _ (b00 nx0 ny0); rewrite /= inks_cat negb_or keys_taken => /andP[/andP[-> _] _].
- move=> b Hb; have := U3 b Hb; rewrite /= inks_cat negb_or !keys_taken => /andP[/andP[_ H] HU].
  by split=> // X; apply: uniq_cat.
Qed.

Variable R : Type.
Variable randn : R -> forall n q : nat, 'M[C]_(n, q) * R.
Variable trand : R -> nat -> nat -> tensor * R.
Variable lqr : qr_fun C.
Variable lsvd : thin_svd_fun C.
Variable fsvd : full_svd_fun C.
Variable leigh : eigh_fun C.
Variable lchol : chol_fun C.
Variable rtol : nat -> nat -> C.
Variables lcut noise : C.
Variable fuel : nat.
Variable empty : nat -> tensor.
Variable u : setup C.
Notation nx := (u_nx u).
Notation ny := (u_ny u).
Notation p := (u_phys u).
Hypothesis Sq : qr_spec lqr.
Hypothesis Ss : thin_svd_spec lsvd.
Hypothesis Sf : full_svd_spec fsvd.
Hypothesis Se : eigh_spec leigh.
Hypothesis tot : forall m (A : 'M[C]_m), leigh A.
Hypothesis Srand : forall r, shape (trand r 1%N p).1 = [:: 1; 1; 1; 1; p]%N.
Hypothesis Hm : als_method (u_evo u) = "cholesky" \/ als_method (u_evo u) = "pinv".
Hypothesis c0 : 0 <= positive_approx_cutoff (u_evo u).
Hypothesis a0 : use_gauge_fix (u_evo u) -> 0 < gauge_fix_atol (u_evo u).
Hypothesis l0 : 0 < lcut.
Hypotheses (nx0 : (0 < nx)%N) (ny0 : (0 < ny)%N) (p0 : (0 < p)%N) (b1 : u_bond u = 1%N).
Hypothesis Hp : u_ptype u = Half \/ svd_type (u_ctm u) = "full-rank".

(** C96.  With bond dimension 1 the bounds hold after every session, whatever gates
    were applied. *)
Theorem C96_mean_field c cx (r : recipe C) (cs : seq (call C)) (s s' : Session.state C R) out : alone u s ->
  (forall x, List.In x cs -> call_ok u c x) -> r_dim r = p -> well_formed nx ny cx r ->
  Session.session randn trand lqr lsvd fsvd leigh lchol rtol lcut noise fuel.+1 empty u (rcons cs (Session.Measure (as_model cx r))) s = Some (Ok (s', out)) ->
  exists out' d, out = rcons out' d /\ bounded nx ny r d.
Proof using Sq Ss Sf Se tot Srand Hm c0 a0 l0 nx0 ny0 p0 b1 Hp.
move=> As Hc Hd W E; have [M N] := well_model nx0 ny0 Hd W.
have [out' [d [-> H]]] := C76_mean_field Sq Ss Sf Se tot Srand Hm c0 a0 l0 nx0 ny0 p0 b1 Hp As Hc M N E.
by exists out', d; split=> //; apply: (@product_bounded nx ny cx r (own (s_net s'))); rewrite ?Hd.
Qed.
End MeanField.

(** ---- positivity is needed ---- *)
Section Needed.
Variable C : numClosedFieldType.

(** a network with bond dimension 2 and boundary dimension 1; the boundary on one side
    counts the two values of the bond with weights 1 and -1/2, and the bond on that side
    carries the spin *)
Definition skewed : Mover.net (tensor C) := fun s x => match x with
  | SA => Tensor [:: 2; 2; 2; 2; 2]%N (fun idx => if (nth 0%N idx 0 == nth 0%N idx 4) && all (fun k => nth 0%N idx k == 0%N) [:: 1; 2; 3]%N then 1 else 0)
  | SC _ => Tensor [:: 1; 1]%N (fun _ => 1)
  | SE k => Tensor [:: 1; 1; 2; 2]%N (fun idx => if nth 0%N idx 2 == nth 0%N idx 3 then (if nth 0%N idx 2 == 0%N then 1 else if k == 3%N then - 2%:R^-1 else 1) else 0)
  end.

(** "a magnetisation is between -1 and 1" is false for density matrices that are not
    positive, and boundary tensors of a network can make them so *)
Theorem C96_positive_needed_refuted : fits 2 2 2 2 (fun _ _ => 1%N) skewed /\
  exists2 rho, build_site_rdm skewed (0, 0)%N = Ok rho & measured1 rho (matrix false (PL C LZ)) = Ok 3%:R.
Proof.
have F : fits 2 2 2 2 (fun _ _ => 1%N) skewed by [].
split=> //; have In00 : in_cell 2 2 (0, 0)%N by split; apply/ltP.
have [rho [f [E Ef Sr T]]] := C31_site_rdm F In00; exists rho => //.
have V P q : (P < 2)%N -> (q < 2)%N -> at_ rho [:: P; q] = if P == q then (if P == 0%N then 1 else - 2%:R^-1) else 0.
  move=> HP Hq; case: T => _ ->; last by rewrite Sr /= HP Hq.
  move: Ef; rewrite /einsum /= => -[<-] /=; rewrite /sumn !big_ord1 /=.
  have s2 (G : 'I_2 -> C) : G (@Ordinal 2 1 isT) = 0 -> \sum_i G i = G (@Ordinal 2 0 isT).
    move=> H; rewrite !big_ord_recl big_ord0 addr0.
    have -> : lift ord0 ord0 = @Ordinal 2 1 isT by apply: val_inj.
    by rewrite H addr0; congr G; apply: val_inj.
  do 2 (rewrite s2; last by do !(apply: big1 => ? _); rewrite /= ?andbF /= ?conjC0 ?mul0r ?mulr0 ?mul0r ?mulr0).
  rewrite !big_ord1; do 2 (rewrite s2; last by do !(apply: big1 => ? _); rewrite /= ?andbF /= ?conjC0 ?mul0r ?mulr0 ?mul0r ?mulr0).
  rewrite !big_ord1; do 2 (rewrite s2; last by do !(apply: big1 => ? _); rewrite /= ?andbF /= ?conjC0 ?mul0r ?mulr0 ?mul0r ?mulr0).
  rewrite !big_ord1 !big_ord_recl !big_ord0 /= !mul1r !andbT.
  by case: P q HP Hq => [|[|//]] [|[|//]] _ _ /=; rewrite ?conjC0 ?conjC1 ?mul0r ?mulr0 ?mul1r ?mulr1 ?addr0 ?add0r.
have h2 : 1 - 2%:R^-1 = 2%:R^-1 :> C by apply/eqP; rewrite subr_eq -mulr2n -[_ *+ 2]mulr_natr mulVf ?pnatr_eq0.
rewrite /measured1 (site_normE Sr) /=.
have Tr : tr1 2 rho = 2%:R^-1 by rewrite /tr1 !big_ord_recl big_ord0 /= !V //= addr0.
have R2 : 'Re (2%:R^-1) = 2%:R^-1 :> C by apply/Creal_ReP; rewrite rpredV realn.
rewrite Tr R2; have := @measure1E C 2 rho (matrix false (PL C LZ)) Sr erefl; rewrite Tr R2 => -> //; last by rewrite invr_eq0 pnatr_eq0.
congr Ok; rewrite /exp1 Tr R2 !big_ord_recl !big_ord0 /= !V //= !(mulr0, mul0r, mulr1, mulrN1, addr0, add0r) opprK invrK.
rewrite (Creal_ReP _ _) ?rpredD ?rpred1 ?rpredV ?realn //.
by rewrite mulrDl mul1r mulVf ?pnatr_eq0 // -(natrD _ 2 1).
Qed.
End Needed.

(** ---- a concrete case ---- *)
Section Example.
Variable C : numClosedFieldType.
Variables nx ny : nat.
Hypotheses (nx0 : (0 < nx)%N) (ny0 : (0 < ny)%N).
Notation up1 := (fun _ : site => Ok (ex_rho1 C)).
Notation up2 := (fun _ : bond => Ok (ex_rho2 C)).

Lemma up_positive : available nx ny 2 up1 up2 /\ all_positive nx ny 2 up1 up2.
Proof using Type.
have one : 'Re 1 = 1 :> C by apply/Creal_ReP; rewrite rpred1.
split; split.
- move=> s _; exists (ex_rho1 C); split=> //.
  by rewrite /tr1 !big_ord_recl big_ord0 /= !addr0 one oner_eq0.
- move=> s _; exists (ex_rho2 C); split=> //.
  by rewrite /tr2 !big_ord_recl !big_ord0 /= !addr0 one oner_eq0.
- move=> s rho _ [<-]; split=> [[|[|//]] [|[|//]] _ _|v] /=; rewrite ?conjC0 ?conjC1 //.
  rewrite !big_ord_recl !big_ord0 /= !(mulr0, mul0r, addr0, mulr1) -normCKC; exact: exprn_ge0.
- move=> b rho _ [<-]; split=> [[|[|//]] [|[|//]] [|[|//]] [|[|//]] _ _ _ _|v] /=; rewrite ?conjC0 ?conjC1 //.
  rewrite !big_ord_recl !big_ord0 /= !(mulr0, mul0r, addr0, mulr1) -normCKC; exact: exprn_ge0.
Qed.

(** all spins up: the bounds of the Ising model are attained *)
Example C96_attained cx : exists2 ave, measure (as_model cx (ising_recipe 1 0)) up1 up2 (build_site_list nx ny) (build_bond_list nx ny) = Ok ave &
  dget "sz" ave = Some 1 /\ dget "Energy" ave = Some (- 2%:R).
Proof using nx0 ny0.
have [Av Po] := up_positive.
have [ave [E E1 E2 _]] := measured nx0 ny0 (well_ising nx ny cx (1 : C) 0) Av (Permutation_refl _).
have one : 'Re 1 = 1 :> C by apply/Creal_ReP; rewrite rpred1.
have N : (nx * ny)%:R != 0 :> C by rewrite pnatr_eq0 -lt0n muln_gt0 nx0.
have lenS : size (build_site_list nx ny) = (nx * ny)%N := length_site_list nx ny.
have Vz s : value1 cx (ising_recipe 1 0) up1 s (PL C LZ) = 1.
  rewrite /value1 /exp1 /tr1 /rho1 !big_ord_recl !big_ord0; case: (cx); by rewrite /= !(mulr0, mul0r, addr0, mulr1) one divr1.
have Vx s : value1 cx (ising_recipe 1 0) up1 s (square_one 0 s) = 0.
  rewrite /value1 /exp1 /tr1 /rho1 !big_ord_recl !big_ord0; case: (cx); by rewrite /= !(mulr0, mul0r, addr0, mulr1) raddf0 mul0r.
have Vb b : value2 cx (ising_recipe 1 0) up2 b (square_two 1 b) = -1.
  rewrite /value2 /exp2 /tr2 /rho2 !big_ord_recl !big_ord0; case: (cx); rewrite /= !(mulr0, mul0r, addr0, mulr1, mul1r) one divr1; by rewrite raddfN /= one.
exists ave => //; split.
  rewrite E2 //=; under eq_bigr do rewrite Vz.
  by rewrite big_const_seq count_predT lenS iter_addr_0 divff.
rewrite E1 /=; under eq_bigr do rewrite Vx; under [X in _ + X]eq_bigr do rewrite Vb.
rewrite big1 // add0r big_const_seq count_predT (length_bond_list nx ny : size (build_bond_list nx ny) = _) iter_addr_0 mulNrn (natrM _ 2).
by rewrite mulNr mulfK.
Qed.
End Example.

Print Assumptions C96_range.
Print Assumptions C96_ising.
Print Assumptions C96_heisenberg.
Print Assumptions C96_compass.
Print Assumptions C96_honeycomb.
Print Assumptions C96_kagome.
Print Assumptions C96_honeycomb_sums.
Print Assumptions C96_kagome_sums.
Print Assumptions C96_mean_field.
Print Assumptions C96_positive_needed_refuted.
Print Assumptions C96_attained.
