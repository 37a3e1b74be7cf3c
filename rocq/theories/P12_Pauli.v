(** Properties C24-C26, C58: Pauli operators and the built-in models. *)
From Coq Require Import String Ascii.
From mathcomp Require Import all_ssreflect all_algebra.
From Verif Require Import Base Tensor TN EinsumLin Pauli.
Set Implicit Arguments.
Unset Strict Implicit.
Unset Printing Implicit Defensive.
Import GRing.Theory Num.Theory.
Local Open Scope ring_scope.
Local Open Scope string_scope.

Section Spec.
Variable C : numClosedFieldType.
Notation tensor := (tensor C).

(** ---- what the operators should be ---- *)

(** the textbook Pauli matrices *)
Definition sig (l : letter) (i j : nat) : C :=
  match l, i, j with
  | LX, O, S O | LX, S O, O => 1
  | LY, O, S O => - 'i | LY, S O, O => 'i
  | LZ, O, O => 1 | LZ, S O, S O => -1
  | LI, O, O | LI, S O, S O => 1
  | _, _, _ => 0
  end.
Definition sigma (l : letter) : tensor :=
  Tensor [:: 2; 2]%N (fun idx => match idx with [:: i; j] => sig l i j | _ => 0 end).

(** tensor product of n letters: entry (i,j) is the product over the positions k of
    the entries selected by the k-th binary digits (most significant first) *)
Definition digit (n k i : nat) : nat := ((i %/ 2 ^ (n - 1 - k)) %% 2)%N.
Definition tensor_product (ls : seq letter) : tensor :=
  let n := size ls in
  Tensor [:: 2 ^ n; 2 ^ n]%N
    (fun idx => match idx with
     | [:: i; j] => \prod_(k < n) sig (nth LI ls k) (digit n k i) (digit n k j)
     | _ => 0 end).

(** value of an expression as a matrix *)
Fixpoint den (e : pexpr C) : res tensor :=
  match e with
  | PL l => Ok (sigma l)
  | PMul a b => let! x := den a in let! y := den b in kron x y
  | PAdd a b => let! x := den a in let! y := den b in tadd x y
  | PSub a b => let! x := den a in let! y := den b in tadd x (tscale (-1) y)
  | PNeg a => let! x := den a in Ok (tscale (-1) x)
  | PScale _ c a => let! x := den a in Ok (tscale c x)
  | PDiv _ a c => let! x := den a in tdiv x c
  end.

(** the operator's matrix is c times the expected matrix, or the same error *)
Definition matches (c : C) (r : res (pauli C)) (r' : res tensor) : Prop :=
  match r, r' with
  | Ok p, Ok t => scaled c (mat p) t
  | Err e, Err e' => e = e'
  | _, _ => False
  end.

(** ---- lemmas ---- *)
Lemma in_range2 m n idx : in_range [:: m; n] idx -> exists i j, [/\ idx = [:: i; j], (i < m)%N & (j < n)%N].
Proof. by case: idx => [|i [|j [|? ?]]] //=; rewrite ?andbF // => /and3P[? ? _]; exists i, j. Qed.

Lemma kron_scaled (a b : C) s s' t t' : scaled a s' s -> scaled b t' t ->
  match kron s' t', kron s t with
  | Ok k', Ok k => scaled (a * b) k' k | Err e, Err e' => e = e' | _, _ => False end.
Proof.
move=> [S1 H1] [S2 H2]; rewrite /kron S1 S2.
case E1: (shape s) => [|m [|n [|? ?]]] //; case E2: (shape t) => [|p [|q [|? ?]]] //.
split=> // idx /in_range2[i [j [-> Hi Hj]]] /=.
have p0 : (0 < p)%N by case: (p) Hi => //; rewrite muln0.
have q0 : (0 < q)%N by case: (q) Hj => //; rewrite muln0.
by rewrite H1 ?H2 ?E1 ?E2 /= ?ltn_mod ?ltn_divLR ?p0 ?q0 ?Hi ?Hj // mulrACA.
Qed.

Lemma tadd_scaled (a : C) s s' t t' : scaled a s' s -> scaled a t' t ->
  match tadd s' t', tadd s t with
  | Ok k', Ok k => scaled a k' k | Err e, Err e' => e = e' | _, _ => False end.
Proof.
move=> [S1 H1] [S2 H2]; rewrite /tadd S1 S2; case: eqP => // E.
by split=> // idx /= Hi; rewrite H1 // H2 -?E // mulrDr.
Qed.

Lemma tscale_scaled (a c : C) s s' : scaled a s' s -> scaled a (tscale c s') (tscale c s).
Proof. by move=> [S H]; split=> // i /= Hi; rewrite H // mulrCA. Qed.

Lemma scaled_more (a c : C) s s' : scaled a s' s -> scaled (c * a) (tscale c s') s.
Proof. by move=> [S H]; split=> // i /= Hi; rewrite H // mulrA. Qed.

(** Y parity of an expression all of whose terms have the same parity *)
Fixpoint ypar (e : pexpr C) : option bool :=
  match e with
  | PL LY => Some true
  | PL _ => Some false
  | PMul a b => if (ypar a, ypar b) is (Some x, Some y) then Some (x (+) y) else None
  | PAdd a b | PSub a b =>
      if (ypar a, ypar b) is (Some x, Some y) then if x == y then Some x else None else None
  | PNeg a | PScale _ _ a | PDiv _ a _ => ypar a
  end.
(** parity of the number of letters Y written *)
Fixpoint yodd (e : pexpr C) : bool :=
  match e with
  | PL LY => true
  | PL _ => false
  | PMul a b | PAdd a b | PSub a b => yodd a (+) yodd b
  | PNeg a | PScale _ _ a | PDiv _ a _ => yodd a
  end.
(** at every product the letters written and the terms agree on "both sides odd" *)
Fixpoint agree (e : pexpr C) : bool :=
  match e with
  | PL _ => true
  | PMul a b => [&& agree a, agree b & (yodd a && yodd b) == (ypar a == Some true) && (ypar b == Some true)]
  | PAdd a b | PSub a b => agree a && agree b
  | PNeg a | PScale _ _ a | PDiv _ a _ => agree a
  end.
(** only real numbers used *)
Fixpoint real_scalars (e : pexpr C) : bool :=
  match e with
  | PL _ => true
  | PMul a b | PAdd a b | PSub a b => real_scalars a && real_scalars b
  | PNeg a => real_scalars a
  | PScale cc _ a | PDiv cc a _ => ~~ cc && real_scalars a
  end.

Definition unit_of (complex odd_y : bool) : C := if complex then 1 else if odd_y then - 'i else 1.

Lemma letter_ok complex l : scaled (unit_of complex (if l is LY then true else false)) (mat (make_letter C complex l)) (sigma l).
Proof.
split=> [|idx]; first by case: l; case: complex.
have -> : shape (sigma l) = [:: 2; 2]%N by [].
move=> /in_range2[i [j [-> Hi Hj]]].
by case: complex; case: l; case: i Hi => [|[|]] //; case: j Hj => [|[|]] //= _ _;
  rewrite /unit_of ?mul1r ?mulr0 ?mulrN ?mulr1 ?mulNr -?expr2 ?sqrCi ?opprK.
Qed.

Lemma count_y_app a b : count_y (a ++ b) = (count_y a + count_y b)%N.
Proof. by elim: a => [|c a IH] //=; rewrite IH addnA. Qed.

Lemma phase_parity a b : ((count_y (a ++ b) %% 2 == 0) && (count_y a %% 2 != 0))%N = odd (count_y a) && odd (count_y b).
Proof. by rewrite count_y_app !modn2 oddD; case: (odd (count_y a)); case: (odd (count_y b)). Qed.

Lemma peval_inv complex e p : peval complex e = Ok p ->
  odd (count_y (key p)) = yodd e /\ (real_scalars e || complex -> cplx p = complex).
Proof.
elim: e p => [l|a IHa b IHb|a IHa b IHb|a IHa b IHb|a IHa|cc c a IHa|cc a IHa c] p /=.
- by case=> <-; case: l.
- case Ea: (peval complex a) => [x|] //=; case Eb: (peval complex b) => [y|] //=.
  rewrite /pmul; case: (kron _ _) => //= m [<-] /=; have [K1 F1] := IHa _ Ea; have [K2 F2] := IHb _ Eb.
  rewrite count_y_app oddD K1 K2; split=> // R; rewrite F1 ?F2 ?orbb //; case: complex R {F1 F2 Ea Eb IHa IHb} => //=; rewrite ?orbT ?orbF //; by case/andP.
- case Ea: (peval complex a) => [x|] //=; case Eb: (peval complex b) => [y|] //=.
  rewrite /padd; case: (tadd _ _) => //= m [<-] /=; have [K1 F1] := IHa _ Ea; have [K2 F2] := IHb _ Eb.
  rewrite count_y_app oddD K1 K2; split=> // R; rewrite F1 ?F2 ?orbb //; case: complex R {F1 F2 Ea Eb IHa IHb} => //=; rewrite ?orbT ?orbF //; by case/andP.
- case Ea: (peval complex a) => [x|] //=; case Eb: (peval complex b) => [y|] //=.
  rewrite /psub; case: (tadd _ _) => //= m [<-] /=; have [K1 F1] := IHa _ Ea; have [K2 F2] := IHb _ Eb.
  rewrite count_y_app oddD K1 K2; split=> // R; rewrite F1 ?F2 ?orbb //; case: complex R {F1 F2 Ea Eb IHa IHb} => //=; rewrite ?orbT ?orbF //; by case/andP.
- by case Ea: (peval complex a) => [x|] //= [<-] /=; apply: IHa.
- case Ea: (peval complex a) => [x|] //= [<-] /=; have [K F] := IHa _ Ea; split=> // R; rewrite F; last by case: (real_scalars a) R; rewrite ?andbF ?orbT //.
  by case: complex R {F Ea IHa} => //=; rewrite ?orbT // orbF => /andP[/negbTE ->].
- case Ea: (peval complex a) => [x|] //=; rewrite /pdiv /tdiv; case: ifP => //= _ [<-] /=; have [K F] := IHa _ Ea; split=> // R; rewrite F; last by case: (real_scalars a) R; rewrite ?andbF ?orbT //.
  by case: complex R {F Ea IHa} => //=; rewrite ?orbT // orbF => /andP[/negbTE ->].
Qed.

(** one proof for both dtypes *)
Lemma peval_den complex e q :
  (complex || [&& agree e, real_scalars e & ypar e == Some q]) ->
  matches (unit_of complex q) (peval complex e) (den e).
Proof.
elim: e q => [l|a IHa b IHb|a IHa b IHb|a IHa b IHb|a IHa|cc c a IHa|cc a IHa c] q /=.
- move=> H; suff -> : unit_of complex q = unit_of complex (if l is LY then true else false) by exact: letter_ok.
  by case: complex H => //=; case: l => /eqP[<-].
- move=> H.
  have [qa [qb [Ha Hb Hq]]] : exists qa qb, [/\ complex || [&& agree a, real_scalars a & ypar a == Some qa],
      complex || [&& agree b, real_scalars b & ypar b == Some qb] &
      complex || ((q == qa (+) qb) && ((yodd a && yodd b) == (qa && qb)))].
    case: complex H {IHa IHb} => /=; first by exists true, true.
    case Ea: (ypar a) => [qa|] //=; last by rewrite !andbF.
    case Eb: (ypar b) => [qb|] //=; last by rewrite !andbF.
    move=> /and3P[/and3P[-> -> /eqP K] /andP[-> ->] /eqP[<-]]; exists qa, qb; rewrite !eqxx; split=> //.
    by rewrite K; case: (qa); case: (qb).
  have := IHa _ Ha.
  case Ea: (peval complex a) => [x|ea]; case Ea': (den a) => [x'|ea'] //= Sa.
  have := IHb _ Hb.
  case Eb: (peval complex b) => [y|eb]; case Eb': (den b) => [y'|eb'] //= Sb.
  rewrite /pmul; have := kron_scaled Sa Sb.
  case: (kron (mat x) _) => [k|]; case: (kron x' _) => [k'|] //= /scaled_more S.
  rewrite /matches /= phase_parity; set ph := if _ then _ else _.
  suff -> : unit_of complex q = ph * (unit_of complex qa * unit_of complex qb) by apply: S.
  rewrite /ph {S ph}.
  have [Ka Fa] := peval_inv Ea; have [Kb Fb] := peval_inv Eb; rewrite Ka Kb.
  have Fx : cplx x = complex.
    by apply: Fa; move: Ha; clear; case: complex => //=; [rewrite orbT|case/and3P=> _ ->].
  rewrite Fx /unit_of; move: Hq; clear; case: complex => /=; first by rewrite !mul1r.
  move=> /andP[/eqP -> /eqP ->]; case: qa; case: qb => /=; rewrite ?mul1r ?mulr1 //.
  by rewrite mulrNN -expr2 sqrCi mulN1r opprK.
- move=> H.
  have [Ha Hb] : complex || [&& agree a, real_scalars a & ypar a == Some q] /\
      complex || [&& agree b, real_scalars b & ypar b == Some q].
    case: complex H {IHa IHb} => //=.
    case Ea: (ypar a) => [qa|] //=; last by rewrite !andbF.
    case Eb: (ypar b) => [qb|] //=; last by rewrite !andbF.
    by move=> /and3P[/andP[-> ->] /andP[-> ->]]; case: (qa =P qb) => [->|_] // /eqP[<-]; rewrite eqxx.
  have := IHa _ Ha.
  case Ea: (peval complex a) => [x|ea]; case Ea': (den a) => [x'|ea'] //= Sa.
  have := IHb _ Hb.
  case Eb: (peval complex b) => [y|eb]; case Eb': (den b) => [y'|eb'] //= Sb.
  rewrite /padd; have := tadd_scaled Sa Sb.
  by case: (tadd (mat x) _) => [k|]; case: (tadd x' _) => [k'|].
- move=> H.
  have [Ha Hb] : complex || [&& agree a, real_scalars a & ypar a == Some q] /\
      complex || [&& agree b, real_scalars b & ypar b == Some q].
    case: complex H {IHa IHb} => //=.
    case Ea: (ypar a) => [qa|] //=; last by rewrite !andbF.
    case Eb: (ypar b) => [qb|] //=; last by rewrite !andbF.
    by move=> /and3P[/andP[-> ->] /andP[-> ->]]; case: (qa =P qb) => [->|_] // /eqP[<-]; rewrite eqxx.
  have := IHa _ Ha.
  case Ea: (peval complex a) => [x|ea]; case Ea': (den a) => [x'|ea'] //= Sa.
  have := IHb _ Hb.
  case Eb: (peval complex b) => [y|eb]; case Eb': (den b) => [y'|eb'] //= Sb.
  rewrite /psub; have := tadd_scaled Sa (tscale_scaled (-1) Sb).
  by case: (tadd (mat x) _) => [k|]; case: (tadd x' _) => [k'|].
- move=> H; have := IHa _ H; case: (peval complex a) => [x|?]; case: (den a) => [x'|?] //=.
  exact: tscale_scaled.
- move=> H; have /IHa : complex || [&& agree a, real_scalars a & ypar a == Some q].
    by case: complex H {IHa} => //= /and3P[-> /andP[_ ->] ->].
  by case: (peval complex a) => [x|?]; case: (den a) => [x'|?] //=; apply: tscale_scaled.
- move=> H; have /IHa : complex || [&& agree a, real_scalars a & ypar a == Some q].
    by case: complex H {IHa} => //= /and3P[-> /andP[_ ->] ->].
  case: (peval complex a) => [x|?]; case: (den a) => [x'|?] //= S.
  by rewrite /pdiv /tdiv; case: ifP => //= _; apply: tscale_scaled.
Qed.
End Spec.

Lemma digit_hi (n1 n2 k i : nat) : (k < n1)%N -> digit (n1 + n2) k i = digit n1 k (i %/ 2 ^ n2).
Proof.
move=> Hk; rewrite /digit -divnMA -expnD; congr ((_ %/ 2 ^ _) %% 2)%N.
by rewrite -!subnDA (addnC n1) -addnBA // add1n.
Qed.
Lemma digit_lo (n1 n2 k i : nat) : (k < n2)%N -> digit (n1 + n2) (n1 + k) i = digit n2 k (i %% 2 ^ n2).
Proof.
move=> Hk; rewrite /digit.
have -> : (n1 + n2 - 1 - (n1 + k) = n2 - 1 - k)%N by rewrite -!subnDA addnCA subnDl.
set m := (n2 - 1 - k)%N; have Hmn : (m < n2)%N.
  by apply: leq_ltn_trans (leq_subr _ _) _; rewrite subn1 ltn_predL; apply: leq_ltn_trans Hk.
have Hm : (n2 = m + (n2 - m))%N by rewrite subnKC // ltnW.
have Hp : (0 < n2 - m)%N by rewrite subn_gt0.
have E : (2 ^ n2 = 2 ^ (n2 - m) * 2 ^ m)%N by rewrite -expnD addnC -Hm.
rewrite {1}(divn_eq i (2 ^ n2)%N) {2}E mulnA divnMDl ?expn_gt0 //.
by case: (n2 - m)%N Hp => // j _; rewrite expnS (mulnC 2%N) mulnA modnMDl.
Qed.

Lemma expn2_lt a b i : (i < 2 ^ (a + b))%N -> (i %/ 2 ^ b < 2 ^ a)%N.
Proof. by rewrite expnD => H; rewrite ltn_divLR ?expn_gt0. Qed.

Lemma kron_tp (C : numClosedFieldType) (l1 l2 : seq letter) :
  exists k, kron (tensor_product C l1) (tensor_product C l2) = Ok k /\ teq k (tensor_product C (l1 ++ l2)).
Proof.
eexists; split; first by [].
split=> [|idx]; first by rewrite /= size_cat expnD.
move=> /in_range2[i [j [-> _ _]]] /=; rewrite size_cat.
rewrite -(big_mkord xpredT (fun k => sig C (nth LI (l1 ++ l2)%SEQ k) (digit (size l1 + size l2) k i) (digit (size l1 + size l2) k j))).
rewrite (@big_cat_nat _ _ _ (size l1)) ?leq_addr //=; congr (_ * _).
  rewrite big_mkord; apply: eq_bigr => k _; by rewrite nth_cat ltn_ord !digit_hi.
rewrite -{1}[size l1]add0n big_addn addKn big_mkord; apply: eq_bigr => k _.
by rewrite nth_cat ltnNge leq_addl /= addnK (addnC k) !digit_lo.
Qed.

Lemma sigma_tp (C : numClosedFieldType) l : teq (sigma C l) (tensor_product C [:: l]).
Proof.
split=> // idx; have -> : shape (sigma C l) = [:: 2; 2]%N by [].
move=> /in_range2[i [j [-> Hi Hj]]] /=; rewrite big_ord1 /digit /= !divn1.
by case: i Hi => [|[|]] //; case: j Hj => [|[|]].
Qed.

(** products of letters, in any grouping *)
Fixpoint is_product (C : numClosedFieldType) (e : pexpr C) : bool :=
  match e with PL _ => true | PMul a b => is_product a && is_product b | _ => false end.
Fixpoint letters (C : numClosedFieldType) (e : pexpr C) : seq letter :=
  match e with PL l => [:: l] | PMul a b => (letters a ++ letters b)%SEQ | _ => [::] end.
Definition is_y (l : letter) : bool := if l is LY then true else false.

Lemma product_parity (C : numClosedFieldType) (e : pexpr C) : is_product e ->
  [/\ ypar e = Some (odd (count is_y (letters e))), yodd e = odd (count is_y (letters e)), agree e & real_scalars e].
Proof.
elim: e => [l|a IHa b IHb|a IHa b IHb|a IHa b IHb|a IHa|cc c a IHa|cc a IHa c] //=; first by case: l.
by move=> /andP[/IHa[-> -> -> ->] /IHb[-> -> -> ->]]; rewrite count_cat oddD; split=> //=; case: (odd (count is_y (letters a))); case: (odd (count is_y (letters b))).
Qed.

Lemma den_product (C : numClosedFieldType) (e : pexpr C) : is_product e ->
  exists t, den e = Ok t /\ teq t (tensor_product C (letters e)).
Proof.
elim: e => [l|a IHa b IHb|a IHa b IHb|a IHa b IHb|a IHa|cc c a IHa|cc a IHa c] //=.
  by exists (sigma C l); split=> //; apply: sigma_tp.
move=> /andP[/IHa[s [-> [Ss Hs]]] /IHb[t [-> [St Ht]]]] /=.
have S1 : scaled 1 s (tensor_product C (letters a)) by split=> // i Hi; rewrite mul1r Hs ?Ss.
have S2 : scaled 1 t (tensor_product C (letters b)) by split=> // i Hi; rewrite mul1r Ht ?St.
have [k [Ek [Sk Hk]]] := kron_tp C (letters a) (letters b).
have := kron_scaled S1 S2; rewrite Ek; case: (kron s t) => // k' [S H]; exists k'; split=> //.
split=> [|i Hi]; first by rewrite S Sk.
by rewrite H -?S // !mul1r Hk // -S.
Qed.

(** C24.  A product of letters, grouped in any way: in complex dtype the matrix is the
    tensor product of the textbook matrices in the order written; in real dtype it is
    the same when the number of Y is even and -i times it when it is odd. *)
Theorem C24_products (C : numClosedFieldType) (complex : bool) (e : pexpr C) : is_product e ->
  exists p, [/\ peval complex e = Ok p,
    shape (mat p) = [:: 2 ^ size (letters e); 2 ^ size (letters e)]%N &
    forall i j, (i < 2 ^ size (letters e))%N -> (j < 2 ^ size (letters e))%N ->
      at_ (mat p) [:: i; j] =
        (if ~~ complex && odd (count is_y (letters e)) then - 'i else 1) *
        \prod_(k < size (letters e)) sig C (nth LI (letters e) k) (digit (size (letters e)) k i) (digit (size (letters e)) k j)].
Proof.
move=> He; have [Y1 Y2 Ag Rs] := product_parity He; have [t [Et [St Ht]]] := den_product He.
have := @peval_den C complex e (odd (count is_y (letters e))).
rewrite Y1 Ag Rs eqxx orbT Et => /(_ isT); case: (peval complex e) => // p [S H]; exists p; split=> //.
  by rewrite S St.
move=> i j Hi Hj; rewrite H ?St /= ?Hi ?Hj // Ht ?St /= ?Hi ?Hj //.
by rewrite /unit_of; clear; case: complex; case: odd.
Qed.

(** C25, complex dtype: every expression has the matrix it denotes (or the same
    dimension error). *)
Theorem C25_complex (C : numClosedFieldType) (e : pexpr C) : matches 1 (peval true e) (den e).
Proof. exact: (@peval_den C true e true). Qed.

(** C25, real dtype: an expression with real numbers all of whose terms have the same Y
    parity q, and such that at every product the letters written and the terms agree
    on whether both factors are odd, has the denoted matrix (times -i if q is odd). *)
Theorem C25_real (C : numClosedFieldType) (e : pexpr C) (q : bool) :
  agree e -> real_scalars e -> ypar e = Some q -> matches (if q then - 'i else 1) (peval false e) (den e).
Proof. by move=> A R Y; apply: (@peval_den C false e q); rewrite A R Y eqxx. Qed.

(** ... in particular every real linear combination of products with an even number
    of Y is exact in real dtype. *)
Fixpoint even_combination (C : numClosedFieldType) (e : pexpr C) : bool :=
  is_product e && ~~ odd (count is_y (letters e)) ||
  match e with
  | PAdd a b | PSub a b => even_combination a && even_combination b
  | PNeg a => even_combination a
  | PScale cc _ a | PDiv cc a _ => ~~ cc && even_combination a
  | _ => false
  end.
Theorem C25_real_sums (C : numClosedFieldType) (e : pexpr C) : even_combination e -> matches 1 (peval false e) (den e).
Proof.
move=> H; suff [A R Y] : [/\ agree e, real_scalars e & ypar e = Some false] by apply: (C25_real A R Y).
elim: e H => [l|a IHa b IHb|a IHa b IHb|a IHa b IHb|a IHa|cc c a IHa|cc a IHa c] H.
- by case: l H.
- have /andP[He O] : is_product (PMul a b) && ~~ odd (count is_y (letters (PMul a b))) by move: H; rewrite /= orbF.
  have [Y1 Y2 A R] := @product_parity C (PMul a b) He.
  by split=> //; rewrite Y1 (negbTE O).
- by move: H => /= /andP[/IHa[-> -> ->] /IHb[-> -> ->]].
- by move: H => /= /andP[/IHa[-> -> ->] /IHb[-> -> ->]].
- by move: H => /= /IHa[-> -> ->].
- by move: H => /= /andP[-> /IHa[-> -> ->]].
- by move: H => /= /andP[-> /IHa[-> -> ->]].
Qed.

(** C25: products of sums in real dtype.  If both factors are odd in Y but one of them
    is written with an even number of letters Y, the product has the wrong sign. *)
Theorem C25_wrong_sign (C : numClosedFieldType) (a b : pexpr C) :
  agree a -> agree b -> real_scalars a -> real_scalars b -> ypar a = Some true -> ypar b = Some true ->
  ~~ (yodd a && yodd b) -> matches (-1) (peval false (PMul a b)) (den (PMul a b)).
Proof.
move=> Aa Ab Ra Rb Ya Yb N.
have /= := C25_real Aa Ra Ya; case Ea: (peval false a) => [x|ea]; case Ea': (den a) => [x'|ea'] //= Sa.
have /= := C25_real Ab Rb Yb; case Eb: (peval false b) => [y|eb]; case Eb': (den b) => [y'|eb'] //= Sb.
rewrite /pmul; have := kron_scaled Sa Sb.
case: (kron (mat x) _) => [k|]; case: (kron x' _) => [k'|] //= /scaled_more S.
have [Ka Fa] := peval_inv Ea; have [Kb Fb] := peval_inv Eb.
rewrite /matches /= phase_parity Ka Kb (negbTE N) if_same.
by have := S 1; rewrite mul1r mulrNN -expr2 sqrCi.
Qed.

Lemma four (C : numClosedFieldType) : 1 + 1 + (1 + 1) = 4%:R :> C.
Proof. by rewrite -(natrD _ 1 1) -natrD. Qed.

Theorem C25_product_of_sums_refuted (C : numClosedFieldType) :
  let YY := PAdd (PL C LY) (PL C LY) in
  exists p t, [/\ peval false (PMul YY YY) = Ok p, den (PMul YY YY) = Ok t,
     at_ (mat p) [:: 0; 3]%N = 4%:R & at_ t [:: 0; 3]%N = - 4%:R].
Proof.
move=> YY; eexists _, _; split; [reflexivity|reflexivity| |].
  by rewrite /= mul1r mulrDr !mulrDl !mulrNN !mulr1 four.
rewrite /= mulrDr !mulrDl !mulrNN -expr2 sqrCi.
by rewrite -!opprD four.
Qed.

(** C26.  [a *= b] gives the bare matrix kron(a, b); it differs from the matrix of a*b
    exactly when a is real with an odd number of Y, the product has an even number,
    and the matrix is not zero. *)
Theorem C26_imul (C : numClosedFieldType) (a b : pauli C) (m n p q : nat) :
  shape (mat a) = [:: m; n] -> shape (mat b) = [:: p; q] ->
  exists t r, [/\ pimul a b = Ok t, pmul a b = Ok r, shape (mat r) = shape t &
    (teq (mat r) t <-> [|| cplx a, ~~ odd (count_y (key a)) | odd (count_y (key a) + count_y (key b))] \/
       forall i, in_range (shape t) i -> at_ t i = 0)].
Proof.
move=> Sa Sb; rewrite /pimul /pmul; case E: (kron (mat a) (mat b)) => [t|]; last by move: E; rewrite /kron Sa Sb.
exists t; eexists; split; [reflexivity|reflexivity|by []|] => /=; rewrite phase_parity oddD.
set c := if ~~ cplx a then _ else _.
have Hc : c = if [|| cplx a, ~~ odd (count_y (key a)) | odd (count_y (key a)) (+) odd (count_y (key b))] then 1 else -1.
  by rewrite /c; case: (cplx a); case: odd; case: odd.
rewrite Hc {c Hc}; case: ifP => _.
  by split=> [_|_]; [left|split=> // i _ /=; rewrite mul1r].
split=> [[_ H]|[//|H]]; [right=> i Hi|by split=> // i Hi /=; rewrite H // mulr0].
have := H i Hi; rewrite /= mulN1r => /eqP; rewrite eq_sym -subr_eq0 opprK -mulr2n mulrn_eq0 /=.
by move/eqP.
Qed.

Example C26_example (C : numClosedFieldType) :
  let y := make_letter C false LY in
  exists t r, [/\ pimul y y = Ok t, pmul y y = Ok r, at_ t [:: 0; 3]%N = 1 & at_ (mat r) [:: 0; 3]%N = -1].
Proof.
move=> y; eexists _, _; split; [reflexivity|reflexivity| |].
  by rewrite /= mulrNN mulr1.
by rewrite /= mulrNN !mulr1.
Qed.

(** ---- C58 ---- *)
Definition hermitian (C : numClosedFieldType) (d : nat) (t : tensor C) : Prop :=
  forall i j, (i < d)%N -> (j < d)%N -> at_ t [:: i; j] = (at_ t [:: j; i])^*.

Lemma lt4 (i : nat) : (i < 4)%N -> [\/ i = 0%N, i = 1%N, i = 2%N | i = 3%N].
Proof. by case: i => [|[|[|[|i]]]] // _; [constructor 1|constructor 2|constructor 3|constructor 4]. Qed.
Lemma lt2 (i : nat) : (i < 2)%N -> i = 0%N \/ i = 1%N.
Proof. by case: i => [|[|i]] // _; [left|right]. Qed.

(** C58.  For a real coupling, in both dtypes: the Heisenberg bond term is
    J/4 (XX+YY+ZZ), written out, and Hermitian. *)
Theorem C58_heisenberg (C : numClosedFieldType) (complex : bool) (J : C) :
  exists p, [/\ heisenberg_two_site complex (Some J) = Ok p, shape (mat p) = [:: 4; 4]%N,
    forall i j, (i < 4)%N -> (j < 4)%N -> at_ (mat p) [:: i; j] =
      J / 4%:R * nth 0 (nth [::] [:: [:: 1; 0; 0; 0]; [:: 0; -1; 2%:R; 0]; [:: 0; 2%:R; -1; 0]; [:: 0; 0; 0; 1]] i) j &
    J \is Num.real -> hermitian 4 (mat p)].
Proof.
rewrite /heisenberg_two_site; set e := PScale _ _ _.
have M : matches 1 (peval complex e) (den e).
  by case: complex; [apply: C25_complex|apply: C25_real_sums].
have [t [Et St Ht]] : exists t, [/\ den e = Ok t, shape t = [:: 4; 4]%N & forall i j, (i < 4)%N -> (j < 4)%N -> at_ t [:: i; j] =
    J / 4%:R * nth 0 (nth [::] [:: [:: 1; 0; 0; 0]; [:: 0; -1; 2%:R; 0]; [:: 0; 2%:R; -1; 0]; [:: 0; 0; 0; 1]] i) j].
  eexists; split; [reflexivity|by []|] => i j /lt4[]-> /lt4[]->; rewrite /= (mulrC _^-1);
  by rewrite ?mulrNN ?mulNr ?mulrN -?expr2 ?sqrCi ?expr0n /= ?(mul0r, mulr0, mul1r, mulr1, oppr0, opprK, add0r, addr0, mulrN, expr1n) -?(natrD _ 1 1) ?subrr ?addNr ?add0r ?mulr0.
move: M; rewrite Et; case: (peval complex e) => //= p [S H]; exists p; split=> //; first by rewrite S St.
  by move=> i j Hi Hj; rewrite H ?St /= ?Hi ?Hj // mul1r Ht.
move=> RJ i j Hi Hj; rewrite !H ?St /= ?Hi ?Hj // !mul1r !Ht // rmorphM.
rewrite (_ : (J / 4%:R)^* = J / 4%:R); last by apply: CrealP; rewrite rpredM // rpredV realn.
by congr (_ * _); move: i j Hi Hj => i j /lt4[]-> /lt4[]->; rewrite /= ?conjC0 ?conjC1 ?rmorphN ?conjC1 ?conjC_nat.
Qed.

(** the Ising terms: -jz ZZ on bonds, -hx X on sites *)
Theorem C58_ising (C : numClosedFieldType) (complex : bool) (jz hx : C) :
  exists p q, [/\ ising_two_site complex (Some jz) = Ok p, ising_one_site complex (Some hx) = Ok q,
    shape (mat p) = [:: 4; 4]%N /\ shape (mat q) = [:: 2; 2]%N,
    (forall i j, (i < 4)%N -> (j < 4)%N -> at_ (mat p) [:: i; j] =
       - jz * nth 0 (nth [::] [:: [:: 1; 0; 0; 0]; [:: 0; -1; 0; 0]; [:: 0; 0; -1; 0]; [:: 0; 0; 0; 1]] i) j) /\
    (forall i j, (i < 2)%N -> (j < 2)%N -> at_ (mat q) [:: i; j] =
       - hx * nth 0 (nth [::] [:: [:: 0; 1]; [:: 1; 0]] i) j) &
    (jz \is Num.real -> hermitian 4 (mat p)) /\ (hx \is Num.real -> hermitian 2 (mat q))].
Proof.
rewrite /ising_two_site /ising_one_site; set e := PMul _ _; set e' := PScale _ _ (PL C LX).
have M : matches 1 (peval complex e) (den e).
  by case: complex; [apply: C25_complex|apply: (@C25_real C e false)].
have M' : matches 1 (peval complex e') (den e').
  by case: complex {M}; [apply: C25_complex|apply: (@C25_real C e' false)].
have [t [Et St Ht]] : exists t, [/\ den e = Ok t, shape t = [:: 4; 4]%N & forall i j, (i < 4)%N -> (j < 4)%N -> at_ t [:: i; j] =
    - jz * nth 0 (nth [::] [:: [:: 1; 0; 0; 0]; [:: 0; -1; 0; 0]; [:: 0; 0; -1; 0]; [:: 0; 0; 0; 1]] i) j].
  eexists; split; [reflexivity|by []|] => i j /lt4[]-> /lt4[]->; rewrite /=;
  by rewrite ?mulrNN ?mulNr ?mulrN ?(mul0r, mulr0, mul1r, mulr1, oppr0, opprK).
have [u [Eu Su Hu]] : exists t, [/\ den e' = Ok t, shape t = [:: 2; 2]%N & forall i j, (i < 2)%N -> (j < 2)%N -> at_ t [:: i; j] =
    - hx * nth 0 (nth [::] [:: [:: 0; 1]; [:: 1; 0]] i) j].
  by eexists; split; [reflexivity|by []|] => i j /lt2[]-> /lt2[]->.
move: M M'; rewrite Et Eu; case: (peval complex e) => // p [S H]; case: (peval complex e') => // q [S' H']; exists p, q.
split=> //; first by rewrite S S'.
  split=> i j Hi Hj; first by rewrite H ?St /= ?Hi ?Hj // mul1r Ht.
  by rewrite H' ?Su /= ?Hi ?Hj // mul1r Hu.
split=> RJ i j Hi Hj.
  rewrite !H ?St /= ?Hi ?Hj // !mul1r !Ht // rmorphM (_ : (- jz)^* = - jz); last by apply: CrealP; rewrite rpredN.
  by congr (_ * _); move: i j Hi Hj => i j /lt4[]-> /lt4[]->; rewrite /= ?conjC0 ?conjC1 ?rmorphN ?conjC1 ?conjC_nat.
rewrite !H' ?Su /= ?Hi ?Hj // !mul1r !Hu // rmorphM (_ : (- hx)^* = - hx); last by apply: CrealP; rewrite rpredN.
by congr (_ * _); move: i j Hi Hj => i j /lt2[]-> /lt2[]->; rewrite /= ?conjC0 ?conjC1.
Qed.

(** concrete case for C24: Y(XY), two groupings, real dtype *)
Example C24_example (C : numClosedFieldType) :
  exists p q, [/\ peval false (PMul (PL C LY) (PMul (PL C LX) (PL C LY))) = Ok p,
    peval false (PMul (PMul (PL C LY) (PL C LX)) (PL C LY)) = Ok q,
    at_ (mat p) [:: 0; 7]%N = -1 & at_ (mat q) [:: 0; 7]%N = -1].
Proof.
eexists _, _; split; [reflexivity|reflexivity| |]; rewrite /= ?(mul1r, mulr1) ?mulrNN ?mulNr ?(mul1r, mulr1) ?opprK //.
Qed.

Print Assumptions C24_products.
Print Assumptions C25_complex.
Print Assumptions C25_real.
Print Assumptions C25_real_sums.
Print Assumptions C25_wrong_sign.
Print Assumptions C25_product_of_sums_refuted.
Print Assumptions C26_imul.
Print Assumptions C58_heisenberg.
Print Assumptions C58_ising.
