(** C87: with a small enough cutoff of the weights, simple updates that have enough
    bond states lose nothing. *)
From Coq Require Import String Ascii Permutation.
From mathcomp Require Import all_ssreflect all_algebra.
From Verif Require Import Base Lattice LatticeFacts Mover Gate GateSum Tensor TN Rdm RdmFacts Fits Measure MeasureFacts FullUpdate Linalg Mat Rsvd RsvdFacts Renorm RenormFacts Spectral ProjFacts Psd Als AlsFacts EighChol UpdFacts InitFacts Dist Lambda Evolve P05_Mover MoveShape P08_Control P09_Rdm P13_Renorm P16_Als P17_Reduced Eckart P20_Simple P22_SimpleUpdate P26_SiteUpdate Session P29_Session P30_Product P31_Calls P32_Basis Layer CoverFacts Torus P34_State FreeCount P36_Free P37_FreeState.
Set Implicit Arguments.
Unset Strict Implicit.
Unset Printing Implicit Defensive.
Import GRing.Theory Num.Theory.
Local Open Scope ring_scope.
Local Open Scope string_scope.

(** ** One bond *)
Section Bond.
Variable C : numClosedFieldType.
Notation tensor := (tensor C).
Variable lqr : qr_fun C.
Variable fsvd : full_svd_fun C.
Hypothesis Sq : qr_spec lqr.
Hypothesis Sf : full_svd_spec fsvd.

(** the new tensors are made of the parts of the state that the gate makes of the
    pair, and vanish for bond states of weight zero *)
Lemma update_span lcut b p k w1 w2 (a1 a2 gate a1' a2' lam : tensor) : 0 < lcut ->
  (k < 4)%N -> (0 < p)%N -> matching (fun _ => b) p w1 a1 -> matching (fun _ => b) p w2 a2 -> shape gate = [:: p; p; p; p] ->
  let goal := two_site_gate p gate (pair_state b k id w1 w2 a1 a2) in
  within b p goal ->
  simple_bond_update lqr fsvd lcut w1 w2 k a1 a2 gate None = Ok (a1', a2', lam) ->
  exists z1 z2 : nat -> nat -> nat -> C, 
    [/\ forall u y P, (u < b)%N -> (y < b ^ 3)%N -> (P < p)%N -> entry1 b k (clamp lcut) w1 a1' u y P = sumn (b ^ 3) (fun x => sumn p (fun Q => goal P Q y x * z1 u x Q)),
        forall u x Q, (u < b)%N -> (x < b ^ 3)%N -> (Q < p)%N -> entry2 b k (clamp lcut) w2 a2' u x Q = sumn (b ^ 3) (fun y => sumn p (fun P => goal P Q y x * z2 u y P)) &
        forall u, (u < b)%N -> at_ lam [:: u] = 0 -> (forall x Q, z1 u x Q = 0) /\ (forall y P, z2 u y P = 0)].
Proof using Sq Sf.
move=> l0 Hk p0 M1 M2 Sg goal [b1 [b2 Eg]] E.
have [t [Ct H]] := @C65_simple_update C lqr fsvd Sq Sf lcut b p k w1 w2 a1 a2 gate None Hk p0 l0 M1 M2 Sg I; rewrite -/goal in Ct.
have Z : size2 (b ^ 3) p (fun r s y x => goal r s y x - t r s y x) <= 0.
  apply: (Order.POrderTheory.le_trans (Ct b1 b2)).
  rewrite (size2_ext (g := fun _ _ _ _ => 0)) => [|r s y x *]; last by rewrite Eg // subrr.
  by rewrite /size2 /sumn big1 // => i _; rewrite big1 // => j _; rewrite big1 // => l _; rewrite big1 // => l' _; rewrite normr0 expr0n.
have {}Z r s y x : (r < p)%N -> (s < p)%N -> (y < b ^ 3)%N -> (x < b ^ 3)%N -> t r s y x = goal r s y x.
  by move=> Hr Hs Hy Hx; have /eqP := size2_eq0 Z Hr Hs Hy Hx; rewrite subr_eq0 => /eqP.
case: H => [[_]|[d1 [d2 [lam' [c [E' _ [cp _ Es] Ov _]]]]]]; first by rewrite E.
move: E'; rewrite E => -[E1 E2 E3]; subst d1 d2 lam'.
set e1 := entry1 b k (clamp lcut) w1 a1'; set e2 := entry2 b k (clamp lcut) w2 a2'.
have {}Es P Q y x : (P < p)%N -> (Q < p)%N -> (y < b ^ 3)%N -> (x < b ^ 3)%N -> sumn b (fun v => e1 v y P * e2 v x Q) = c * goal P Q y x.
  by move=> HP HQ Hy Hx; have := Es P Q y x HP HQ Hy Hx; rewrite /= Z.
have {}Ov u v : (u < b)%N -> (v < b)%N -> overlap b p e1 u v = at_ lam [:: u] ^+ 2 *+ (u == v) /\ overlap b p e2 u v = at_ lam [:: u] ^+ 2 *+ (u == v) := Ov erefl u v.
have pick (F : nat -> C) u l : (u < b)%N -> sumn b (fun v => F v * (l *+ (u == v))) = F u * l.
  move=> Hu; rewrite /sumn (bigD1 (Ordinal Hu)) //= eqxx mulr1n big1 ?addr0 // => v Nv.
  by rewrite [u == v](_ : _ = false) ?mulr0n ?mulr0 //; apply: contraNF Nv => /eqP E'; apply/eqP/val_inj.
have none (e : nat -> nat -> nat -> C) u : overlap b p e u u = 0 -> forall y P, (y < b ^ 3)%N -> (P < p)%N -> e u y P = 0.
  rewrite /overlap /sumn => /eqP H y P Hy HP; move: H; rewrite psumr_eq0 => [/allP H|i _]; last first.
    by apply: sumr_ge0 => j _; rewrite mulrC mul_conjC_ge0.
  have := H (Ordinal Hy) (mem_index_enum _); rewrite psumr_eq0 => [/allP {}H|j _]; last by rewrite mulrC mul_conjC_ge0.
  by have := H (Ordinal HP) (mem_index_enum _); rewrite /= mulrC mul_conjC_eq0 => /eqP.
exists (fun u x Q => c * (e2 u x Q)^* / at_ lam [:: u] ^+ 2), (fun u y P => c * (e1 u y P)^* / at_ lam [:: u] ^+ 2); split.
- move=> u y P Hu Hy HP; have [Ou1 Ou2] := Ov u u Hu Hu; case: (eqVneq (at_ lam [:: u]) 0) => [L0|L0].
    rewrite (none e1 u) // ?Ou1 L0 ?expr0n ?mul0rn // /sumn big1 // => x _; rewrite big1 // => Q _; by rewrite invr0 !mulr0.
  apply: (mulIf (expf_neq0 2 L0)); rewrite -(pick (fun v => e1 v y P)) //.
  transitivity (sumn b (fun v => e1 v y P * overlap b p e2 u v)).
    by apply: eq_sumn => v Hv; have [_ ->] := Ov u v Hu Hv.
  rewrite /overlap; transitivity (sumn (b ^ 3) (fun x => sumn p (fun Q => sumn b (fun v => e1 v y P * e2 v x Q) * (e2 u x Q)^*))).
    transitivity (sumn b (fun v => sumn (b ^ 3) (fun x => sumn p (fun Q => e1 v y P * e2 v x Q * (e2 u x Q)^*)))).
      apply: eq_sumn => v _; rewrite sumn_mull; apply: eq_sumn => x _; rewrite sumn_mull; apply: eq_sumn => Q _.
      by rewrite [(_)^* * _]mulrC mulrA.
    rewrite sumnC; apply: eq_sumn => x _; rewrite sumnC; apply: eq_sumn => Q _; by rewrite sumn_mulr.
  rewrite sumn_mulr; apply: eq_sumn => x Hx; rewrite sumn_mulr; apply: eq_sumn => Q HQ; rewrite Es //.
  by rewrite -!mulrA (mulVf (expf_neq0 2 L0)) mulr1 mulrCA.
- move=> u x Q Hu Hx HQ; have [Ou1 Ou2] := Ov u u Hu Hu; case: (eqVneq (at_ lam [:: u]) 0) => [L0|L0].
    rewrite (none e2 u) // ?Ou2 L0 ?expr0n ?mul0rn // /sumn big1 // => y _; rewrite big1 // => P _; by rewrite invr0 !mulr0.
  apply: (mulIf (expf_neq0 2 L0)); rewrite -(pick (fun v => e2 v x Q)) //.
  transitivity (sumn b (fun v => e2 v x Q * overlap b p e1 u v)).
    by apply: eq_sumn => v Hv; have [-> _] := Ov u v Hu Hv.
  rewrite /overlap; transitivity (sumn (b ^ 3) (fun y => sumn p (fun P => sumn b (fun v => e1 v y P * e2 v x Q) * (e1 u y P)^*))).
    transitivity (sumn b (fun v => sumn (b ^ 3) (fun y => sumn p (fun P => e1 v y P * e2 v x Q * (e1 u y P)^*)))).
      apply: eq_sumn => v _; rewrite sumn_mull; apply: eq_sumn => y _; rewrite sumn_mull; apply: eq_sumn => P _.
      by rewrite [(_)^* * _]mulrC mulrA [e2 _ _ _ * _]mulrC.
    rewrite sumnC; apply: eq_sumn => y _; rewrite sumnC; apply: eq_sumn => P _; by rewrite sumn_mulr.
  rewrite sumn_mulr; apply: eq_sumn => y Hy; rewrite sumn_mulr; apply: eq_sumn => P HP; rewrite Es //.
  by rewrite -!mulrA (mulVf (expf_neq0 2 L0)) mulr1 mulrCA.
- by move=> u Hu ->; split=> *; rewrite expr0n invr0 mulr0.
Qed.

(** ---- the same update with another cutoff and tensors with the same entries ---- *)
Lemma qr_cong (s t : tensor) : teq s t -> qr lqr s = qr lqr t.
Proof.
move=> E; have [Es _] := E; rewrite /qr -Es; case Esh: (shape s) => [|m [|n [|]]] //.
by rewrite (teq_mx E Esh).
Qed.

Lemma decompose_cong (a1 a1' a2 a2' : tensor) : teq a1 a1' -> teq a2 a2' -> decompose_site_tensors lqr a1 a2 = decompose_site_tensors lqr a1' a2'.
Proof.
move=> E1 E2; rewrite /decompose_site_tensors -(proj1 E1); case: (seq.drop 3%N _) => [|bD [|pD [|]]] //.
apply/both_eq; apply: (both_bind (P := @teq C)); first by apply: einsum_cong.
move=> t t' _ _ Ht; apply: (both_bind (P := @teq C)); first by apply: reshape_cong.
move=> {t t' Ht} t t' _ _ Ht; rewrite (qr_cong Ht); case: (qr lqr t') => [[q r]|] //=.
case: (reshape q _) => //= q'; case: (reshape r _) => //= r'.
apply: (both_bind (P := @teq C)); first by apply: einsum_cong.
move=> {t t' Ht} t t' _ _ Ht; apply: (both_bind (P := @teq C)); first by apply: reshape_cong.
move=> {t t' Ht} t t' _ _ Ht; rewrite (qr_cong Ht); case: (qr lqr t') => [[q2 r2]|] //=.
by case: (reshape q2 _) => //= q2'; case: (reshape r2 _).
Qed.

Lemma bond_permute_cong b p k (s t : tensor) : (k < 4)%N -> shape s = [:: b; b; b; b; p] -> teq s t -> teq (bond_permute k s) (bond_permute k t).
Proof.
move=> Hk Ss [Es E]; split; first by rewrite !(@perm_shape _ k b p) // -Es.
rewrite (@perm_shape _ k b p) // => i Hi; have [l [u [r [d [P Ei]]]]] := range5 Hi; subst i; rewrite !permE // E // Ss.
by move: Hi; rewrite /= => /and5P[h0 h1 h2 h3 /andP[h4 _]]; case: k Hk => [|[|[|[|]]]] // _; rewrite /rotr /rot /= ?h0 ?h1 ?h2 ?h3 ?h4.
Qed.

Lemma update_cutoffs l l' b p k w1 w2 (a1 a1' a2 a2' gate : tensor) : 0 < l -> 0 < l' ->
  (k < 4)%N -> (0 < p)%N -> matching (fun _ => b) p w1 a1 -> matching (fun _ => b) p w2 a2 -> shape gate = [:: p; p; p; p] -> teq a1 a1' -> teq a2 a2' ->
  both (fun x y => [/\ x.2 = y.2,
      forall u y' P, (u < b)%N -> (y' < b ^ 3)%N -> (P < p)%N -> entry1 b k (clamp l) w1 x.1.1 u y' P = entry1 b k (clamp l') w1 y.1.1 u y' P &
      forall u y' P, (u < b)%N -> (y' < b ^ 3)%N -> (P < p)%N -> entry2 b k (clamp l) w2 x.1.2 u y' P = entry2 b k (clamp l') w2 y.1.2 u y' P])
    (simple_bond_update lqr fsvd l w1 w2 k a1 a2 gate None) (simple_bond_update lqr fsvd l' w1 w2 k a1' a2' gate None).
Proof using Sq Sf.
move=> l0 l0' Hk p0 M1 M2 Sg E1 E2; rewrite /simple_bond_update.
have S1 : shape a1 = [:: b; b; b; b; p] by case: M1.
have S2 : shape a2 = [:: b; b; b; b; p] by case: M2.
have M1' : matching (fun _ => b) p w1 a1' by case: M1 => _ H; split=> //; rewrite -(proj1 E1).
have M2' : matching (fun _ => b) p w2 a2' by case: M2 => _ H; split=> //; rewrite -(proj1 E2).
have [t1 -> [T1 F1]] := absorbE k M1; have [t2 -> [T2 F2]] := absorbE ((k + 2) %% 4)%N M2.
have [t1' -> [T1' F1']] := absorbE k M1'; have [t2' -> [T2' F2']] := absorbE ((k + 2) %% 4)%N M2'.
rewrite [bind (Ok t1) _]/bind [bind (Ok t2) _]/bind [bind (Ok t1') _]/bind [bind (Ok t2') _]/bind.
have Et1 : teq t1 t1'.
  split; first by rewrite T1 T1' (proj1 E1).
  by rewrite T1 => i Hi; rewrite F1 ?F1' ?(proj2 E1) //; apply: range5; move: Hi; rewrite S1; exact.
have Et2 : teq t2 t2'.
  split; first by rewrite T2 T2' (proj1 E2).
  by rewrite T2 => i Hi; rewrite F2 ?F2' ?(proj2 E2) //; apply: range5; move: Hi; rewrite S2; exact.
have A1 : shape (bond_permute k t1) = [:: b; b; b; b; p] by apply: perm_shape; rewrite T1.
have A2 : shape (bond_permute k t2) = [:: b; b; b; b; p] by apply: perm_shape; rewrite T2.
rewrite -(@decompose_cong (bond_permute k t1) (bond_permute k t1') (bond_permute k t2) (bond_permute k t2')); last first.
- by apply: (@bond_permute_cong b p) => //; rewrite T2.
- by apply: (@bond_permute_cong b p) => //; rewrite T1.
have [q1 [r1 [q2 [r2 [-> [[Q1 Q2] [R1 R2] [I1 I2] _]]]]]] := C47_lossless Sq A1 A2.
have [n En] : exists n, n = minn (b ^ 3) (p * b) by eexists.
rewrite -En in Q1 Q2 R1 R2 I1 I2 *; do 2 rewrite [bind (Ok (q1, r1, q2, r2)) _]/bind.
have Hb : (b <= n * p)%N.
  apply: (@leq_trans n); last by rewrite leq_pmulr.
  by rewrite En leq_min leq_pmull // andbT; case: (b) => // b'; rewrite !expnS expn0 muln1 leq_pmulr // muln_gt0.
have [t0 [_ H]] := C51_truncation Sf R1 R2 Sg Hb.
case: H => [[Z ->]|[b1 [b2 [lam [c [-> [B1 B2 L] _ _ _]]]]]]; [by []|do 2 rewrite [bind (Ok (b1, b2, lam)) _]/bind].
have [X1 [X2 [-> SX1 SX2 EX1 EX2]]] := recomposeE Q1 Q2 B1 B2; do 2 rewrite [bind (Ok (X1, X2)) _]/bind.
have N1 : matching (fun _ => b) p w1 (bond_permute (4 - k) X1) by case: M1 => _ Sw; split=> //; apply: perm_shape.
have N2 : matching (fun _ => b) p w2 (bond_permute (4 - k) X2) by case: M2 => _ Sw; split=> //; apply: perm_shape.
have [s1 -> [U1 G1]] := stripE l k N1; have [s2 -> [U2 G2]] := stripE l ((k + 2) %% 4)%N N2.
have [s1' -> [U1' G1']] := stripE l' k N1; have [s2' -> [U2' G2']] := stripE l' ((k + 2) %% 4)%N N2.
split=> //= u y P _ _ _.
  by rewrite (entry1_strip b u y P Hk l0 G1) (entry1_strip b u y P Hk l0' G1').
by rewrite (entry2_strip b u y P Hk l0 G2) (entry2_strip b u y P Hk l0' G2').
Qed.

(** ---- entries of a tensor as entries of its parts ---- *)
Lemma leg1_onto b p k v : (k < 4)%N -> in_range [:: b; b; b; b; p] v ->
  exists u y P, [/\ (u < b)%N, (y < b ^ 3)%N, (P < p)%N & v = leg1 k u (unravel [:: b; b; b] y) P].
Proof.
move=> Hk Hv; have [l [u [r [d [P Ev]]]]] := range5 Hv; subst v.
have /and5P[h0 h1 h2 h3 /andP[h4 _]] : [&& l < b, u < b, r < b, d < b, P < p & true]%N by exact: Hv.
have R (i j m : nat) : (i < b)%N -> (j < b)%N -> (m < b)%N -> exists2 y, (y < b ^ 3)%N & unravel [:: b; b; b] y = [:: i; j; m].
  move=> Hi Hj Hm; have Hr : in_range [:: b; b; b] [:: i; j; m] by rewrite /= Hi Hj Hm.
  exists (ravel [:: b; b; b] [:: i; j; m]); last exact: ravelK.
  by have := ravel_lt Hr; rewrite [numel _]/= muln1 !expnS expn0 muln1.
case: k Hk => [|[|[|[|]]]] // _.
- by have [y Hy E] := R r d u h2 h3 h1; exists l, y, P; rewrite E.
- by have [y Hy E] := R d l r h3 h0 h2; exists u, y, P; rewrite E.
- by have [y Hy E] := R l u d h0 h1 h3; exists r, y, P; rewrite E.
- by have [y Hy E] := R u r l h1 h2 h0; exists d, y, P; rewrite E.
Qed.
Lemma leg2_onto b p k v : (k < 4)%N -> in_range [:: b; b; b; b; p] v ->
  exists u y P, [/\ (u < b)%N, (y < b ^ 3)%N, (P < p)%N & v = leg2 k u (unravel [:: b; b; b] y) P].
Proof.
move=> Hk Hv; have [l [u [r [d [P Ev]]]]] := range5 Hv; subst v.
have /and5P[h0 h1 h2 h3 /andP[h4 _]] : [&& l < b, u < b, r < b, d < b, P < p & true]%N by exact: Hv.
have R (i j m : nat) : (i < b)%N -> (j < b)%N -> (m < b)%N -> exists2 y, (y < b ^ 3)%N & unravel [:: b; b; b] y = [:: i; j; m].
  move=> Hi Hj Hm; have Hr : in_range [:: b; b; b] [:: i; j; m] by rewrite /= Hi Hj Hm.
  exists (ravel [:: b; b; b] [:: i; j; m]); last exact: ravelK.
  by have := ravel_lt Hr; rewrite [numel _]/= muln1 !expnS expn0 muln1.
case: k Hk => [|[|[|[|]]]] // _.
- by have [y Hy E] := R d l u h3 h0 h1; exists r, y, P; rewrite E.
- by have [y Hy E] := R l u r h0 h1 h2; exists d, y, P; rewrite E.
- by have [y Hy E] := R u r d h1 h2 h3; exists l, y, P; rewrite E.
- by have [y Hy E] := R r d l h2 h3 h0; exists u, y, P; rewrite E.
Qed.

(** bond states of weight zero do not occur *)
Definition vanishing b (w : nat -> tensor) (a : tensor) : Prop := forall d i, (d < 4)%N -> (i < b)%N -> at_ (w d) [:: i] = 0 ->
  forall v, in_range (shape a) v -> nth 0%N v d = i -> at_ a v = 0.
(** a weight is zero or at least l *)
Definition sharp b (l : C) (w : nat -> tensor) : Prop := forall d i, (d < 4)%N -> (i < b)%N -> at_ (w d) [:: i] = 0 \/ l <= at_ (w d) [:: i].

Lemma sharp_harmless b p l ex w (a : tensor) : shape a = [:: b; b; b; b; p] -> sharp b l w -> vanishing b w a -> harmless l b ex w a.
Proof. by move=> Sa Hs Hv d i Hd _ Hi; case: (Hs d i Hd Hi) => [Z|]; [right; apply: Hv Z|left]. Qed.

Lemma leg1_k k u o P : (k < 4)%N -> nth 0%N (leg1 k u o P) k = u.
Proof. by case: k => [|[|[|[|]]]]. Qed.
Lemma leg2_k k u o P : (k < 4)%N -> nth 0%N (leg2 k u o P) ((k + 2) %% 4) = u.
Proof. by case: k => [|[|[|[|]]]]. Qed.

Lemma wgt1_0 b k (w : nat -> tensor) f u y P d : (k < 4)%N -> (d < 4)%N -> d != k -> f (at_ (w d) [:: nth 0%N (leg1 k u (unravel [:: b; b; b] y) P) d]) = 0 ->
  wgt1 b k w f y = 0 :> C.
Proof.
move=> Hk Hd Nd Z; rewrite /wgt1 -(wprod_leg1 w f u (unravel [:: b; b; b] y) P Hk) /wprod.
by rewrite (bigD1 (Ordinal Hd)) //= Z mul0r.
Qed.
Lemma wgt2_0 b k (w : nat -> tensor) f u y P d : (k < 4)%N -> (d < 4)%N -> d != ((k + 2) %% 4)%N -> f (at_ (w d) [:: nth 0%N (leg2 k u (unravel [:: b; b; b] y) P) d]) = 0 ->
  wgt2 b k w f y = 0 :> C.
Proof.
move=> Hk Hd Nd Z; rewrite /wgt2 -(wprod_leg2 w f u (unravel [:: b; b; b] y) P Hk) /wprod.
by rewrite (bigD1 (Ordinal Hd)) //= Z mul0r.
Qed.

Lemma goal_0 b p k w1 w2 (a1 a2 gate : tensor) r s y x : (k < 4)%N -> wgt1 b k w1 id y * wgt2 b k w2 id x = 0 ->
  two_site_gate p gate (pair_state b k id w1 w2 a1 a2) r s y x = 0.
Proof.
move=> Hk Z; rewrite /two_site_gate /sumn big1 // => P _; rewrite big1 // => Q _.
by rewrite pair_joined // Z !mul0r.
Qed.

Lemma entry1E b k f w (a : tensor) u y P : (k < 4)%N -> entry1 b k f w a u y P = wgt1 b k w f y * at_ a (leg1 k u (unravel [:: b; b; b] y) P).
Proof. by move=> Hk; rewrite /entry1 wprod_leg1. Qed.
Lemma entry2E b k f w (a : tensor) u y P : (k < 4)%N -> entry2 b k f w a u y P = wgt2 b k w f y * at_ a (leg2 k u (unravel [:: b; b; b] y) P).
Proof. by move=> Hk; rewrite /entry2 wprod_leg2. Qed.

Lemma wgt1_clamp l b k (w : nat -> tensor) y : 0 < l -> wgt1 b k w (clamp l) y != 0 :> C.
Proof.
move=> l0; apply/eqP => W0; have := wprod_clamp k w (leg1 k 0 (unravel [:: b; b; b] y) 0) l0.
by rewrite -/(wgt1 b k w (clamp l) y) W0 mul0r => /eqP; rewrite eq_sym oner_eq0.
Qed.
Lemma wgt2_clamp l b k (w : nat -> tensor) y : 0 < l -> wgt2 b k w (clamp l) y != 0 :> C.
Proof.
move=> l0; apply/eqP => W0; have := wprod_clamp ((k + 2) %% 4) w (leg2 k 0 (unravel [:: b; b; b] y) 0) l0.
by rewrite -/(wgt2 b k w (clamp l) y) W0 mul0r => /eqP; rewrite eq_sym oner_eq0.
Qed.

Lemma update_vanish lcut b p k w1 w2 (a1 a2 gate a1' a2' lam : tensor) : 0 < lcut ->
  (k < 4)%N -> (0 < p)%N -> matching (fun _ => b) p w1 a1 -> matching (fun _ => b) p w2 a2 -> shape gate = [:: p; p; p; p] ->
  within b p (two_site_gate p gate (pair_state b k id w1 w2 a1 a2)) ->
  shape a1' = [:: b; b; b; b; p] -> shape a2' = [:: b; b; b; b; p] ->
  simple_bond_update lqr fsvd lcut w1 w2 k a1 a2 gate None = Ok (a1', a2', lam) ->
  vanishing b (fun d => if d == k then lam else w1 d) a1' /\ vanishing b (fun d => if d == ((k + 2) %% 4)%N then lam else w2 d) a2'.
Proof using Sq Sf.
move=> l0 Hk p0 M1 M2 Sg Hw S1 S2 E; have [z1 [z2 [H1 H2 H0]]] := update_span l0 Hk p0 M1 M2 Sg Hw E.
split=> d i Hd Hi Z v; rewrite ?S1 ?S2 => Hv Ev.
  have [u [y [P [Hu Hy HP E']]]] := leg1_onto Hk Hv; subst v.
  apply: (mulfI (wgt1_clamp b k w1 y l0)); rewrite mulr0 -entry1E // H1 //.
  case: ifP Z => [/eqP D|/negbT D] Z.
    move: Ev Z; rewrite D leg1_k // => <- Z; have [Z1 _] := H0 u Hu Z.
    by rewrite /sumn big1 // => x _; rewrite big1 // => Q _; rewrite Z1 mulr0.
  have W : wgt1 b k w1 id y = 0 by apply: (@wgt1_0 b k w1 id u y P d) => //; rewrite Ev.
  by rewrite /sumn big1 // => x _; rewrite big1 // => Q _; rewrite goal_0 ?mul0r // W mul0r.
have [u [y [P [Hu Hy HP E']]]] := leg2_onto Hk Hv; subst v.
apply: (mulfI (wgt2_clamp b k w2 y l0)); rewrite mulr0 -entry2E // H2 //.
case: ifP Z => [/eqP D|/negbT D] Z.
  move: Ev Z; rewrite D leg2_k // => <- Z; have [_ Z1] := H0 u Hu Z.
  by rewrite /sumn big1 // => x _; rewrite big1 // => Q _; rewrite Z1 mulr0.
have W : wgt2 b k w2 id y = 0 by apply: (@wgt2_0 b k w2 id u y P d) => //; rewrite Ev.
by rewrite /sumn big1 // => x _; rewrite big1 // => Q _; rewrite goal_0 ?mul0r // W mulr0.
Qed.

(** cutoffs below all non-zero weights give the same tensors *)
Lemma prod_sharp b l l' ex (w : nat -> tensor) v : sharp b l w -> sharp b l' w -> (forall d, (d < 4)%N -> (nth 0%N v d < b)%N) ->
  wprod ex w id v = 0 \/ wprod ex w (clamp l) v = wprod ex w (clamp l') v.
Proof.
move=> H H' Hv; case: (eqVneq (wprod ex w id v) 0) => [|N]; [by left|right].
apply: eq_bigr => d Nd.
have N0 : at_ (w d) [:: nth 0%N v d] != 0 by apply: contraNneq N => Z; rewrite /wprod (bigD1 d) //= Z mul0r.
have [Z|L] := H d _ (ltn_ord d) (Hv d (ltn_ord d)); first by rewrite Z eqxx in N0.
have [Z|L'] := H' d _ (ltn_ord d) (Hv d (ltn_ord d)); first by rewrite Z eqxx in N0.
by rewrite !clamp_ge.
Qed.

Lemma range_lt b p v d : in_range [:: b; b; b; b; p] v -> (d < 4)%N -> (nth 0%N v d < b)%N.
Proof. by case: v => [|v0 [|v1 [|v2 [|v3 v]]]] //=; rewrite ?andbF // => /and5P[? ? ? ? _]; case: d => [|[|[|[|]]]]. Qed.

Lemma pair_near b p k f w1 w2 (a1 a2 a1' a2' : tensor) P Q y x : (k < 4)%N -> shape a1 = [:: b; b; b; b; p] -> shape a2 = [:: b; b; b; b; p] -> teq a1 a1' -> teq a2 a2' ->
  (P < p)%N -> (Q < p)%N -> (y < b ^ 3)%N -> (x < b ^ 3)%N -> pair_state b k f w1 w2 a1 a2 P Q y x = pair_state b k f w1 w2 a1' a2' P Q y x.
Proof.
move=> Hk S1 S2 [_ E1] [_ E2] HP HQ Hy Hx; apply: eq_sumn => v Hv; rewrite !entry1E // !entry2E //.
by rewrite E1 ?S1 ?leg1_range // E2 // S2 leg2_range.
Qed.

Lemma goal_near b p k f w1 w2 (a1 a2 a1' a2' gate : tensor) P Q y x : (k < 4)%N -> shape a1 = [:: b; b; b; b; p] -> shape a2 = [:: b; b; b; b; p] -> teq a1 a1' -> teq a2 a2' ->
  (P < p)%N -> (Q < p)%N -> (y < b ^ 3)%N -> (x < b ^ 3)%N ->
  two_site_gate p gate (pair_state b k f w1 w2 a1 a2) P Q y x = two_site_gate p gate (pair_state b k f w1 w2 a1' a2') P Q y x.
Proof. by move=> Hk S1 S2 E1 E2 HP HQ Hy Hx; apply: eq_sumn => P' HP'; apply: eq_sumn => Q' HQ'; rewrite (pair_near _ _ _ Hk S1 S2 E1 E2). Qed.

Lemma within_near b p k w1 w2 (a1 a2 a1' a2' gate : tensor) : (k < 4)%N -> shape a1 = [:: b; b; b; b; p] -> shape a2 = [:: b; b; b; b; p] -> teq a1 a1' -> teq a2 a2' ->
  within b p (two_site_gate p gate (pair_state b k id w1 w2 a1 a2)) -> within b p (two_site_gate p gate (pair_state b k id w1 w2 a1' a2')).
Proof. by move=> Hk S1 S2 E1 E2 [b1 [b2 E]]; exists b1, b2 => P Q y x HP HQ Hy Hx; rewrite -(goal_near _ _ _ _ Hk S1 S2 E1 E2) // E. Qed.

Lemma update_near l l' b p k w1 w2 (a1 a1' a2 a2' gate : tensor) : 0 < l -> 0 < l' ->
  (k < 4)%N -> (0 < p)%N -> matching (fun _ => b) p w1 a1 -> matching (fun _ => b) p w2 a2 -> shape gate = [:: p; p; p; p] -> teq a1 a1' -> teq a2 a2' ->
  within b p (two_site_gate p gate (pair_state b k id w1 w2 a1 a2)) ->
  sharp b l w1 -> sharp b l' w1 -> sharp b l w2 -> sharp b l' w2 ->
  both (fun x y => [/\ x.2 = y.2, teq x.1.1 y.1.1 & teq x.1.2 y.1.2])
    (simple_bond_update lqr fsvd l w1 w2 k a1 a2 gate None) (simple_bond_update lqr fsvd l' w1 w2 k a1' a2' gate None).
Proof using Sq Sf.
move=> l0 l0' Hk p0 M1 M2 Sg E1 E2 Hw W1 W1' W2 W2'.
have S1 : shape a1 = [:: b; b; b; b; p] by case: M1.
have S2 : shape a2 = [:: b; b; b; b; p] by case: M2.
have M1' : matching (fun _ => b) p w1 a1' by case: M1 => _ H; split=> //; rewrite -(proj1 E1).
have M2' : matching (fun _ => b) p w2 a2' by case: M2 => _ H; split=> //; rewrite -(proj1 E2).
have Hw' := within_near Hk S1 S2 E1 E2 Hw.
have := update_cutoffs l0 l0' Hk p0 M1 M2 Sg E1 E2.
case U: (simple_bond_update _ _ l _ _ _ _ _ _ _) => [[[c1 c2] la]|e]; case U': (simple_bond_update _ _ l' _ _ _ _ _ _ _) => [[[c1' c2'] la']|e'] //= [El F1 F2].
have sh m b1 b2 d1 d2 lm : 0 < m -> matching (fun _ => b) p w1 b1 -> matching (fun _ => b) p w2 b2 -> simple_bond_update lqr fsvd m w1 w2 k b1 b2 gate None = Ok (d1, d2, lm) ->
    shape d1 = [:: b; b; b; b; p] /\ shape d2 = [:: b; b; b; b; p].
  move=> m0 N1 N2 E; have [t [_ H]] := @C65_simple_update C lqr fsvd Sq Sf m b p k w1 w2 b1 b2 gate None Hk p0 m0 N1 N2 Sg I.
  case: H => [[_]|[x1 [x2 [x3 [x4 [E' [T1 T2 _] _ _ _]]]]]]; first by rewrite E.
  by move: E'; rewrite E => -[-> -> _]; rewrite T1 T2; case: N1 => -> _; case: N2 => -> _.
have [T1 T2] := sh _ _ _ _ _ _ l0 M1 M2 U; have [T1' T2'] := sh _ _ _ _ _ _ l0' M1' M2' U'.
have [z1 [z2 [X1 X2 _]]] := update_span l0 Hk p0 M1 M2 Sg Hw U.
split=> //; split; rewrite ?T1 ?T1' ?T2 ?T2' // => v Hv.
  have [u [y [P [Hu Hy HP Ev]]]] := leg1_onto Hk Hv; have := F1 u y P Hu Hy HP; rewrite !entry1E // -Ev.
  have C0 := wgt1_clamp b k w1 y l0; have C0' := wgt1_clamp b k w1 y l0'.
  have [Z|Ec] : wgt1 b k w1 id y = 0 \/ wgt1 b k w1 (clamp l) y = wgt1 b k w1 (clamp l') y.
    by rewrite /wgt1 -!(wprod_leg1 w1 _ u (unravel [:: b; b; b] y) P Hk) -Ev; apply: prod_sharp W1 W1' _ => d; apply: range_lt Hv.
    have Z0 : wgt1 b k w1 (clamp l) y * at_ c1 v = 0.
      rewrite Ev -entry1E // X1 // /sumn big1 // => x _; rewrite big1 // => Q _; by rewrite goal_0 ?mul0r // Z mul0r.
    rewrite Z0 => /esym/eqP; rewrite mulf_eq0 (negPf C0') /= => /eqP ->.
    by move/eqP: Z0; rewrite mulf_eq0 (negPf C0) /= => /eqP.
  by rewrite -Ec => /(mulfI C0).
have [u [y [P [Hu Hy HP Ev]]]] := leg2_onto Hk Hv; have := F2 u y P Hu Hy HP; rewrite !entry2E // -Ev.
have C0 := wgt2_clamp b k w2 y l0; have C0' := wgt2_clamp b k w2 y l0'.
have [Z|Ec] : wgt2 b k w2 id y = 0 \/ wgt2 b k w2 (clamp l) y = wgt2 b k w2 (clamp l') y.
  by rewrite /wgt2 -!(wprod_leg2 w2 _ u (unravel [:: b; b; b] y) P Hk) -Ev; apply: prod_sharp W2 W2' _ => d; apply: range_lt Hv.
  have Z0 : wgt2 b k w2 (clamp l) y * at_ c2 v = 0.
    rewrite Ev -entry2E // X2 // /sumn big1 // => x _; rewrite big1 // => Q _; by rewrite goal_0 ?mul0r // Z mulr0.
  rewrite Z0 => /esym/eqP; rewrite mulf_eq0 (negPf C0') /= => /eqP ->.
  by move/eqP: Z0; rewrite mulf_eq0 (negPf C0) /= => /eqP.
by rewrite -Ec => /(mulfI C0).
Qed.

(** the one-site gates are applied at the end *)
Definition ones_after (one : option (tensor * tensor)) (x : tensor * tensor * tensor) : res (tensor * tensor * tensor) :=
  let: (a1, a2, lam) := x in
  match one with
  | None => Ok (a1, a2, lam)
  | Some (g1, g2) =>
      let! a1 := einsum "pq,lurdp->lurdq" [:: g1; a1] in
      let! a2 := einsum "pq,lurdp->lurdq" [:: g2; a2] in
      Ok (a1, a2, lam)
  end.
Lemma update_one l w1 w2 k a1 a2 gate one : simple_bond_update lqr fsvd l w1 w2 k a1 a2 gate one =
  let! x := simple_bond_update lqr fsvd l w1 w2 k a1 a2 gate None in ones_after one x.
Proof.
rewrite /simple_bond_update; case: (absorb w1 _ _) => //= t1; case: (absorb w2 _ _) => //= t2.
case: decompose_site_tensors => [[[[q1 r1] q2] r2]|] //=; case: simple_truncate => [[[s1 s2] la]|] //=.
case: recompose_site_tensors => [[c1 c2]|] //=; case: (strip _ w1 _ _) => //= d1; by case: (strip _ w2 _ _).
Qed.

Lemma legs5 b p v : in_range [:: b; b; b; b; p] v -> exists l u r d P, v = [:: l; u; r; d; P] /\ forall Q, (Q < p)%N -> in_range [:: b; b; b; b; p] [:: l; u; r; d; Q].
Proof.
case: v => [|l [|v1 [|r [|d [|P [|z v]]]]]] //=; rewrite ?andbF // => H; exists l, v1, r, d, P; split=> // Q HQ.
by move: H => /and5P[-> -> -> -> _]; rewrite HQ.
Qed.

Lemma one_vanishing b p w (g a t : tensor) : shape g = [:: p; p] -> shape a = [:: b; b; b; b; p] -> einsum "pq,lurdp->lurdq" [:: g; a] = Ok t ->
  vanishing b w a -> vanishing b w t.
Proof.
move=> Sg Sa E; have [t' [E' St Et]] := one_site_shape Sg Sa; move: E'; rewrite E => -[Ee]; subst t'.
move=> H d i Hd Hi Z v; rewrite St => /legs5 [l [v1 [r [e [P [-> Hr]]]]]] Ev.
rewrite Et /sumn big1 // => Q _; rewrite (H d i Hd Hi Z) ?mulr0 ?Sa ?Hr //.
by case: d Hd Ev {Z} => [|[|[|[|]]]].
Qed.
Lemma one_teq b p (g a a' t t' : tensor) : shape g = [:: p; p] -> shape a = [:: b; b; b; b; p] -> teq a a' ->
  einsum "pq,lurdp->lurdq" [:: g; a] = Ok t -> einsum "pq,lurdp->lurdq" [:: g; a'] = Ok t' -> teq t t'.
Proof.
move=> Sg Sa [Es Ea] E E'; have Sa' : shape a' = [:: b; b; b; b; p] by rewrite -Es.
have [x [X Sx Ex]] := one_site_shape Sg Sa; move: X; rewrite E => -[Ee]; subst x.
have [x [X Sx' Ex']] := one_site_shape Sg Sa'; move: X; rewrite E' => -[Ee]; subst x.
split; rewrite ?Sx ?Sx' // => v /legs5 [l [v1 [r [e [P [-> Hr]]]]]].
by rewrite Ex Ex'; apply: eq_sumn => Q HQ; rewrite Ea // Sa Hr.
Qed.

Definition fitting p (one : option (tensor * tensor)) : Prop := if one is Some (g1, g2) then shape g1 = [:: p; p] /\ shape g2 = [:: p; p] else True.

Lemma update_shapes l b p k w1 w2 (a1 a2 gate a1' a2' lam : tensor) one : 0 < l -> (k < 4)%N -> (0 < p)%N ->
  matching (fun _ => b) p w1 a1 -> matching (fun _ => b) p w2 a2 -> shape gate = [:: p; p; p; p] -> fitting p one ->
  simple_bond_update lqr fsvd l w1 w2 k a1 a2 gate one = Ok (a1', a2', lam) -> shape a1' = [:: b; b; b; b; p] /\ shape a2' = [:: b; b; b; b; p].
Proof using Sq Sf.
move=> l0 Hk p0 N1 N2 Sg So E; have [t [_ H]] := @C65_simple_update C lqr fsvd Sq Sf l b p k w1 w2 a1 a2 gate one Hk p0 l0 N1 N2 Sg So.
case: H => [[_]|[x1 [x2 [x3 [x4 [E' [T1 T2 _] _ _ _]]]]]]; first by rewrite E.
by move: E'; rewrite E => -[-> -> _]; rewrite T1 T2; case: N1 => -> _; case: N2 => -> _.
Qed.

Lemma vanish_one lcut b p k w1 w2 (a1 a2 gate a1' a2' lam : tensor) one : 0 < lcut ->
  (k < 4)%N -> (0 < p)%N -> matching (fun _ => b) p w1 a1 -> matching (fun _ => b) p w2 a2 -> shape gate = [:: p; p; p; p] -> fitting p one ->
  within b p (two_site_gate p gate (pair_state b k id w1 w2 a1 a2)) ->
  simple_bond_update lqr fsvd lcut w1 w2 k a1 a2 gate one = Ok (a1', a2', lam) ->
  vanishing b (fun d => if d == k then lam else w1 d) a1' /\ vanishing b (fun d => if d == ((k + 2) %% 4)%N then lam else w2 d) a2'.
Proof using Sq Sf.
move=> l0 Hk p0 M1 M2 Sg So Hw; rewrite update_one; case E: simple_bond_update => [[[c1 c2] la]|] //=.
have [S1 S2] := update_shapes (one := None) l0 Hk p0 M1 M2 Sg I E.
have [V1 V2] := update_vanish l0 Hk p0 M1 M2 Sg Hw S1 S2 E.
case: one So => [[g1 g2] [G1 G2]|_] /=; last by case=> <- <- <-.
case F1: (einsum _ [:: g1; _]) => [t1|] //=; case F2: (einsum _ [:: g2; _]) => [t2|] //= -[<- <- <-].
by split; [apply: (one_vanishing G1 S1 F1 V1)|apply: (one_vanishing G2 S2 F2 V2)].
Qed.

Lemma near_one l l' b p k w1 w2 (a1 a1' a2 a2' gate : tensor) one : 0 < l -> 0 < l' ->
  (k < 4)%N -> (0 < p)%N -> matching (fun _ => b) p w1 a1 -> matching (fun _ => b) p w2 a2 -> shape gate = [:: p; p; p; p] -> fitting p one -> teq a1 a1' -> teq a2 a2' ->
  within b p (two_site_gate p gate (pair_state b k id w1 w2 a1 a2)) ->
  sharp b l w1 -> sharp b l' w1 -> sharp b l w2 -> sharp b l' w2 ->
  both (fun x y => [/\ x.2 = y.2, teq x.1.1 y.1.1 & teq x.1.2 y.1.2])
    (simple_bond_update lqr fsvd l w1 w2 k a1 a2 gate one) (simple_bond_update lqr fsvd l' w1 w2 k a1' a2' gate one).
Proof using Sq Sf.
move=> l0 l0' Hk p0 M1 M2 Sg So E1 E2 Hw A1 A1' A2 A2'; rewrite update_one [simple_bond_update _ _ l' _ _ _ _ _ _ one]update_one.
have := update_near l0 l0' Hk p0 M1 M2 Sg E1 E2 Hw A1 A1' A2 A2'.
case E: (simple_bond_update _ _ l _ _ _ _ _ _ None) => [[[c1 c2] la]|]; case E': (simple_bond_update _ _ l' _ _ _ _ _ _ None) => [[[c1' c2'] la']|] //= [-> T1 T2].
have [S1 S2] := update_shapes (one := None) l0 Hk p0 M1 M2 Sg I E.
case: one So => [[g1 g2] [G1 G2]|_] //=.
have [t1 [F1 _ _]] := one_site_shape G1 S1; have [t2 [F2 _ _]] := one_site_shape G2 S2.
have S1' : shape c1' = [:: b; b; b; b; p] by rewrite -(proj1 T1).
have S2' : shape c2' = [:: b; b; b; b; p] by rewrite -(proj1 T2).
have [t1' [F1' _ _]] := one_site_shape G1 S1'; have [t2' [F2' _ _]] := one_site_shape G2 S2'.
rewrite F1 F2 F1' F2' /=; split=> //; [exact: one_teq G1 S1 T1 F1 F1'|exact: one_teq G2 S2 T2 F2 F2'].
Qed.

(** an update fails only if the gate makes nothing of the pair *)
Lemma update_fails l b p k w1 w2 (a1 a2 gate : tensor) one e : 0 < l -> (k < 4)%N -> (0 < p)%N ->
  matching (fun _ => b) p w1 a1 -> matching (fun _ => b) p w2 a2 -> shape gate = [:: p; p; p; p] -> fitting p one ->
  within b p (two_site_gate p gate (pair_state b k id w1 w2 a1 a2)) ->
  harmless l b k w1 a1 -> harmless l b ((k + 2) %% 4) w2 a2 ->
  simple_bond_update lqr fsvd l w1 w2 k a1 a2 gate one = Err e ->
  forall r s y x, (r < p)%N -> (s < p)%N -> (y < b ^ 3)%N -> (x < b ^ 3)%N ->
    sumn p (fun P => sumn p (fun Q => joined b k a1 a2 P Q y x * kernel p gate one P Q r s)) = 0.
Proof using Sq Sf.
move=> l0 Hk p0 M1 M2 Sg So [b1 [b2 Eg]] H1 H2 E; set goal := two_site_gate _ _ _ in Eg.
have [t [Ct H]] := @C65_simple_update C lqr fsvd Sq Sf l b p k w1 w2 a1 a2 gate one Hk p0 l0 M1 M2 Sg So; rewrite -/goal in Ct.
have Z : size2 (b ^ 3) p (fun r s y x => goal r s y x - t r s y x) <= 0.
  apply: (Order.POrderTheory.le_trans (Ct b1 b2)).
  rewrite (size2_ext (g := fun _ _ _ _ => 0)) => [|r s y x *]; last by rewrite Eg // subrr.
  by rewrite /size2 /sumn big1 // => i _; rewrite big1 // => j _; rewrite big1 // => l1 _; rewrite big1 // => l2 _; rewrite normr0 expr0n.
have {}Z r s y x : (r < p)%N -> (s < p)%N -> (y < b ^ 3)%N -> (x < b ^ 3)%N -> t r s y x = goal r s y x.
  by move=> Hr Hs Hy Hx; have /eqP := size2_eq0 Z Hr Hs Hy Hx; rewrite subr_eq0 => /eqP.
case: H => [[N _]|[? [? [? [? [E' _ _ _ _]]]]]]; last by rewrite E in E'.
have G r s y x : (r < p)%N -> (s < p)%N -> (y < b ^ 3)%N -> (x < b ^ 3)%N -> goal r s y x = 0.
  by move=> Hr Hs Hy Hx; rewrite -Z //; apply: (size2_eq0 _ Hr Hs Hy Hx); rewrite N.
have J r s y x : (r < p)%N -> (s < p)%N -> (y < b ^ 3)%N -> (x < b ^ 3)%N ->
    sumn p (fun P => sumn p (fun Q => joined b k a1 a2 P Q y x * at_ gate [:: P; Q; r; s])) = 0.
  move=> Hr Hs Hy Hx; have W1 := wgt1_clamp b k w1 y l0; have W2 := wgt2_clamp b k w2 x l0.
  apply: (mulfI (mulf_neq0 W1 W2)); rewrite mulr0 -(G r s y x) // /goal /two_site_gate sumn_mull; apply: eq_sumn => P HP.
  rewrite sumn_mull; apply: eq_sumn => Q HQ; rewrite mulrA; congr (_ * _).
  rewrite /pair_state /joined sumn_mull; apply: eq_sumn => v Hv; rewrite entry1E // entry2E //.
  have [Sa1 _] := M1; have [Sa2 _] := M2.
  rewrite mulrACA /wgt1 /wgt2 -!(wprod_leg1 _ _ v (unravel [:: b; b; b] y) P) // -!(wprod_leg2 _ _ v (unravel [:: b; b; b] x) Q) //.
  by rewrite (harmless_entry Sa1 H1) ?Sa1 ?leg1_range // (harmless_entry Sa2 H2) ?Sa2 ?leg2_range.
move=> r s y x Hr Hs Hy Hx; case: one {So E} => [[g1 g2]|] /=; last exact: J.
transitivity (sumn p (fun P' => sumn p (fun Q' => sumn p (fun P => sumn p (fun Q =>
    joined b k a1 a2 P Q y x * at_ gate [:: P; Q; P'; Q'])) * (at_ g1 [:: P'; r] * at_ g2 [:: Q'; s])))); last first.
  rewrite /sumn big1 // => P' _; rewrite big1 // => Q' _.
  by have := J P' Q' y x (ltn_ord P') (ltn_ord Q') Hy Hx; rewrite /sumn => ->; rewrite mul0r.
transitivity (sumn p (fun P => sumn p (fun Q => sumn p (fun P' => sumn p (fun Q' =>
    joined b k a1 a2 P Q y x * at_ gate [:: P; Q; P'; Q'] * (at_ g1 [:: P'; r] * at_ g2 [:: Q'; s])))))).
  apply: eq_sumn => P _; apply: eq_sumn => Q _; rewrite sumn_mull; apply: eq_sumn => P' _; rewrite sumn_mull; apply: eq_sumn => Q' _; by rewrite mulrA.
transitivity (sumn p (fun P' => sumn p (fun Q' => sumn p (fun P => sumn p (fun Q => 
    joined b k a1 a2 P Q y x * at_ gate [:: P; Q; P'; Q'] * (at_ g1 [:: P'; r] * at_ g2 [:: Q'; s])))))); last first.
  by apply: eq_sumn => P' _; apply: eq_sumn => Q' _; rewrite sumn_mulr; apply: eq_sumn => P _; rewrite sumn_mulr.
rewrite (eq_sumn (G := fun P => sumn p (fun P' => sumn p (fun Q' => sumn p (fun Q =>
    joined b k a1 a2 P Q y x * at_ gate [:: P; Q; P'; Q'] * (at_ g1 [:: P'; r] * at_ g2 [:: Q'; s])))))).
  by rewrite sumnC; apply: eq_sumn => P' _; rewrite sumnC.
by move=> P _; rewrite sumnC; apply: eq_sumn => P' _; rewrite sumnC.
Qed.
End Bond.

(** ** Evolutions *)
Section Run.
Variable C : numClosedFieldType.
Notation tensor := (tensor C).
Notation net := (Mover.net tensor).
Variable R : Type.
Variable randn : R -> forall n q : nat, 'M[C]_(n, q) * R.
Variable trand : R -> nat -> nat -> tensor * R.
Variable lqr : qr_fun C.
Variable lsvd : thin_svd_fun C.
Variable fsvd : full_svd_fun C.
Variable leigh : eigh_fun C.
Variable lchol : chol_fun C.
Variable rtol : nat -> nat -> C.
Variable noise : C.
Variable fuel : nat.
Variable u : setup C.
Notation nx := (u_nx u).
Notation ny := (u_ny u).
Notation b := (u_bond u).
Notation p := (u_phys u).
Notation state := (Session.state C R).
Hypothesis Sq : qr_spec lqr.
Hypothesis Sf : full_svd_spec fsvd.
Hypotheses (nx1 : (1 < nx)%N) (ny1 : (1 < ny)%N) (b0 : (0 < b)%N) (p0 : (0 < p)%N).
Variable T : finType.
Variables (nb : nat -> T -> T) (cell : T -> site).
Hypothesis cov : covers nb nx ny cell.
Notation ones := (ones_vec u).
Notation step lcut := (simple_step lqr fsvd lcut).
Notation along lcut := (@P34_State.along C lqr fsvd lcut).
Notation amplitude := (@P34_State.amplitude C u T nb cell).
Notation act_bond := (@P34_State.act_bond C u T nb cell).
Notation act_bonds := (@P34_State.act_bonds C u T nb cell).
Notation tidy := (@P34_State.tidy C u).

(** b bond states suffice for what the gate of a bond makes of its pair *)
Definition fits (g : gates C) (x : bond) (nw : net * lam tensor) : Prop := forall w1 w2,
  all_weights nw.2 (b_s1 x) = Ok w1 -> all_weights nw.2 (b_s2 x) = Ok w2 ->
  within b p (two_site_gate p (g_two g x) (pair_state b (b_k x) id w1 w2 (nw.1 (b_s1 x) SA) (nw.1 (b_s2 x) SA))).
(** every weight is zero or at least l *)
Definition sharp_at (l : C) (g : gates C) (x : bond) (nw : net * lam tensor) : Prop := forall y w, in_cell nx ny y -> all_weights nw.2 y = Ok w -> sharp b l w.

Definition vanish (nw : net * lam tensor) : Prop := forall y w, in_cell nx ny y -> all_weights nw.2 y = Ok w -> vanishing b w (nw.1 y SA).
Definition near (n n' : net) : Prop := forall y, in_cell nx ny y -> teq (n y SA) (n' y SA).

Lemma weights_set bl h x v y w : Permutation bl (build_bond_list nx ny) -> List.In x bl -> in_cell nx ny y -> vectors u h ->
  all_weights (set_weight tensor x v (run_sets tensor h (new_lambda tensor ones bl))) y = Ok w ->
  exists2 w', all_weights (run_sets tensor h (new_lambda tensor ones bl)) y = Ok w' & forall d, (d < 4)%N ->
    w d = if (if site_eq_dec y (b_s1 x) then Nat.eqb d (b_k x) else false) || (if site_eq_dec y (b_s2 x) then Nat.eqb d (Nat.modulo (b_k x + 2) 4) else false) then v else w' d.
Proof.
move=> HP Hx Hy Hh; have [w' E' _] := weights_ok HP Hy Hh => E; exists w' => // d Hd.
have G d' : (d' < 4)%N -> get_weight tensor (run_sets tensor h (new_lambda tensor ones bl)) y d' = Ok (w' d').
  move: E'; rewrite /all_weights; case E0: (get_weight _ _ _ 0) => [v0|] //=; case E1: (get_weight _ _ _ 1) => [v1|] //=.
  case E2: (get_weight _ _ _ 2) => [v2|] //=; case E3: (get_weight _ _ _ 3) => [v3|] //= -[<-].
  by case: d' => [|[|[|[|]]]].
have G' d' : (d' < 4)%N -> get_weight tensor (set_weight tensor x v (run_sets tensor h (new_lambda tensor ones bl))) y d' = Ok (w d').
  move: E; rewrite /all_weights; case E0: (get_weight _ _ _ 0) => [v0|] //=; case E1: (get_weight _ _ _ 1) => [v1|] //=.
  case E2: (get_weight _ _ _ 2) => [v2|] //=; case E3: (get_weight _ _ _ 3) => [v3|] //= -[<-].
  by case: d' => [|[|[|[|]]]].
have := @C52_update tensor ones nx ny bl h x v y d HP Hx Hy (elimT ltP Hd); cbv zeta; rewrite G' // G //.
rewrite [is_left _]/is_left plusE; case: (site_eq_dec y (b_s1 x)) => ?; case: (site_eq_dec y (b_s2 x)) => ? /=; rewrite ?orbF; try (by case: ifP => _ [->]); by case=> ->.
Qed.

Lemma vanish_step lcut g x bl nw nw' : 0 < lcut -> gates_ok u g -> Permutation bl (build_bond_list nx ny) -> List.In x bl -> tidy bl nw -> vanish nw -> fits g x nw ->
  step lcut g x nw = Ok nw' -> vanish nw'.
Proof using Sq Sf nx1 ny1 p0.
case: nw => n w l0 Hg HP Hx [Hf [h Ew [Hh Hn]]] Hv Hw E.
have [s [k [Hs Hk Ex]]] := bond_in HP Hx.
have Sg : shape (g_two g x) = [:: p; p; p; p] by apply: (proj1 Hg); apply: Permutation_in HP Hx.
have Hs2 : in_cell nx ny (nbr nx ny k s) by apply: nbr_cell.
have N : nbr nx ny k s <> s by apply: nbr_other => //; apply/ltP.
rewrite /= in Ew; subst x w; move: E; rewrite /simple_step [(n, _).1]/= [(n, _).2]/= [b_s1 _]/= [b_s2 _]/= [b_k _]/=.
have [w1 E1 W1] := weights_ok HP Hs Hh; have [w2 E2 W2] := weights_ok HP Hs2 Hh.
rewrite E1 E2 [bind (Ok w1) _]/bind [bind (Ok w2) _]/bind.
have SA1 := Hf s Hs; have SA2 := Hf _ Hs2; rewrite [(n, _).1]/= in SA1 SA2.
have M1 : matching (fun _ => b) p w1 (n s SA) by [].
have M2 : matching (fun _ => b) p w2 (n (nbr nx ny k s) SA) by [].
have So : fitting p (one_of g (Bond s (nbr nx ny k s) k)) := one_fits k Hg Hs.
have {}Hw := Hw w1 w2 E1 E2; rewrite /= in Hw.
case Eu: simple_bond_update => [[[a1 a2] lam]|] //= [<-].
have [V1 V2] := vanish_one Sq Sf l0 Hk p0 M1 M2 Sg So Hw Eu.
move=> y w' Hy /= /(weights_set HP Hx Hy Hh) [w0 E0 Ew'] d i Hd Hi; rewrite Ew' //=.
rewrite /write_pair /upd /=; case: (site_eq_dec y (nbr nx ny k s)) => [Ey|Ny] /=.
  move: E0; rewrite Ey E2 => -[<-]; case: site_eq_dec => [/N //|_] /= Z v; apply: V2 => //.
  by move: Z; have -> : Nat.eqb d (Nat.modulo (k + 2) 4) = (d == (k + 2) %% 4)%N by case: (k) Hk => [|[|[|[|]]]].
case: (site_eq_dec y s) => [Ey|Ny'] /=; last by apply: Hv E0 _ _ Hd Hi.
by move: E0; rewrite Ey E1 => -[<-]; rewrite orbF => Z v; apply: V1.
Qed.

Lemma near_step l l' g x bl n n' w : 0 < l -> 0 < l' -> gates_ok u g -> Permutation bl (build_bond_list nx ny) -> List.In x bl -> tidy bl (n, w) -> near n n' -> fits g x (n, w) ->
  sharp_at l g x (n, w) -> sharp_at l' g x (n, w) ->
  both (fun a c => near a.1 c.1 /\ a.2 = c.2) (step l g x (n, w)) (step l' g x (n', w)).
Proof using Sq Sf nx1 ny1 p0.
move=> l0 l0' Hg HP Hx [Hf [h Ew [Hh Hn]]] Hnn Hw A A'.
have [s [k [Hs Hk Ex]]] := bond_in HP Hx.
have Sg : shape (g_two g x) = [:: p; p; p; p] by apply: (proj1 Hg); apply: Permutation_in HP Hx.
have Hs2 : in_cell nx ny (nbr nx ny k s) by apply: nbr_cell.
rewrite /= in Ew; subst x w; rewrite /simple_step [(n, _).1]/= [(n, _).2]/= [(n', _).1]/= [(n', _).2]/= [b_s1 _]/= [b_s2 _]/= [b_k _]/=.
have [w1 E1 W1] := weights_ok HP Hs Hh; have [w2 E2 W2] := weights_ok HP Hs2 Hh.
rewrite E1 E2; do 2 rewrite [bind (Ok w1) _]/bind; do 2 rewrite [bind (Ok w2) _]/bind.
have SA1 := Hf s Hs; have SA2 := Hf _ Hs2; rewrite [(n, _).1]/= in SA1 SA2.
have M1 : matching (fun _ => b) p w1 (n s SA) by [].
have M2 : matching (fun _ => b) p w2 (n (nbr nx ny k s) SA) by [].
have So : fitting p (one_of g (Bond s (nbr nx ny k s) k)) := one_fits k Hg Hs.
have {}Hw := Hw w1 w2 E1 E2; rewrite /= in Hw.
have := near_one Sq Sf l0 l0' Hk p0 M1 M2 Sg So (Hnn _ Hs) (Hnn _ Hs2) Hw (A _ _ Hs E1) (A' _ _ Hs E1) (A _ _ Hs2 E2) (A' _ _ Hs2 E2).
case: simple_bond_update => [[[a1 a2] la]|e]; case: simple_bond_update => [[[a1' a2'] la']|e'] //= [-> T1 T2]; split=> // y Hy.
by rewrite /write_pair /upd /=; case: site_eq_dec => //= _; case: site_eq_dec => //= _; apply: Hnn.
Qed.

(** the non-zero ones of finitely many weights have a lower bound *)
Lemma least2 (l l' : C) : 0 < l -> 0 < l' -> exists m, [/\ 0 < m, m <= l & m <= l'].
Proof.
move=> H H'; have /orP[L|L] : (l <= l') || (l' <= l) by apply: real_leVge; apply: gtr0_real.
  by exists l.
by exists l'.
Qed.
Lemma least n (f : nat -> C) : (forall i, (i < n)%N -> 0 <= f i) -> exists2 l, 0 < l & forall i, (i < n)%N -> f i = 0 \/ l <= f i.
Proof.
elim: n => [|n IH] H; first by exists 1 => //; apply: ltr01.
have [|l l0 Hl] := IH; first by move=> i Hi; apply: H; apply: ltnW.
case: (eqVneq (f n) 0) => [Z|N].
  by exists l => // i; rewrite ltnS leq_eqVlt => /orP[/eqP ->|/Hl //]; left.
have fp : 0 < f n by rewrite lt0r N H.
have [m [m0 ml mf]] := least2 l0 fp; exists m => // i; rewrite ltnS leq_eqVlt => /orP[/eqP ->|/Hl [Z|L]]; [by right|by left|right].
exact: Order.POrderTheory.le_trans ml L.
Qed.
Lemma lower bl nw g x : Permutation bl (build_bond_list nx ny) -> tidy bl nw -> exists2 l, 0 < l & forall l', l' <= l -> sharp_at l' g x nw.
Proof.
move=> HP [_ [h Ew [Hh Hn]]].
have [l [l0 l1 Hl]] : exists l, [/\ 0 < l, l <= 1 & forall e, List.In e h -> forall i, (i < b)%N -> at_ e.2 [:: i] = 0 \/ l <= at_ e.2 [:: i]].
  elim: h {Hh Ew} Hn => [|e h IH] Hn; first by exists 1; split; rewrite ?ltr01.
  have [|l [l0 l1 Hl]] := IH; first by move=> e' He'; apply: Hn; right.
  have [m m0 Hm] := least (fun i Hi => proj1 (Hn e (or_introl erefl)) i Hi).
  have [q [q0 ql qm]] := least2 l0 m0; exists q; split=> //; first exact: Order.POrderTheory.le_trans ql l1.
  move=> e' [<-|He'] i Hi; [case: (Hm i Hi) => [Z|L]|case: (Hl e' He' i Hi) => [Z|L]]; try (by left); right.
    exact: Order.POrderTheory.le_trans qm L.
  exact: Order.POrderTheory.le_trans ql L.
exists l => // l' Hl' y w Hy; rewrite Ew => E d i Hd Hi.
have G z : at_ (weight_of tensor ones h z) [:: i] = 0 \/ l' <= at_ (weight_of tensor ones h z) [:: i].
  have O : at_ ones [:: i] = 1 by [].
  rewrite /weight_of; case F: (last_set _ h z) => [v|]; last by right; rewrite O; apply: Order.POrderTheory.le_trans Hl' l1.
  have [e He Ee] : exists2 e, List.In e h & e.2 = v.
    elim: (h) F => [|e h' IH] //=; case F: (last_set _ h' z) => [v'|].
      by move=> -[Ev]; rewrite Ev in F; have [e' He' Ee'] := IH F; exists e' => //; right.
    by case: bond_eq_dec => // _ [<-]; exists e => //; left.
  rewrite -Ee; case: (Hl e He i Hi) => [Z|L]; [by left|right].
  exact: Order.POrderTheory.le_trans Hl' L.
have Lk d' : (d' < 4)%N -> exists2 z, get_weight tensor (run_sets tensor h (new_lambda tensor ones bl)) y d' = Ok (weight_of tensor ones h z) & True.
  by move=> /ltP He; have [z [_ [_ [_ E']]]] := @C52_lookup tensor ones nx ny bl h y d' HP Hy He; exists z.
move: E; have [z0 E0 _] := Lk 0%N isT; have [z1 E1 _] := Lk 1%N isT; have [z2 E2 _] := Lk 2%N isT; have [z3 E3 _] := Lk 3%N isT.
by rewrite /all_weights E0 /= E1 /= E2 /= E3 /= => -[<-]; case: d Hd => [|[|[|[|]]]] //= _; apply: G.
Qed.

Lemma sharp_fine lcut g x bl nw : gates_ok u g -> Permutation bl (build_bond_list nx ny) -> List.In x bl -> tidy bl nw -> vanish nw -> sharp_at lcut g x nw -> weights_fine lcut u g x nw.
Proof.
move=> Hg HP Hx [Hf _] Hv Hs w1 w2 E1 E2; have [s [k [Hs1 Hk Ex]]] := bond_in HP Hx; subst x; rewrite /= in E1 E2 *.
have Hs2 : in_cell nx ny (nbr nx ny k s) by apply: nbr_cell.
split; [apply: sharp_harmless (Hf _ Hs1) _ _|apply: sharp_harmless (Hf _ Hs2) _ _].
- exact: Hs E1.
- exact: Hv E1.
- exact: Hs E2.
- exact: Hv E2.
Qed.

(** enough bond states, and weights that are zero or not below the cutoff: nothing
    is lost *)
Lemma along_sharp lcut g bl l nw : 0 < lcut -> gates_ok u g -> Permutation bl (build_bond_list nx ny) -> (forall x, List.In x l -> List.In x bl) ->
  tidy bl nw -> vanish nw -> along lcut (fun g x nw => sharp_at lcut g x nw /\ fits g x nw) g l nw -> along lcut (lossless lcut u) g l nw.
Proof using Sq Sf nx1 ny1 b0 p0 cov.
move=> l0 Hg HP; elim: l nw => [|x l IH] nw Hl Ht Hv //= [[H1 H2] H3]; have Hx := Hl x (or_introl erefl); split.
  by split=> //; apply: sharp_fine HP Hx Ht Hv H1.
move=> nw' E; apply: IH (H3 _ E) => [y Hy||]; first by apply: Hl; right.
  by have [] := C83_step Sq Sf l0 nx1 ny1 b0 p0 cov Hg HP Hx Ht E.
exact: vanish_step l0 Hg HP Hx Ht Hv H2 E.
Qed.

(** with a small enough cutoff, enough bond states suffice *)
Lemma along_small g bl l n w : gates_ok u g -> Permutation bl (build_bond_list nx ny) -> (forall x, List.In x l -> List.In x bl) ->
  tidy bl (n, w) -> exists2 m, 0 < m & forall lcut, 0 < lcut <= m -> forall n', near n n' -> vanish (n', w) -> tidy bl (n', w) ->
    along lcut fits g l (n', w) -> along lcut (lossless lcut u) g l (n', w).
Proof using Sq Sf nx1 ny1 b0 p0 cov.
move=> Hg HP; elim: l n w => [|x l IH] n w Hl Ht /=; first by exists 1; rewrite ?ltr01.
have Hx := Hl x (or_introl erefl); have [la la0 Ha] := lower g x HP Ht.
have fit n' : near n n' -> fits g x (n', w) -> fits g x (n, w).
  move=> Hnn Hw w1 w2 E1 E2; have {Hw} := Hw w1 w2 E1 E2; have [s [k [Hs1 Hk Ex]]] := bond_in HP Hx; subst x; rewrite /= in E1 E2 *.
  have Hs2 : in_cell nx ny (nbr nx ny k s) by apply: nbr_cell.
  have [S1 E1'] := Hnn _ Hs1; have [S2 E2'] := Hnn _ Hs2; have [Hf _] := Ht; rewrite /= in Hf.
  apply: within_near => //; rewrite -?S1 -?S2 ?Hf //.
    by split=> // v Hv; rewrite E1' // S1.
  by split=> // v Hv; rewrite E2' // S2.
case E: (step la g x (n, w)) => [[n1 w1]|e].
  have [Ht1 _] := C83_step Sq Sf la0 nx1 ny1 b0 p0 cov Hg HP Hx Ht E.
  have [|m m0 Hm] := IH n1 w1 _ Ht1; first by move=> y Hy; apply: Hl; right.
  have [q [q0 qa qm]] := least2 la0 m0; exists q => // lcut /andP[l0 lq] n' Hnn Hv Ht' [H1 H2]; split.
    split=> //; apply: (sharp_fine Hg HP Hx Ht' Hv) => y w' Hy E'; apply: (Ha lcut _ y w' Hy E').
    exact: Order.POrderTheory.le_trans lq qa.
  move=> [n2 w2] E2.
  have := near_step la0 l0 Hg HP Hx Ht Hnn (fit _ Hnn H1) (Ha la _) (Ha lcut _); rewrite E E2 => -[] //.
    exact: Order.POrderTheory.le_trans lq qa.
  move=> /= Hnn' Ew; subst w2; have [Ht2 _] := C83_step Sq Sf l0 nx1 ny1 b0 p0 cov Hg HP Hx Ht' E2.
  apply: Hm => //; [by rewrite l0 /=; apply: Order.POrderTheory.le_trans lq qm| |exact: H2].
  exact: vanish_step l0 Hg HP Hx Ht' Hv H1 E2.
exists la => // lcut /andP[l0 lq] n' Hnn Hv Ht' [H1 H2]; split.
  split=> //; apply: (sharp_fine Hg HP Hx Ht' Hv) => y w' Hy E'; exact: (Ha lcut lq y w' Hy E').
move=> nw2 E2; have := near_step la0 l0 Hg HP Hx Ht Hnn (fit _ Hnn H1) (Ha la _) (Ha lcut lq).
by rewrite E E2 => -[].
Qed.

(** at the start of an evolution no weight is zero *)
Lemma vanish_fresh bl n : Permutation bl (build_bond_list nx ny) -> vanish (n, new_lambda tensor ones bl).
Proof.
move=> HP y w Hy /= E d i Hd Hi.
have Lk d' : (d' < 4)%N -> get_weight tensor (run_sets tensor [::] (new_lambda tensor ones bl)) y d' = Ok ones.
  by move=> /ltP He; have [z [_ [_ [_ E']]]] := @C52_lookup tensor ones nx ny bl [::] y d' HP Hy He.
move: E; have := Lk 0%N isT; have := Lk 1%N isT; have := Lk 2%N isT; have := Lk 3%N isT; rewrite /= => E3 E2 E1 E0.
rewrite /all_weights E0 /= E1 /= E2 /= E3 /= => -[<-]; case: d Hd => [|[|[|[|]]]] //= _ /eqP; by rewrite oner_eq0.
Qed.

Notation evolve lcut := (Session.evolve randn trand lqr lsvd fsvd leigh lchol rtol lcut noise fuel u).
Notation evolve_tensors lcut := (Session.evolve_tensors randn lqr lsvd fsvd leigh lchol rtol lcut fuel u).
Notation start s := (s_net s, new_lambda tensor ones (s_bonds s)).

Lemma tidy_start (s : state) : (forall x, in_cell nx ny x -> shape (s_net s x SA) = [:: b; b; b; b; p]) -> tidy (s_bonds s) (start s).
Proof. by move=> H; split=> //; exists [::] => //; split. Qed.
Lemma near_refl n : near n n.
Proof. by move=> y _; apply: teq_refl. Qed.

(** C87.  If every weight that is met is zero or not below the cutoff and the bond
    states suffice for every update, an evolution multiplies the amplitudes of the
    whole state by the gates of its schedule, up to a positive factor. *)
Theorem C87_sharp lcut st g steps (s s' : state) : 0 < lcut -> u_type u = "simple" -> s_init s = true -> gates_ok u g ->
  Permutation (s_bonds s) (build_bond_list nx ny) ->
  (forall x, in_cell nx ny x -> shape (s_net s x SA) = [:: b; b; b; b; p]) ->
  along lcut (fun g x nw => sharp_at lcut g x nw /\ fits g x nw) g (schedule bond (s_bonds s) steps) (start s) ->
  evolve lcut st g steps s = Some (Ok s') ->
  exists2 d, 0 < d & forall f, config p f ->
    amplitude (s_net s') f = d * act_bonds g (schedule bond (s_bonds s) steps) (amplitude (s_net s)) f.
Proof using Sq Sf nx1 ny1 b0 p0 cov.
move=> l0 Tu I Hg HP Hf Ha; apply: (C83_evolve Sq Sf l0 nx1 ny1 b0 p0 cov Tu I Hg HP Hf).
apply: (along_sharp l0 Hg HP (fun x => @in_sched x _ _) (tidy_start Hf) _ Ha).
exact: vanish_fresh.
Qed.

Lemma small_lossless g steps (s : state) : gates_ok u g -> Permutation (s_bonds s) (build_bond_list nx ny) ->
  (forall x, in_cell nx ny x -> shape (s_net s x SA) = [:: b; b; b; b; p]) ->
  exists2 m, 0 < m & forall lcut, 0 < lcut <= m -> along lcut fits g (schedule bond (s_bonds s) steps) (start s) -> along lcut (lossless lcut u) g (schedule bond (s_bonds s) steps) (start s).
Proof using Sq Sf nx1 ny1 b0 p0 cov.
move=> Hg HP Hf; have Ht := tidy_start Hf.
have [m m0 Hm] := along_small Hg HP (fun x => @in_sched x _ steps) Ht; exists m => // lcut Hl Ha.
apply: (Hm lcut Hl _ _ _ Ht Ha); [exact: near_refl|exact: vanish_fresh].
Qed.

(** C87.  For every state, gates and number of steps, all sufficiently small cutoffs
    are harmless: whenever the bond states suffice, nothing is lost. *)
Theorem C87_small g steps (s : state) : u_type u = "simple" -> s_init s = true -> gates_ok u g ->
  Permutation (s_bonds s) (build_bond_list nx ny) ->
  (forall x, in_cell nx ny x -> shape (s_net s x SA) = [:: b; b; b; b; p]) ->
  exists2 m, 0 < m & forall lcut st s', 0 < lcut <= m ->
    along lcut fits g (schedule bond (s_bonds s) steps) (start s) ->
    evolve lcut st g steps s = Some (Ok s') ->
    exists2 d, 0 < d & forall f, config p f ->
      amplitude (s_net s') f = d * act_bonds g (schedule bond (s_bonds s) steps) (amplitude (s_net s)) f.
Proof using Sq Sf nx1 ny1 b0 p0 cov.
move=> Tu I Hg HP Hf; have [m m0 Hm] := small_lossless steps Hg HP Hf; exists m => // lcut st s' Hl Ha.
have l0 : 0 < lcut by case/andP: Hl.
exact: (C83_evolve Sq Sf l0 nx1 ny1 b0 p0 cov Tu I Hg HP Hf (Hm lcut Hl Ha)).
Qed.

Lemma product_fits lcut g l bl nw : product_gates u g -> Permutation bl (build_bond_list nx ny) -> (forall x, List.In x l -> List.In x bl) -> along lcut fits g l nw.
Proof.
move=> Hg HP; elim: l nw => [|x l IH] nw Hl //=; split; last by move=> nw' _; apply: IH => y Hy; apply: Hl; right.
by move=> w1 w2 _ _; apply: product_within; apply: Hg; apply: Permutation_in HP _; apply: Hl; left.
Qed.

(** gates that act on the two sites separately lose nothing, whatever the bond
    dimension *)
Corollary C87_product g steps (s : state) : u_type u = "simple" -> s_init s = true -> gates_ok u g -> product_gates u g ->
  Permutation (s_bonds s) (build_bond_list nx ny) ->
  (forall x, in_cell nx ny x -> shape (s_net s x SA) = [:: b; b; b; b; p]) ->
  exists2 m, 0 < m & forall lcut st s', 0 < lcut <= m -> evolve lcut st g steps s = Some (Ok s') ->
    exists2 d, 0 < d & forall f, config p f ->
      amplitude (s_net s') f = d * act_bonds g (schedule bond (s_bonds s) steps) (amplitude (s_net s)) f.
Proof using Sq Sf nx1 ny1 b0 p0 cov.
move=> Tu I Hg Hpg HP Hf; have [m m0 Hm] := C87_small steps Tu I Hg HP Hf; exists m => // lcut st s' Hl.
exact: (Hm lcut st s' Hl (product_fits _ _ Hpg HP (fun x => @in_sched x _ _))).
Qed.

(** ---- the updates do not fail ---- *)
Hypothesis onto : forall x, in_cell nx ny x -> exists t, cell t = x.

Lemma step_nothing lcut g x bl nw e : 0 < lcut -> gates_ok u g -> Permutation bl (build_bond_list nx ny) -> List.In x bl -> tidy bl nw -> lossless lcut u g x nw ->
  step lcut g x nw = Err e -> forall f, config p f -> act_bond g x (amplitude nw.1) f = 0.
Proof using Sq Sf nx1 ny1 b0 p0 cov onto.
case: nw => n w l0 Hg HP Hx [Hf [h Ew [Hh Hn]]] Hv E.
have [s [k [Hs Hk Ex]]] := bond_in HP Hx.
have Sg : shape (g_two g x) = [:: p; p; p; p] by apply: (proj1 Hg); apply: Permutation_in HP Hx.
have Hs2 : in_cell nx ny (nbr nx ny k s) by apply: nbr_cell.
have N : nbr nx ny k s <> s by apply: nbr_other => //; apply/ltP.
rewrite /= in Ew; subst x w; move: E; rewrite /simple_step [(n, _).1]/= [(n, _).2]/= [b_s1 _]/= [b_s2 _]/= [b_k _]/=.
have [w1 E1 W1] := weights_ok HP Hs Hh; have [w2 E2 W2] := weights_ok HP Hs2 Hh.
rewrite E1 E2 [bind (Ok w1) _]/bind [bind (Ok w2) _]/bind.
have SA1 := Hf s Hs; have SA2 := Hf _ Hs2; rewrite [(n, _).1]/= in SA1 SA2.
have M1 : matching (fun _ => b) p w1 (n s SA) by [].
have M2 : matching (fun _ => b) p w2 (n (nbr nx ny k s) SA) by [].
have So : fitting p (one_of g (Bond s (nbr nx ny k s) k)) := one_fits k Hg Hs.
case: Hv => [/(_ w1 w2 E1 E2) [/= H1 H2] /(_ w1 w2 E1 E2) /= Hw].
case Eu: simple_bond_update => [[[a1 a2] lam]|e'] //= _ f Hcf.
have Z := update_fails Sq Sf l0 Hk p0 M1 M2 Sg So Hw H1 H2 Eu.
have [K _ _] := cov.
pose n' : site -> tensor := fun y => if (y == s) || (y == nbr nx ny k s) then Tensor [::] (fun _ => 0) else n y SA.
have P0 : psi nb b (n' \o cell) f = 0.
  have [t Et] := onto Hs; rewrite /psi big1 // => m _; rewrite (bigD1 t) //=.
  by rewrite {1}/entry /= /n' Et eqxx /= mul0r.
have Ea : forall f, config p f -> psi nb b (n' \o cell) f = 1 ^+ size (copies cell s) * act_bond g (Bond s (nbr nx ny k s) k) (amplitude n) f.
  apply: (psi_bond K cov Hk b0 Hs N) => [r q y x Hr Hq Hy Hx'|y N1 N2].
    by rewrite mul1r /sites Z // /joined /sumn big1 // => v _; rewrite /n' eqxx /= mul0r.
  rewrite /n' /sites; have -> : (y == s) = false by apply/eqP.
  by have -> : (y == nbr nx ny k s) = false by apply/eqP.
by have := Ea f Hcf; rewrite P0 expr1n mul1r.
Qed.

Lemma act_bonds_0 g l f : (forall s, config p s -> f s = 0) -> forall s, config p s -> act_bonds g l f s = 0.
Proof.
move=> H s Hs; have H0 s' : config p s' -> f s' = 0 * f s' by move=> Hs'; rewrite H // mul0r.
by rewrite (act_bonds_ext nb cell g l H0 Hs) mul0r.
Qed.

Lemma run_ok lcut g bl l nw f : 0 < lcut -> gates_ok u g -> Permutation bl (build_bond_list nx ny) -> (forall x, List.In x l -> List.In x bl) -> tidy bl nw ->
  along lcut (lossless lcut u) g l nw -> config p f -> act_bonds g l (amplitude nw.1) f != 0 ->
  exists nw', run_updates bond (option (res (net * lam tensor))) unit (guard (fun x y => Some (step lcut g x y))) (Some (Ok nw)) l = Some (Ok nw').
Proof using Sq Sf nx1 ny1 b0 p0 cov onto.
move=> l0 Hg HP; elim: l nw => [|x l IH] nw Hl Ht; first by exists nw.
move=> /= [L1 L2] Hcf N; have Hx := Hl x (or_introl erefl).
case E: (step lcut g x nw) => [nw1|e]; last first.
  have Z := step_nothing l0 Hg HP Hx Ht L1 E.
  by rewrite (act_bonds_0 _ _ Z) ?eqxx in N.
have [Ht1 H1] := C83_step Sq Sf l0 nx1 ny1 b0 p0 cov Hg HP Hx Ht E; have [d d0 Hd] := H1 L1.
have [||nw' E'] := IH nw1 _ Ht1 (L2 _ E) Hcf; first by move=> y Hy; apply: Hl; right.
  by rewrite (act_bonds_ext nb cell g l Hd Hcf) mulf_neq0 // lt0r_neq0.
by exists nw'; exact: E'.
Qed.

(** C87.  The updates do not fail then either, unless the gates make nothing of the
    state. *)
Theorem C87_succeeds g steps (s : state) f : u_type u = "simple" -> gates_ok u g ->
  Permutation (s_bonds s) (build_bond_list nx ny) ->
  (forall x, in_cell nx ny x -> shape (s_net s x SA) = [:: b; b; b; b; p]) ->
  config p f -> act_bonds g (schedule bond (s_bonds s) steps) (amplitude (s_net s)) f != 0 ->
  exists2 m, 0 < m & forall lcut, 0 < lcut <= m -> along lcut fits g (schedule bond (s_bonds s) steps) (start s) ->
    exists2 s', evolve_tensors lcut g steps s = Some (Ok s') & exists2 d, 0 < d & forall f, config p f ->
      amplitude (s_net s') f = d * act_bonds g (schedule bond (s_bonds s) steps) (amplitude (s_net s)) f.
Proof using Sq Sf nx1 ny1 b0 p0 cov onto.
move=> Tu Hg HP Hf Hcf N; have [m m0 Hm] := small_lossless steps Hg HP Hf; exists m => // lcut Hl Ha.
have l0 : 0 < lcut by case/andP: Hl.
have [nw' E] := run_ok l0 Hg HP (fun x => @in_sched x _ steps) (tidy_start Hf) (Hm lcut Hl Ha) Hcf N.
have Hd := runE Sq Sf l0 nx1 ny1 b0 p0 cov Hg HP (fun x => @in_sched x _ steps) (tidy_start Hf) (Hm lcut Hl Ha) E.
rewrite /Session.evolve_tensors Tu /= /evolve_run evolve_state E /=; case: nw' {E} Hd => n' w' Hd; eexists; first by [].
exact: Hd.
Qed.
End Run.

(** ** Models without interactions *)
Section Free.
Variable C : numClosedFieldType.
Notation tensor := (tensor C).
Variable R : Type.
Variable randn : R -> forall n q : nat, 'M[C]_(n, q) * R.
Variable trand : R -> nat -> nat -> tensor * R.
Variable lqr : qr_fun C.
Variable lsvd : thin_svd_fun C.
Variable fsvd : full_svd_fun C.
Variable leigh : eigh_fun C.
Variable lchol : chol_fun C.
Variable rtol : nat -> nat -> C.
Variable noise : C.
Variable fuel : nat.
Variable mexp : forall n, 'M[C]_n -> 'M[C]_n.
Variable u : setup C.
Notation nx := (u_nx u).
Notation ny := (u_ny u).
Notation b := (u_bond u).
Notation p := (u_phys u).
Notation state := (Session.state C R).
Variable one : site -> option tensor.
Variable two : bond -> tensor.
Hypothesis Sq : qr_spec lqr.
Hypothesis Sf : full_svd_spec fsvd.
Hypotheses (nx1 : (1 < nx)%N) (ny1 : (1 < ny)%N) (b0 : (0 < b)%N) (p0 : (0 < p)%N).
Hypothesis L : exp_laws mexp u one.
Hypothesis Sh : forall x h, one x = Some h -> shape h = [:: p; p].
Hypothesis H2 : no_bonds u two.
Variable T : finType.
Variables (nb : nat -> T -> T) (cell : T -> site).
Hypothesis cov : covers nb nx ny cell.
Notation evolve lcut := (Session.evolve randn trand lqr lsvd fsvd leigh lchol rtol lcut noise fuel u).

(** C87.  Fields alone are evolved exactly in every bond dimension: no condition on
    the weights is left but that the cutoff is small enough. *)
Theorem C87_free th dtau steps (s : state) : u_type u = "simple" -> s_init s = true ->
  Permutation (s_bonds s) (build_bond_list nx ny) ->
  (forall x, in_cell nx ny x -> shape (s_net s x SA) = [:: b; b; b; b; p]) ->
  exists2 m, 0 < m & forall lcut st s', 0 < lcut <= m ->
    evolve lcut st (model_gates mexp p (Gate.Model tensor one (Gate.Fresh tensor two)) dtau (s_bonds s) (build_site_list nx ny) th) steps s = Some (Ok s') ->
    exists2 d, 0 < d & forall f, config p f ->
      amplitude u nb cell (s_net s') f = d * exact mexp u one cell (dtau * steps%:R) (amplitude u nb cell (s_net s)) f.
Proof using Sq Sf nx1 ny1 b0 p0 L Sh H2 cov.
move=> Tu I HP Hf; have [Hg Hs Hpg] := free_ok L Sh H2 th dtau HP.
have [m m0 Hm] := C87_product randn trand lsvd leigh lchol rtol noise fuel Sq Sf nx1 ny1 b0 p0 cov steps Tu I Hg Hpg HP Hf; exists m => // lcut st s' Hl E.
have [d d0 Hd] := Hm lcut st s' Hl E; exists d => // f Hcf; rewrite Hd //; congr (_ * _).
by apply: (acts_schedule L nx1 ny1 cov _ _ Hs HP) => //; exact: amplitude_cext.
Qed.
End Free.

(** ** A concrete case *)
Section Example.
Variable C : numClosedFieldType.
Notation u2 := (plain_setup C 2 "simple").
Notation evolve_tensors lcut := (@Session.evolve_tensors C unit (fun r _ _ => (0, r)) (@some_qr C) (@some_thin_svd C) (@some_full_svd C) (@some_eigh C) (@some_chol C) (fun _ _ => 0) lcut 1).
Notation nb := (tnbr (nx := 2) (ny := 2)).
Notation cell a c := (tcell (a := a) (c := c) (nx := 2) (ny := 2)).

(** gates without negative entries and with ones on the diagonal do not destroy
    states without negative amplitudes *)
Definition mild (T : finType) p (f : (T -> nat) -> C) : Prop := (forall s s', s =1 s' -> f s = f s') /\ forall s, config p s -> 0 <= f s.
Definition grows (T : finType) p (f f' : (T -> nat) -> C) : Prop := mild p f' /\ forall s, config p s -> f s <= f' s.
Lemma act2_grows (T : finType) p K (t t' : T) (f : (T -> nat) -> C) : (forall P Q r s, 0 <= K P Q r s) -> (forall P Q, (P < p)%N -> (Q < p)%N -> K P Q P Q = 1) ->
  mild p f -> grows p f (act2 p K t t' f).
Proof.
move=> K0 K1 [He f0].
have G s P Q : config p s -> (P < p)%N -> (Q < p)%N -> 0 <= f (put (put s t P) t' Q) * K P Q (s t) (s t').
  by move=> Hs HP HQ; rewrite mulr_ge0 // f0 // => x; rewrite /put; case: ifP => // _; case: ifP.
split; first split.
- move=> s s' E; apply: eq_sumn => P _; apply: eq_sumn => Q _; rewrite !E; congr (_ * _); apply: He => x.
  by rewrite /put; case: ifP => // _; case: ifP.
- by move=> s Hs; apply: sumr_ge0 => P _; apply: sumr_ge0 => Q _; apply: G.
move=> s Hs; rewrite /act2 /sumn (bigD1 (Ordinal (Hs t))) //= (bigD1 (Ordinal (Hs t'))) //= K1 // mulr1.
rewrite (He (put _ _ _) s) => [|x]; last by rewrite /put; case: eqP => [->|_] //; case: eqP => [->|].
rewrite -addrA ler_addl addr_ge0 //; first by apply: sumr_ge0 => Q _; apply: G.
by apply: sumr_ge0 => P _; apply: sumr_ge0 => Q _; apply: G.
Qed.
Lemma grows_refl (T : finType) p (f : (T -> nat) -> C) : mild p f -> grows p f f.
Proof. by move=> H; split=> // s _; apply: Order.POrderTheory.lexx. Qed.
Lemma bonds_grow a c l f : mild 2 f -> grows 2 f (act_bonds u2 nb (cell a c) (shears C) l f).
Proof.
elim: l f => [|x l IH] f Hf //=.
have [Hm Hg] : grows 2 f (act_bond u2 nb (cell a c) (shears C) x f).
  rewrite /act_bond /act_copies /=; elim: (copies _ _) => [|t l' IH'] /=; first exact: grows_refl.
  have [M1 G1] := IH'.
  have [||M2 G2] := @act2_grows _ 2 (kernel 2 (g_two (shears C) x) (one_of (shears C) x)) t (nb (b_k x) t) _ _ _ M1.
  - by move=> P Q r s; rewrite /= /shear /unit2; case: ifP => _; case: ifP => _; rewrite ?mulr1 ?mulr0 ?ler01.
  - by move=> [|[|P]] [|[|Q]] //=; rewrite mulr1.
  split=> // s Hs; exact: Order.POrderTheory.le_trans (G1 s Hs) (G2 s Hs).
have [M' G'] := IH _ Hm; split=> // s Hs; exact: Order.POrderTheory.le_trans (Hg s Hs) (G' s Hs).
Qed.

(** bond dimension 2, the state in which all spins agree, any number of steps of
    gates that do not preserve it: with a small cutoff no update fails and nothing
    is lost, on a lattice of any size *)
Example C87_example a c steps chi : (0 < a)%N -> (0 < c)%N -> exists2 m, 0 < m & forall lcut, 0 < lcut <= m ->
  exists2 s', evolve_tensors lcut u2 (shears C) steps (State (ghz_net C) tt (build_bond_list 2 2) chi true) = Some (Ok s') &
    exists2 d, 0 < d & forall f, config 2 f ->
      amplitude u2 nb (cell a c) (s_net s') f = d * act_bonds u2 nb (cell a c) (shears C) (schedule bond (build_bond_list 2 2) steps)
        (fun f => [forall t, (f t == f (nb 1 t)) && (f t == f (nb 2 t))]%:R) f.
Proof.
move=> a0 c0; have cov := @torus_covers a c 2 2 a0 c0 isT isT.
have onto x : in_cell 2 2 x -> exists t, cell a c t = x.
  case: x => x y [/ltP /= Hx /ltP Hy].
  have Lx : (x < a * 2)%N by apply: leq_trans Hx _; rewrite leq_pmull.
  have Ly : (y < c * 2)%N by apply: leq_trans Hy _; rewrite leq_pmull.
  exists (Ordinal Lx, Ordinal Ly); rewrite /tcell /tsite /under /=.
  by case: x Hx {Lx} => [|[|]] //; case: y Hy {Ly} => [|[|]].
have [K _ _] := cov.
have Hg : gates_ok u2 (shears C) by split.
have Hp : product_gates u2 (shears C) by move=> x _; exists (@shear C), (@unit2 C).
pose s0 : Session.state C unit := State (ghz_net C) tt (build_bond_list 2 2) chi true.
have HP : Permutation (s_bonds s0) (build_bond_list 2 2) by exact: Permutation_refl.
have Hf x : in_cell 2 2 x -> shape (s_net s0 x SA) = [:: 2; 2; 2; 2; 2]%N by [].
have Ea f : config 2 f -> amplitude u2 nb (cell a c) (ghz_net C) f = [forall t, (f t == f (nb 1 t)) && (f t == f (nb 2 t))]%:R by move=> Hcf; apply: ghz_psi.
have Hm : mild 2 (amplitude u2 nb (cell a c) (ghz_net C)).
  by split=> [s s' E|s Hs]; [apply: psi_ext|rewrite Ea // ler0n].
have [_ Gr] := bonds_grow (a := a) (c := c) (schedule bond (build_bond_list 2 2) steps) Hm.
have N : act_bonds u2 nb (cell a c) (shears C) (schedule bond (s_bonds s0) steps) (amplitude u2 nb (cell a c) (s_net s0)) (fun _ => 0%N) != 0.
  apply: lt0r_neq0; apply: Order.POrderTheory.lt_le_trans (Gr (fun _ => 0%N) _) => //.
  rewrite Ea //; set B := [forall t, _]; have -> : B by apply/forallP => t; rewrite eqxx.
  exact: ltr01.
have [m m0 Hm'] := @C87_succeeds C unit (fun r _ _ => (0, r)) (@some_qr C) (@some_thin_svd C) (@some_full_svd C) (@some_eigh C) (@some_chol C) (fun _ _ => 0) 1 u2 (@some_qr_spec C) (@some_full_svd_spec C)
  isT isT isT isT _ _ _ cov onto (shears C) steps s0 (fun _ => 0%N) erefl Hg HP Hf (fun _ => isT) N.
exists m => // lcut Hl; have [|s' Es [d d0 Hd]] := Hm' lcut Hl; first exact: product_fits Hp HP (fun x => @in_sched x _ steps).
exists s' => //; exists d => // f Hcf; rewrite Hd //; congr (_ * _).
have H1 f' : config 2 f' -> amplitude u2 nb (cell a c) (ghz_net C) f' = 1 * [forall t, (f' t == f' (nb 1 t)) && (f' t == f' (nb 2 t))]%:R by move=> Hcf'; rewrite mul1r Ea.
by have := @act_bonds_ext C u2 _ nb (cell a c) (shears C) (schedule bond (build_bond_list 2 2) steps) _ _ 1 H1 f Hcf; rewrite mul1r.
Qed.
End Example.

Print Assumptions C87_sharp.
Print Assumptions C87_small.
Print Assumptions C87_product.
Print Assumptions C87_succeeds.
Print Assumptions C87_free.
Print Assumptions C87_example.
