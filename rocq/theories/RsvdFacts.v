(** Facts on the randomised SVD. *)
From Coq Require Import String Ascii.
From mathcomp Require Import all_ssreflect all_algebra.
From Verif Require Import Base Tensor TN Linalg Rsvd.
Set Implicit Arguments.
Unset Strict Implicit.
Unset Printing Implicit Defensive.
Import GRing.Theory Num.Theory.
Local Open Scope ring_scope.

Lemma for_each_inv A S (P : S -> Prop) (l : seq A) (body : A -> S -> res S) s : P s ->
  (forall a s, P s -> exists s', body a s = Ok s' /\ P s') ->
  exists s', for_each l body s = Ok s' /\ P s'.
Proof.
move=> Hs H; elim: l s Hs => [|a l IH] s Hs /=; first by exists s.
by have [s' [-> Hs']] := H a s Hs; apply: IH.
Qed.

Lemma for_each_rel A S (P : S -> S -> Prop) (l : seq A) (f g : A -> S -> res S) s t : P s t ->
  (forall a s t, P s t -> exists s' t', [/\ f a s = Ok s', g a t = Ok t' & P s' t']) ->
  exists s' t', [/\ for_each l f s = Ok s', for_each l g t = Ok t' & P s' t'].
Proof.
move=> Hs H; elim: l s t Hs => [|a l IH] s t Hs /=; first by exists s, t.
by have [s' [t' [-> -> Hs']]] := H a s t Hs; apply: IH.
Qed.

Section Facts.
Variable C : numClosedFieldType.
Notation tensor := (tensor C).

(** every column of A is a combination of columns of B *)
Definition in_cols m n p (A : 'M[C]_(m, n)) (B : 'M[C]_(m, p)) : Prop := exists Z, A = B *m Z.

Lemma in_cols_ker m n p (A : 'M[C]_(m, n)) (B : 'M[C]_(m, p)) :
  (forall x : 'M[C]_m, x *m B = 0 -> x *m A = 0) -> in_cols A B.
Proof.
move=> H; have : (A^T <= B^T)%MS.
  rewrite submxE -[_ *m _]trmxK trmx_mul trmxK.
  have K : (cokermx B^T)^T *m B = 0 by rewrite -[B in _ *m B]trmxK -trmx_mul mulmx_coker trmx0.
  by rewrite (H _ K) trmx0.
by case/submxP => Z E; exists Z^T; rewrite -[A]trmxK E trmx_mul trmxK.
Qed.

Lemma mul_adj_eq0 m n (M : 'M[C]_(m, n)) : M *m adj M = 0 -> M = 0.
Proof. by rewrite -{1}(adjK M) => /adj_mul_eq0 E; rewrite -(adjK M) E adj0. Qed.

(** A and A A^H A have the same columns *)
Lemma in_cols_gram m n (A : 'M[C]_(m, n)) : in_cols A (A *m adj A *m A).
Proof.
apply: in_cols_ker => x H.
have H1 : x *m A *m adj A = 0.
  apply: mul_adj_eq0; rewrite !adjM adjK.
  by rewrite -!mulmxA (mulmxA (adj A)) !mulmxA -(mulmxA x) -(mulmxA x) H !mul0mx.
by apply: mul_adj_eq0; rewrite adjM mulmxA H1 mul0mx.
Qed.

Section Qr.
Variable lqr : qr_fun C.

Lemma qr_qE m n (t : tensor) : shape t = [:: m; n] -> (n <= m)%N ->
  exists q, [/\ qr_q lqr t = Ok q, shape q = [:: m; n] &
    qr_spec lqr -> adj (mx_of m n q) *m mx_of m n q = 1%:M /\ in_cols (mx_of m n t) (mx_of m n q)].
Proof.
move=> Hs Hn; rewrite /qr_q Hs; eexists; split; first by [].
  by rewrite /= (minn_idPr Hn).
move=> /(_ m n (mx_of m n t)); case: (lqr _) => Q R /=.
move: Q R; rewrite (minn_idPr Hn) => Q R [HQ E _].
by rewrite mx_ofK; split=> //; exists R.
Qed.

(** the result only depends on the entries *)
Lemma qr_q_teq (s t : tensor) m n : teq s t -> shape s = [:: m; n] -> qr_q lqr s = qr_q lqr t.
Proof. by move=> E Hs; rewrite /qr_q -(proj1 E) Hs (teq_mx E Hs). Qed.
End Qr.

Section Svd.
Variable lsvd : thin_svd_fun C.

(** row of singular values from the list *)
Definition row_of_seq (k : nat) (s : seq C) : 'rV[C]_k := \row_i nth 0 s i.

Lemma svd_thinE m n (t : tensor) : shape t = [:: m; n] -> (m <= n)%N ->
  exists u s vh, [/\ svd_thin lsvd t = Ok (u, s, vh), shape u = [:: m; m], size s = m, shape vh = [:: m; n] &
    thin_svd_spec lsvd ->
    let U := mx_of m m u in let Vh := mx_of m n vh in
    [/\ adj U *m U = 1%:M, Vh *m adj Vh = 1%:M, sv_ok (row_of_seq m s) &
        mx_of m n t = U *m diag_mx (row_of_seq m s) *m Vh]].
Proof.
move=> Hs Hm; rewrite /svd_thin Hs.
case E: (lsvd _) => [[U s] Vh]; exists (of_mx U), [seq s 0 i | i <- enum 'I_(minn m n)], (of_mx Vh); split=> //.
- by rewrite /= (minn_idPl Hm).
- by rewrite size_map size_enum_ord (minn_idPl Hm).
- by rewrite /= (minn_idPl Hm).
move=> /(_ m n (mx_of m n t)); rewrite E; clear E.
move: U s Vh; rewrite (minn_idPl Hm) => U s Vh; rewrite !mx_ofK => -[HU HV Hv E].
have Er : row_of_seq m [seq s 0 i | i <- enum 'I_m] = s.
  apply/matrixP => i j; rewrite mxE ord1 (nth_map j) ?size_enum_ord //.
  by rewrite nth_ord_enum.
by rewrite /= Er; split.
Qed.

Lemma svd_thin_teq (s t : tensor) m n : teq s t -> shape s = [:: m; n] -> svd_thin lsvd s = svd_thin lsvd t.
Proof. by move=> E Hs; rewrite /svd_thin -(proj1 E) Hs (teq_mx E Hs). Qed.

(** U diag(s) V^H of the returned factors *)
Definition usv (m n z : nat) (U : tensor) (s : seq C) (V : tensor) : 'M[C]_(m, n) :=
  mx_of m z U *m diag_mx (row_of_seq z s) *m adj (mx_of n z V).

Lemma finishE m n z (Q B : tensor) : shape Q = [:: m; z] -> shape B = [:: z; n] -> (z <= n)%N ->
  exists U s V, [/\ finish lsvd Q B = Ok (U, s, V), shape U = [:: m; z], size s = z, shape V = [:: n; z] &
    thin_svd_spec lsvd -> adj (mx_of m z Q) *m mx_of m z Q = 1%:M ->
    [/\ adj (mx_of m z U) *m mx_of m z U = 1%:M, adj (mx_of n z V) *m mx_of n z V = 1%:M,
        sv_ok (row_of_seq z s), usv m n z U s V = mx_of m z Q *m mx_of z n B &
        in_cols (mx_of m z U) (mx_of m z Q)]].
Proof.
move=> HQ HB Hz; rewrite /finish.
have [u [s [vh [-> Hu Hs Hv H]]]] := svd_thinE HB Hz; rewrite [bind (Ok _) _]/bind.
have [U [-> HU EU]] := matmulE HQ Hu; rewrite [bind (Ok _) _]/bind.
have [HV EV] := adjointE Hv.
exists U, s, (adjoint vh); split=> // Sp Qo.
have {H} [H1 H2 H3 H4] := H Sp.
split=> //.
- by rewrite EU adjM mulmxA -(mulmxA (adj _)) Qo mulmx1.
- by rewrite EV adjK.
- by rewrite /usv EU EV adjK H4 !mulmxA.
by exists (mx_of z z u).
Qed.

Lemma finish_teq (Q B B' : tensor) m n : teq B B' -> shape B = [:: m; n] -> finish lsvd Q B = finish lsvd Q B'.
Proof. by move=> E Hs; rewrite /finish (svd_thin_teq E Hs). Qed.
End Svd.

Section Rsvd.
Variable R : Type.
Variable randn : R -> forall n q : nat, 'M[C]_(n, q) * R.
Variable lqr : qr_fun C.
Variable lsvd : thin_svd_fun C.

(** what the three routines return for a matrix A (m x n) and the draw Omega:
    an SVD of Q Q^H A for some Q with orthonormal columns, and of A itself if the
    columns of A Omega span those of A *)
Definition lowrank_ok (m n z : nat) (A : 'M[C]_(m, n)) (Omega : 'M[C]_(n, z)) (U : tensor) (s : seq C) (V : tensor) : Prop :=
  [/\ adj (mx_of m z U) *m mx_of m z U = 1%:M, adj (mx_of n z V) *m mx_of n z V = 1%:M, sv_ok (row_of_seq z s),
   adj (mx_of m z U) *m A = diag_mx (row_of_seq z s) *m adj (mx_of n z V) &
   exists Q : 'M[C]_(m, z), [/\ adj Q *m Q = 1%:M, usv m n z U s V = Q *m (adj Q *m A) &
     in_cols A (A *m Omega) -> usv m n z U s V = A]].

(** the left singular vectors lie in the sampled space *)
Lemma usv_left m n z (A : 'M[C]_(m, n)) (Q : 'M[C]_(m, z)) (U : tensor) (s : seq C) (V : tensor) :
  adj Q *m Q = 1%:M -> in_cols (mx_of m z U) Q -> adj (mx_of m z U) *m mx_of m z U = 1%:M ->
  usv m n z U s V = Q *m (adj Q *m A) ->
  adj (mx_of m z U) *m A = diag_mx (row_of_seq z s) *m adj (mx_of n z V).
Proof.
move=> HQ [W E] HU HB; have : adj (mx_of m z U) *m usv m n z U s V = adj (mx_of m z U) *m A.
  by rewrite HB {1}E adjM -!mulmxA (mulmxA (adj Q) Q) HQ mul1mx mulmxA -adjM -E.
by rewrite /usv !mulmxA HU mul1mx.
Qed.

Lemma proj_cols m n z (A : 'M[C]_(m, n)) (Q : 'M[C]_(m, z)) :
  adj Q *m Q = 1%:M -> in_cols A Q -> Q *m (adj Q *m A) = A.
Proof. by move=> HQ [Z ->]; rewrite (mulmxA (adj Q)) HQ mul1mx. Qed.

Lemma in_cols_trans m n p q (A : 'M[C]_(m, n)) (B : 'M[C]_(m, p)) (D : 'M[C]_(m, q)) :
  in_cols A B -> in_cols B D -> in_cols A D.
Proof. by move=> [Z ->] [W ->]; exists (W *m Z); rewrite mulmxA. Qed.

(** one power iteration keeps the columns of A *)
Lemma power_cols m n z (A : 'M[C]_(m, n)) (Q : 'M[C]_(m, z)) :
  in_cols A Q -> in_cols A (A *m (adj A *m Q)).
Proof.
case=> Z E; apply: in_cols_trans (in_cols_gram A) _.
by exists Z; rewrite {3}E !mulmxA.
Qed.

Lemma power2_cols m n z (A : 'M[C]_(m, n)) (Q : 'M[C]_(m, z)) (Q1 : 'M[C]_(n, z)) :
  in_cols A Q -> in_cols (adj A *m Q) Q1 -> in_cols A (A *m Q1).
Proof.
move=> /power_cols H [W E]; apply: in_cols_trans H _.
by exists W; rewrite E mulmxA.
Qed.

Lemma minq m n q : (minn q (minn m n) <= m)%N /\ (minn q (minn m n) <= n)%N.
Proof. by split; rewrite !geq_min leqnn ?orbT. Qed.

Theorem svd_lowrankE r (A : tensor) m n q niter : shape A = [:: m; n] ->
  let z := minn q (minn m n) in
  exists U s V, [/\ svd_lowrank randn lqr lsvd r A q niter = Ok (U, s, V, (randn r n z).2),
    shape U = [:: m; z], size s = z, shape V = [:: n; z] &
    qr_spec lqr -> thin_svd_spec lsvd -> lowrank_ok (mx_of m n A) (randn r n z).1 U s V].
Proof.
move=> HA z; have [zm zn] := minq m n q; rewrite -/z in zm zn.
rewrite /svd_lowrank HA -/z; case Er: (randn r n z) => [Om r'].
have [Y0 [-> HY0 EY0]] := @matmulE _ m n z A (of_mx Om) HA (erefl _); rewrite [bind (Ok _) _]/bind.
have [HA' EA'] := adjointE HA.
pose P (Y : tensor) := shape Y = [:: m; z] /\ (qr_spec lqr ->
  in_cols (mx_of m n A) (mx_of m n A *m Om) -> in_cols (mx_of m n A) (mx_of m z Y)).
have P0 : P Y0 by split=> // _; rewrite EY0 mx_ofK.
have [|Y [-> [HY PY]]] := for_each_inv (iota 0 niter) P0 (body := fun _ Y =>
        let! Y := qr_q lqr Y in let! T := matmul (adjoint A) Y in matmul A T).
  move=> _ Y [HY PY]; have [Q [-> HQ SQ]] := qr_qE lqr HY zm; rewrite [bind (Ok _) _]/bind.
  have [T [-> HT ET]] := matmulE HA' HQ; rewrite [bind (Ok _) _]/bind.
  have [Y' [-> HY' EY']] := matmulE HA HT; exists Y'; split=> //; split=> // Sq Hc.
  rewrite EY' ET EA'; apply: power_cols; apply: in_cols_trans (PY Sq Hc) _.
  by case: (SQ Sq).
rewrite [bind (Ok _) _]/bind; have [Q [-> HQ SQ]] := qr_qE lqr HY zm; rewrite [bind (Ok _) _]/bind.
have [HQ' EQ'] := adjointE HQ.
have [B [-> HB EB]] := matmulE HQ' HA; rewrite [bind (Ok _) _]/bind.
have [U [s [V [-> HU Hs HV H]]]] := finishE lsvd HQ HB zn.
exists U, s, V; split=> // Sq Ss; have [Qo Qc] := SQ Sq.
have {H} [H1 H2 H3 H4 H5] := H Ss Qo; have H6 : usv m n z U s V = mx_of m z Q *m (adj (mx_of m z Q) *m mx_of m n A).
  by rewrite H4 EB EQ'.
split=> //; first exact: usv_left H6.
exists (mx_of m z Q); split=> //.
by move=> /(PY Sq) Hc; rewrite H4 EB EQ' proj_cols //; apply: in_cols_trans Hc Qc.
Qed.

Theorem fused_matmulE r (A B : tensor) m k n q niter : shape A = [:: m; k] -> shape B = [:: k; n] ->
  let z := minn q (minn m n) in
  exists U s V, [/\ fused_matmul_svd_lowrank randn lqr lsvd r A B q niter = Ok (U, s, V, (randn r n z).2),
    shape U = [:: m; z], size s = z, shape V = [:: n; z] &
    exists P, matmul A B = Ok P /\ svd_lowrank randn lqr lsvd r P q niter = Ok (U, s, V, (randn r n z).2)].
Proof.
move=> HA HB z; have [zm zn] := minq m n q; rewrite -/z in zm zn.
have [P [EP HP MP]] := matmulE HA HB.
have [U [s [V [EE HU Hs HV _]]]] := svd_lowrankE r q niter HP; exists U, s, V.
split=> //; last by exists P.
rewrite -EE; clear U s V EE HU Hs HV.
rewrite /fused_matmul_svd_lowrank /svd_lowrank HA HB HP -/z; case: (randn r n z) => [Om r'].
have [T [-> HT ET]] := @matmulE _ k n z B (of_mx Om) HB (erefl _); rewrite [bind (Ok _) _]/bind.
have [Y0 [-> HY0 EY0]] := matmulE HA HT; rewrite [bind (Ok Y0) _]/bind.
have [Y1 [-> HY1 EY1]] := @matmulE _ m n z P (of_mx Om) HP (erefl _); rewrite [bind (Ok Y1) _]/bind.
have [HA' EA'] := adjointE HA; have [HB' EB'] := adjointE HB; have [HP' EP'] := adjointE HP.
pose Rl (Y Y' : tensor) := shape Y = [:: m; z] /\ teq Y Y'.
have R0 : Rl Y0 Y1 by split=> //; apply: mx_teq HY0 HY1 _; rewrite EY0 EY1 ET MP mulmxA.
have [|Y [Y' [-> -> [HY RY]]]] := for_each_rel (iota 0 niter) R0 (f := fun _ Y =>
        let! Y := qr_q lqr Y in
        let! T := matmul (adjoint A) Y in
        let! T := matmul (adjoint B) T in
        let! T := matmul B T in
        matmul A T) (g := fun _ Y =>
        let! Y := qr_q lqr Y in let! T := matmul (adjoint P) Y in matmul P T).
  move=> _ Y Y' [HY RY]; rewrite -(qr_q_teq lqr RY HY); have [Q [-> HQ _]] := qr_qE lqr HY zm; rewrite ![bind (Ok _) _]/bind.
  have [T1 [-> HT1 ET1]] := matmulE HA' HQ; rewrite [bind (Ok _) _]/bind.
  have [T2 [-> HT2 ET2]] := matmulE HB' HT1; rewrite [bind (Ok _) _]/bind.
  have [T3 [-> HT3 ET3]] := matmulE HB HT2; rewrite [bind (Ok _) _]/bind.
  have [T4 [-> HT4 ET4]] := matmulE HA HT3.
  have [T5 [-> HT5 ET5]] := matmulE HP' HQ; rewrite [bind (Ok _) _]/bind.
  have [T6 [-> HT6 ET6]] := matmulE HP HT5.
  exists T4, T6; split=> //; split=> //; apply: mx_teq HT4 HT6 _.
  by rewrite ET4 ET3 ET2 ET1 ET6 ET5 EP' MP EA' EB' adjM !mulmxA.
rewrite ![bind (Ok _) _]/bind -(qr_q_teq lqr RY HY); have [Q [-> HQ _]] := qr_qE lqr HY zm; rewrite ![bind (Ok _) _]/bind.
have [HQ' EQ'] := adjointE HQ.
have [B1 [-> HB1 EB1]] := matmulE HQ' HA; rewrite [bind (Ok _) _]/bind.
have [B2 [-> HB2 EB2]] := matmulE HB1 HB; rewrite [bind (Ok _) _]/bind.
have [B3 [-> HB3 EB3]] := matmulE HQ' HP; rewrite [bind (Ok _) _]/bind.
by rewrite (@finish_teq _ Q B2 B3 z n) //; apply: mx_teq HB2 HB3 _; rewrite EB2 EB1 EB3 MP mulmxA.
Qed.

Theorem fused_3matmulE r (A B D E : tensor) m k1 k2 k3 n q niter :
  shape A = [:: m; k1] -> shape B = [:: k1; k2] -> shape D = [:: k2; k3] -> shape E = [:: k3; n] ->
  let z := minn q (minn m n) in
  exists U s V, [/\ fused_3matmul_svd_lowrank randn lqr lsvd r A B D E q niter = Ok (U, s, V, (randn r n z).2),
    shape U = [:: m; z], size s = z, shape V = [:: n; z] &
    qr_spec lqr -> thin_svd_spec lsvd ->
    lowrank_ok (mx_of m k1 A *m mx_of k1 k2 B *m mx_of k2 k3 D *m mx_of k3 n E) (randn r n z).1 U s V].
Proof.
move=> HA HB HD HE z; have [zm zn] := minq m n q; rewrite -/z in zm zn.
rewrite /fused_3matmul_svd_lowrank HA HE -/z; case Er: (randn r n z) => [Om r'].
set Pm := mx_of m k1 A *m _ *m _ *m _.
have [T1 [-> HT1 ET1]] := @matmulE _ k3 n z E (of_mx Om) HE (erefl _); rewrite [bind (Ok _) _]/bind.
have [T2 [-> HT2 ET2]] := matmulE HD HT1; rewrite [bind (Ok _) _]/bind.
have [T3 [-> HT3 ET3]] := matmulE HB HT2; rewrite [bind (Ok _) _]/bind.
have [Y0 [-> HY0 EY0]] := matmulE HA HT3; rewrite [bind (Ok _) _]/bind.
have [HA' EA'] := adjointE HA; have [HB' EB'] := adjointE HB.
have [HD' ED'] := adjointE HD; have [HE' EE'] := adjointE HE.
pose P (Y : tensor) := shape Y = [:: m; z] /\ (qr_spec lqr ->
  in_cols Pm (Pm *m Om) -> in_cols Pm (mx_of m z Y)).
have P0 : P Y0 by split=> // _; rewrite EY0 ET3 ET2 ET1 mx_ofK !mulmxA.
have [|Y [-> [HY PY]]] := for_each_inv (iota 0 niter) P0 (body := fun _ Y =>
        let! Y := qr_q lqr Y in
        let! T := matmul (adjoint A) Y in
        let! T := matmul (adjoint B) T in
        let! T := matmul (adjoint D) T in
        let! Y := matmul (adjoint E) T in
        let! Y := qr_q lqr Y in
        let! T := matmul E Y in
        let! T := matmul D T in
        let! T := matmul B T in
        matmul A T).
  clear T1 HT1 ET1 T2 HT2 ET2 T3 HT3 ET3 EY0.
  move=> _ Y [HY PY]; have [Q [-> HQ SQ]] := qr_qE lqr HY zm; rewrite [bind (Ok _) _]/bind.
  have [T1 [-> HT1 ET1]] := matmulE HA' HQ; rewrite [bind (Ok _) _]/bind.
  have [T2 [-> HT2 ET2]] := matmulE HB' HT1; rewrite [bind (Ok _) _]/bind.
  have [T3 [-> HT3 ET3]] := matmulE HD' HT2; rewrite [bind (Ok _) _]/bind.
  have [T4 [-> HT4 ET4]] := matmulE HE' HT3; rewrite [bind (Ok _) _]/bind.
  have [Q1 [-> HQ1 SQ1]] := qr_qE lqr HT4 zn; rewrite [bind (Ok _) _]/bind.
  have [T5 [-> HT5 ET5]] := matmulE HE HQ1; rewrite [bind (Ok _) _]/bind.
  have [T6 [-> HT6 ET6]] := matmulE HD HT5; rewrite [bind (Ok _) _]/bind.
  have [T7 [-> HT7 ET7]] := matmulE HB HT6; rewrite [bind (Ok _) _]/bind.
  have [Y' [-> HY' EY']] := matmulE HA HT7; exists Y'; split=> //; split=> // Sq Hc.
  have -> : mx_of m z Y' = Pm *m mx_of n z Q1 by rewrite EY' ET7 ET6 ET5 !mulmxA.
  apply: (@power2_cols _ _ _ _ (mx_of m z Q)).
    by apply: in_cols_trans (PY Sq Hc) _; case: (SQ Sq).
  have [_] := SQ1 Sq; rewrite ET4 ET3 ET2 ET1 EA' EB' ED' EE'.
  by rewrite /Pm !adjM !mulmxA.
rewrite [bind (Ok _) _]/bind; have [Q [-> HQ SQ]] := qr_qE lqr HY zm; rewrite [bind (Ok _) _]/bind.
have [HQ' EQ'] := adjointE HQ.
have [B1 [-> HB1 EB1]] := matmulE HQ' HA; rewrite [bind (Ok _) _]/bind.
have [B2 [-> HB2 EB2]] := matmulE HB1 HB; rewrite [bind (Ok _) _]/bind.
have [B3 [-> HB3 EB3]] := matmulE HB2 HD; rewrite [bind (Ok _) _]/bind.
have [B4 [-> HB4 EB4]] := matmulE HB3 HE; rewrite [bind (Ok _) _]/bind.
have EB : mx_of z n B4 = adj (mx_of m z Q) *m Pm by rewrite EB4 EB3 EB2 EB1 EQ' /Pm !mulmxA.
have [U [s [V [-> HU Hs HV H]]]] := finishE lsvd HQ HB4 zn.
exists U, s, V; split=> // Sq Ss; have [Qo Qc] := SQ Sq.
have {H} [H1 H2 H3 H4 H5] := H Ss Qo; have H6 : usv m n z U s V = mx_of m z Q *m (adj (mx_of m z Q) *m Pm).
  by rewrite H4 EB.
split=> //; first exact: usv_left H6.
exists (mx_of m z Q); split=> //.
by move=> /(PY Sq) Hc; rewrite H4 EB proj_cols //; apply: in_cols_trans Hc Qc.
Qed.


(** ---- the four-matrix variant and the plain routine ---- *)

Lemma for_each_count S (P : nat -> S -> Prop) (body : nat -> S -> res S) k s : P 0%N s ->
  (forall a j s, (j < k)%N -> P j s -> exists s', body a s = Ok s' /\ P j.+1 s') ->
  exists s', for_each (iota 0 k) body s = Ok s' /\ P k s'.
Proof.
move=> Hs H; suff K : forall d j a s, (j + d = k)%N -> P j s ->
    exists s', for_each (iota a d) body s = Ok s' /\ P k s' by apply: (K k 0%N 0%N).
elim=> [|d IH] j a s' /=; first by rewrite addn0 => ->; exists s'.
move=> E Hj; have Lj : (j < k)%N by rewrite -E addnS ltnS leq_addr.
have [s2 [-> H2]] := H a j s' Lj Hj.
by apply: (IH j.+1) => //; rewrite addSnnS.
Qed.

Definition same_cols m p q (A : 'M[C]_(m, p)) (B : 'M[C]_(m, q)) : Prop := in_cols A B /\ in_cols B A.

Lemma in_cols_rank m p q (A : 'M[C]_(m, p)) (B : 'M[C]_(m, q)) : in_cols A B -> (\rank A <= \rank B)%N.
Proof. by case=> Z ->; apply: mxrankM_maxl. Qed.

Lemma in_colsM m n p q (M : 'M[C]_(m, n)) (A : 'M[C]_(n, p)) (B : 'M[C]_(n, q)) : in_cols A B -> in_cols (M *m A) (M *m B).
Proof. by case=> Z ->; exists Z; rewrite mulmxA. Qed.

(** z columns that reproduce a matrix of rank z are reproduced by it *)
Lemma full_cols m z (Y Q : 'M[C]_(m, z)) : (z <= \rank Y)%N -> in_cols Y Q -> same_cols Q Y.
Proof.
move=> Hr [T E]; have rT : row_free T.
  rewrite -row_leq_rank; apply: leq_trans Hr _; rewrite E; exact: mxrankM_maxr.
have uT : T \in unitmx by rewrite -row_free_unit.
by split; [exists (invmx T); rewrite E mulmxK | exists T].
Qed.

(** the projection only depends on the spanned space *)
Lemma same_proj m n z (Q Q' : 'M[C]_(m, z)) (A : 'M[C]_(m, n)) :
  adj Q *m Q = 1%:M -> adj Q' *m Q' = 1%:M -> same_cols Q Q' ->
  Q *m (adj Q *m A) = Q' *m (adj Q' *m A).
Proof.
move=> HQ HQ' [[Z E] _]; have Z1 : adj Z *m Z = 1%:M.
  by rewrite -HQ E adjM mulmxA -(mulmxA (adj Z)) HQ' mulmx1.
have Z2 : Z *m adj Z = 1%:M by apply: mulmx1C.
by rewrite E adjM !mulmxA -(mulmxA Q') Z2 mulmx1.
Qed.

(** (P P^H)^k P Omega *)
Fixpoint krylov m n z (P : 'M[C]_(m, n)) (Om : 'M[C]_(n, z)) (k : nat) : 'M[C]_(m, z) :=
  if k is k'.+1 then P *m (adj P *m krylov P Om k') else P *m Om.

Lemma krylov_rank m n z (P : 'M[C]_(m, n)) (Om : 'M[C]_(n, z)) k j : (j <= k)%N ->
  (\rank (krylov P Om k) <= \rank (krylov P Om j))%N.
Proof.
elim: k => [|k IH]; first by rewrite leqn0 => /eqP ->.
rewrite leq_eqVlt => /predU1P[->//|Hj]; apply: leq_trans (IH Hj).
by rewrite /= mulmxA mxrankM_maxr.
Qed.

Lemma svd_lowrank_krylov r (A : tensor) m n q niter U s V r' : shape A = [:: m; n] ->
  let z := minn q (minn m n) in let K := krylov (mx_of m n A) (randn r n z).1 niter in
  qr_spec lqr -> thin_svd_spec lsvd -> (z <= \rank K)%N ->
  svd_lowrank randn lqr lsvd r A q niter = Ok (U, s, V, r') ->
  exists Q : 'M[C]_(m, z), [/\ adj Q *m Q = 1%:M, same_cols Q K & usv m n z U s V = Q *m (adj Q *m mx_of m n A)].
Proof.
move=> HA z K Sq Ss HK; have [zm zn] := minq m n q; rewrite -/z in zm zn.
rewrite /svd_lowrank HA -/z; move: @K HK; case: (randn r n z) => [Om r1] K HK.
have [Y0 [-> HY0 EY0]] := @matmulE _ m n z A (of_mx Om) HA (erefl _); rewrite [bind (Ok _) _]/bind.
have [HA' EA'] := adjointE HA.
pose P j (Y : tensor) := shape Y = [:: m; z] /\ same_cols (mx_of m z Y) (krylov (mx_of m n A) Om j).
have full j Y (Q : 'M[C]_(m, z)) : (j <= niter)%N -> P j Y -> in_cols (mx_of m z Y) Q -> same_cols Q (krylov (mx_of m n A) Om j).
  move=> Hj [_ [Y1 Y2]] HQ; have Hr : (z <= \rank (mx_of m z Y))%N.
    by apply: leq_trans HK _; apply: leq_trans (krylov_rank _ _ Hj) (in_cols_rank Y2).
  have [F1 F2] := full_cols Hr HQ; split; first exact: in_cols_trans F1 Y1.
  exact: in_cols_trans Y2 F2.
have P0 : P 0%N Y0 by split=> //; rewrite EY0 mx_ofK; split; exists 1%:M; rewrite mulmx1.
have [|Y [-> PY]] := @for_each_count _ P (fun _ Y =>
        let! Y := qr_q lqr Y in let! T := matmul (adjoint A) Y in matmul A T) niter _ P0.
  move=> _ j Y Hj PY; have [HY _] := PY; have [Q [-> HQ SQ]] := qr_qE lqr HY zm; rewrite [bind (Ok _) _]/bind.
  have [T [-> HT ET]] := matmulE HA' HQ; rewrite [bind (Ok _) _]/bind.
  have [Y' [-> HY' EY']] := matmulE HA HT; exists Y'; split=> //; split=> //.
  have [_ Qc] := SQ Sq; have [F1 F2] := full j Y _ (ltnW Hj) PY Qc.
  by rewrite EY' ET EA' /=; split; do 2!apply: in_colsM.
rewrite [bind (Ok _) _]/bind; have [HY _] := PY; have [Q [-> HQ SQ]] := qr_qE lqr HY zm; rewrite [bind (Ok _) _]/bind.
have [HQ' EQ'] := adjointE HQ.
have [B [-> HB EB]] := matmulE HQ' HA; rewrite [bind (Ok _) _]/bind.
have [U1 [s1 [V1 [-> HU Hs HV H]]]] := finishE lsvd HQ HB zn.
rewrite [bind (Ok _) _]/bind => -[<- <- <- _]; have [Qo Qc] := SQ Sq.
have {H} [H1 H2 H3 H4 H5] := H Ss Qo; exists (mx_of m z Q); split=> //.
  exact: full (leqnn _) PY Qc.
by rewrite H4 EB EQ'.
Qed.

Lemma fused_3matmul_krylov r (A B D E : tensor) m k1 k2 k3 n q niter U s V r' :
  shape A = [:: m; k1] -> shape B = [:: k1; k2] -> shape D = [:: k2; k3] -> shape E = [:: k3; n] ->
  let Pm := mx_of m k1 A *m mx_of k1 k2 B *m mx_of k2 k3 D *m mx_of k3 n E in
  let z := minn q (minn m n) in let K := krylov Pm (randn r n z).1 niter in
  qr_spec lqr -> thin_svd_spec lsvd -> (z <= \rank K)%N ->
  fused_3matmul_svd_lowrank randn lqr lsvd r A B D E q niter = Ok (U, s, V, r') ->
  exists Q : 'M[C]_(m, z), [/\ adj Q *m Q = 1%:M, same_cols Q K & usv m n z U s V = Q *m (adj Q *m Pm)].
Proof.
move=> HA HB HD HE Pm z K Sq Ss HK; have [zm zn] := minq m n q; rewrite -/z in zm zn.
rewrite /fused_3matmul_svd_lowrank HA HE -/z; move: @K HK; case: (randn r n z) => [Om r1] K HK.
have [T1 [-> HT1 ET1]] := @matmulE _ k3 n z E (of_mx Om) HE (erefl _); rewrite [bind (Ok _) _]/bind.
have [T2 [-> HT2 ET2]] := matmulE HD HT1; rewrite [bind (Ok _) _]/bind.
have [T3 [-> HT3 ET3]] := matmulE HB HT2; rewrite [bind (Ok _) _]/bind.
have [Y0 [-> HY0 EY0]] := matmulE HA HT3; rewrite [bind (Ok _) _]/bind.
have [HA' EA'] := adjointE HA; have [HB' EB'] := adjointE HB.
have [HD' ED'] := adjointE HD; have [HE' EE'] := adjointE HE.
pose P j (Y : tensor) := shape Y = [:: m; z] /\ same_cols (mx_of m z Y) (krylov Pm Om j).
have full j Y (Q : 'M[C]_(m, z)) : (j <= niter)%N -> P j Y -> in_cols (mx_of m z Y) Q -> same_cols Q (krylov Pm Om j).
  move=> Hj [_ [Y1 Y2]] HQ; have Hr : (z <= \rank (mx_of m z Y))%N.
    by apply: leq_trans HK _; apply: leq_trans (krylov_rank _ _ Hj) (in_cols_rank Y2).
  have [F1 F2] := full_cols Hr HQ; split; first exact: in_cols_trans F1 Y1.
  exact: in_cols_trans Y2 F2.
have P0 : P 0%N Y0.
  by split=> //; rewrite EY0 ET3 ET2 ET1 mx_ofK /Pm /=; split; exists 1%:M; rewrite mulmx1 !mulmxA.
have [|Y [-> PY]] := @for_each_count _ P (fun _ Y =>
        let! Y := qr_q lqr Y in
        let! T := matmul (adjoint A) Y in
        let! T := matmul (adjoint B) T in
        let! T := matmul (adjoint D) T in
        let! Y := matmul (adjoint E) T in
        let! Y := qr_q lqr Y in
        let! T := matmul E Y in
        let! T := matmul D T in
        let! T := matmul B T in
        matmul A T) niter _ P0.
  clear T1 HT1 ET1 T2 HT2 ET2 T3 HT3 ET3 EY0.
  move=> _ j Y Hj PY; have [HY _] := PY; have [Q [-> HQ SQ]] := qr_qE lqr HY zm; rewrite [bind (Ok _) _]/bind.
  have [T1 [-> HT1 ET1]] := matmulE HA' HQ; rewrite [bind (Ok _) _]/bind.
  have [T2 [-> HT2 ET2]] := matmulE HB' HT1; rewrite [bind (Ok _) _]/bind.
  have [T3 [-> HT3 ET3]] := matmulE HD' HT2; rewrite [bind (Ok _) _]/bind.
  have [T4 [-> HT4 ET4]] := matmulE HE' HT3; rewrite [bind (Ok _) _]/bind.
  have [Q1 [-> HQ1 SQ1]] := qr_qE lqr HT4 zn; rewrite [bind (Ok _) _]/bind.
  have [T5 [-> HT5 ET5]] := matmulE HE HQ1; rewrite [bind (Ok _) _]/bind.
  have [T6 [-> HT6 ET6]] := matmulE HD HT5; rewrite [bind (Ok _) _]/bind.
  have [T7 [-> HT7 ET7]] := matmulE HB HT6; rewrite [bind (Ok _) _]/bind.
  have [Y' [-> HY' EY']] := matmulE HA HT7; exists Y'; split=> //; split=> //.
  have -> : mx_of m z Y' = Pm *m mx_of n z Q1 by rewrite EY' ET7 ET6 ET5 !mulmxA.
  have [_ Qc] := SQ Sq; have [F1 F2] := full j Y _ (ltnW Hj) PY Qc.
  have Pc : same_cols (adj Pm *m mx_of m z Q) (adj Pm *m krylov Pm Om j) by split; apply: in_colsM.
  have [_] := SQ1 Sq; have -> : mx_of n z T4 = adj Pm *m mx_of m z Q.
    by rewrite ET4 ET3 ET2 ET1 EA' EB' ED' EE' /Pm !adjM !mulmxA.
  have Hr : (z <= \rank (adj Pm *m mx_of m z Q))%N.
    apply: leq_trans HK _; apply: leq_trans (krylov_rank _ _ Hj) _.
    apply: leq_trans (in_cols_rank Pc.2); exact: mxrankM_maxr.
  move=> /(full_cols Hr) [G1 G2]; split; apply: in_colsM.
    exact: in_cols_trans G1 Pc.1.
  exact: in_cols_trans Pc.2 G2.
rewrite [bind (Ok _) _]/bind; have [HY _] := PY; have [Q [-> HQ SQ]] := qr_qE lqr HY zm; rewrite [bind (Ok _) _]/bind.
have [HQ' EQ'] := adjointE HQ.
have [B1 [-> HB1 EB1]] := matmulE HQ' HA; rewrite [bind (Ok _) _]/bind.
have [B2 [-> HB2 EB2]] := matmulE HB1 HB; rewrite [bind (Ok _) _]/bind.
have [B3 [-> HB3 EB3]] := matmulE HB2 HD; rewrite [bind (Ok _) _]/bind.
have [B4 [-> HB4 EB4]] := matmulE HB3 HE; rewrite [bind (Ok _) _]/bind.
have [U1 [s1 [V1 [-> HU Hs HV H]]]] := finishE lsvd HQ HB4 zn.
rewrite [bind (Ok _) _]/bind => -[<- <- <- _]; have [Qo Qc] := SQ Sq.
have {H} [H1 H2 H3 H4 H5] := H Ss Qo; exists (mx_of m z Q); split=> //.
  exact: full (leqnn _) PY Qc.
by rewrite H4 EB4 EB3 EB2 EB1 EQ' /Pm !mulmxA.
Qed.

End Rsvd.
End Facts.
