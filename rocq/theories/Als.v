(** Model of the bond updates: acetn/evolution/als_solver.py,
    tensor_update.py, full_update.py (positive_approx, gauge_fix, FullUpdater),
    simple_update.py and lambda_tensors.py (absorb, strip). *)
From Coq Require Import String Ascii.
From mathcomp Require Import all_ssreflect all_algebra.
From Verif Require Import Base Lattice Mover Tensor Rdm FullUpdate Linalg Rsvd Renorm.
Set Implicit Arguments.
Unset Strict Implicit.
Unset Printing Implicit Defensive.
Import GRing.Theory Num.Theory.
Local Open Scope ring_scope.
Local Open Scope string_scope.

Section Oracles.
Variable C : numClosedFieldType.

(** torch.linalg.eigh(A): eigenvalues and eigenvectors; None for LinAlgError *)
Definition eigh_fun := forall n, 'M[C]_n -> option ('rV[C]_n * 'M[C]_n).
(** torch.linalg.cholesky(A): None for LinAlgError *)
Definition chol_fun := forall n, 'M[C]_n -> option 'M[C]_n.

(** the Hermitian matrix LAPACK sees: the lower triangle, the real part of the
    diagonal *)
Definition lowherm n (A : 'M[C]_n) : 'M[C]_n :=
  \matrix_(i, j) if (j < i)%N then A i j else if (i < j)%N then (A j i)^* else 'Re (A i i).

(** eigenvalues are real and ascending, the eigenvectors are orthonormal *)
Definition eigh_spec (eigh : eigh_fun) : Prop := forall n (A : 'M[C]_n),
  if eigh n A is Some (w, V) then
    [/\ adj V *m V = 1%:M, forall i, w 0 i \is Num.real, forall i j : 'I_n, (i <= j)%N -> w 0 i <= w 0 j &
        lowherm A = V *m diag_mx w *m adj V]
  else True.

(** a lower triangular factor with positive diagonal *)
Definition chol_spec (chol : chol_fun) : Prop := forall n (A : 'M[C]_n),
  if chol n A is Some L then
    [/\ forall i j : 'I_n, (i < j)%N -> L i j = 0, forall i, 0 < L i i & lowherm A = L *m adj L]
  else True.

(** lower and upper triangle *)
Definition tril n (A : 'M[C]_n) : 'M[C]_n := \matrix_(i, j) if (j <= i)%N then A i j else 0.
Definition triu n (A : 'M[C]_n) : 'M[C]_n := \matrix_(i, j) if (i <= j)%N then A i j else 0.
End Oracles.

Section Als.
Variable C : numClosedFieldType.
Notation tensor := (tensor C).
Notation net := (Mover.net tensor).
Variable lqr : qr_fun C.
Variable lsvd : thin_svd_fun C.
Variable fsvd : full_svd_fun C.
Variable leigh : eigh_fun C.
Variable lchol : chol_fun C.

(** ---- matrix routines of torch.linalg on tensors ---- *)

(** torch.linalg.solve(A, B), 2-dimensional, square A *)
Definition solve (A B : tensor) : res tensor :=
  match shape A, shape B with
  | [:: n; n'], [:: m; p] =>
      if (n == n') && (n == m) then
        let M := mx_of n n A in
        if M \in unitmx then Ok (of_mx (invmx M *m mx_of n p B)) else Err RuntimeError
      else Err ShapeError
  | _, _ => Err ShapeError
  end.
(** torch.linalg.solve_triangular(A, B, upper=...): reads one triangle; a zero on
    the diagonal gives no finite result *)
Definition solve_triangular (upper : bool) (A B : tensor) : res tensor :=
  match shape A, shape B with
  | [:: n; n'], [:: m; p] =>
      if (n == n') && (n == m) then
        let M := if upper then triu (mx_of n n A) else tril (mx_of n n A) in
        if M \in unitmx then Ok (of_mx (invmx M *m mx_of n p B)) else Err ZeroNorm
      else Err ShapeError
  | _, _ => Err ShapeError
  end.
(** torch.linalg.cholesky *)
Definition cholesky (A : tensor) : res tensor :=
  match shape A with
  | [:: n; n'] => if n == n' then if lchol (mx_of n n A) is Some L then Ok (of_mx L) else Err RuntimeError
                  else Err RuntimeError
  | _ => Err RuntimeError
  end.
(** pinv(A, hermitian=True, rcond=r): eigenvalues with |w| <= r max|w| are dropped *)
Definition row_max n (w : 'rV[C]_n) : C := foldr (fun i m => maxC `|w 0 i| m) 0 (enum 'I_n).
Definition herm_pinv (rcond : C) (A : tensor) : res tensor :=
  match shape A with
  | [:: n; n'] =>
      if n == n' then
        if leigh (mx_of n n A) is Some (w, V) then
          let cut := rcond * row_max w in
          Ok (of_mx (V *m diag_mx (\row_i if cut < `|w 0 i| then (w 0 i)^-1 else 0) *m adj V))
        else Err RuntimeError
      else Err RuntimeError
  | _ => Err RuntimeError
  end.
(** pinv(A, atol=a): singular values s <= a are dropped.  For a = 0 torch uses a
    relative threshold of machine precision, the parameter [rtol]. *)
Variable rtol : nat -> nat -> C.
Definition pinv_mx m n (cut : C) (A : 'M[C]_(m, n)) : 'M[C]_(n, m) :=
  let: (U, s, Vh) := lsvd A in
  adj Vh *m diag_mx (\row_i if cut < s 0 i then (s 0 i)^-1 else 0) *m adj U.
Definition pinv_cut m n (atol : C) (A : 'M[C]_(m, n)) : C :=
  if 0 < atol then atol else rtol m n * row_max (lsvd A).1.2.
Definition pinv (atol : C) (A : tensor) : res tensor :=
  match shape A with
  | [:: m; n] => let M := mx_of m n A in Ok (of_mx (pinv_mx (pinv_cut atol M) M))
  | _ => Err RuntimeError
  end.
(** torch.linalg.qr *)
Definition qr (t : tensor) : res (tensor * tensor) :=
  match shape t with
  | [:: m; n] => let: (Q, R) := lqr (mx_of m n t) in Ok (of_mx Q, of_mx R)
  | _ => Err RuntimeError
  end.

(** ---- als_solver.py ---- *)

(** 251-260 *)
Definition calculate_cost (a1r a2r a12g n12 : tensor) : res C :=
  let! a12n := einsum "yup,xuq->yxpq" [:: a1r; a2r] in
  let! d2 := einsum "yxYX,yxpq->YXpq" [:: n12; a12n] in
  let! d2 := einsum "YXpq,YXpq->" [:: d2; conj a12n] in
  let! d3 := einsum "yxYX,yxpq->YXpq" [:: n12; a12g] in
  let! d3 := einsum "YXpq,YXpq->" [:: d3; conj a12n] in
  Ok ('Re (at_ d2 [::]) - 2%:R * 'Re (at_ d3 [::])).

(** 233-248 *)
Definition build_s1 (n12g a2r : tensor) : res tensor := einsum "YXpQ,XUQ->YUp" [:: n12g; conj a2r].
Definition build_s2 (n12g a1r : tensor) : res tensor := einsum "YXPq,YVP->XVq" [:: n12g; conj a1r].
Definition build_r1 (n12 a2r : tensor) : res tensor :=
  let! R := einsum "yxYX,xuq->yYXuq" [:: n12; a2r] in
  einsum "yYXuQ,XUQ->YUyu" [:: R; conj a2r].
Definition build_r2 (n12 a1r : tensor) : res tensor :=
  let! R := einsum "yxYX,yvp->xYXvp" [:: n12; a1r] in
  einsum "xYXvP,YVP->XVxv" [:: R; conj a1r].

(** EvolutionConfig fields *)
Record econfig := EConfig {
  als_method : string; als_epsilon : C; als_tol : C; als_niter : nat;
  use_gauge_fix : bool; gauge_fix_atol : C; positive_approx_cutoff : C }.
Variable cfg : econfig.

(** 194-230; [R += ...] is in place, so the except branch sees the shifted R *)
Definition solve_ar (R S : tensor) : res tensor :=
  match shape S with
  | [:: nD; bD; pD] =>
      let! Sm := reshape S [:: nD * bD; pD]%N in
      let! R := reshape R [:: nD * bD; nD * bD]%N in
      let! R := tadd R (adjoint R) in
      let R := tscale 2%:R^-1 R in
      let! ar :=
        if String.eqb (als_method cfg) "cholesky" then
          let! R := tadd R (tscale (als_epsilon cfg * absmax R) (eye C (nD * bD))) in
          match (let! L := cholesky R in
                 let! Y := solve_triangular false L Sm in
                 solve_triangular true (adjoint L) Y) with
          | Ok ar => Ok ar
          | Err _ => solve R Sm
          end
        else if String.eqb (als_method cfg) "pinv" then
          let! R_inv := herm_pinv (als_epsilon cfg) R in
          matmul R_inv Sm
        else Err UnboundLocalError in
      reshape ar [:: nD; bD; pD]
  | _ => Err ValueError
  end.

(** 148-192 *)
Definition solve_a1r (n12 n12g a2r : tensor) : res tensor :=
  let! Sm := build_s1 n12g a2r in let! R := build_r1 n12 a2r in solve_ar R Sm.
Definition solve_a2r (n12 n12g a1r : tensor) : res tensor :=
  let! Sm := build_s2 n12g a1r in let! R := build_r2 n12 a1r in solve_ar R Sm.

(** torch.sqrt(s[:k] / d) *)
Definition sqrt_weights (s : seq C) (k : nat) (d : C) : res tensor :=
  if d == 0 then Err ZeroNorm else
  Ok (Tensor [:: size (take k s)] (fun idx => sqrtC (nth 0 s (nth 0%N idx 0) / d))).
(** t[:, :k] and t[:k, :] *)
Definition cols (t : tensor) (k : nat) : tensor := Tensor [:: nth 0 (shape t) 0; minn k (nth 0 (shape t) 1)]%N (at_ t).
Definition rows (t : tensor) (k : nat) : tensor := Tensor [:: minn k (nth 0 (shape t) 0); nth 0 (shape t) 1]%N (at_ t).

(** 118-146 *)
Definition initialize_reduced_tensors (a12g : tensor) (nD bD pD : nat) : res (tensor * tensor) :=
  let! t := einsum "yxpq->ypxq" [:: a12g] in
  let! t := reshape t [:: nD * pD; nD * pD]%N in
  let! (U, sv, Vh) := svd_full fsvd t in
  let V := adjoint Vh in
  let! w := (match sv with [::] => Err IndexError | s0 :: _ => sqrt_weights sv bD s0 end) in
  let! U := reshape (cols U bD) [:: nD; pD; bD] in
  let! V := reshape (cols V bD) [:: nD; pD; bD] in
  let! a1r := einsum "ypu,u->yup" [:: U; w] in
  let! a2r := einsum "xqv,v->xvq" [:: V; w] in
  Ok (a1r, a2r).

(** 74-82: [n] sweeps left, [i] the loop variable.  A zero previous cost makes
    [error] inf or nan, which is never below the tolerance. *)
Fixpoint als_loop (n12 n12g a12g : tensor) (n i : nat) (a1r a2r : tensor) (d1 : C) : res (tensor * tensor) :=
  match n with
  | 0 => Ok (a1r, a2r)
  | n.+1 =>
      let! a1r := solve_a1r n12 n12g a2r in
      let! a2r := solve_a2r n12 n12g a1r in
      let! d2 := calculate_cost a1r a2r a12g n12 in
      if [&& d1 != 0, `|d2 - d1| / `|d1| < als_tol cfg & (1 < i)%N] then Ok (a1r, a2r)
      else als_loop n12 n12g a12g n i.+1 a1r a2r d2
  end.

(** 34-115, torch backend *)
Definition als_solve (n12 a12g : tensor) (nD bD pD : nat) : res (tensor * tensor) :=
  let! (a1r, a2r) := initialize_reduced_tensors a12g nD bD pD in
  let! n12g := einsum "yxYX,yxpq->YXpq" [:: n12; a12g] in
  let! d1 := calculate_cost a1r a2r a12g n12 in
  als_loop n12 n12g a12g (als_niter cfg) 0 a1r a2r `|d1|.

(** ---- tensor_update.py 52-68 ---- *)
Definition decompose_site_tensors (a1 a2 : tensor) : res (tensor * tensor * tensor * tensor) :=
  match drop 3 (shape a1) with
  | [:: bD; pD] =>
      let nD := minn (bD ^ 3) (pD * bD) in
      let! t := einsum "lurdp->rdulp" [:: a1] in
      let! t := reshape t [:: bD ^ 3; pD * bD]%N in
      let! (a1q, a1r) := qr t in
      let! a1q := reshape a1q [:: bD; bD; bD; nD] in
      let! a1r := reshape a1r [:: nD; bD; pD] in
      let! t := einsum "lurdp->dlurp" [:: a2] in
      let! t := reshape t [:: bD ^ 3; pD * bD]%N in
      let! (a2q, a2r) := qr t in
      let! a2q := reshape a2q [:: bD; bD; bD; nD] in
      let! a2r := reshape a2r [:: nD; bD; pD] in
      Ok (a1q, a1r, a2q, a2r)
  | _ => Err ValueError
  end.

(** ---- full_update.py ---- *)

(** 282-287, 290-295: eigh, or svd with both results flipped if it does not
    converge *)
Definition eig_or_svd n (N : 'M[C]_n) : 'rV[C]_n * 'M[C]_n :=
  if leigh N is Some wz then wz else
  let: (U, s, _) := fsvd N in
  (\row_i nth 0 (rev [seq s 0 k | k <- enum 'I_(minn n n)]) i, \matrix_(i, j) U i (rev_ord j)).

(** 288-295, the while loop with [fuel] iterations; None if it is not finished.
    For n = 0 the test nw[0] raises, which positive_approx checks first. *)
Fixpoint shift_loop n (cutoff : C) (fuel : nat) (N : 'M[C]_n.+1) : option ('M[C]_n.+1 * ('rV[C]_n.+1 * 'M[C]_n.+1)) :=
  let: (nw, nz) := eig_or_svd N in
  if nw 0 0 < cutoff then
    if fuel is fuel.+1 then shift_loop cutoff fuel (N + (2%:R * maxC cutoff `|nw 0 0|)%:M) else None
  else Some (N, (nw, nz)).

(** 262-297; the result of the loop is passed as [fuel] grows, see
    positive_approx_spec *)
Definition positive_approx (fuel : nat) (cutoff : C) (n12 : tensor) : option (res tensor) :=
  match shape n12 with
  | nD :: _ =>
      match reshape n12 [:: nD ^ 2; nD ^ 2]%N with
      | Err e => Some (Err e)
      | Ok N =>
          (match (nD ^ 2)%N as k return ('M[C]_k -> option (res tensor)) with
           | 0 => fun _ => Some (Err IndexError)
           | k.+1 => fun N =>
               match shift_loop cutoff fuel N with
               | None => None
               | Some (_, (nw, nz)) =>
                   Some (let! t := reshape (of_mx nz) [:: nD; nD; k.+1] in
                         Ok (Tensor (shape t) (fun idx => at_ t idx * sqrtC (nth 0 [seq nw 0 i | i <- enum 'I_k.+1] (nth 0%N idx 2)))))
               end
           end) (mx_of (nD ^ 2) (nD ^ 2) N)
      end
  | [::] => Some (Err IndexError)
  end.

(** 300-343 *)
Definition gauge_fix (nz a12g : tensor) (atol : C) : res (tensor * tensor * tensor * tensor * (tensor * tensor)) :=
  match shape a12g with
  | nD :: _ =>
      let! t := einsum "yxz->zxy" [:: nz] in
      let! t := reshape t [:: nD ^ 3; nD]%N in
      let! (_, nzyr) := qr t in
      let! t := einsum "yxz->zyx" [:: nz] in
      let! t := reshape t [:: nD ^ 3; nD]%N in
      let! (_, nzxr) := qr t in
      let! nzyr_inv := pinv atol nzyr in
      let! nzxr_inv := pinv atol nzxr in
      let! nz := einsum "yxz,xw->yzw" [:: nz; nzxr_inv] in
      let! nz := einsum "yzw,yv->zvw" [:: nz; nzyr_inv] in
      let! n12 := einsum "zvw,zVW->vwVW" [:: nz; conj nz] in
      let! a12g := einsum "zx,yxpq->yzpq" [:: nzxr; a12g] in
      let! a12g := einsum "wy,yzpq->wzpq" [:: nzyr; a12g] in
      Ok (n12, a12g, nzxr_inv, nzyr_inv, (nzxr, nzyr))
  | [::] => Err IndexError
  end.

(** 123-161, [gauge] is (nzxr_inv, nzyr_inv) if gauge fixing is used *)
Definition norm_list (s : seq C) : C := sqrtC (\sum_(x <- s) `|x| ^+ 2).
Definition finalize_reduced_tensors (gauge : option (tensor * tensor)) (a1r a2r : tensor) : res (tensor * tensor) :=
  let! (a1r, a2r) := (match gauge with
    | Some (nzxr_inv, nzyr_inv) =>
        let! a1r := einsum "yz,zup->yup" [:: nzyr_inv; a1r] in
        let! a2r := einsum "xw,wvq->xvq" [:: nzxr_inv; a2r] in
        Ok (a1r, a2r)
    | None => Ok (a1r, a2r)
    end) in
  match shape a1r with
  | [:: nD; bD; pD] =>
      let! t := einsum "yup->ypu" [:: a1r] in
      let! t := reshape t [:: nD * pD; bD]%N in
      let! (q1, r1) := qr t in
      let! t := einsum "xvq->xqv" [:: a2r] in
      let! t := reshape t [:: nD * pD; bD]%N in
      let! (q2, r2) := qr t in
      let! t := einsum "au,bu->ab" [:: r1; r2] in
      let! (U, s, Vh) := svd_full fsvd t in
      let! s := sqrt_weights s bD (norm_list s) in
      let! r1 := einsum "ab,b->ab" [:: cols U bD; s] in
      let! r2 := einsum "ba,b->ba" [:: rows Vh bD; s] in
      let! q1 := reshape q1 [:: nD; pD; bD] in
      let! q2 := reshape q2 [:: nD; pD; bD] in
      let! a1r := einsum "ypa,au->yup" [:: q1; r1] in
      let! a2r := einsum "xqb,vb->xvq" [:: q2; r2] in
      Ok (a1r, a2r)
  | _ => Err ValueError
  end.

(** 97-121: the norm tensor, the target and the inverse gauges *)
Definition precondition_norm_tensor (nz a12g : tensor) : res (tensor * tensor * option (tensor * tensor)) :=
  if use_gauge_fix cfg then
    let! (n12, a12g, nzxr_inv, nzyr_inv, _) := gauge_fix nz a12g (gauge_fix_atol cfg) in
    Ok (n12, a12g, Some (nzxr_inv, nzyr_inv))
  else
    let! n12 := einsum "xyz,XYz->xyXY" [:: nz; conj nz] in
    Ok (n12, a12g, None).

(** 65-95; None if positive_approx has not finished within the fuel *)
Definition update_reduced_tensors (fuel : nat) (a1r a2r n12 gate : tensor) : option (res (tensor * tensor)) :=
  let a12g := (let! a12g := einsum "yup,xuq->yxpq" [:: a1r; a2r] in einsum "yxpq,pqrs->yxrs" [:: a12g; gate]) in
  match a12g with
  | Err e => Some (Err e)
  | Ok a12g =>
      match positive_approx fuel (positive_approx_cutoff cfg) n12 with
      | None => None
      | Some nz => Some (
          let! nz := nz in
          let! (n12, a12g, gauge) := precondition_norm_tensor nz a12g in
          match shape a1r with
          | [:: nD; bD; pD] =>
              let! (a1r, a2r) := als_solve n12 a12g nD bD pD in
              finalize_reduced_tensors gauge a1r a2r
          | _ => Err ValueError
          end)
      end
  end.

(** 34-63 *)
Definition full_tensor_update (fuel : nat) (n : net) (b : bond) (a1 a2 gate : tensor) : option (res (tensor * tensor)) :=
  match (let! (a1q, a1r, a2q, a2r) := decompose_site_tensors a1 a2 in
         let! n12 := build_norm_tensor n b a1q a2q in Ok (a1q, a1r, a2q, a2r, n12)) with
  | Err e => Some (Err e)
  | Ok (a1q, a1r, a2q, a2r, n12) =>
      match update_reduced_tensors fuel a1r a2r n12 gate with
      | None => None
      | Some x => Some (
          let! (a1r, a2r) := x in
          let! (a1, a2) := recompose_site_tensors a1q a1r a2q a2r in
          let! a1 := tdiv a1 (norm a1) in
          let! a2 := tdiv a2 (norm a2) in
          Ok (a1, a2))
      end
  end.

(** tensor_update.py 29-38: the same from the site tensors of the network; [one]
    as in [simple_bond_update] *)
Definition full_bond_update (fuel : nat) (n : net) (b : bond) (gate : tensor) (one : option (tensor * tensor))
  : option (res (tensor * tensor)) :=
  let k := b_k b in
  match full_tensor_update fuel n b (bond_permute k (n (b_s1 b) SA)) (bond_permute k (n (b_s2 b) SA)) gate with
  | None => None
  | Some x => Some (
      let! (a1, a2) := x in
      let a1 := bond_permute (4 - k) a1 in
      let a2 := bond_permute (4 - k) a2 in
      match one with
      | None => Ok (a1, a2)
      | Some (g1, g2) =>
          let! a1 := einsum "pq,lurdp->lurdq" [:: g1; a1] in
          let! a2 := einsum "pq,lurdp->lurdq" [:: g2; a2] in
          Ok (a1, a2)
      end)
  end.

(** ---- simple_update.py, lambda_tensors.py ---- *)

(** lambda_tensors.py 12: CUTOFF, 1e-12 in the source *)
Variable lcut : C.

(** 33-49; [w d] is the weight vector get(site, d) *)
Definition ones_like (t : tensor) : tensor := Tensor (shape t) (fun _ => 1).
Definition absorb (w : nat -> tensor) (a : tensor) (exclude : nat) : res tensor :=
  let v d := if d == exclude then ones_like (w d) else w d in
  einsum "l,u,r,d,lurdp->lurdp" [:: v 0%N; v 1%N; v 2%N; v 3%N; a].
(** 1.0 / t.clamp(min=CUTOFF) *)
Definition inv_clamped (t : tensor) : tensor := tmap (fun x => (maxC x lcut)^-1) t.
Definition strip (w : nat -> tensor) (a : tensor) (exclude : nat) : res tensor :=
  let v d := if d == exclude then ones_like (w d) else inv_clamped (w d) in
  einsum "l,u,r,d,lurdp->lurdp" [:: v 0%N; v 1%N; v 2%N; v 3%N; a].

(** simple_update.py 46-58: the new reduced tensors and bond weight *)
Definition simple_truncate (a1r a2r gate : tensor) : res (tensor * tensor * tensor) :=
  match shape a1r with
  | [:: nD; bD; pD] =>
      let! a12 := einsum "yup,xuq->ypxq" [:: a1r; a2r] in
      let! a12g := einsum "ypxq,pqrs->yrxs" [:: a12; gate] in
      let! t := reshape a12g [:: nD * pD; nD * pD]%N in
      let! (U, sv, Vh) := svd_full fsvd t in
      let sv := take bD sv in
      let! lambda := sqrt_weights sv bD (norm_list sv) in
      let! U := reshape (cols U bD) [:: nD; pD; bD] in
      let! Vh := reshape (rows Vh bD) [:: bD; nD; pD] in
      let! a1r := einsum "ypa,a->yap" [:: U; lambda] in
      let! a2r := einsum "axq,a->xaq" [:: Vh; lambda] in
      Ok (a1r, a2r, lambda)
  | _ => Err ValueError
  end.

(** simple_update.py 36-73, with the weights of the two sites and the one-site
    gates, if they are not folded into the bond gate *)
Definition simple_bond_update (w1 w2 : nat -> tensor) (k : nat) (a1 a2 gate : tensor) (one : option (tensor * tensor))
  : res (tensor * tensor * tensor) :=
  let! a1 := absorb w1 a1 k in
  let! a2 := absorb w2 a2 ((k + 2) %% 4) in
  let! (a1q, a1r, a2q, a2r) := decompose_site_tensors (bond_permute k a1) (bond_permute k a2) in
  let! (a1r, a2r, lambda) := simple_truncate a1r a2r gate in
  let! (a1, a2) := recompose_site_tensors a1q a1r a2q a2r in
  let! a1 := strip w1 (bond_permute (4 - k) a1) k in
  let! a2 := strip w2 (bond_permute (4 - k) a2) ((k + 2) %% 4) in
  match one with
  | None => Ok (a1, a2, lambda)
  | Some (g1, g2) =>
      let! a1 := einsum "pq,lurdp->lurdq" [:: g1; a1] in
      let! a2 := einsum "pq,lurdp->lurdq" [:: g2; a2] in
      Ok (a1, a2, lambda)
  end.
End Als.
