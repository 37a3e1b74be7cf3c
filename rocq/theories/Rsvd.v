(** Model of acetn/linalg: the randomised low-rank SVD and its fused variants. *)
From Coq Require Import String Ascii.
From mathcomp Require Import all_ssreflect all_algebra.
From Verif Require Import Base Tensor TN Linalg.
Set Implicit Arguments.
Unset Strict Implicit.
Unset Printing Implicit Defensive.
Import GRing.Theory Num.Theory.
Local Open Scope ring_scope.

Section Rsvd.
Variable C : numClosedFieldType.
Notation tensor := (tensor C).
Variable R : Type.                          (* state of the random generator *)
Variable randn : R -> forall n q : nat, 'M[C]_(n, q) * R.   (* torch.randn(n, q) *)
Variable lqr : qr_fun C.
Variable lsvd : thin_svd_fun C.

(** torch.linalg.qr(Y)[0] of a 2-dimensional tensor *)
Definition qr_q (t : tensor) : res tensor :=
  match shape t with
  | [:: m; n] => Ok (of_mx (lqr (mx_of m n t)).1)
  | _ => Err RuntimeError
  end.
(** torch.linalg.svd(B, full_matrices=False), singular values as a list *)
Definition svd_thin (t : tensor) : res (tensor * seq C * tensor) :=
  match shape t with
  | [:: m; n] => let: (U, s, Vh) := lsvd (mx_of m n t) in
      Ok (of_mx U, [seq s 0 i | i <- enum 'I_(minn m n)], of_mx Vh)
  | _ => Err RuntimeError
  end.

(** the last lines of the three routines: U = Q @ U_B, V = Vh.mH *)
Definition finish (Q B : tensor) : res (tensor * seq C * tensor) :=
  let! (U_B, s, Vh) := svd_thin B in
  let! U := matmul Q U_B in
  Ok (U, s, adjoint Vh).

(** svd_lowrank.py 27-44 *)
Definition svd_lowrank (r : R) (A : tensor) (q niter : nat) : res (tensor * seq C * tensor * R) :=
  match shape A with
  | [:: m; n] =>
      let q := minn q (minn m n) in
      let (Omega, r') := randn r n q in
      let! Y := matmul A (of_mx Omega) in
      let! Y := for_each (iota 0 niter) (fun _ Y =>
        let! Y := qr_q Y in
        let! T := matmul (adjoint A) Y in
        matmul A T) Y in
      let! Q := qr_q Y in
      let! B := matmul (adjoint Q) A in
      let! usv := finish Q B in
      Ok (usv, r')
  | _ => Err ValueError
  end.

(** fused_matmul_svd_lowrank.py 26-52 *)
Definition fused_matmul_svd_lowrank (r : R) (A B : tensor) (q niter : nat)
  : res (tensor * seq C * tensor * R) :=
  match shape A, shape B with
  | m :: _, [:: _; n] =>
      let q := minn q (minn m n) in
      let (Omega, r') := randn r n q in
      let! T := matmul B (of_mx Omega) in
      let! Y := matmul A T in
      let! Y := for_each (iota 0 niter) (fun _ Y =>
        let! Y := qr_q Y in
        let! T := matmul (adjoint A) Y in
        let! T := matmul (adjoint B) T in
        let! T := matmul B T in
        matmul A T) Y in
      let! Q := qr_q Y in
      let! P := matmul (adjoint Q) A in
      let! P := matmul P B in
      let! usv := finish Q P in
      Ok (usv, r')
  | _, _ => Err IndexError
  end.

(** fused_3matmul_svd_lowrank.py 28-56 *)
Definition fused_3matmul_svd_lowrank (r : R) (A B D E : tensor) (q niter : nat)
  : res (tensor * seq C * tensor * R) :=
  match shape A, shape E with
  | m :: _, [:: _; n] =>
      let q := minn q (minn m n) in
      let (Omega, r') := randn r n q in
      let! T := matmul E (of_mx Omega) in
      let! T := matmul D T in
      let! T := matmul B T in
      let! Y := matmul A T in
      let! Y := for_each (iota 0 niter) (fun _ Y =>
        let! Y := qr_q Y in
        let! T := matmul (adjoint A) Y in
        let! T := matmul (adjoint B) T in
        let! T := matmul (adjoint D) T in
        let! Y := matmul (adjoint E) T in
        let! Y := qr_q Y in
        let! T := matmul E Y in
        let! T := matmul D T in
        let! T := matmul B T in
        matmul A T) Y in
      let! Q := qr_q Y in
      let! P := matmul (adjoint Q) A in
      let! P := matmul P B in
      let! P := matmul P D in
      let! P := matmul P E in
      let! usv := finish Q P in
      Ok (usv, r')
  | _, _ => Err IndexError
  end.

End Rsvd.
