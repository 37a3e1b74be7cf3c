(** Model of acetn/renormalization (directional_mover.py kernels and
    projectors.py) and of the initial tensors of acetn/ipeps/site_tensor.py. *)
From Coq Require Import String Ascii.
From mathcomp Require Import all_ssreflect all_algebra.
From Verif Require Import Base Lattice Mover Tensor TN Rdm Linalg Rsvd.
Set Implicit Arguments.
Unset Strict Implicit.
Unset Printing Implicit Defensive.
Import GRing.Theory Num.Theory.
Local Open Scope ring_scope.
Local Open Scope string_scope.

Section Renorm.
Variable C : numClosedFieldType.
Notation tensor := (tensor C).

(** directional_mover.py 321-323 *)
Definition renormalize_cj1 (ci ei proj : tensor) : res tensor :=
  let! cj := einsum "ablL,bc->alLc" [:: ei; ci] in
  let! cj := einsum "alLc,clLx->ax" [:: cj; proj] in
  tdiv cj (norm cj).

(** 341-343 *)
Definition renormalize_cj2 (ci ei proj : tensor) : res tensor :=
  let! cj := einsum "ab,bcrR->acrR" [:: ci; ei] in
  let! cj := einsum "arRx,acrR->xc" [:: proj; cj] in
  tdiv cj (norm cj).

(** 362-366 *)
Definition renormalize_ej (ei ai proj2 proj1 : tensor) : res tensor :=
  let! ej := einsum "ablL,buUx->alLuUx" [:: ei; proj1] in
  let! ej := einsum "LURDP,alLuUx->RDPalux" [:: conj ai; ej] in
  let! ej := einsum "lurdp,RDpalux->rdRDax" [:: ai; ej] in
  let! ej := einsum "rdRDax,adDy->yxrR" [:: ej; proj2] in
  tdiv ej (norm ej).

(** projectors.py 47-60; the site's tensors are those collected in [quarter] *)
Definition make_quarter_tensor (q : quarter tensor) : res (tensor * seq nat) :=
  let ak := q_a _ q in let ck := q_c _ q in let ek1 := q_e1 _ q in let ek2 := q_e2 _ q in
  let! qk := einsum "ab,bcuU->acuU" [:: ck; ek2] in
  let! qk := einsum "acuU,ealL->cuUelL" [:: qk; ek1] in
  let! qk := einsum "cuUelL,LURDP->cuelRDP" [:: qk; conj ak] in
  let! qk := einsum "lurdp,cuelRDp->crRedD" [:: ak; qk] in
  let qD := shape qk in
  let d i := nth 0%N qD i in
  let! qk := reshape qk [:: d 0 * d 1 * d 2; d 3 * d 4 * d 5]%N in
  let! qk := tdiv qk (absmax qk) in
  Ok (qk, qD).

(** t.view(t.shape[0], *qD[3:]) and t.view( *qD[:3], t.shape[1]) *)
Definition view_cols (t : tensor) (qD : seq nat) : res tensor := reshape t (nth 0%N (shape t) 0 :: drop 3 qD).
Definition view_rows (t : tensor) (qD : seq nat) : res tensor := reshape t (rcons (take 3 qD) (nth 0%N (shape t) 1)).

(** projectors.py 74-82 *)
Definition contract_half_system (g1 g4 : quarter tensor) : res (tensor * tensor * tensor) :=
  let! (Q1, q1D) := make_quarter_tensor g1 in
  let! (Q4, q4D) := make_quarter_tensor g4 in
  let! R := matmul Q1 Q4 in
  let! Q1' := view_cols Q1 q1D in
  let! Q4' := view_rows Q4 q4D in
  let! R := tdiv R (absmax R) in
  Ok (Q1', Q4', R).

(** 96-112 *)
Definition contract_full_system (g1 g2 g3 g4 : quarter tensor) : res (tensor * tensor * tensor) :=
  let! (Q1, q1D) := make_quarter_tensor g1 in
  let! (Q2, _) := make_quarter_tensor g2 in
  let! R1 := matmul Q2 Q1 in
  let! (Q3, _) := make_quarter_tensor g3 in
  let! (Q4, q4D) := make_quarter_tensor g4 in
  let! R2 := matmul Q4 Q3 in
  let! R1 := tdiv R1 (absmax R1) in
  let! R2 := tdiv R2 (absmax R2) in
  let! F := matmul R1 R2 in
  let! R1' := view_cols R1 q1D in
  let! R2' := view_rows R2 q4D in
  let! F := tdiv F (absmax F) in
  Ok (R1', R2', F).

Section Projectors.
Variable R : Type.
Variable randn : R -> forall n q : nat, 'M[C]_(n, q) * R.
Variable lqr : qr_fun C.
Variable lsvd : thin_svd_fun C.
Variable fsvd : full_svd_fun C.

(** CTMRGConfig fields and ipeps.dims["chi"] *)
Record pconfig := PConfig { svd_type : string; svd_cutoff : C; rsvd_niter : nat; rsvd_oversampling : nat; pchi : nat }.
Variable cfg : pconfig.

(** torch.linalg.svd(A) *)
Definition svd_full (t : tensor) : res (tensor * seq C * tensor) :=
  match shape t with
  | [:: m; n] => let: (U, s, Vh) := fsvd (mx_of m n t) in
      Ok (of_mx U, [seq s 0 i | i <- enum 'I_(minn m n)], of_mx Vh)
  | _ => Err RuntimeError
  end.

(** projectors.py 230-236 *)
Definition psvd (r : R) (A : tensor) (cD : nat) : res (tensor * seq C * tensor * R) :=
  if String.eqb (svd_type cfg) "full-rank" then
    let! (U, s, Vh) := svd_full A in Ok (U, s, adjoint Vh, r)
  else if String.eqb (svd_type cfg) "rsvd" then
    svd_lowrank randn lqr lsvd r A (cD + rsvd_oversampling cfg) (rsvd_niter cfg)
  else Err UnboundLocalError.

(** s / s[0] *)
Definition rel (s : seq C) : res (seq C) :=
  match s with
  | [::] => Err IndexError
  | s0 :: _ => if s0 == 0 then Err ZeroNorm else Ok [seq x / s0 | x <- s]
  end.

(** min(chi, (s > svd_cutoff).sum()) *)
Definition kept (chi : nat) (s : seq C) : nat := minn chi (count (fun x => svd_cutoff cfg < x) s).

(** U[:, :c] * (1. / sqrt(s[:c])); division by a zero singular value is an error *)
Definition weight_cols (U : tensor) (s : seq C) (c : nat) : res tensor :=
  match shape U with
  | [:: m; n] =>
      if minn c n == size (take c s) then
        if all (fun x => x != 0) (take c s) then
          Ok (Tensor [:: m; minn c n] (fun idx => at_ U idx * (sqrtC (nth 0 s (nth 0%N idx 1)))^-1))
        else Err ZeroNorm
      else Err ShapeError
  | _ => Err IndexError
  end.

(** projectors.py 127-136 *)
Definition calculate_projectors (r : R) (R1 R2 F : tensor) (chi : nat) : res (tensor * tensor * R) :=
  let! (U, s, V, r') := psvd r F chi in
  let! s := rel s in
  let cD_new := kept chi s in
  let! U := weight_cols U s cD_new in
  let! V := weight_cols V s cD_new in
  let! proj1 := einsum "xedD,xz->edDz" [:: R1; conj U] in
  let! proj2 := einsum "cuUy,yz->cuUz" [:: R2; V] in
  Ok (proj1, proj2, r').

(** 150-174 *)
Definition calculate_half_system (r : R) (g1 g4 : quarter tensor) : res (tensor * tensor * R) :=
  if String.eqb (svd_type cfg) "full-rank" then
    let! (Q1, Q4, F) := contract_half_system g1 g4 in
    calculate_projectors r Q1 Q4 F (pchi cfg)
  else
    let! (Q1, q1D) := make_quarter_tensor g1 in
    let! (Q4, q4D) := make_quarter_tensor g4 in
    let chi := pchi cfg in
    let q := (chi + rsvd_oversampling cfg)%N in
    let! (U, s, V, r') := fused_matmul_svd_lowrank randn lqr lsvd r Q1 Q4 q (rsvd_niter cfg) in
    let! s := rel s in
    let cD_new := kept chi s in
    let! U := weight_cols U s cD_new in
    let! V := weight_cols V s cD_new in
    let! Q1 := view_cols Q1 q1D in
    let! Q4 := view_rows Q4 q4D in
    let! proj1 := einsum "xedD,xz->edDz" [:: Q1; conj U] in
    let! proj2 := einsum "cuUy,yz->cuUz" [:: Q4; V] in
    Ok (proj1, proj2, r').

(** 188-217 *)
Definition calculate_full_system (r : R) (g1 g2 g3 g4 : quarter tensor) : res (tensor * tensor * R) :=
  if String.eqb (svd_type cfg) "full-rank" then
    let! (R1, R2, F) := contract_full_system g1 g2 g3 g4 in
    calculate_projectors r R1 R2 F (pchi cfg)
  else
    let! (Q1, q1D) := make_quarter_tensor g1 in
    let! (Q2, _) := make_quarter_tensor g2 in
    let! (Q3, _) := make_quarter_tensor g3 in
    let! (Q4, q4D) := make_quarter_tensor g4 in
    let chi := pchi cfg in
    let q := (chi + rsvd_oversampling cfg)%N in
    let! (U, s, V, r') := fused_3matmul_svd_lowrank randn lqr lsvd r Q2 Q1 Q4 Q3 q (rsvd_niter cfg) in
    let! s := rel s in
    let cD_new := kept chi s in
    let! U := weight_cols U s cD_new in
    let! V := weight_cols V s cD_new in
    let! T := matmul (adjoint Q2) (conj U) in
    let! proj1 := matmul (adjoint Q1) T in
    let! proj1 := reshape proj1 (rcons (drop 3 q1D) cD_new) in
    let! T := matmul Q3 V in
    let! proj2 := matmul Q4 T in
    let! proj2 := reshape proj2 (rcons (take 3 q4D) cD_new) in
    Ok (proj1, proj2, r').

(** the sequential moves of Mover.v with these kernels *)
Definition move (pt : ptype) (nx ny : nat) :=
  move_dir tensor R (@bond_permute C) renormalize_cj1 renormalize_cj2 renormalize_ej
    calculate_half_system calculate_full_system pt nx ny.
Definition moves (pt : ptype) (nx ny : nat) :=
  run_moves tensor R (@bond_permute C) renormalize_cj1 renormalize_cj2 renormalize_ej
    calculate_half_system calculate_full_system pt nx ny.
Definition step (pt : ptype) (nx ny : nat) :=
  ctmrg_step tensor R (@bond_permute C) renormalize_cj1 renormalize_cj2 renormalize_ej
    calculate_half_system calculate_full_system pt nx ny.
Definition run_ctmrg (pt : ptype) (nx ny : nat) :=
  ctmrg tensor R (@bond_permute C) renormalize_cj1 renormalize_cj2 renormalize_ej
    calculate_half_system calculate_full_system pt nx ny.

End Projectors.

(** ---- initial tensors (site_tensor.py) ---- *)

(** 131-136; [rand] holds the entries torch.rand returned, [noise] is 1e-2 in __init__.
    The in-place addition to A[0,0,0,0,n] raises an IndexError for n >= phys. *)
Definition initialize_site_tensor (bD pD : nat) (site_state : seq C) (noise : C) (rand : tensor) : res tensor :=
  let A := tscale noise rand in
  if [&& (size site_state <= pD)%N & (0 < bD)%N || (size site_state == 0)%N] then
    let A := Tensor (shape A) (fun idx => at_ A idx +
      (if take 4 idx == [:: 0; 0; 0; 0]%N then nth 0 site_state (nth 0%N idx 4) else 0)) in
    tdiv A (norm A)
  else Err IndexError.

(** 169-175 *)
Definition initial_corner (bD k : nat) (a : tensor) : res tensor :=
  let ak := bond_permute k a in
  let! ck := einsum "lurdp,luRDp->dDrR" [:: ak; conj ak] in
  let! ck := reshape ck [:: bD * bD; bD * bD]%N in
  tdiv ck (norm ck).

(** 195-201 *)
Definition initial_edge (bD k : nat) (a : tensor) : res tensor :=
  let ak := bond_permute k a in
  let! ek := einsum "lurdp,LuRDp->lLrRdD" [:: ak; conj ak] in
  let! ek := reshape ek [:: bD * bD; bD * bD; bD; bD]%N in
  tdiv ek (norm ek).

(** __init__ 34-37: the tensors A, C[0..3], E[0..3] of a fresh site *)
Definition init_site (bD pD : nat) (site_state : seq C) (noise : C) (rand : tensor) : res (tensor * seq tensor * seq tensor) :=
  let! A := initialize_site_tensor bD pD site_state noise rand in
  let! Cs := for_each (iota 0 4) (fun k acc => let! ck := initial_corner bD k A in Ok (rcons acc ck)) [::] in
  let! Es := for_each (iota 0 4) (fun k acc => let! ek := initial_edge bD k A in Ok (rcons acc ek)) [::] in
  Ok (A, Cs, Es).

(** the slots of the site's dictionary *)
Definition site_slots (t : tensor * seq tensor * seq tensor) : slot -> tensor := fun sl =>
  match sl with
  | SA => t.1.1
  | SC d => nth t.1.1 t.1.2 d
  | SE d => nth t.1.1 t.2 d
  end.

End Renorm.
