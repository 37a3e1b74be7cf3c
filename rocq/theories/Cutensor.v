(** Model of the compiled solver: csrc/linalg/contraction.h, contraction.cpp,
    cholesky_solve.h, csrc/evolution/als_tensors.cpp, als_solve.cpp, and its call
    in acetn/evolution/als_solver.py 84-109.

    Device memory is modelled: a buffer is a function from positions to scalars,
    cuTENSOR reads and writes buffers through extents and strides.  Workspace,
    streams, handles, the choice of the compute type and rounding (including the
    conversion of tolerances to float32) are left out. *)
From Coq Require Import String Ascii.
From mathcomp Require Import all_ssreflect all_algebra.
From Verif Require Import Base Mover Tensor Linalg Rsvd Renorm Als Strides AlsLoop.
Set Implicit Arguments.
Unset Strict Implicit.
Unset Printing Implicit Defensive.
Import GRing.Theory Num.Theory.
Local Open Scope ring_scope.
Local Open Scope string_scope.

(** ---- contraction.h ---- *)

(** einsum_expr.find("->") with the two substr calls, 122-128 *)
Fixpoint find_arrow (s : seq ascii) : option (seq ascii * seq ascii) :=
  match s with
  | [::] => None
  | a :: s' =>
      match s' with
      | [::] => None
      | b :: s'' =>
          if Ascii.eqb a "-" && Ascii.eqb b ">" then Some ([::], s'')
          else match find_arrow s' with Some (l, r) => Some (a :: l, r) | None => None end
      end
  end.
(** left.find(',') with the two substr calls, 130-136 *)
Fixpoint find_char (c : ascii) (s : seq ascii) : option (seq ascii * seq ascii) :=
  match s with
  | [::] => None
  | a :: s' => if Ascii.eqb a c then Some ([::], s')
               else match find_char c s' with Some (l, r) => Some (a :: l, r) | None => None end
  end.

(** label_to_dim, an unordered_map *)
Fixpoint map_find (l : label) (m : seq (label * nat)) : option nat :=
  match m with [::] => None | (l', d) :: m => if Ascii.eqb l l' then Some d else map_find l m end.

Record modes := Modes { extentC : seq nat; modeA : seq label; modeB : seq label; modeC : seq label }.

(** 115-189.  The dimensions are compared only if the output has labels. *)
Definition parseEinsumExpression (expr : string) (extentA extentB : seq nat) : res modes :=
  match find_arrow (list_ascii_of_string expr) with
  | None => Err RuntimeError
  | Some (lhs, labelsC) =>
      match find_char "," lhs with
      | None => Err RuntimeError
      | Some (labelsA, labelsB) =>
          if size labelsA != size extentA then Err RuntimeError
          else if size labelsB != size extentB then Err RuntimeError
          else if labelsC is [::] then Ok (Modes [::] labelsA labelsB labelsC)
          else
            let m := foldl (fun m '(l, d) => if map_find l m is Some _ then m else (l, d) :: m)
                       [::] (zip labelsA extentA) in
            let! m := for_each (zip labelsB extentB) (fun '(l, d) m =>
              match map_find l m with
              | None => Ok ((l, d) :: m)
              | Some d' => if d' != d then Err RuntimeError else Ok m
              end) m in
            let! ext := for_each labelsC (fun l ext =>
              match map_find l m with
              | None => Err RuntimeError
              | Some d => Ok (rcons ext d)
              end) [::] in
            Ok (Modes ext labelsA labelsB labelsC)
      end
  end.

Record plan := Plan {
  p_modes : modes; p_extentA : seq nat; p_extentB : seq nat;
  p_strideA : seq nat; p_strideB : seq nat; p_strideC : seq nat; p_conjA : bool; p_conjB : bool }.

Fixpoint distinct (s : seq label) : bool :=
  match s with [::] => true | l :: s => ~~ mem_label l s && distinct s end.

(** what cutensorCreateContraction accepts: no mode twice in a tensor, one extent
    per mode, every output mode in an input *)
Definition library_accepts (p : plan) : bool :=
  let m := p_modes p in
  let dm := (zip (modeA m) (p_extentA p) ++ zip (modeB m) (p_extentB p) ++ zip (modeC m) (extentC m))%SEQ in
  [&& distinct (modeA m), distinct (modeB m), distinct (modeC m),
      all (fun x => all (fun y => Ascii.eqb x.1 y.1 ==> (x.2 == y.2)) dm) dm &
      all (fun l => mem_label l (modeA m ++ modeB m)%SEQ) (modeC m)].

Section Cutensor.
Variable C : numClosedFieldType.
Notation tensor := (tensor C).

(** contraction.h 198-219, 234-277 and contraction.cpp 3-48; [cplx]: the dtype is
    complex *)
Definition create_contraction_plan (cplx : bool) (expr : string) (extA extB : seq nat) (conjA conjB : bool) : res plan :=
  let! m := parseEinsumExpression expr extA extB in
  let p := Plan m extA extB (compute_row_major_strides extA) (compute_row_major_strides extB)
             (compute_row_major_strides (extentC m)) (conjA && cplx) (conjB && cplx) in
  if library_accepts p then Ok p else Err RuntimeError.

Definition mem := nat -> C.

(** cutensorContract with alpha = 1 and beta = 0 (contraction.h 279-295, contraction.cpp 50-72): the
    value for the output index idx is the sum over all values v of the modes that
    are in an input and not in the output *)
Definition summed_modes (m : modes) : seq label :=
  [seq l <- (modeA m ++ [seq l <- modeB m | ~~ mem_label l (modeA m)])%SEQ | ~~ mem_label l (modeC m)].
Definition extent (p : plan) (l : label) : nat :=
  lookup 0%N l (zip (modeA (p_modes p)) (p_extentA p) ++ zip (modeB (p_modes p)) (p_extentB p))%SEQ.
Definition fetch (strides : seq nat) (cj : bool) (buf : mem) (env : seq (label * nat)) (ls : seq label) : C :=
  let x := buf (address strides [seq lookup 0%N l env | l <- ls]) in if cj then x^* else x.
Definition contract_value (p : plan) (A B : mem) (idx : seq nat) : C :=
  let m := p_modes p in let ls := summed_modes m in
  \sum_(v <- indices [seq extent p l | l <- ls])
    let env := (zip (modeC m) idx ++ zip ls v)%SEQ in
    fetch (p_strideA p) (p_conjA p) A env (modeA m) * fetch (p_strideB p) (p_conjB p) B env (modeB m).
(** the buffer of the output afterwards *)
Definition contract (p : plan) (A B out : mem) : mem := fun a =>
  match [seq idx <- indices (extentC (p_modes p)) | address (p_strideC p) idx == a] with
  | idx :: _ => contract_value p A B idx
  | [::] => out a
  end.

(** a tensor in contiguous memory, and a buffer read as a contiguous tensor *)
Definition data (t : tensor) : mem := fun a => at_ t (unravel (shape t) a).
Definition view (sh : seq nat) (m : mem) : tensor := Tensor sh (fun idx => m (ravel sh idx)).

(** ---- als_tensors.h, als_tensors.cpp ---- *)
Record als_tensors := AlsTensors {
  nD_ : nat; bD_ : nat; pD_ : nat;
  a1r_ : mem; a2r_ : mem; n12g_ : mem; n12_ : mem; a12g_ : mem;
  S_ : mem; R_ : mem; R_intm_ : mem; a12n_ : mem; d_intm_ : mem; d2_ : mem; d3_ : mem;
  plan_cache_ : seq (string * plan) }.

Definition set_a1r x (t : als_tensors) := AlsTensors (nD_ t) (bD_ t) (pD_ t) x (a2r_ t) (n12g_ t) (n12_ t) (a12g_ t)
  (S_ t) (R_ t) (R_intm_ t) (a12n_ t) (d_intm_ t) (d2_ t) (d3_ t) (plan_cache_ t).
Definition set_a2r x (t : als_tensors) := AlsTensors (nD_ t) (bD_ t) (pD_ t) (a1r_ t) x (n12g_ t) (n12_ t) (a12g_ t)
  (S_ t) (R_ t) (R_intm_ t) (a12n_ t) (d_intm_ t) (d2_ t) (d3_ t) (plan_cache_ t).
Definition set_S x (t : als_tensors) := AlsTensors (nD_ t) (bD_ t) (pD_ t) (a1r_ t) (a2r_ t) (n12g_ t) (n12_ t) (a12g_ t)
  x (R_ t) (R_intm_ t) (a12n_ t) (d_intm_ t) (d2_ t) (d3_ t) (plan_cache_ t).
Definition set_R x (t : als_tensors) := AlsTensors (nD_ t) (bD_ t) (pD_ t) (a1r_ t) (a2r_ t) (n12g_ t) (n12_ t) (a12g_ t)
  (S_ t) x (R_intm_ t) (a12n_ t) (d_intm_ t) (d2_ t) (d3_ t) (plan_cache_ t).
Definition set_R_intm x (t : als_tensors) := AlsTensors (nD_ t) (bD_ t) (pD_ t) (a1r_ t) (a2r_ t) (n12g_ t) (n12_ t) (a12g_ t)
  (S_ t) (R_ t) x (a12n_ t) (d_intm_ t) (d2_ t) (d3_ t) (plan_cache_ t).
Definition set_a12n x (t : als_tensors) := AlsTensors (nD_ t) (bD_ t) (pD_ t) (a1r_ t) (a2r_ t) (n12g_ t) (n12_ t) (a12g_ t)
  (S_ t) (R_ t) (R_intm_ t) x (d_intm_ t) (d2_ t) (d3_ t) (plan_cache_ t).
Definition set_d_intm x (t : als_tensors) := AlsTensors (nD_ t) (bD_ t) (pD_ t) (a1r_ t) (a2r_ t) (n12g_ t) (n12_ t) (a12g_ t)
  (S_ t) (R_ t) (R_intm_ t) (a12n_ t) x (d2_ t) (d3_ t) (plan_cache_ t).
Definition set_d2 x (t : als_tensors) := AlsTensors (nD_ t) (bD_ t) (pD_ t) (a1r_ t) (a2r_ t) (n12g_ t) (n12_ t) (a12g_ t)
  (S_ t) (R_ t) (R_intm_ t) (a12n_ t) (d_intm_ t) x (d3_ t) (plan_cache_ t).
Definition set_d3 x (t : als_tensors) := AlsTensors (nD_ t) (bD_ t) (pD_ t) (a1r_ t) (a2r_ t) (n12g_ t) (n12_ t) (a12g_ t)
  (S_ t) (R_ t) (R_intm_ t) (a12n_ t) (d_intm_ t) (d2_ t) x (plan_cache_ t).

(** contract(plan_cache_[key], A, B, C): a key without plan gives an empty plan,
    which contraction.cpp 54-56 rejects *)
Fixpoint cached (cache : seq (string * plan)) (key : string) : res plan :=
  match cache with
  | [::] => Err RuntimeError
  | (k, p) :: cache => if String.eqb k key then Ok p else cached cache key
  end.
Definition run (t : als_tensors) (key : string) (A B out : mem) : res mem :=
  let! p := cached (plan_cache_ t) key in Ok (contract p A B out).

Variable cplx : bool.
(** torch::empty: the content of new memory is arbitrary *)
Variable empty : nat -> mem.

(** als_tensors.cpp 29-63 *)
Definition add_plan (key expr : string) (shA shB : seq nat) (conjB : bool) (cache : seq (string * plan)) : res (seq (string * plan)) :=
  let! p := create_contraction_plan cplx expr shA shB false conjB in Ok ((key, p) :: cache).
Definition make_als_tensors (a1r a2r n12g n12 a12g : tensor) : res als_tensors :=
  match shape a1r with
  | [:: nD; bD; pD] =>
      let sI := [:: nD; nD; nD; bD; pD] in let sP := [:: nD; nD; pD; pD] in
      let! c := add_plan "S1" "YXpQ,XUQ->YUp" (shape n12g) (shape a2r) true [::] in
      let! c := add_plan "S2" "YXPq,YVP->XVq" (shape n12g) (shape a1r) true c in
      let! c := add_plan "R1_intm" "yxYX,xuq->yYXuq" (shape n12) (shape a2r) false c in
      let! c := add_plan "R1" "yYXuQ,XUQ->YUyu" sI (shape a2r) true c in
      let! c := add_plan "R2_intm" "yxYX,yvp->xYXvp" (shape n12) (shape a1r) false c in
      let! c := add_plan "R2" "xYXvP,YVP->XVxv" sI (shape a1r) true c in
      let! c := add_plan "a12n" "yup,xuq->yxpq" (shape a1r) (shape a2r) false c in
      let! c := add_plan "d_intm" "yxYX,yxpq->YXpq" (shape n12) sP false c in
      let! c := add_plan "d" "YXpq,YXpq->" sP sP true c in
      Ok (AlsTensors nD bD pD (data a1r) (data a2r) (data n12g) (data n12) (data a12g)
            (empty 0) (empty 1) (empty 2) (empty 3) (empty 4) (empty 5) (empty 6) c)
  | _ => Err IndexError
  end.

(** als_tensors.cpp 70-115 (get_real_scalar 21-27) *)
Definition cbuild_S1 (t : als_tensors) : res als_tensors :=
  let! s := run t "S1" (n12g_ t) (a2r_ t) (S_ t) in Ok (set_S s t).
Definition cbuild_S2 (t : als_tensors) : res als_tensors :=
  let! s := run t "S2" (n12g_ t) (a1r_ t) (S_ t) in Ok (set_S s t).
Definition cbuild_R1 (t : als_tensors) : res als_tensors :=
  let! x := run t "R1_intm" (n12_ t) (a2r_ t) (R_intm_ t) in let t := set_R_intm x t in
  let! x := run t "R1" (R_intm_ t) (a2r_ t) (R_ t) in Ok (set_R x t).
Definition cbuild_R2 (t : als_tensors) : res als_tensors :=
  let! x := run t "R2_intm" (n12_ t) (a1r_ t) (R_intm_ t) in let t := set_R_intm x t in
  let! x := run t "R2" (R_intm_ t) (a1r_ t) (R_ t) in Ok (set_R x t).
Definition real_scalar (x : C) : C := if cplx then 'Re x else x.
Definition ccost (t : als_tensors) : res (C * als_tensors) :=
  let! x := run t "a12n" (a1r_ t) (a2r_ t) (a12n_ t) in let t := set_a12n x t in
  let! x := run t "d_intm" (n12_ t) (a12n_ t) (d_intm_ t) in let t := set_d_intm x t in
  let! x := run t "d" (d_intm_ t) (a12n_ t) (d2_ t) in let t := set_d2 x t in
  let! x := run t "d_intm" (n12_ t) (a12g_ t) (d_intm_ t) in let t := set_d_intm x t in
  let! x := run t "d" (d_intm_ t) (a12n_ t) (d3_ t) in let t := set_d3 x t in
  Ok (real_scalar (d2_ t 0%N) - 2%:R * real_scalar (d3_ t 0%N), t).

(** ---- cholesky_solve.h ---- *)

(** cusolverDn<t>potrf with CUBLAS_FILL_MODE_LOWER: the overwritten matrix and
    whether devInfo is 0; cusolverDn<t>potrs *)
Definition potrf_fun := forall n, 'M[C]_n -> 'M[C]_n * bool.
Definition potrs_fun := forall n p, 'M[C]_n -> 'M[C]_(n, p) -> 'M[C]_(n, p).
(** devInfo = 0 exactly if a Cholesky factor exists; then the lower triangle holds
    it *)
Definition potrf_spec (potrf : potrf_fun) : Prop := forall n (A : 'M[C]_n),
  let: (F, ok) := potrf n A in
  (ok -> (forall i, 0 < F i i) /\ lowherm A = tril F *m adj (tril F)) /\
  (forall L : 'M[C]_n, (forall i j : 'I_n, (i < j)%N -> L i j = 0) -> (forall i, 0 < L i i) -> lowherm A = L *m adj L -> ok).
(** solves with the factor in the lower triangle *)
Definition potrs_spec (potrs : potrs_fun) : Prop := forall n p (F : 'M[C]_n) (B : 'M[C]_(n, p)),
  (forall i, 0 < F i i) -> tril F *m adj (tril F) *m potrs n p F B = B.

Variables (potrf : potrf_fun) (potrs : potrs_fun).
Variable leigh : eigh_fun C.

(** A.t().contiguous().t().clone(): column-major memory; the matrix cuSOLVER sees
    with leading dimension ld *)
Definition column_major (t : tensor) : mem :=
  let n := nth 0%N (shape t) 0 in fun a => at_ t [:: a %% n; a %/ n]%N.
Definition lapack_mx n m (ld : nat) (buf : mem) : 'M[C]_(n, m) := \matrix_(i, j) buf (j * ld + i)%N.

(** 80-110; devInfo is not looked at *)
Definition cholesky_solve (A B : tensor) : tensor :=
  let n := nth 0%N (shape A) 0 in let nrhs := nth 0%N (shape B) 1 in
  let A_ := (potrf (lapack_mx n n n (column_major A))).1 in
  of_mx (potrs A_ (lapack_mx n nrhs n (column_major B))).

(** ---- als_solve.cpp ---- *)

(** 25-53; reshape of the contiguous S and R keeps the memory *)
Definition csolve_ar (method : method) (epsilon : C) (t : als_tensors) : res tensor :=
  let nD := nD_ t in let bD := bD_ t in let pD := pD_ t in
  let S := view [:: nD * bD; pD]%N (S_ t) in
  let R := view [:: nD * bD; nD * bD]%N (R_ t) in
  let! R := tadd R (adjoint R) in
  let R := tscale 2%:R^-1 R in
  match method with
  | Cholesky =>
      let! R := tadd R (tscale (epsilon * absmax R) (eye C (nD * bD))) in
      reshape (cholesky_solve R S) [:: nD; bD; pD]
  | Pinv =>
      let! R_inv := herm_pinv leigh epsilon R in
      let! X := matmul R_inv S in reshape X [:: nD; bD; pD]
  end.

(** 61-76; a zero previous cost makes the error inf or nan, written None *)
Definition cupdate (method : method) (epsilon : C) (cost : C) (t : als_tensors) : res (option C * C * als_tensors) :=
  let! t := cbuild_S1 t in
  let! t := cbuild_R1 t in
  let! a1r := csolve_ar method epsilon t in
  let t := set_a1r (data a1r) t in
  let! t := cbuild_S2 t in
  let! t := cbuild_R2 t in
  let! a2r := csolve_ar method epsilon t in
  let t := set_a2r (data a2r) t in
  let! (cost_new, t) := ccost t in
  Ok (if cost == 0 then None else Some (`|cost_new - cost| / `|cost|), cost_new, t).

(** 100-103 *)
Fixpoint cloop (method : method) (epsilon tol : C) (n i : nat) (cost : C) (t : als_tensors) : res als_tensors :=
  match n with
  | 0 => Ok t
  | n.+1 =>
      let! (error, cost, t) := cupdate method epsilon cost t in
      if (1 < i)%N && (if error is Some e then e < tol else false) then Ok t
      else cloop method epsilon tol n i.+1 cost t
  end.

(** 84-132 *)
Definition cals_solve (a1r a2r n12g n12 a12g : tensor) (niter : nat) (tol : C) (method : string) (epsilon : C) : res (tensor * tensor) :=
  let! m := parse_solver_method method in
  let! t := make_als_tensors a1r a2r n12g n12 a12g in
  let! (cost, t) := ccost t in
  let! t := cloop m epsilon tol niter 0 cost t in
  let sh := [:: nD_ t; bD_ t; pD_ t] in
  Ok (view sh (a1r_ t), view sh (a2r_ t)).

(** als_solver.py 34-53 with backend "cutensor", 84-114 *)
Variable fsvd : full_svd_fun C.
Variable cfg : econfig C.
Definition als_solve_cutensor (n12 a12g : tensor) (nD bD pD : nat) : res (tensor * tensor) :=
  let! (a1r, a2r) := initialize_reduced_tensors fsvd a12g nD bD pD in
  let! n12g := einsum "yxYX,yxpq->YXpq" [:: n12; a12g] in
  cals_solve a1r a2r n12g n12 a12g (als_niter cfg) (als_tol cfg) (als_method cfg) (als_epsilon cfg).

End Cutensor.
