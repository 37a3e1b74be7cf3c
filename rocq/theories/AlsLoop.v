(** Control flow of the two ALS solver loops, acetn/evolution/als_solver.py and
    csrc/evolution/als_solve.cpp.  Contractions, linear solver and arithmetic on
    costs are arbitrary functions. *)
From Coq Require Import String.
From Coq Require Import List Arith Lia Bool.
From Verif Require Import Base.
Import ListNotations.

Section Als.
Variables (T num : Type).
(** solve_ar(R, S) of the normal equations for a1r given a2r, and for a2r given
    a1r (als_solver.py 148-192), for the two known methods *)
Inductive method := Cholesky | Pinv.
Variables (solve1 solve2 : method -> T -> res T).
Variable (cost : T -> T -> num).               (* calculate_cost, 251-260 *)
Variables (absn : num -> num) (sub div : num -> num -> num) (ltb : num -> num -> bool).

(** als_solver.py 218-229: [match] without a default case leaves [ar] unbound *)
Definition parse_py (m : string) : option method :=
  if string_dec m "cholesky" then Some Cholesky
  else if string_dec m "pinv" then Some Pinv else None.
Definition py_solve (f : method -> T -> res T) (m : string) (a : T) : res T :=
  match parse_py m with Some m => f m a | None => Err UnboundLocalError end.

(** als_solver.py 74-82: [n] sweeps left, [i] the loop variable, [d1] the
    previous cost *)
Fixpoint torch_loop (m : string) (tol : num) (n i : nat) (a1r a2r : T) (d1 : num) : res (T * T) :=
  match n with
  | 0 => Ok (a1r, a2r)
  | S n =>
      let! a1r := py_solve solve1 m a2r in
      let! a2r := py_solve solve2 m a1r in
      let d2 := cost a1r a2r in
      let error := div (absn (sub d2 d1)) (absn d1) in
      if ltb error tol && (1 <? i) then Ok (a1r, a2r)
      else torch_loop m tol n (S i) a1r a2r d2
  end.

(** als_solver.py 73-82 *)
Definition solve_torch (m : string) (tol : num) (niter : nat) (a1r a2r : T) : res (T * T) :=
  torch_loop m tol niter 0 a1r a2r (absn (cost a1r a2r)).

(** als_solve.cpp 15-23 *)
Definition parse_solver_method (m : string) : res method :=
  if string_dec m "cholesky" then Ok Cholesky
  else if string_dec m "pinv" then Ok Pinv else Err RuntimeError.

(** AlsTensors holding a1r and a2r, and AlsUpdate holding the last cost *)
Record als := Als { t_a1r : T; t_a2r : T; t_cost : num }.

(** the C++ linear solver, cholesky_solve.h / linalg_pinv *)
Variables (csolve1 csolve2 : method -> T -> res T).

(** als_solve.cpp 61-77, AlsUpdate::operator() *)
Definition als_update (m : method) (x : als) : res (num * als) :=
  let! a1r := csolve1 m (t_a2r x) in
  let x := Als a1r (t_a2r x) (t_cost x) in
  let! a2r := csolve2 m (t_a1r x) in
  let x := Als (t_a1r x) a2r (t_cost x) in
  let cost_new := cost (t_a1r x) (t_a2r x) in
  let error := div (absn (sub cost_new (t_cost x))) (absn (t_cost x)) in
  Ok (error, Als (t_a1r x) (t_a2r x) cost_new).

(** als_solve.cpp 102-105 *)
Fixpoint cpp_loop (m : method) (tol : num) (n i : nat) (x : als) : res als :=
  match n with
  | 0 => Ok x
  | S n =>
      let! (error, x) := als_update m x in
      if (1 <? i) && ltb error tol then Ok x else cpp_loop m tol n (S i) x
  end.

(** als_solve.cpp 87-107 and 121-127 (the conversion of tol and epsilon to
    float32 is not modelled) *)
Definition solve_cutensor (m : string) (tol : num) (niter : nat) (a1r a2r : T) : res (T * T) :=
  let! m := parse_solver_method m in
  let! x := cpp_loop m tol niter 0 (Als a1r a2r (cost a1r a2r)) in
  Ok (t_a1r x, t_a2r x).

(** ---- specification side ---- *)

(** The tensors after [j] full sweeps, without any stopping. *)
Fixpoint sweeps (m : method) (a1r a2r : T) (j : nat) : res (T * T) :=
  match j with
  | 0 => Ok (a1r, a2r)
  | S j => let! (_, a2r) := sweeps m a1r a2r j in
           let! a1r := solve1 m a2r in
           let! a2r := solve2 m a1r in Ok (a1r, a2r)
  end.

(** Sweep number [j] (counting from 1) changed the cost by less than [tol],
    relative to the cost before it. *)
Definition settled (m : method) (tol : num) (a1r a2r : T) (j : nat) : Prop :=
  exists x y, sweeps m a1r a2r (j - 1) = Ok x /\ sweeps m a1r a2r j = Ok y /\
    let cx := cost (fst x) (snd x) in let cy := cost (fst y) (snd y) in
    ltb (div (absn (sub cy cx)) (absn cx)) tol = true.

(** ---- lemmas ---- *)

Definition good (o : option method) : bool := match o with Some _ => true | None => false end.

Lemma loop_prefix m mm tol a1 a2 : parse_py m = Some mm -> forall n i x,
  sweeps mm a1 a2 i = Ok x -> forall d1, (2 <= i -> d1 = cost (fst x) (snd x)) ->
  exists k, i <= k /\ k <= i + n /\ torch_loop m tol n i (fst x) (snd x) d1 = sweeps mm a1 a2 k /\
    (forall j, i < j < k -> 3 <= j -> ~ settled mm tol a1 a2 j) /\
    (k < i + n -> (exists e, sweeps mm a1 a2 k = Err e) \/ (3 <= k /\ settled mm tol a1 a2 k)).
Proof.
  intros Hm. induction n as [|n IH]; intros i x Hx d1 Hd; cbn [torch_loop].
  - exists i. rewrite Hx. destruct x. repeat split; auto; lia.
  - assert (HS : sweeps mm a1 a2 (S i) =
       (let! a1r := solve1 mm (snd x) in let! a2r := solve2 mm a1r in Ok (a1r, a2r))).
    { cbn [sweeps]. rewrite Hx. destruct x. reflexivity. }
    unfold py_solve at 1. rewrite Hm. destruct (solve1 mm (snd x)) as [b1|e] eqn:E1; cbn [bind] in *.
    2:{ exists (S i). rewrite HS. split; [lia|]. split; [lia|]. split; [reflexivity|]. split; [lia|].
        left; eauto. }
    unfold py_solve at 1. rewrite Hm. destruct (solve2 mm b1) as [b2|e] eqn:E2; cbn [bind] in *.
    2:{ exists (S i). rewrite HS. split; [lia|]. split; [lia|]. split; [reflexivity|]. split; [lia|].
        left; eauto. }
    destruct (ltb _ tol && (1 <? i)) eqn:Et.
    + apply andb_prop in Et as [Et Ei]. apply Nat.ltb_lt in Ei.
      exists (S i). rewrite HS. split; [lia|]. split; [lia|]. split; [reflexivity|]. split; [lia|].
      intros _. right. split; [lia|]. exists x, (b1, b2).
      replace (S i - 1) with i by lia. rewrite HS. rewrite Hd in Et by lia. auto.
    + destruct (IH (S i) (b1, b2) HS (cost b1 b2) (fun _ => eq_refl)) as (k & K1 & K2 & K3 & K4 & K5).
      exists k. cbn [fst snd] in K3. split; [lia|]. split; [lia|]. split; [exact K3|]. split.
      * intros j Hj H3. destruct (Nat.eq_dec j (S i)) as [-> |]; [|apply K4; lia].
        intros (y & z & Hy & Hz & Hl). replace (S i - 1) with i in Hy by lia.
        rewrite Hx in Hy. injection Hy as <-. rewrite HS in Hz. injection Hz as <-. cbn [fst snd] in Hl.
        rewrite <- Hd in Hl by lia. rewrite Hl in Et. rewrite andb_true_l in Et. apply Nat.ltb_ge in Et. lia.
      * intros Hk. apply K5. lia.
Qed.

Lemma loops_agree m mm tol : parse_py m = Some mm ->
  (forall a, solve1 mm a = csolve1 mm a) -> (forall a, solve2 mm a = csolve2 mm a) ->
  forall n i a1 a2 d1 c, (2 <= i -> d1 = c) ->
  torch_loop m tol n i a1 a2 d1 = let! x := cpp_loop mm tol n i (Als a1 a2 c) in Ok (t_a1r x, t_a2r x).
Proof.
  intros Hm H1 H2. induction n as [|n IH]; intros i a1 a2 d1 c Hd; cbn [torch_loop cpp_loop]; [reflexivity|].
  unfold py_solve, als_update. rewrite Hm. cbn [t_a1r t_a2r t_cost]. rewrite <- H1.
  destruct (solve1 mm a2) as [b1|e]; cbn [bind]; [|reflexivity]. rewrite <- H2.
  destruct (solve2 mm b1) as [b2|e]; cbn [bind]; [|reflexivity]. cbn [t_a1r t_a2r t_cost].
  destruct (Nat.ltb_spec 1 i).
  - rewrite Hd by lia. rewrite andb_true_r. cbn [andb].
    destruct (ltb _ tol); [reflexivity|]. apply IH. auto.
  - rewrite andb_false_r. cbn [andb]. apply IH. auto.
Qed.

End Als.
