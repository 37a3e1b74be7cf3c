(** The total generator of the gates (properties C02, C03): Gate.v with its
    matrices instantiated by tensors. *)
From Coq Require Import List Arith Lia Permutation.
From mathcomp Require Import all_ssreflect all_algebra.
From Verif Require Import Lattice LatticeFacts Gate Base Tensor.
Set Implicit Arguments.
Unset Strict Implicit.
Unset Printing Implicit Defensive.
Import GRing.Theory Num.Theory.
Local Open Scope ring_scope.

Section GateSum.
Variable C : numClosedFieldType.
Variable pD : nat.

(** Matrix addition and kron(h, I), kron(I, h) for square matrices; the shapes
    are those torch computes (a mismatch would raise, and is excluded by taking
    one- and two-site operators of dimension pD and pD*pD). *)
Definition madd (a b : tensor C) : tensor C :=
  Tensor (shape a) (fun i => at_ a i + at_ b i).
Definition kronT (a b : tensor C) : tensor C :=
  match kron a b with Ok t => t | Err _ => a end.

(** gate.py 100-106: 0.25*(kron(h1, I) + kron(I, h2)) *)
Definition wrap (h1 h2 : tensor C) : tensor C :=
  tscale (4%:R^-1) (madd (kronT h1 (eye C pD)) (kronT (eye C pD) h2)).

(** The generator that ends up in the gate of bond b (Gate.v). *)
Definition bond_generator (one : site -> option (tensor C)) (two : bond -> tensor C) (b : bond)
  : tensor C := @generator _ madd wrap one two b.

(** An embedding of one- and two-site operators in a space V of many-body
    operators (or of numbers, for an expectation value): linear, and a one-site
    operator on an end of a bond is the corresponding kron with the identity. *)
Record embedding (V : lmodType C) (embS : site -> tensor C -> V) (embB : bond -> tensor C -> V) : Prop :=
  Embedding {
    embB_add : forall b x y, embB b (madd x y) = embB b x + embB b y;
    embB_scale : forall b c x, embB b (tscale c x) = c *: embB b x;
    embB_left : forall b h, shape h = [:: pD; pD] -> embB b (kronT h (eye C pD)) = embS (b_s1 b) h;
    embB_right : forall b h, shape h = [:: pD; pD] -> embB b (kronT (eye C pD) h) = embS (b_s2 b) h }.

Section Sum.
Variables (V : lmodType C) (embS : site -> tensor C -> V) (embB : bond -> tensor C -> V).
Hypothesis emb : embedding embS embB.
Variables (one : site -> option (tensor C)) (two : bond -> tensor C).
Hypothesis one_shape : forall s h, one s = Some h -> shape h = [:: pD; pD].

(** number of neighbours of s (with multiplicity, four directions) that have a
    one-site term *)
Definition neighbours_with_term (nx ny : nat) (s : site) : nat :=
  length (List.filter (fun d => match one (nbr nx ny d s) with Some _ => true | None => false end)
                      [:: 0; 1; 2; 3]%N).

Definition site_term (s : site) : V := match one s with Some h => embS s h | None => 0 end.

Lemma sum_perm (A : Type) (l l' : list A) (F : A -> V) :
  Permutation l l' -> \sum_(x <- l) F x = \sum_(x <- l') F x.
Proof.
elim=> [|x l1 l2 _ IH|x y l1|l1 l2 l3 _ IH1 _ IH2] //.
- by rewrite !big_cons IH.
- by rewrite !big_cons addrCA.
- by rewrite IH1.
Qed.

Lemma sum_flat_map (A B : Type) (l : list A) (g : A -> list B) (F : B -> V) :
  \sum_(x <- List.flat_map g l) F x = \sum_(a <- l) \sum_(x <- g a) F x.
Proof.
elim: l => [|a l IH] /=; first by rewrite !big_nil.
by rewrite big_cons big_cat /= IH.
Qed.

Lemma sum_ext_in (A : Type) (l : list A) (F G : A -> V) :
  (forall a, List.In a l -> F a = G a) -> \sum_(a <- l) F a = \sum_(a <- l) G a.
Proof.
elim: l => [|a l IH] H; first by rewrite !big_nil.
rewrite !big_cons H /=; last by left.
by rewrite IH // => b Hb; apply: H; right.
Qed.

(** Contribution of the end (s, d): a quarter of the site term when both this
    site and its neighbour in direction d have one. *)
Definition end_term (nx ny : nat) (e : site * nat) : V :=
  match one (nbr nx ny e.2 e.1) with
  | Some _ => 4%:R^-1 *: site_term e.1
  | None => 0
  end.

Lemma bond_generator_sum nx ny b : List.In b (build_bond_list nx ny) ->
  embB b (bond_generator one two b) =
  embB b (two b) + \sum_(e <- bond_ends b) end_term nx ny e.
Proof.
move=> Hb.
have [H1 [H2 [A1 A2]]] := bond_list_adjacent nx ny b Hb.
have k4 : (b_k b < 4)%coq_nat /\ ((b_k b + 2) mod 4 < 4)%coq_nat.
{ split; last by apply: Nat.mod_upper_bound.
  by move: A1; case: (b_k b) => [|[|[|[|k]]]] //= _; lia. }
have E1 := proj1 (adjacent_nbr nx ny _ _ _ (proj1 k4) H1 H2) A1.
have E2 := proj1 (adjacent_nbr nx ny _ _ _ (proj2 k4) H2 H1) A2.
rewrite /bond_generator /generator /bond_ends !big_cons big_nil /end_term.
cbn [fst snd]. rewrite -E1 -E2 /site_term addr0.
case F1 : (one (b_s1 b)) => [h1|]; case F2 : (one (b_s2 b)) => [h2|]; rewrite ?scaler0 ?addr0 //.
rewrite (embB_add emb) /wrap (embB_scale emb) (embB_add emb).
rewrite (embB_left emb) ?(embB_right emb); [|exact: (one_shape F2)|exact: (one_shape F1)].
by rewrite scalerDr.
Qed.

Lemma total_generator nx ny :
  \sum_(b <- build_bond_list nx ny) embB b (bond_generator one two b) =
  \sum_(b <- build_bond_list nx ny) embB b (two b) +
  \sum_(s <- build_site_list nx ny) ((neighbours_with_term nx ny s)%:R / 4%:R) *: site_term s.
Proof.
rewrite (sum_ext_in (bond_generator_sum (nx:=nx) (ny:=ny))) big_split /=; congr (_ + _).
rewrite -sum_flat_map (sum_perm _ (bond_ends_perm nx ny)).
rewrite (sum_perm _ (cell_sides_perm nx ny)) [LHS]sum_flat_map.
have -> : forall l : list nat, \sum_(a <- l) \sum_(x <- List.map (fun s : site => (s, a)) (build_site_list nx ny)) end_term nx ny x
   = \sum_(s <- build_site_list nx ny) \sum_(a <- l) end_term nx ny (s, a).
{ elim=> [|a l IH]; first by rewrite big_nil; under eq_bigr do rewrite big_nil; rewrite big1.
  rewrite big_cons IH.
  have -> : \sum_(x <- List.map (fun s : site => (s, a)) (build_site_list nx ny)) end_term nx ny x
     = \sum_(s <- build_site_list nx ny) end_term nx ny (s, a).
  { elim: (build_site_list nx ny) => [|s l' IH']; first by rewrite !big_nil.
    by rewrite /= !big_cons IH'. }
  rewrite -big_split /=. by apply: eq_bigr => s _; rewrite big_cons. }
apply: eq_bigr => s _.
have -> : forall l : list nat, \sum_(a <- l) end_term nx ny (s, a) =
   ((length (List.filter (fun d => match one (nbr nx ny d s) with Some _ => true | None => false end) l))%:R / 4%:R) *: site_term s.
{ elim=> [|a l IH]; first by rewrite big_nil mul0r scale0r.
  rewrite big_cons IH /end_term; cbn [fst snd List.filter].
  case: (one (nbr nx ny a s)) => [_|]; last by rewrite add0r.
  by rewrite -scalerDl /= -[in RHS]addn1 addnC natrD mulrDl mul1r. }
by [].
Qed.

End Sum.
End GateSum.
