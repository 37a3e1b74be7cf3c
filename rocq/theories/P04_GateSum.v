(** Properties C02, C03: the total generator of the gates. *)
From Coq Require Import List Arith Lia.
From mathcomp Require Import all_ssreflect all_algebra.
From Verif Require Import Lattice LatticeFacts Gate GateSum Base Tensor.
Import GRing.Theory Num.Theory.
Local Open Scope ring_scope.

(** The generator of the gate of bond b is [bond_generator], i.e. the matrix
    handed to the matrix exponential in Gate.v (C04). *)
Lemma C02_generator_is_gate (C : numClosedFieldType) (pD : nat) (G D : Type)
   (expm1 expm2 : D -> tensor C -> G) one two dtau bonds sites t h b :
  List.In b bonds ->
  fst (make_gate _ G D (@madd C) (@wrap C pD) expm1 expm2
        (Model _ one (Fresh _ two)) dtau bonds sites (t, h)) (KBond b) =
  Some (expm2 dtau (bond_generator pD one two b)).
Proof.
move=> Hb. rewrite /make_gate.
have [junk [_ [H _]]] := build_two_fresh _ G D (@madd C) (@wrap C pD) expm2 one two dtau bonds
     (build_one_site_gates _ G D expm1 (Model _ one (Fresh _ two)) dtau sites t) h.
exact: H.
Qed.

Lemma nbr_in_cell nx ny d s : in_cell nx ny s -> in_cell nx ny (nbr nx ny d s).
Proof.
case: s => x y [/= Hx Hy]; case: d => [|[|[|d]]]; split=> //=; apply: Nat.mod_upper_bound; lia.
Qed.

(** C02 *)
Theorem C02_total_generator (C : numClosedFieldType) (pD nx ny : nat) (V : lmodType C)
    (embS : site -> tensor C -> V) (embB : bond -> tensor C -> V)
    (h1 : site -> tensor C) (h2 : bond -> tensor C) (one : site -> option (tensor C)) :
  embedding pD embS embB ->
  (forall s, in_cell nx ny s -> one s = Some (h1 s)) ->
  (forall s h, one s = Some h -> shape h = [:: pD; pD]) ->
  \sum_(b <- build_bond_list nx ny) embB b (bond_generator pD one h2 b) =
  \sum_(b <- build_bond_list nx ny) embB b (h2 b) +
  \sum_(s <- build_site_list nx ny) embS s (h1 s).
Proof.
move=> He Hone Hsh. rewrite (total_generator He h2 Hsh); congr (_ + _).
apply: sum_ext_in => s /in_site_list Hs.
rewrite /site_term (Hone _ Hs) /neighbours_with_term /=.
rewrite (Hone _ (nbr_in_cell _ _ 0%N _ Hs)) (Hone _ (nbr_in_cell _ _ 1%N _ Hs)).
rewrite (Hone _ (nbr_in_cell _ _ 2%N _ Hs)) (Hone _ (nbr_in_cell _ _ 3%N _ Hs)) /=.
by rewrite divff ?scale1r // pnatr_eq0.
Qed.

(** C03: with missing one-site terms each site term enters with the weight
    (number of its four neighbours that have a term)/4; the model's total
    Hamiltonian, which counts every existing site term once, is larger by the
    quarter-terms towards neighbours without one. *)
Theorem C03_deficit (C : numClosedFieldType) (pD nx ny : nat) (V : lmodType C)
    (embS : site -> tensor C -> V) (embB : bond -> tensor C -> V)
    (h2 : bond -> tensor C) (one : site -> option (tensor C)) :
  let some s := if one s is Some h then embS s h else 0 in
  let missing s := length (List.filter
        (fun d => if one (nbr nx ny d s) is None then true else false) [:: 0; 1; 2; 3]%N) in
  embedding pD embS embB ->
  (forall s h, one s = Some h -> shape h = [:: pD; pD]) ->
  \sum_(b <- build_bond_list nx ny) embB b (h2 b) +
  \sum_(s <- build_site_list nx ny) some s =
  \sum_(b <- build_bond_list nx ny) embB b (bond_generator pD one h2 b) +
  \sum_(s <- build_site_list nx ny) ((missing s)%:R / 4%:R) *: some s.
Proof.
move=> some missing He Hsh. rewrite (total_generator He h2 Hsh) -addrA; congr (_ + _).
rewrite -big_split /=; apply: eq_bigr => s _.
rewrite -[in RHS]scalerDl -mulrDl -natrD.
have -> : (neighbours_with_term one nx ny s + missing s = 4)%N.
{ rewrite /neighbours_with_term /missing; cbn [List.filter].
  by case: (one (nbr nx ny 0 s)) => [?|]; case: (one (nbr nx ny 1 s)) => [?|];
     case: (one (nbr nx ny 2 s)) => [?|]; case: (one (nbr nx ny 3 s)) => [?|]. }
by rewrite divff ?scale1r // pnatr_eq0.
Qed.

(** A bond with a None end: the generator is the bare bond term. *)
Theorem C03_none_end (C : numClosedFieldType) (pD : nat) (h2 : bond -> tensor C)
    (one : site -> option (tensor C)) (b : bond) :
  one (b_s1 b) = None \/ one (b_s2 b) = None -> bond_generator pD one h2 b = h2 b.
Proof.
rewrite /bond_generator /generator => -[->|->] //. by case: (one (b_s1 b)).
Qed.

(** Non-vacuity: expectation values in the product state |0...0> are an
    embedding (into the field), for every physical dimension >= 1. *)
Example C02_embedding_example (C : numClosedFieldType) (pD : nat) : (0 < pD)%N ->
  @embedding C pD [lmodType C of C^o] (fun _ h => at_ h [:: 0; 0]%N) (fun _ m => at_ m [:: 0; 0]%N).
Proof.
move=> Hp; split=> //=.
- move=> b h Hh. rewrite /kronT /kron Hh /= !div0n !mod0n eqxx mulr1 //.
- move=> b h Hh. rewrite /kronT /kron Hh /= !div0n !mod0n eqxx mul1r //.
Qed.

(** The naive expectation (no deficit) fails: in a 2x2 cell with a field on
    site (0,0) only, the gates contain nothing of it. *)
Example C03_conserved_refuted (C : numClosedFieldType) :
  let Z : tensor C := eye C 2 in
  let one (s : site) := if s is (0%N, 0%N) then Some Z else None in
  let h2 (b : bond) : tensor C := Tensor [:: 4; 4]%N (fun _ => 0) in
  \sum_(b <- build_bond_list 2 2) (at_ (bond_generator 2 one h2 b) [:: 0; 0]%N : C) = 0 /\
  \sum_(b <- build_bond_list 2 2) (at_ (h2 b) [:: 0; 0]%N : C) +
  \sum_(s <- build_site_list 2 2) (if one s is Some h then at_ h [:: 0; 0]%N else 0 : C) = 1.
Proof. by move=> Z one h2; rewrite unlock /= !addr0 ?add0r. Qed.

Print Assumptions C02_generator_is_gate.
Print Assumptions C02_total_generator.
Print Assumptions C03_deficit.
Print Assumptions C03_none_end.
