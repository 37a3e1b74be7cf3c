(** Facts about measure.py. *)
From Coq Require Import String Ascii.
From mathcomp Require Import all_ssreflect all_algebra.
From Verif Require Import Base Lattice Mover Tensor TN Rdm Measure.
Set Implicit Arguments.
Unset Strict Implicit.
Unset Printing Implicit Defensive.
Import GRing.Theory Num.Theory.
Local Open Scope ring_scope.

(** ---- dictionaries ---- *)
Definition inks (k : string) (ks : seq string) : bool := has (String.eqb k) ks.
Fixpoint uniq_keys (ks : seq string) : bool :=
  match ks with [::] => true | k :: ks' => ~~ inks k ks' && uniq_keys ks' end.

Lemma seqbP (a b : string) : reflect (a = b) (String.eqb a b).
Proof. by apply: (iffP idP) => [/String.eqb_eq|/String.eqb_eq]. Qed.

Lemma dget_dset V X k (v : V) d : dget X (dset k v d) = if String.eqb X k then Some v else dget X d.
Proof.
elim: d => [|[k' v'] d IH] //=; case: (seqbP k k') => [<-|N] /=.
  by case: (seqbP X k).
rewrite IH; case: (seqbP X k') => [->|_] //.
by case: (seqbP k' k) => // E; case: N.
Qed.

Lemma dget_keys V X (d : dict V) : inks X (keys d) = (if dget X d is Some _ then true else false).
Proof. by elim: d => [|[k v] d IH] //=; rewrite /inks /= -/(inks _ _) IH; case: seqbP. Qed.

Section Acc.
Variable C : numClosedFieldType.

(** adding a list of named values *)
Definition acc (l : seq (string * C)) (d : dict C) : res (dict C) :=
  for_each l (fun kv d => dict_add kv.1 kv.2 d) d.
(** sum of the values with a given name *)
Definition total (X : string) (l : seq (string * C)) : C := \sum_(kv <- l | String.eqb X kv.1) kv.2.

Lemma acc_ok l d : all (fun kv => inks kv.1 (keys d)) l ->
  exists d', acc l d = Ok d' /\
    forall X, dget X d' = (if dget X d is Some x then Some (x + total X l) else None).
Proof.
elim: l d => [|[k v] l IH] d /=.
  by exists d; split=> // X; rewrite /total big_nil; case: dget => // x; rewrite addr0.
move=> /andP[Hk Hl]; rewrite /acc /= {1}/dict_add; move: (Hk); rewrite dget_keys.
case E: (dget k d) => [x|] // _ /=.
have [|d' [Ed Hd]] := IH (dset k (x + v) d).
  by apply: sub_all Hl => kv; rewrite !dget_keys dget_dset; case: seqbP.
exists d'; split; first exact: Ed.
move=> X; rewrite Hd dget_dset /total big_cons /=; case: seqbP => [->|_] //=.
by rewrite E addrA.
Qed.

Lemma acc_err l d : ~~ all (fun kv => inks kv.1 (keys d)) l -> acc l d = Err KeyError.
Proof.
elim: l d => [|[k v] l IH] d //=; rewrite negb_and /acc /= {1}/dict_add dget_keys.
case E: (dget k d) => [x|] //= H; apply: IH.
apply: contra H; apply: sub_all => kv; rewrite !dget_keys dget_dset.
by case: seqbP => // -> _; rewrite E.
Qed.

Lemma acc_cat l1 l2 d : acc (l1 ++ l2) d = let! d' := acc l1 d in acc l2 d'.
Proof. exact: for_each_app. Qed.

Lemma for_each_acc A (items : seq A) (body : A -> dict C -> res (dict C)) (contrib : A -> seq (string * C)) d :
  (forall a d, List.In a items -> body a d = acc (contrib a) d) ->
  for_each items body d = acc (flatten (map contrib items)) d.
Proof.
elim: items d => [|a items IH] d H //=.
rewrite acc_cat H; last by left.
by case: (acc _ d) => //= d'; apply: IH => b d'' Hb; apply: H; right.
Qed.

Lemma init_get ks (d : dict C) X :
  dget X (foldl (fun d k => dset k 0 d) d ks) = if inks X ks then Some 0 else dget X d.
Proof.
elim: ks d => [|k ks IH] d //=; rewrite IH dget_dset /inks /= -/(inks X ks).
by case: inks; rewrite ?orbT //= orbF.
Qed.

Lemma div_loop ks n (d : dict C) : n != 0%N -> uniq_keys ks -> all (fun k => inks k (keys d)) ks ->
  exists d', for_each ks (fun k d => dict_div k n d) d = Ok d' /\
    forall X, dget X d' = if inks X ks then omap (fun x => x / n%:R) (dget X d) else dget X d.
Proof.
move=> Hn; elim: ks d => [|k ks IH] d /=; first by exists d.
move=> /andP[Hk U] /andP[Ik Hks]; rewrite {1}/dict_div; move: Ik; rewrite dget_keys.
case E: (dget k d) => [x|] // _; rewrite (negbTE Hn) /=.
have [||d' [Ed Hd]] := IH (dset k (x / n%:R) d) => //.
  by apply: sub_all Hks => k'; rewrite !dget_keys dget_dset; case: seqbP.
exists d'; split=> // X; rewrite Hd dget_dset /inks /= -/(inks X ks).
case: seqbP => [->|N] //=; first by rewrite (negbTE Hk) E.
Qed.

Lemma div_loop_absent ks n (d : dict C) : n = 0%N -> ks <> [::] -> all (fun k => inks k (keys d)) ks ->
  for_each ks (fun k d => dict_div k n d) d = Err ZeroDivision.
Proof.
move=> ->; case: ks => [|k ks] //= _ /andP[+ _]; rewrite dget_keys /dict_div.
by case: (dget k d).
Qed.

(** one phase: reset the names ks, add the list l, divide the names ks by n *)
Definition phase (ks : seq string) (l : seq (string * C)) (n : nat) (d : dict C) : res (dict C) :=
  let d := foldl (fun d k => dset k 0 d) d ks in
  let! d := acc l d in
  for_each ks (fun k d => dict_div k n d) d.

(** its effect on the value under X *)
Definition phase_val (ks : seq string) (l : seq (string * C)) (n : nat) (X : string) (x : option C) : option C :=
  if inks X ks then Some (total X l / n%:R)
  else if x is Some x then Some (x + total X l) else None.

Lemma phase_ok ks l n d : n != 0%N -> uniq_keys ks ->
  all (fun kv => inks kv.1 ks || inks kv.1 (keys d)) l ->
  exists d', phase ks l n d = Ok d' /\ forall X, dget X d' = phase_val ks l n X (dget X d).
Proof.
move=> Hn U Hl; rewrite /phase; set d0 := foldl _ d ks.
have Hd0 X : inks X (keys d0) = inks X ks || inks X (keys d).
  by rewrite !dget_keys init_get; case: inks.
have [|d1 [-> H1]] := @acc_ok l d0; first by apply: sub_all Hl => kv; rewrite Hd0.
have [|d2 [E2 H2]] := @div_loop ks n d1 Hn U.
  have Q k : inks k ks -> inks k (keys d1) by rewrite dget_keys H1 init_get => ->.
  elim: (ks) Q => [|k ks' IH] Q //=; rewrite Q ?IH //= => [k' Hk'|]; last by rewrite /inks /= String.eqb_refl.
  by apply: Q; rewrite /inks /= -/(inks k' ks') Hk' orbT.
exists d2; split; first exact: E2.
move=> X; rewrite H2 H1 init_get /phase_val; case: (inks X ks) => /=.
  by rewrite add0r.
by case: (dget X d).
Qed.

Lemma phase_err ks l n d :
  ~~ all (fun kv => inks kv.1 ks || inks kv.1 (keys d)) l -> phase ks l n d = Err KeyError.
Proof.
move=> Hl; rewrite /phase acc_err //; apply: contra Hl; apply: sub_all => kv.
by rewrite !dget_keys init_get; case: inks.
Qed.

(** ---- expectation values, spelled out ---- *)
(** Tr(rho O) / Tr(rho) for matrices of size d *)
Definition tr1 (d : nat) (rho : tensor C) : C := \sum_(p < d) at_ rho [:: nat_of_ord p; nat_of_ord p].
Definition exp1 (d : nat) (rho op : tensor C) : C :=
  'Re (\sum_(P < d) \sum_(p < d) at_ rho [:: nat_of_ord P; nat_of_ord p] * at_ op [:: nat_of_ord p; nat_of_ord P])
  / 'Re (tr1 d rho).
(** the same for two sites; the operator is a d^2 x d^2 matrix *)
Definition tr2 (d : nat) (rho : tensor C) : C :=
  \sum_(p < d) \sum_(q < d) at_ rho [:: nat_of_ord p; nat_of_ord q; nat_of_ord p; nat_of_ord q].
Definition exp2 (d : nat) (rho op : tensor C) : C :=
  'Re (\sum_(P < d) \sum_(Q < d) \sum_(p < d) \sum_(q < d)
        at_ rho [:: nat_of_ord P; nat_of_ord Q; nat_of_ord p; nat_of_ord q] * at_ op [:: (p * d + q)%N; (P * d + Q)%N])
  / 'Re (tr2 d rho).

Lemma site_normE d rho : shape rho = [:: d; d] -> site_norm rho = Ok ('Re (tr1 d rho)).
Proof. by move=> H; rewrite /site_norm /einsum /= H /= /dims_ok /= !eqxx. Qed.

Lemma bond_normE d rho : shape rho = [:: d; d; d; d] -> bond_norm rho = Ok ('Re (tr2 d rho)).
Proof. by move=> H; rewrite /bond_norm /einsum /= H /= /dims_ok /= !eqxx. Qed.

Lemma measure1E d rho op : shape rho = [:: d; d] -> shape op = [:: d; d] -> 'Re (tr1 d rho) != 0 ->
  (let! x := measure_one_site rho op in rdiv x ('Re (tr1 d rho))) = Ok (exp1 d rho op).
Proof.
move=> Hr Ho Hn; rewrite /measure_one_site /einsum /= Hr Ho /= /dims_ok /= !eqxx /=.
by rewrite /rdiv (negbTE Hn) /exp1.
Qed.

Lemma measure2E d rho op : shape rho = [:: d; d; d; d] -> shape op = [:: d * d; d * d]%N -> 'Re (tr2 d rho) != 0 ->
  (let! op := reshape op (nseq 4 d) in let! x := measure_two_site rho op in rdiv x ('Re (tr2 d rho))) = Ok (exp2 d rho op).
Proof.
move=> Hr Ho Hn; rewrite /reshape Ho /= !muln1 !mulnA eqxx.
rewrite /measure_two_site /einsum /= Hr /= /dims_ok /= !eqxx /=.
rewrite /rdiv (negbTE Hn) /exp2; congr (Ok ('Re _ / _)).
apply: eq_bigr => P _; apply: eq_bigr => Q _; apply: eq_bigr => p _; apply: eq_bigr => q _.
rewrite /factor /= !muln1 !addn0.
have d0 : (0 < d)%N by case: (d) P => // -[].
have lt : (P * d + Q < d * d)%N.
  apply: (@leq_trans (P.+1 * d)); last by rewrite leq_mul2r ltn_ord orbT.
  by rewrite mulSn addnC ltn_add2r.
have -> : (p * (d * d * d) + (q * (d * d) + (P * d + Q)) = (p * d + q) * (d * d) + (P * d + Q))%N.
  by rewrite mulnDl !mulnA addnA.
by rewrite divnMDl ?muln_gt0 ?d0 // divn_small // addn0 modnMDl modn_small // divn1.
Qed.

(** ---- the two loops ---- *)
Section Loops.
Variable m : model C.
Variables (rdm1 : site -> res (tensor C)) (rdm2 : bond -> res (tensor C)).
Let d := m_dim m.

(** density matrix available, square, non-zero norm; operators of the model's size *)
Definition site_good (s : site) (rho : tensor C) : Prop :=
  [/\ rdm1 s = Ok rho, shape rho = [:: d; d], 'Re (tr1 d rho) != 0,
      (forall h, one_site_hamiltonian m s = Some h -> shape h = [:: d; d]) &
      all (fun kv => shape kv.2 == [:: d; d]) (one_site_observables m s)].
Definition bond_good (b : bond) (rho : tensor C) : Prop :=
  [/\ rdm2 b = Ok rho, shape rho = [:: d; d; d; d], 'Re (tr2 d rho) != 0,
      shape (two_site_hamiltonian m b) = [:: d * d; d * d]%N &
      all (fun kv => shape kv.2 == [:: d * d; d * d]%N) (two_site_observables m b)].

Definition site_energy (rho : tensor C) (s : site) : C :=
  if one_site_hamiltonian m s is Some h then exp1 d rho h else 0.
Definition site_values (rho : tensor C) (s : site) : seq (string * C) :=
  [seq (kv.1, exp1 d rho kv.2) | kv <- one_site_observables m s].
Definition bond_energy (rho : tensor C) (b : bond) : C := exp2 d rho (two_site_hamiltonian m b).
Definition bond_values (rho : tensor C) (b : bond) : seq (string * C) :=
  [seq (kv.1, exp2 d rho kv.2) | kv <- two_site_observables m b].

Lemma one_siteE (sites : seq site) (rho : site -> tensor C) ave :
  (forall s, List.In s sites -> site_good s (rho s)) ->
  let ks := keys (one_site_observables m (0, 0)%N) in
  calculate_one_site_measurements m rdm1 sites ave =
  phase ks (flatten [seq ("Energy"%string, site_energy (rho s) s) ::
                         (if nonempty ks then site_values (rho s) s else [::]) | s <- sites]) (size sites) ave.
Proof.
move=> G ks; rewrite /calculate_one_site_measurements /phase -/ks.
rewrite (@for_each_acc _ sites _ (fun s => ("Energy"%string, site_energy (rho s) s) ::
                         (if nonempty ks then site_values (rho s) s else [::]))) //.
move=> s a /G [E S N Hh Ho]; rewrite E /= (site_normE S) /=.
have -> : measure_site_energy m s (rho s) ('Re (tr1 d (rho s))) = Ok (site_energy (rho s) s).
  rewrite /measure_site_energy /site_energy; case Eh: (one_site_hamiltonian m s) => [h|] //.
  by apply: measure1E => //; apply: Hh.
rewrite /= /acc /=; case: (dict_add _ _ a) => //= a'; case: (nonempty ks) => //.
rewrite /measure_site_observables /site_values.
elim: (one_site_observables m s) Ho a' => [|[k op] l IH] //= /andP[/eqP Ho Hl] a'.
have := measure1E S Ho N; case: (measure_one_site _ _) => //= x ->; rewrite /=.
by case: (dict_add _ _ a') => //= a''; apply: IH.
Qed.

Lemma two_siteE (b0 : bond) (bonds : seq bond) (rho : bond -> tensor C) ave :
  (forall b, List.In b (b0 :: bonds) -> bond_good b (rho b)) ->
  let ks := keys (two_site_observables m b0) in
  calculate_two_site_measurements m rdm2 (b0 :: bonds) ave =
  phase ks (flatten [seq ("Energy"%string, bond_energy (rho b) b) ::
                         (if nonempty ks then bond_values (rho b) b else [::]) | b <- b0 :: bonds]) (size bonds).+1 ave.
Proof.
move=> G ks; rewrite /calculate_two_site_measurements /phase -/ks.
rewrite (@for_each_acc _ (b0 :: bonds) _ (fun b => ("Energy"%string, bond_energy (rho b) b) ::
                         (if nonempty ks then bond_values (rho b) b else [::]))) //.
move=> b a /G [E S N Hh Ho]; rewrite E /= (bond_normE S) /=.
have -> : measure_bond_energy m b (rho b) ('Re (tr2 d (rho b))) = Ok (bond_energy (rho b) b).
  exact: measure2E.
rewrite /= /acc /=; case: (dict_add _ _ a) => //= a'; case: (nonempty ks) => //.
rewrite /measure_bond_observables /bond_values.
elim: (two_site_observables m b) Ho a' => [|[k op] l IH] //= /andP[/eqP Ho Hl] a'.
have := measure2E S Ho N; rewrite -/d; case: (reshape _ _) => //= op'; case: (measure_two_site _ _) => //= x ->; rewrite /=.
by case: (dict_add _ _ a') => //= a''; apply: IH.
Qed.

End Loops.
End Acc.
