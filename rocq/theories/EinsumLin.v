(** einsum is homogeneous in every operand, and only looks at entries in range. *)
From Coq Require Import String Ascii.
From mathcomp Require Import all_ssreflect all_algebra.
From Verif Require Import Base Tensor TN.
Set Implicit Arguments.
Unset Strict Implicit.
Unset Printing Implicit Defensive.
Import GRing.Theory Num.Theory.
Local Open Scope ring_scope.

Section Lin.
Variable C : numClosedFieldType.

(** t' = c t, entry by entry *)
Definition scaled (c : C) (t' t : tensor C) : Prop :=
  shape t' = shape t /\ forall i, in_range (shape t) i -> at_ t' i = c * at_ t i.

Fixpoint scaled_all (cs : seq C) (ts' ts : seq (tensor C)) : Prop :=
  match cs, ts', ts with
  | [::], [::], [::] => True
  | c :: cs, t' :: ts', t :: ts => scaled c t' t /\ scaled_all cs ts' ts
  | _, _, _ => False
  end.

Definition env_ok (dm env : seq (label * nat)) : bool :=
  all (fun p => p.2 < lookup 0%N p.1 dm)%N env.

Lemma env_ok_lookup dm env l : env_ok dm env -> mem_label l (map fst env) ->
  (lookup 0%N l env < lookup 0%N l dm)%N.
Proof. by elim: env => [|[l' x] env IH] //= /andP[Hx He]; case: eqbP => [->|] //= _ /IH; apply. Qed.

Lemma sum_labels_scaled c dm ls env (f g : seq (label * nat) -> C) :
  all (fun p => lookup 0%N p.1 dm == p.2) ls -> env_ok dm env ->
  (forall env', env_ok dm env' ->
     (forall l, mem_label l (map fst ls) || mem_label l (map fst env) -> mem_label l (map fst env')) ->
     f env' = c * g env') ->
  sum_labels ls env f = c * sum_labels ls env g.
Proof.
elim: ls env => [|[l d] ls IH] env /=; first by move=> _ He; apply.
move=> /andP[/eqP Hl Hls] He H; rewrite /sumn big_distrr /=.
apply: eq_bigr => i _; apply: IH => //=; first by rewrite Hl ltn_ord He.
move=> env' He' Hm; apply: H => // l'; move=> Hl'; apply: Hm.
by case/orP: Hl' => [/orP[]|] ->; rewrite ?orbT.
Qed.

Lemma env_ok_zip dm out idx : in_range [seq lookup 0%N l dm | l <- out] idx -> env_ok dm (zip out idx).
Proof. by elim: out idx => [|l out IH] [|x idx] //= /andP[-> /IH]. Qed.

Lemma dim_env_labels ins (ts : seq (tensor C)) : ranks_ok ins ts -> map fst (dim_env ins ts) = flatten ins.
Proof.
elim: ins ts => [|ls ins IH] [|t ts] //= /andP[/eqP H /IH E].
by rewrite map_cat E zip_fst.
Qed.

Lemma scaled_ranks ins cs ts' ts : scaled_all cs ts' ts -> ranks_ok ins ts' = ranks_ok ins ts.
Proof.
elim: ins cs ts' ts => [|ls ins IH] [|c cs] [|t' ts'] [|t ts] //= [[-> _] H].
by rewrite (IH _ _ _ H).
Qed.

Lemma scaled_dims ins cs ts' ts : scaled_all cs ts' ts -> dim_env ins ts' = dim_env ins ts.
Proof.
elim: ins cs ts' ts => [|ls ins IH] [|c cs] [|t' ts'] [|t ts] //= [[-> _] H].
by rewrite (IH _ _ _ H).
Qed.

Lemma factors_scaled env dm ins cs ts' ts : scaled_all cs ts' ts -> ranks_ok ins ts ->
  all (fun p => lookup 0%N p.1 dm == p.2) (dim_env ins ts) -> env_ok dm env ->
  all (fun l => mem_label l (map fst env)) (flatten ins) ->
  prod_list (factors env ins ts') = (\prod_(c <- cs) c) * prod_list (factors env ins ts).
Proof.
rewrite !prod_listE => Hs Hr Hd He Hm.
elim: ins cs ts' ts Hs Hr Hd Hm => [|ls ins IH] [|c cs] [|t' ts'] [|t ts] //=.
  by rewrite !big_nil mulr1.
move=> [[Es Hs] Hss] /andP[/eqP Hr Hrs]; rewrite !all_cat => /andP[Hd Hds] /andP[Hm Hms].
rewrite !big_cons (IH cs ts' ts) // mulrACA; congr (_ * _).
rewrite /factor Hs //.
elim: (ls) (shape t) Hr Hd Hm => [|l ls' IHl] [|d ds] //= [Hr] /andP[/eqP Hd Hd'] /andP[Hm Hm'].
by rewrite -Hd env_ok_lookup //= IHl.
Qed.

Lemma einsum_scaled spec cs ts' ts f : scaled_all cs ts' ts -> einsum spec ts = Ok f ->
  exists f', einsum spec ts' = Ok f' /\ scaled (\prod_(c <- cs) c) f' f.
Proof.
move=> Hs; rewrite /einsum; case: (parse spec) => [[ins out]|] //.
rewrite (scaled_ranks ins Hs); case: ifP => // Hr; rewrite (scaled_dims ins Hs).
case: ifP => // /andP[Hd Ho] [<-]; eexists; split; first by [].
split=> // idx /= Hi; set dm := dim_env ins ts in Hd Ho Hi *.
apply: (@sum_labels_scaled _ dm); first by elim: (new_labels _ _) => //= l ls ->; rewrite eqxx.
  exact: env_ok_zip.
move=> env' He Hm; apply: (factors_scaled Hs Hr Hd He); apply: all_labels => l Hl; apply: Hm.
have := new_labels_mem out Hl; rewrite mem_label_cat orbC; congr (mem_label l _ || mem_label l _).
  by elim: (new_labels _ _) => //= x s <-.
by rewrite zip_fst // (in_range_size Hi) size_map.
Qed.

Lemma einsum_scaled_err spec cs ts' ts e : scaled_all cs ts' ts -> einsum spec ts = Err e -> einsum spec ts' = Err e.
Proof.
move=> Hs; rewrite /einsum; case: (parse spec) => [[ins out]|] //.
by rewrite (scaled_ranks ins Hs); case: ifP => // Hr; rewrite (scaled_dims ins Hs); case: ifP.
Qed.

Lemma scaled_refl t : scaled 1 t t.
Proof. by split=> // i _; rewrite mul1r. Qed.
Lemma scaled_tscale c t : scaled c (tscale c t) t.
Proof. by []. Qed.
Lemma scaled_conj c t : scaled c^* (conj (tscale c t)) (conj t).
Proof. by split=> // i _ /=; rewrite rmorphM. Qed.
Lemma scaled_teq c a b a' b' : scaled c a b -> teq a' a -> teq b' b -> scaled c a' b'.
Proof.
move=> [S H] [S1 H1] [S2 H2]; split=> [|i Hi]; first by rewrite S1 S S2.
by rewrite H1 ?S1 ?S -?S2 // H -?S2 // H2.
Qed.
End Lin.
