(** Bond weights of the simple update: the tables of
    acetn/evolution/lambda_tensors.py, and the life time of the updater object
    that owns them (evolve.py 31-56, simple_update.py 17-23, 71). *)
From Coq Require Import List Arith Lia Bool Permutation.
From Verif Require Import ListAux Lattice LatticeFacts Base Evolve.
Import ListNotations.

Lemma NoDup_app_r {A} (l m : list A) : NoDup (l ++ m) -> NoDup m.
Proof. induction l; cbn; auto. intros H; inversion H; auto. Qed.

Section Lambda.
Variable V : Type.
Variable ones : V.          (* torch.ones(bD) *)

(** _data and _site_bonds, as finite maps *)
Record lam := Lam { la_data : bond -> option V; la_sides : site -> nat -> option bond }.

Definition set_data (b : bond) (v : V) (f : bond -> option V) : bond -> option V :=
  fun b' => if bond_eq_dec b' b then Some v else f b'.
Definition set_side (s : site) (d : nat) (b : bond) (f : site -> nat -> option bond) :=
  fun s' d' => if site_eq_dec s' s then if Nat.eq_dec d' d then Some b else f s' d' else f s' d'.

(** lambda_tensors.py 18-21, loop body *)
Definition add_bond (x : lam) (b : bond) : lam :=
  Lam (set_data b ones (la_data x))
      (set_side (b_s2 b) ((b_k b + 2) mod 4) b (set_side (b_s1 b) (b_k b) b (la_sides x))).

(** lambda_tensors.py 14-21 *)
Definition new_lambda (bond_list : list bond) : lam :=
  fold_left add_bond bond_list (Lam (fun _ => None) (fun _ _ => None)).

(** lambda_tensors.py 26-27 *)
Definition set_weight (b : bond) (v : V) (x : lam) : lam := Lam (set_data b v (la_data x)) (la_sides x).

(** lambda_tensors.py 29-31 *)
Definition get_weight (x : lam) (s : site) (d : nat) : res V :=
  match la_sides x s d with
  | None => Err KeyError
  | Some b => match la_data x b with None => Err KeyError | Some v => Ok v end
  end.

(** ---- specification side ---- *)
Definition run_sets (h : list (bond * V)) (x : lam) : lam :=
  fold_left (fun x p => set_weight (fst p) (snd p) x) h x.
(** the last value assigned to a bond, newest last *)
Fixpoint last_set (h : list (bond * V)) (b : bond) : option V :=
  match h with
  | [] => None
  | p :: h => match last_set h b with Some v => Some v
              | None => if bond_eq_dec (fst p) b then Some (snd p) else None end
  end.
Definition weight_of (h : list (bond * V)) (b : bond) : V :=
  match last_set h b with Some v => v | None => ones end.

(** ---- lemmas ---- *)
Lemma set_side_spec s d b f s' d' : set_side s d b f s' d' =
  if (if site_eq_dec s' s then if Nat.eq_dec d' d then true else false else false) then Some b else f s' d'.
Proof. unfold set_side. destruct (site_eq_dec s' s); auto. destruct (Nat.eq_dec d' d); auto. Qed.

Lemma in_ends b s d : In (s, d) (bond_ends b) <->
  (s = b_s1 b /\ d = b_k b) \/ (s = b_s2 b /\ d = (b_k b + 2) mod 4).
Proof.
  unfold bond_ends. cbn [In]. split.
  - intros [H|[H|[]]]; inversion H; auto.
  - intros [[-> ->]|[-> ->]]; auto.
Qed.

Lemma fold_sides bl : forall x, NoDup (flat_map bond_ends bl) ->
  forall s d, la_sides (fold_left add_bond bl x) s d = la_sides x s d /\ ~ In (s, d) (flat_map bond_ends bl) \/
  exists b, In b bl /\ In (s, d) (bond_ends b) /\ la_sides (fold_left add_bond bl x) s d = Some b.
Proof.
  induction bl as [|b bl IH]; intros x Hn s d; [left; split; auto|]. cbn [fold_left flat_map] in *.
  assert (Hn' : NoDup (flat_map bond_ends bl)) by (apply NoDup_app_r in Hn; exact Hn).
  destruct (IH (add_bond x b) Hn' s d) as [[E N]|(b' & H1 & H2 & H3)].
  - cbn [add_bond la_sides] in E. rewrite E, !set_side_spec.
    destruct (site_eq_dec s (b_s2 b)) as [-> |].
    + destruct (Nat.eq_dec d ((b_k b + 2) mod 4)) as [-> |].
      * right. exists b. split; [now left|]. split; [apply in_ends; auto|reflexivity].
      * destruct (site_eq_dec (b_s2 b) (b_s1 b)) as [E1|].
        -- destruct (Nat.eq_dec d (b_k b)) as [-> |].
           ++ right. exists b. split; [now left|]. split; [apply in_ends; auto|reflexivity].
           ++ left. split; auto. rewrite in_app_iff, in_ends. intuition.
        -- left. split; auto. rewrite in_app_iff, in_ends. intuition.
    + destruct (site_eq_dec s (b_s1 b)) as [-> |].
      * destruct (Nat.eq_dec d (b_k b)) as [-> |].
        -- right. exists b. split; [now left|]. split; [apply in_ends; auto|reflexivity].
        -- left. split; auto. rewrite in_app_iff, in_ends. intuition.
      * left. split; auto. rewrite in_app_iff, in_ends. intuition.
  - right. exists b'. split; [now right|]. auto.
Qed.

Lemma fold_data bl : forall x b, la_data (fold_left add_bond bl x) b =
  if in_dec bond_eq_dec b bl then Some ones else la_data x b.
Proof.
  induction bl as [|b0 bl IH]; intros x b; cbn [fold_left]; [reflexivity|]. rewrite IH. cbn [add_bond la_data].
  unfold set_data. destruct (in_dec bond_eq_dec b bl) as [I|I]; destruct (in_dec bond_eq_dec b (b0 :: bl)) as [J|J];
    destruct (bond_eq_dec b b0); cbn in J; auto; exfalso; intuition.
Qed.

Lemma run_sets_sides h : forall x, la_sides (run_sets h x) = la_sides x.
Proof. induction h as [|p h IH]; intros x; cbn; auto. unfold run_sets in *. now rewrite IH. Qed.
Lemma run_sets_data h : forall x b, la_data (run_sets h x) b =
  match last_set h b with Some v => Some v | None => la_data x b end.
Proof.
  induction h as [|p h IH]; intros x b; cbn; auto. unfold run_sets in *. rewrite IH.
  destruct (last_set h b); auto. cbn [set_weight la_data]. unfold set_data.
  destruct (bond_eq_dec b (fst p)); destruct (bond_eq_dec (fst p) b); congruence.
Qed.

Lemma ends_nodup nx ny bl : Permutation bl (build_bond_list nx ny) -> NoDup (flat_map bond_ends bl).
Proof.
  intros P. apply (Permutation_NoDup (l := cell_sides nx ny)).
  - rewrite <- (bond_ends_perm nx ny). apply Permutation_flat_map. now symmetry.
  - unfold cell_sides. apply NoDup_list_prod; [apply NoDup_list_prod; apply seq_NoDup|].
    repeat constructor; cbn; intuition lia.
Qed.

Lemma nodup_flat {A B} (f : A -> list B) l a b x : NoDup (flat_map f l) ->
  In a l -> In b l -> In x (f a) -> In x (f b) -> a = b.
Proof.
  induction l as [|c l IH]; cbn; [tauto|]. intros N Ha Hb Hxa Hxb.
  assert (D : forall y, In y (f c) -> ~ In y (flat_map f l)).
  { intros y Hy Hy'. clear - N Hy Hy'. induction (f c) as [|z zs IHz]; [destruct Hy|].
    cbn in N. inversion N; subst. destruct Hy as [-> |Hy]; [apply H1; apply in_app_iff; auto|]. auto. }
  destruct Ha as [-> |Ha], Hb as [-> |Hb]; auto.
  - exfalso. apply (D x Hxa). apply in_flat_map. eauto.
  - exfalso. apply (D x Hxb). apply in_flat_map. eauto.
  - apply IH; auto. now apply NoDup_app_r in N.
Qed.

End Lambda.

(** ---- the updater object is created anew by every evolve call ---- *)
Section Reset.
Variables (S T W : Type).
Variable weights : list bond -> W.     (* LambdaTensors(bond_list, ...), all ones *)
Variable bond_update : bond -> S * W -> (S * W) * (T * T).   (* SimpleUpdater.bond_update *)
Variables (tzero : T) (tadd : T -> T -> T) (tdiv : T -> nat -> T).

(** evolve.py 31-56 with update_type "simple": the weights live as long as the
    updater; only tensors and bond order survive the call *)
Definition evolve_simple (debug : bool) (steps : nat) (s : S) (bonds : list bond) : S * list bond :=
  let l := evolve_loop bond (S * W) T bond_update tzero tadd tdiv debug steps (s, weights bonds) bonds in
  (fst (l_state _ _ _ l), l_bonds _ _ _ l).
End Reset.
