(** Joining and leaving the process group (C72), and which collectives can run
    (C73). *)
From Coq Require Import String ZArith.
From Coq Require Import List Arith Lia Bool.
From Verif Require Import Base Config Group.
Import ListNotations.

(** A network with device d is distributed in this environment. *)
Definition joins (e : env) (d : device) : Prop :=
  exists rank ws, e_rank e = Some (Ok rank) /\ e_ws e = Some (Ok ws) /\
    (1 < ws)%Z /\ (0 <= rank < ws)%Z /\
    (d = cpu /\ (ws <= Z.of_nat (e_cpus e))%Z \/ d = cuda /\ (ws <= Z.of_nat (e_gpus e))%Z).

(** The environment asks for a single process. *)
Definition alone (e : env) : Prop :=
  e_rank e = None \/ e_ws e = None \/ exists ws, e_ws e = Some (Ok ws) /\ (ws <= 1)%Z.

(** The step takes the process out of the group: a network that had joined is
    deleted, or its construction fails after it joined. *)
Definition leaves (e : env) (before : list op) (o : op) : Prop :=
  match o with
  | New d late => late = true /\ joins e d
  | Drop i => exists n, nth_error (snd (run e before)) i = Some (Some n) /\ n_dist n = true
  end.

Lemma run_app e ops o : run e (ops ++ [o]) = step e o (run e ops).
Proof. unfold run. now rewrite fold_left_app. Qed.

Lemma cpu_cuda : cpu <> cuda. Proof. discriminate. Qed.

(** What set-up does. *)
Lemma setup_cases e d s :
  let '(s', r) := setup_distributed e d s in
  (exists rank ws, e_rank e = Some (Ok rank) /\ e_ws e = Some (Ok ws) /\ (1 < ws)%Z /\
     g_muted s' = (if (rank =? 0)%Z then g_muted s else true) /\
     (d = cpu /\ (ws <= Z.of_nat (e_cpus e))%Z \/ d = cuda /\ (ws <= Z.of_nat (e_gpus e))%Z) /\
     match g_group s with
     | Some b => g_group s' = Some b /\ g_current s' = g_current s /\ r = Ok (Netw rank ws (PDev d) true)
     | None =>
       if ((0 <=? rank) && (rank <? ws))%Z then
         g_group s' = Some (if e_cuda e then Nccl else Gloo) /\
         (d = cpu /\ g_current s' = g_current s /\ r = Ok (Netw rank ws (PDev d) true) \/
          d = cuda /\ g_current s' = Z.to_nat rank /\ r = Ok (Netw rank ws (PRank (Z.to_nat rank)) true))
       else g_group s' = None /\ g_current s' = g_current s /\ r = Err ValueError
     end)
  \/ (exists rank ws x, e_rank e = Some (Ok rank) /\ e_ws e = Some (Ok ws) /\ (1 < ws)%Z /\
     ~ (d = cpu /\ (ws <= Z.of_nat (e_cpus e))%Z \/ d = cuda /\ (ws <= Z.of_nat (e_gpus e))%Z) /\
     g_muted s' = (if (rank =? 0)%Z then g_muted s else true) /\
     g_group s' = g_group s /\ g_current s' = g_current s /\ r = Err x)
  \/ (s' = s /\ (exists x, r = Err x) /\ ~ alone e /\
      (forall rank ws, e_rank e = Some (Ok rank) -> e_ws e = Some (Ok ws) -> False))
  \/ (s' = s /\ r = Ok (Netw 0 1 (PDev d) false) /\ alone e /\
      (forall rank ws, e_rank e = Some (Ok rank) -> e_ws e = Some (Ok ws) -> (ws <= 1)%Z)).
Proof.
  unfold setup_distributed, wants_distributed, alone.
  destruct (e_rank e) as [[rank|x]|] eqn:Er; destruct (e_ws e) as [[ws|y]|] eqn:Ew; cbn [bind].
  all: try (right; right; right; repeat split; auto; intros; congruence).
  all: try (right; right; left; split; auto; split; [eauto|]; split; [intros [K|[K|(w & K & _)]]; discriminate|intros; congruence]).
  2: { destruct (Z.ltb_spec 1 ws).
       - right; right; left. split; auto. split; eauto. split; [|intros; congruence].
         intros [K|[K|(w & K & K')]]; try discriminate. injection K as <-. lia.
       - right; right; right. repeat split; eauto. intros; congruence. }
  destruct (Z.ltb_spec 1 ws) as [L|L].
  2: { right; right; right. repeat split; eauto. intros r w _ K. injection K as <-. lia. }
  assert (M : g_muted (setup_distributed_print rank s) = (if (rank =? 0)%Z then g_muted s else true)).
  { unfold setup_distributed_print. destruct (rank =? 0)%Z; auto. }
  assert (G : g_group (setup_distributed_print rank s) = g_group s).
  { unfold setup_distributed_print. destruct (rank =? 0)%Z; auto. }
  assert (U : g_current (setup_distributed_print rank s) = g_current s).
  { unfold setup_distributed_print. destruct (rank =? 0)%Z; auto. }
  revert M G U. generalize (setup_distributed_print rank s) as t. intros t M G U.
  unfold get_device_count.
  destruct (device_eq_dec d cpu) as [-> |N1]; [|destruct (device_eq_dec d cuda) as [-> |N2]].
  - destruct (Z.ltb_spec (Z.of_nat (e_cpus e)) ws) as [K|K].
    { right; left. exists rank, ws, RuntimeError. repeat split; auto.
      intros [[_ ?]|[? _]]; [lia|discriminate]. }
    unfold setup_process_group. rewrite G. destruct (g_group s) as [b|] eqn:Gs.
    + left. exists rank, ws. repeat (split; auto).
    + destruct ((0 <=? rank) && (rank <? ws))%Z eqn:B; cbn [g_muted g_group g_current].
      * left. exists rank, ws. rewrite B. repeat (split; auto).
      * left. exists rank, ws. rewrite B. repeat (split; auto).
  - destruct (Z.ltb_spec (Z.of_nat (e_gpus e)) ws) as [K|K].
    { right; left. exists rank, ws, RuntimeError. repeat split; auto.
      intros [[? _]|[_ ?]]; [discriminate|lia]. }
    unfold setup_process_group. rewrite G. destruct (g_group s) as [b|] eqn:Gs.
    + left. exists rank, ws. repeat (split; auto).
    + destruct ((0 <=? rank) && (rank <? ws))%Z eqn:B.
      * apply andb_prop in B as B'. destruct B' as [B1 B2]. apply Z.leb_le in B1. apply Z.ltb_lt in B2.
        destruct (device_eq_dec cuda cpu) as [Q|_]; [discriminate|].
        destruct (Nat.ltb_spec (Z.to_nat rank) (e_gpus e)) as [V|V]; [|lia].
        cbn [g_muted g_group g_current]. left. exists rank, ws. rewrite B. repeat (split; auto).
      * left. exists rank, ws. rewrite B. repeat (split; auto).
  - right; left. exists rank, ws, NotImplementedError. repeat split; auto.
    intros [[? _]|[? _]]; contradiction.
Qed.

Lemma joins_setup e d s : joins e d ->
  exists s' n, setup_distributed e d s = (s', Ok n) /\ g_group s' <> None /\ n_dist n = true.
Proof.
  intros (rank & ws & Er & Ew & L & R & D). generalize (setup_cases e d s).
  destruct (setup_distributed e d s) as [s' r].
  intros [(rank' & ws' & Er' & Ew' & L' & _ & _ & H)|[(rank' & ws' & x & Er' & Ew' & L' & N & _)|[(_ & _ & NA & N)|(_ & _ & NA & N)]]].
  - replace rank' with rank in * by congruence. replace ws' with ws in * by congruence.
    destruct (g_group s) as [b|].
    + destruct H as (H & _ & ->). eexists _, _. split; eauto. rewrite H. split; auto; discriminate.
    + assert (B : ((0 <=? rank) && (rank <? ws))%Z = true).
      { apply andb_true_intro. split; [apply Z.leb_le|apply Z.ltb_lt]; lia. }
      rewrite B in H. destruct H as (H & [(_ & _ & ->)|(_ & _ & ->)]); eexists _, _; (split; eauto); rewrite H; split; auto; discriminate.
  - replace rank' with rank in * by congruence. replace ws' with ws in * by congruence. contradiction.
  - destruct (N _ _ Er Ew).
  - specialize (N _ _ Er Ew). lia.
Qed.

(** The rank is in range whenever the group exists. *)
Definition inv (e : env) (p : prog) : Prop :=
  (g_group (fst p) <> None ->
     g_group (fst p) = Some (if e_cuda e then Nccl else Gloo) /\
     exists rank ws, e_rank e = Some (Ok rank) /\ e_ws e = Some (Ok ws) /\ (1 < ws)%Z /\ (0 <= rank < ws)%Z) /\
  (forall i n, nth_error (snd p) i = Some (Some n) ->
     if n_dist n
     then (exists d, joins e d /\ (n_place n = PDev d \/ d = cuda /\ n_place n = PRank (Z.to_nat (n_rank n)))) /\
          e_rank e = Some (Ok (n_rank n)) /\ e_ws e = Some (Ok (n_ws n))
     else n_rank n = 0%Z /\ n_ws n = 1%Z /\
          (forall rank ws, e_rank e = Some (Ok rank) -> e_ws e = Some (Ok ws) -> (ws <= 1)%Z)).

Lemma nth_kill l : forall i j n, nth_error (kill l i) j = Some (Some n) -> nth_error l j = Some (Some n) /\ j <> i.
Proof.
  induction l as [|x l IH]; intros [|i] [|j] n H; cbn in *; try discriminate; auto.
  destruct (IH _ _ _ H). auto.
Qed.
Lemma kill_nth l : forall i j, j <> i -> nth_error (kill l i) j = nth_error l j.
Proof. induction l as [|x l IH]; intros [|i] [|j] H; cbn; auto; congruence. Qed.

Lemma inv_del e n s l : inv e (s, l) -> inv e (del n s, l).
Proof.
  intros [A B]. unfold del. destruct (n_dist n); [|now split]. split; cbn in *; [congruence|auto].
Qed.

Lemma inv_step e o p : inv e p -> inv e (step e o p).
Proof.
  destruct p as [s l]. intros I. destruct o as [d late|i]; cbn [step].
  - generalize (setup_cases e d s). destruct (setup_distributed e d s) as [s' r].
    intros [(rank & ws & Er & Ew & L & _ & D & H)|[(rank & ws & x & Er & Ew & L & N & _ & G & U & ->)|[(-> & [x ->] & NA & N)|(-> & -> & NA & N)]]].
    + assert (J : forall n, r = Ok n -> joins e d /\ inv e (s', (l ++ [Some n])%list)).
      { intros n ->. destruct I as [A B]. cbn [fst snd] in A, B.
        assert (R : joins e d /\ g_group s' = Some (if e_cuda e then Nccl else Gloo) /\
          n_dist n = true /\ (n_place n = PDev d \/ d = cuda /\ n_place n = PRank (Z.to_nat (n_rank n))) /\ n_rank n = rank /\ n_ws n = ws).
        { destruct (g_group s) as [b|] eqn:Gs.
          - destruct H as (H & _ & Hn). injection Hn as ->. destruct A as (A1 & rank' & ws' & Er' & Ew' & L' & R'); [congruence|].
            replace rank' with rank in * by congruence. replace ws' with ws in * by congruence.
            rewrite H, <- A1. cbn [n_dist n_place n_rank n_ws]. repeat split; auto. exists rank, ws. repeat split; auto; lia.
          - destruct ((0 <=? rank) && (rank <? ws))%Z eqn:Q; [|destruct H as (_ & _ & H); discriminate].
            apply andb_prop in Q. destruct Q as [Q1 Q2]. apply Z.leb_le in Q1. apply Z.ltb_lt in Q2.
            destruct H as (H & K). split; [exists rank, ws; repeat split; auto; lia|]. split; auto.
            destruct K as [(-> & _ & K)|(-> & _ & K)]; injection K as ->; cbn; auto. }
        destruct R as (J & G & Dn & P & <- & <-). split; auto. split; cbn.
        - intros _. split; auto. destruct J as (r1 & w1 & E1 & E2 & K1 & K2 & _). exists r1, w1. auto.
        - intros i n' Hi. destruct (Nat.lt_ge_cases i (length l)).
          + rewrite nth_error_app1 in Hi by auto. now apply (B i).
          + rewrite nth_error_app2 in Hi by auto. destruct (i - length l) as [|[|k]]; cbn in Hi; try discriminate.
            injection Hi as <-. rewrite Dn. split; eauto. }
      destruct r as [n|x].
      * destruct (J n eq_refl) as [_ K]. destruct late; auto.
        apply inv_del. destruct K as [K1 K2]. split; cbn in *; auto. intros i n' Hi. apply (K2 i).
        rewrite nth_error_app1; auto. apply nth_error_Some. congruence.
      * destruct I as [A B]. split; auto. cbn in *. destruct (g_group s) as [b|].
        -- destruct H as (_ & _ & H); discriminate.
        -- destruct ((0 <=? rank) && (rank <? ws))%Z; [|destruct H as (-> & _); congruence].
           destruct H as (_ & [(_ & _ & H)|(_ & _ & H)]); discriminate.
    + destruct I as [A B]. split; auto. cbn in *. now rewrite G.
    + auto.
    + destruct late; [apply inv_del; auto|]. destruct I as [A B]. split; auto. cbn in *.
      intros i n' Hi. destruct (Nat.lt_ge_cases i (length l)).
      * rewrite nth_error_app1 in Hi by auto. now apply (B i).
      * rewrite nth_error_app2 in Hi by auto. destruct (i - length l) as [|[|k]]; cbn in Hi; try discriminate.
        injection Hi as <-. cbn. auto.
  - destruct (nth_error l i) as [[n|]|] eqn:E; auto. apply inv_del. destruct I as [A B]. split; auto. cbn in *.
    intros j n' Hj. apply nth_kill in Hj. now apply (B j).
Qed.

Lemma inv_run e ops : inv e (run e ops).
Proof.
  induction ops as [|o ops IH] using rev_ind.
  - split; cbn; [congruence|]. intros [|i] n H; discriminate.
  - rewrite run_app. now apply inv_step.
Qed.

(** one step and the group *)
Lemma step_group e ops o :
  g_group (fst (run e (ops ++ [o]))) <> None <->
  (exists d, o = New d false /\ joins e d) \/ (g_group (fst (run e ops)) <> None /\ ~ leaves e ops o).
Proof.
  rewrite run_app. generalize (inv_run e ops). destruct (run e ops) as [s l] eqn:Er. intros [A B]. cbn in A, B.
  destruct o as [d late|i]; cbn [step leaves].
  - generalize (setup_cases e d s). destruct (setup_distributed e d s) as [s' r] eqn:Es.
    intros [(rank & ws & E1 & E2 & L & _ & D & H)|[(rank & ws & x & E1 & E2 & L & N & _ & G & U & ->)|[(-> & [x ->] & NA & N)|(-> & -> & NA & N)]]].
    + assert (J : joins e d <-> exists n, r = Ok n).
      { split.
        - intros J. destruct (joins_setup e d s J) as (s1 & n & Q & _). exists n. congruence.
        - intros [n ->]. destruct (g_group s) as [b|] eqn:Gs.
          + destruct A as (_ & rank' & ws' & E1' & E2' & L' & R'); [congruence|]. exists rank, ws.
            replace rank' with rank in * by congruence. replace ws' with ws in * by congruence. repeat split; auto; lia.
          + destruct ((0 <=? rank) && (rank <? ws))%Z eqn:Q; [|destruct H as (_ & _ & H); discriminate].
            apply andb_prop in Q. destruct Q as [Q1 Q2]. apply Z.leb_le in Q1. apply Z.ltb_lt in Q2.
            exists rank, ws. repeat split; auto; lia. }
      destruct r as [n|x].
      * assert (Jd : joins e d) by (apply J; eauto).
        destruct (joins_setup e d s Jd) as (s1 & n1 & Q & Gq & Dq). rewrite Es in Q. injection Q as <- <-.
        destruct late; cbn [fst].
        -- unfold del. rewrite Dq. cbn. split; [congruence|]. intros [(d' & K & _)|[_ K]]; [discriminate|]. tauto.
        -- split; eauto.
      * assert (Jd : ~ joins e d) by (rewrite J; intros [n K]; discriminate).
        cbn [fst]. destruct (g_group s) as [b|].
        -- destruct H as (_ & _ & H); discriminate.
        -- destruct ((0 <=? rank) && (rank <? ws))%Z; [destruct H as (_ & [(_ & _ & H)|(_ & _ & H)]); discriminate|].
           destruct H as (-> & _). split; [congruence|]. intros [(d' & K & K')|[K _]]; [|congruence].
           injection K as <- _. contradiction.
    + cbn [fst]. rewrite G. assert (Jd : ~ joins e d).
      { intros (r1 & w1 & F1 & F2 & _ & _ & K). apply N. replace ws with w1 by congruence. auto. }
      split; [intros K; right; split; auto; tauto|]. intros [(d' & K & K')|[K _]]; auto. injection K as <- _. contradiction.
    + cbn [fst]. assert (Jd : ~ joins e d) by (intros (r1 & w1 & F1 & F2 & _); exact (N _ _ F1 F2)).
      split; [intros K; right; split; auto; tauto|]. intros [(d' & K & K')|[K _]]; auto. injection K as <- _. contradiction.
    + assert (Jd : ~ joins e d) by (intros (r1 & w1 & F1 & F2 & L & _); specialize (N _ _ F1 F2); lia).
      destruct late; cbn [fst del n_dist];
        (split; [intros K; right; split; auto; tauto|]; intros [(d' & K & K')|[K _]]; auto; injection K as <-; contradiction).
  - rewrite Er. cbn [snd]. destruct (nth_error l i) as [[n|]|] eqn:E; cbn [fst].
    + unfold del. destruct (n_dist n) eqn:Dn; cbn [finalize_distributed g_group].
      * split; [congruence|]. intros [(d' & K & _)|[_ K]]; [discriminate|]. destruct K. eauto.
      * split; [|intros [(d' & K & _)|[K _]]; auto; discriminate].
        intros K; right; split; auto. intros (n' & Q & Q'). injection Q as <-. congruence.
    + split; [|intros [(d' & K & _)|[K _]]; auto; discriminate].
      intros K; right; split; auto. intros (n' & Q & Q'). discriminate.
    + split; [|intros [(d' & K & _)|[K _]]; auto; discriminate].
      intros K; right; split; auto. intros (n' & Q & Q'). discriminate.
Qed.

(** C72: for every history of constructions and deletions, the process is in the
    process group exactly if some network joined and, since then, no network
    that had joined was deleted and no construction failed after joining. *)
Theorem C72_group e ops :
  g_group (fst (run e ops)) <> None <->
  exists before d after, ops = (before ++ New d false :: after)%list /\ joins e d /\
    forall a1 o a2, after = (a1 ++ o :: a2)%list -> ~ leaves e (before ++ New d false :: a1) o.
Proof.
  induction ops as [|o ops IH] using rev_ind.
  - cbn. split; [congruence|]. intros ([|] & d & a & K & _); discriminate.
  - rewrite step_group, IH. split.
    + intros [(d & -> & J)|[(b & d & a & -> & J & N) L]].
      * exists ops, d, []. repeat split; auto. intros [|] ? ? K; discriminate.
      * exists b, d, (a ++ [o])%list. split; [now rewrite <- app_assoc|]. split; auto.
        intros a1 o' a2 K. destruct a2 as [|x a2] using rev_ind.
        -- apply app_inj_tail in K. destruct K as [<- <-]. auto.
        -- rewrite app_comm_cons, app_assoc in K. apply app_inj_tail in K. destruct K as [K <-]. eauto.
    + intros (b & d & a & E & J & N). destruct a as [|x a _] using rev_ind.
      * apply app_inj_tail in E. destruct E as [<- ->]. left. eauto.
      * right. rewrite app_comm_cons, app_assoc in E. apply app_inj_tail in E. destruct E as [-> ->]. split.
        -- exists b, d, a. repeat split; auto. intros a1 o' a2 ->. eapply N. now rewrite <- app_assoc.
        -- eapply (N a x []). reflexivity.
Qed.

(** C72: deleting one distributed network takes every other one out of the group:
    it is still there and still says that it is distributed, but no collective
    that it takes part in can run, until another network is constructed. *)
Theorem C72_survivor e ops i j ni nj :
  nth_error (snd (run e ops)) i = Some (Some ni) -> nth_error (snd (run e ops)) j = Some (Some nj) ->
  i <> j -> n_dist ni = true ->
  let p := run e (ops ++ [Drop i]) in
  nth_error (snd p) j = Some (Some nj) /\ n_dist nj = true /\ g_group (fst p) = None /\
  (forall l, In (fst p, nj) l -> collective l = Err RuntimeError) /\
  (forall d, joins e d -> g_group (fst (run e (ops ++ [Drop i; New d false]))) <> None).
Proof.
  intros Hi Hj N Di p. subst p.
  assert (G : g_group (fst (run e (ops ++ [Drop i]))) = None).
  { destruct (g_group (fst (run e (ops ++ [Drop i])))) eqn:G; auto. exfalso.
    assert (K : g_group (fst (run e (ops ++ [Drop i]))) <> None) by congruence.
    apply step_group in K. destruct K as [(d & K & _)|[_ K]]; [discriminate|]. apply K. cbn. eauto. }
  split; [|split; [|split; auto; split]].
  - rewrite run_app. destruct (run e ops) as [s l]. cbn in *. rewrite Hi. cbn. rewrite kill_nth; auto.
  - pose proof (inv_run e ops) as [_ B]. pose proof (B i _ Hi) as Bi. rewrite Di in Bi. destruct Bi as ((d & J & _) & E1 & E2).
    pose proof (B j _ Hj) as Bj. destruct (n_dist nj); auto. destruct Bj as (_ & _ & Q).
    specialize (Q _ _ E1 E2). destruct J as (r & w & F1 & F2 & L & _). assert (w = n_ws ni) by congruence. lia.
  - intros l Hl. unfold collective.
    assert (K1 : forallb (fun sn : pstate * netw => match g_group (fst sn) with Some Nccl => true | _ => false end) l = false).
    { apply not_true_is_false. rewrite forallb_forall. intros K. specialize (K _ Hl). cbn in K. rewrite G in K. discriminate. }
    assert (K2 : forallb (fun sn : pstate * netw => match g_group (fst sn) with Some Gloo => true | _ => false end) l = false).
    { apply not_true_is_false. rewrite forallb_forall. intros K. specialize (K _ Hl). cbn in K. rewrite G in K. discriminate. }
    now rewrite K1, K2.
  - intros d J. change (ops ++ [Drop i; New d false])%list with (ops ++ ([Drop i] ++ [New d false]))%list.
    rewrite app_assoc. apply step_group. eauto.
Qed.

(** C72: whether a construction succeeds does not depend on the history, and a
    network knows its rank and size; alone it keeps the configured device. *)
Theorem C72_networks e ops d :
  let p := run e ops in let p' := run e (ops ++ [New d false]) in
  (joins e d -> exists n, snd p' = (snd p ++ [Some n])%list /\ n_dist n = true /\
     e_rank e = Some (Ok (n_rank n)) /\ e_ws e = Some (Ok (n_ws n)) /\
     (n_place n = PDev d \/ d = cuda /\ n_place n = PRank (Z.to_nat (n_rank n)))) /\
  (alone e -> p' = (fst p, (snd p ++ [Some (Netw 0 1 (PDev d) false)])%list)) /\
  (~ joins e d -> ~ alone e -> snd p' = snd p).
Proof.
  cbv zeta. rewrite run_app. pose proof (inv_run e ops) as I. destruct (run e ops) as [s l]. cbn [fst snd step].
  pose proof (joins_setup e d s) as JS. pose proof (inv_step e (New d false) (s, l) I) as I'. cbn [step] in I'.
  generalize (setup_cases e d s). destruct (setup_distributed e d s) as [s' r].
  intros [(rank & ws & E1 & E2 & L & _ & D & H)|[(rank & ws & x & E1 & E2 & L & N & _ & G & U & ->)|[(-> & [x ->] & NA & N)|(-> & -> & NA & N)]]].
  - assert (A : ~ alone e) by (intros [K|[K|(w & K & K')]]; try congruence; assert (w = ws) by congruence; lia).
    split; [|split; [tauto|]].
    + intros J. destruct (JS J) as (s1 & n & Q & _ & Dn). injection Q as <- ->. exists n. split; auto. split; auto.
      destruct I' as [_ B]. specialize (B (length l) n). cbn [snd] in B. rewrite nth_error_app2, Nat.sub_diag in B by auto.
      specialize (B eq_refl). rewrite Dn in B. destruct B as ((d' & J' & P) & B1 & B2). repeat split; auto.
      clear P. assert (X : e_rank e = Some (Ok (n_rank n))) by auto. rewrite X in E1. injection E1 as <-.
      destruct (g_group s) as [b|].
      * destruct H as (_ & _ & H). injection H as ->. cbn. auto.
      * destruct ((0 <=? n_rank n) && (n_rank n <? ws))%Z; [|destruct H as (_ & _ & H); discriminate].
        destruct H as (_ & [(_ & _ & H)|(-> & _ & H)]); injection H as H; rewrite H; cbn; auto.
    + intros NJ _. destruct r as [n|x]; auto. exfalso. apply NJ.
      destruct I' as [_ B]. destruct I as [A' _]. cbn [fst snd] in A', B.
      destruct (g_group s) as [b|] eqn:Gs.
      * destruct A' as (_ & rank' & ws' & E1' & E2' & L' & R'); [congruence|]. exists rank, ws.
        replace rank' with rank in * by congruence. replace ws' with ws in * by congruence. repeat split; auto; lia.
      * destruct ((0 <=? rank) && (rank <? ws))%Z eqn:Q; [|destruct H as (_ & _ & H); discriminate].
        apply andb_prop in Q. destruct Q as [Q1 Q2]. apply Z.leb_le in Q1. apply Z.ltb_lt in Q2.
        exists rank, ws. repeat split; auto; lia.
  - split; [|split].
    + intros J. destruct (JS J) as (s1 & n & Q & _). discriminate.
    + intros [K|[K|(w & K & K')]]; try congruence. assert (w = ws) by congruence. lia.
    + auto.
  - split; [|split; auto].
    + intros J. destruct (JS J) as (s1 & n & Q & _). discriminate.
    + tauto.
  - split; [|split; auto].
    + intros J. destruct (JS J) as (s1 & n & Q & _ & Dn). injection Q as _ <-. discriminate.
    + tauto.
Qed.

Lemma step_muted e d late s l : g_muted (fst (step e (New d late) (s, l))) = g_muted (fst (setup_distributed e d s)).
Proof.
  cbn [step]. destruct (setup_distributed e d s) as [s' [n|x]]; auto. destruct late; auto.
  cbn. unfold del. now destruct (n_dist n).
Qed.

(** C72: printing is switched off for good by the first attempted construction
    on a rank other than 0, whether or not the construction succeeds. *)
Theorem C72_muted e ops :
  g_muted (fst (run e ops)) = true <->
  exists rank ws d late, e_rank e = Some (Ok rank) /\ e_ws e = Some (Ok ws) /\ (1 < ws)%Z /\ rank <> 0%Z /\
    In (New d late) ops.
Proof.
  induction ops as [|o ops IH] using rev_ind.
  - cbn. split; [discriminate|]. intros (? & ? & ? & ? & _ & _ & _ & _ & []).
  - rewrite run_app. destruct (run e ops) as [s l]. cbn [fst] in IH.
    assert (X : forall P : Prop, (g_muted s = true <-> P) -> P -> g_muted s = true) by tauto.
    destruct o as [d late|i].
    + rewrite step_muted. generalize (setup_cases e d s). destruct (setup_distributed e d s) as [s' r]. cbn [fst].
      assert (Two : forall rank ws, e_rank e = Some (Ok rank) -> e_ws e = Some (Ok ws) -> (1 < ws)%Z ->
        g_muted s' = (if (rank =? 0)%Z then g_muted s else true) -> g_muted s' = true <->
        exists rank ws d0 late0, e_rank e = Some (Ok rank) /\ e_ws e = Some (Ok ws) /\ (1 < ws)%Z /\ rank <> 0%Z /\
          In (New d0 late0) (ops ++ [New d late])).
      { intros rank ws Er Ew L ->. destruct (Z.eqb_spec rank 0) as [-> |Nz].
        - rewrite IH. split; intros (r1 & w1 & d1 & l1 & F1 & F2 & F3 & F4 & _); congruence.
        - split; auto. intros _. exists rank, ws, d, late. repeat split; auto. apply in_or_app. right. now left. }
      assert (One : g_muted s' = g_muted s ->
        (forall rank ws, e_rank e = Some (Ok rank) -> e_ws e = Some (Ok ws) -> ~ (1 < ws)%Z) -> g_muted s' = true <->
        exists rank ws d0 late0, e_rank e = Some (Ok rank) /\ e_ws e = Some (Ok ws) /\ (1 < ws)%Z /\ rank <> 0%Z /\
          In (New d0 late0) (ops ++ [New d late])).
      { intros -> N. rewrite IH. split; intros (r1 & w1 & d1 & l1 & F1 & F2 & F3 & F4 & _); destruct (N _ _ F1 F2 F3). }
      intros [(rank & ws & E1 & E2 & L & M & _)|[(rank & ws & x & E1 & E2 & L & N & M & _)|[(-> & _ & NA & N)|(-> & _ & NA & N)]]].
      * eauto.
      * eauto.
      * apply One; auto. intros r1 w1 F1 F2. destruct (N _ _ F1 F2).
      * apply One; auto. intros r1 w1 F1 F2. specialize (N _ _ F1 F2). lia.
    + assert (R : g_muted (fst (step e (Drop i) (s, l))) = g_muted s).
      { cbn [step]. destruct (nth_error l i) as [[n|]|]; auto. cbn. unfold del. now destruct (n_dist n). }
      rewrite R, IH. split; intros (r1 & w1 & d1 & l1 & F1 & F2 & F3 & F4 & F); exists r1, w1, d1, l1; repeat split; auto.
      * apply in_or_app. auto.
      * apply in_app_or in F. destruct F as [F|[F|[]]]; auto. discriminate.
Qed.

(** Two CPU processes (rank 1 of 2, four cores, no GPU): two networks, the first
    is deleted, the second is left out of the group. *)
Definition two_cpus := Env (Some (Ok 1%Z)) (Some (Ok 2%Z)) 0 4.
Example C72_example :
  map (fun k => g_group (fst (run two_cpus (firstn k [New cpu false; New cpu false; Drop 0; New cpu false])))) [0; 1; 2; 3; 4]
    = [None; Some Gloo; Some Gloo; None; Some Gloo] /\
  snd (run two_cpus [New cpu false; New cpu false; Drop 0]) = [None; Some (Netw 1 2 (PDev cpu) true)] /\
  g_muted (fst (run two_cpus [New (Dev "cuda"%string (Some 0)) false])) = true /\
  snd (run two_cpus [New (Dev "cuda"%string (Some 0)) false]) = [].
Proof. repeat split; reflexivity. Qed.

(** ** C73 *)

Lemma on_all_spec ops i : forall envs l, on_all envs ops i = Some l ->
  length l = length envs /\
  forall k e, nth_error envs k = Some e -> exists n, nth_error l k = Some (fst (run e ops), n) /\
    nth_error (snd (run e ops)) i = Some (Some n).
Proof.
  induction envs as [|e envs IH]; intros l H; cbn [on_all] in H.
  - injection H as <-. split; auto. intros [|] ?; discriminate.
  - destruct (nth_error (snd (run e ops)) i) as [[n|]|] eqn:E; try discriminate.
    destruct (on_all envs ops i) as [l'|]; try discriminate. injection H as <-.
    destruct (IH l' eq_refl) as [L N]. split; [cbn; auto|]. intros [|k] e' He; cbn in *.
    + injection He as <-. eauto.
    + eauto.
Qed.

Lemma nth_ranks e ws k : k < ws -> nth_error (ranks e ws) k = Some (rank_env e k).
Proof.
  intros H. unfold ranks. rewrite nth_error_map.
  assert (S : nth_error (seq 0 ws) k = Some k).
  { rewrite (nth_error_nth' _ 0); [|now rewrite seq_length]. now rewrite seq_nth. }
  now rewrite S.
Qed.

Lemma collective_ok l : l <> [] -> collective l = Ok tt ->
  (forall s n, In (s, n) l -> g_group s = Some Nccl /\ placement s n <> None) \/
  (forall s n, In (s, n) l -> g_group s = Some Gloo /\ placement s n = None).
Proof.
  unfold collective. intros _.
  destruct (forallb (fun sn : pstate * netw => match g_group (fst sn) with Some Nccl => true | _ => false end) l) eqn:A.
  - destruct (places _) as [ds|] eqn:P; [|discriminate]. intros _. left. intros s n Hn.
    rewrite forallb_forall in A. specialize (A _ Hn). cbn in A. destruct (g_group s) as [[|]|]; try discriminate. split; auto.
    clear A. revert ds P. induction l as [|[s' n'] l IH]; intros ds P; [destruct Hn|]. cbn in P.
    destruct (placement s' n') as [a|] eqn:E; [|discriminate]. destruct (places _) as [ds'|] eqn:P'; [|discriminate].
    destruct Hn as [K|Hn]; [injection K as -> ->; congruence|eauto].
  - destruct (forallb (fun sn : pstate * netw => match g_group (fst sn) with Some Gloo => true | _ => false end) l) eqn:B; [|discriminate].
    destruct (forallb _ (map _ l)) eqn:P; [|discriminate]. intros _. right. intros s n Hn.
    rewrite forallb_forall in B. specialize (B _ Hn). cbn in B. destruct (g_group s) as [[|]|]; try discriminate. split; auto.
    rewrite forallb_forall in P. specialize (P (placement s n) (in_map (fun sn => placement (fst sn) (snd sn)) _ _ Hn)).
    destruct (placement s n); congruence.
Qed.

Lemma collective_err l : collective l = Ok tt \/ collective l = Err RuntimeError.
Proof.
  unfold collective. destruct (forallb _ l); [destruct (places _); [destruct (nodupb _)|]; auto|].
  destruct (forallb _ l); auto. destruct (forallb _ _); auto.
Qed.

Lemma to_rank_all (l : list (env * (pstate * netw))) : (forall e s n, In (e, (s, n)) l -> to_rank e (n_rank n) = Ok tt) <->
  for_each l (fun en _ => to_rank (fst en) (n_rank (snd (snd en)))) tt = Ok tt.
Proof.
  induction l as [|[e [s n]] l IH]; cbn; [split; auto; intros _ ? ? ? []|].
  split.
  - intros H. rewrite (H e s n) by auto. cbn. apply IH. intros. apply (H e0 s0). auto.
  - destruct (to_rank e (n_rank n)) as [[]|] eqn:E; cbn; [|discriminate]. intros H. rewrite <- IH in H.
    intros e' s' n' [K|K]; [congruence|eauto].
Qed.

Lemma to_rank_err (l : list (env * (pstate * netw))) : for_each l (fun en _ => to_rank (fst en) (n_rank (snd (snd en)))) tt = Ok tt \/
  for_each l (fun en _ => to_rank (fst en) (n_rank (snd (snd en)))) tt = Err RuntimeError.
Proof.
  induction l as [|[e [s n]] l IH]; cbn; auto. unfold to_rank. destruct (_ && _)%bool; cbn; auto.
Qed.

(** C73: a network whose tensors are on the host cannot be renormalised by
    several processes, on no machine and after no history: gathering the
    projectors fails (NCCL does not take host tensors, and without a GPU the
    shapes cannot be moved to "device rank"). *)
Theorem C73_host e ws ops i l s n :
  on_all (ranks e ws) ops i = Some l -> In (s, n) l -> placement s n = None ->
  all_gather_tensor (ranks e ws) l = Err RuntimeError.
Proof.
  intros Hl Hn Hp. destruct (on_all_spec _ _ _ _ Hl) as [L N].
  unfold all_gather_tensor. destruct (collective_err l) as [C|C]; rewrite C; cbn [bind]; auto.
  destruct (to_rank_err (combine (ranks e ws) l)) as [T|T]; rewrite T; cbn [bind]; auto.
  exfalso. rewrite <- to_rank_all in T.
  assert (l <> []) as Ne by (intros ->; destruct Hn).
  destruct (collective_ok l Ne C) as [K|K]; [destruct (K _ _ Hn); contradiction|].
  destruct (In_nth_error _ _ Hn) as [k Hk].
  assert (Kw : k < ws).
  { assert (k < length l) by (apply nth_error_Some; congruence). rewrite L in H. unfold ranks in H.
    now rewrite map_length, seq_length in H. }
  destruct (N k _ (nth_ranks e ws k Kw)) as (n' & Hk' & Hi). rewrite Hk in Hk'. injection Hk' as -> <-.
  destruct (K _ _ Hn) as [G _]. pose proof (inv_run (rank_env e k) ops) as [A _].
  destruct A as [A _]; [congruence|]. rewrite G in A. unfold e_cuda in A. cbn [rank_env e_gpus] in A.
  destruct (Nat.ltb_spec 0 (e_gpus e)) as [|Z0]; [discriminate|].
  specialize (T (rank_env e k) (fst (run (rank_env e k) ops)) n).
  assert (I : In (rank_env e k, (fst (run (rank_env e k) ops), n)) (combine (ranks e ws) l)).
  { apply nth_error_In with k. pose proof (nth_ranks e ws k Kw) as Hr. revert Hk Hr. generalize (ranks e ws) as es.
    generalize (rank_env e k) as x, (fst (run (rank_env e k) ops), n) as y. clear. intros x y. revert l.
    induction k as [|k IH]; intros [|a l] [|b es]; cbn; try discriminate; try congruence. apply IH. }
  specialize (T I). unfold to_rank in T. cbn [rank_env e_gpus] in T.
  destruct (Z.leb_spec 0 (n_rank n)), (Z.ltb_spec (n_rank n) (Z.of_nat (e_gpus e))); cbn in T; try discriminate; lia.
Qed.

(** every construction asks for "cuda" *)
Definition all_cuda (ops : list op) : Prop := forall d late, In (New d late) ops -> d = cuda.

Lemma cuda_current e r ops (ws : Z) : e_ws e = Some (Ok ws) -> (1 < ws)%Z -> (Z.of_nat r < ws)%Z -> all_cuda ops ->
  let p := run (rank_env e r) ops in
  (snd p <> [] \/ g_group (fst p) <> None -> g_current (fst p) = r) /\
  (forall i n, nth_error (snd p) i = Some (Some n) -> n_rank n = Z.of_nat r /\
     (n_place n = PDev cuda \/ n_place n = PRank r) /\ (ws <= Z.of_nat (e_gpus e))%Z).
Proof.
  intros Ew L R. induction ops as [|o ops IH] using rev_ind; intros All p; subst p.
  - cbn. split; [intros [|]; congruence|]. intros [|i] ? H; discriminate.
  - rewrite run_app. destruct IH as [IH1 IH2]. { intros d late H. apply (All d late). apply in_or_app. auto. }
    destruct (run (rank_env e r) ops) as [s l]. cbn [fst snd] in *. destruct o as [d late|i]; cbn [step].
    + assert (d = cuda) as -> by (apply (All d late); apply in_or_app; right; now left).
      generalize (setup_cases (rank_env e r) cuda s). destruct (setup_distributed (rank_env e r) cuda s) as [s' x].
      intros [(rank & w & E1 & E2 & L' & _ & D & H)|[(rank & w & y & E1 & E2 & L' & N & _ & G & U & ->)|[(-> & [y ->] & NA & N)|(-> & -> & NA & N)]]].
      * cbn [rank_env e_rank e_ws e_gpus] in *. injection E1 as <-. rewrite Ew in E2. injection E2 as <-.
        assert (K : ((0 <=? Z.of_nat r) && (Z.of_nat r <? ws))%Z = true).
        { apply andb_true_intro. split; [apply Z.leb_le|apply Z.ltb_lt]; lia. }
        assert (H' : g_current s' = r /\ exists n, x = Ok n /\ n_dist n = true /\ n_rank n = Z.of_nat r /\ (n_place n = PDev cuda \/ n_place n = PRank r)).
        { destruct (g_group s) as [b|].
          - destruct H as (_ & Hc & ->). split; [rewrite Hc; apply IH1; right; discriminate|]. eexists. split; eauto.
          - rewrite K in H. destruct H as (_ & [(H & _)|(_ & Hc & ->)]); [discriminate|].
            rewrite Nat2Z.id in *. split; auto. eexists. split; eauto. }
        clear H. destruct H' as (Hc & n & -> & Dn & Rn & Pn).
        assert (Dg : (ws <= Z.of_nat (e_gpus e))%Z) by (destruct D as [[D _]|[_ D]]; [discriminate|auto]).
        destruct late; cbn [fst snd].
        -- unfold del. rewrite Dn. cbn. split; auto.
        -- split; auto. intros i n' Hi. destruct (Nat.lt_ge_cases i (length l)).
           ++ rewrite nth_error_app1 in Hi by auto. eauto.
           ++ rewrite nth_error_app2 in Hi by auto. destruct (i - length l) as [|[|k]]; cbn in Hi; try discriminate.
              injection Hi as <-. auto.
      * cbn [fst snd]. rewrite G, U. auto.
      * cbn in N. destruct (N _ _ eq_refl Ew).
      * cbn in N. specialize (N _ _ eq_refl Ew). lia.
    + destruct (nth_error l i) as [[n|]|] eqn:E; cbn [fst snd]; auto. split.
      * intros _. assert (g_current (del n s) = g_current s) as -> by (unfold del; now destruct (n_dist n)).
        apply IH1. left. intros ->. destruct i; discriminate.
      * intros j n' Hj. apply nth_kill in Hj. destruct Hj. eauto.
Qed.

Lemma nodupb_seq n : forall k, nodupb (seq k n) = true.
Proof.
  induction n as [|n IH]; intros k; cbn; auto. rewrite IH, andb_true_r. apply negb_true_iff. apply not_true_is_false.
  rewrite existsb_exists. intros (x & Hx & E). apply Nat.eqb_eq in E. subst. apply in_seq in Hx. lia.
Qed.

Lemma places_some l : places (map Some l) = Some l.
Proof. induction l as [|a l IH]; cbn; auto. now rewrite IH. Qed.

Lemma nth_error_ext {A} : forall l l' : list A, (forall k, nth_error l k = nth_error l' k) -> l = l'.
Proof.
  induction l as [|a l IH]; intros [|b l'] H; auto; try (specialize (H 0); discriminate).
  f_equal; [specialize (H 0); cbn in H; congruence|]. apply IH. intros k. exact (H (S k)).
Qed.

(** C73: if all networks are constructed with device "cuda", network i of rank r
    lives on GPU r on every rank, and gathering runs exactly while the process
    group exists. *)
Theorem C73_cuda e ws ops i l :
  e_ws e = Some (Ok (Z.of_nat ws)) -> 1 < ws -> all_cuda ops -> on_all (ranks e ws) ops i = Some l ->
  map (fun sn => placement (fst sn) (snd sn)) l = map Some (seq 0 ws) /\
  (all_gather_tensor (ranks e ws) l = Ok tt <->
   forall r, r < ws -> g_group (fst (run (rank_env e r) ops)) <> None).
Proof.
  intros Ew L All Hl. destruct (on_all_spec _ _ _ _ Hl) as [Ll N].
  assert (Lw : length l = ws) by (rewrite Ll; unfold ranks; now rewrite map_length, seq_length).
  assert (P : forall r, r < ws -> exists s n, nth_error l r = Some (s, n) /\ s = fst (run (rank_env e r) ops) /\
            placement s n = Some r /\ n_rank n = Z.of_nat r /\ ws <= e_gpus e).
  { intros r Hr. destruct (N r _ (nth_ranks e ws r Hr)) as (n & Hn & Hi). exists (fst (run (rank_env e r) ops)), n.
    destruct (cuda_current e r ops (Z.of_nat ws)) as [A B]; auto; try lia.
    destruct (B _ _ Hi) as (B1 & B2 & B3). repeat split; auto; try lia.
    unfold placement. destruct B2 as [-> | ->]; auto. cbn. f_equal. apply A. left. intros K. rewrite K in Hi. destruct i; discriminate. }
  assert (M : map (fun sn => placement (fst sn) (snd sn)) l = map Some (seq 0 ws)).
  { apply nth_error_ext. intros k. rewrite !nth_error_map. destruct (Nat.lt_ge_cases k ws) as [Hk|Hk].
    - destruct (P k Hk) as (s & n & -> & _ & Hp & _). cbn. rewrite Hp.
      rewrite (nth_error_nth' _ 0) by now rewrite seq_length. now rewrite seq_nth.
    - replace (nth_error l k) with (@None (pstate * netw)) by (symmetry; apply nth_error_None; lia).
      replace (nth_error (seq 0 ws) k) with (@None nat); auto. symmetry. apply nth_error_None. now rewrite seq_length. }
  split; auto. split.
  - intros H r Hr. destruct (P r Hr) as (s & n & Hn & -> & _).
    unfold all_gather_tensor in H. destruct (collective_err l) as [C|C]; rewrite C in H; cbn in H; [|discriminate].
    assert (l <> []) as Ne by (intros ->; cbn in Lw; lia).
    destruct (collective_ok l Ne C) as [K|K]; destruct (K _ _ (nth_error_In _ _ Hn)) as [-> _]; discriminate.
  - intros H. assert (C : collective l = Ok tt).
    { unfold collective.
      assert (K1 : forallb (fun sn : pstate * netw => match g_group (fst sn) with Some Nccl => true | _ => false end) l = true).
      { apply forallb_forall. intros [s n] Hn. destruct (In_nth_error _ _ Hn) as [k Hk].
        assert (Hkw : k < ws) by (rewrite <- Lw; apply nth_error_Some; congruence).
        destruct (P k Hkw) as (s' & n' & Hk' & Hs & _ & _ & Hg). rewrite Hk in Hk'. injection Hk' as -> ->.
        pose proof (inv_run (rank_env e k) ops) as [A _]. cbn [fst]. rewrite Hs. rewrite (proj1 (A (H k Hkw))).
        unfold e_cuda. cbn [rank_env e_gpus]. destruct (Nat.ltb_spec 0 (e_gpus e)); auto; lia. }
      rewrite K1, M, places_some, nodupb_seq. reflexivity. }
    unfold all_gather_tensor. rewrite C. cbn [bind].
    assert (T : for_each (combine (ranks e ws) l) (fun en _ => to_rank (fst en) (n_rank (snd (snd en)))) tt = Ok tt).
    { apply to_rank_all. intros e' s n Hi. apply in_combine_l in Hi as He. apply in_combine_r in Hi as Hn.
      destruct (In_nth_error _ _ Hn) as [k Hk]. assert (Hkw : k < ws) by (rewrite <- Lw; apply nth_error_Some; congruence).
      destruct (P k Hkw) as (s' & n' & Hk' & _ & _ & Hr & Hg). rewrite Hk in Hk'. injection Hk' as -> ->.
      unfold ranks in He. apply in_map_iff in He. destruct He as (q & <- & _). unfold to_rank. cbn [rank_env e_gpus].
      rewrite Hr. destruct (Z.leb_spec 0 (Z.of_nat k)), (Z.ltb_spec (Z.of_nat k) (Z.of_nat (e_gpus e))); auto; lia. }
    rewrite T. reflexivity.
Qed.

(** "a network with device cuda lives on the GPU of its rank" is false if a
    network with device cpu was constructed first: the group exists already, so
    the GPU is never selected, all ranks use GPU 0 and gathering fails. *)
Theorem C73_mixed_refuted : exists e ws ops i l,
  e_ws e = Some (Ok (Z.of_nat ws)) /\ ws <= e_gpus e /\ ws <= e_cpus e /\
  on_all (ranks e ws) ops i = Some l /\
  (forall r, r < ws -> g_group (fst (run (rank_env e r) ops)) <> None) /\
  (forall s n, In (s, n) l -> n_place n = PDev cuda /\ placement s n = Some 0) /\
  all_gather_tensor (ranks e ws) l = Err RuntimeError.
Proof.
  exists (Env None (Some (Ok 2%Z)) 2 4), 2, [New cpu false; New cuda false], 1.
  eexists. split; [reflexivity|]. split; [cbn; lia|]. split; [cbn; lia|]. split; [reflexivity|].
  split; [|split].
  - intros [|[|r]] H; [discriminate|discriminate|lia].
  - intros s n [H|[H|[]]]; injection H as <- <-; split; reflexivity.
  - reflexivity.
Qed.

Example C73_example :
  (exists l, on_all (ranks (Env None (Some (Ok 2%Z)) 2 4) 2) [New cuda false; New cuda false] 1 = Some l /\
     map (fun sn => (n_place (snd sn), placement (fst sn) (snd sn))) l = [(PDev cuda, Some 0); (PDev cuda, Some 1)] /\
     all_gather_tensor (ranks (Env None (Some (Ok 2%Z)) 2 4) 2) l = Ok tt) /\
  (exists l, on_all (ranks two_cpus 2) [New cpu false] 0 = Some l /\
     collective l = Ok tt /\ all_gather_tensor (ranks two_cpus 2) l = Err RuntimeError).
Proof. split; eexists; (split; [reflexivity|]); split; reflexivity. Qed.

Print Assumptions C72_group.
Print Assumptions C72_survivor.
Print Assumptions C72_muted.
Print Assumptions C72_networks.
Print Assumptions C73_host.
Print Assumptions C73_cuda.
Print Assumptions C73_mixed_refuted.
