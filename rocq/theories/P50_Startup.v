(** C99: what the import of the package makes of its surroundings. *)
From Coq Require Import String Ascii List Arith Bool Lia.
From Verif Require Import Base Evolve Config Startup.
From Verif Require P02_Evolve P08_Control.
Import ListNotations.
Open Scope string_scope.

(** ---- specification side ---- *)

(** Two words that differ at most by writing capitals (second) as small letters
    (first). *)
Definition small_of (c d : ascii) : Prop :=
  (65 <= nat_of_ascii d <= 90 /\ nat_of_ascii c = nat_of_ascii d + 32)%nat.
Fixpoint spelled (s t : string) : Prop :=
  match s, t with
  | EmptyString, EmptyString => True
  | String c s, String d t => (c = d \/ small_of c d) /\ spelled s t
  | _, _ => False
  end.

(** The value of the variable stands for a level. *)
Definition names (env : option string) (level : nat) : Prop :=
  match env with
  | None => level = 20
  | Some s => exists word, spelled s word /\
      In (word, level) [("DEBUG", 10); ("INFO", 20); ("WARNING", 30); ("ERROR", 40); ("CRITICAL", 50)]
  end.

(** ---- proofs ---- *)
Definition small_chars : forall c : ascii,
  upper_char c = c \/ (97 <= nat_of_ascii c <= 122 /\ nat_of_ascii (upper_char c) + 32 = nat_of_ascii c)%nat.
Proof.
  intros [[|] [|] [|] [|] [|] [|] [|] [|]];
    first [left; vm_compute; reflexivity | right; vm_compute; split; [split; repeat constructor | reflexivity]].
Qed.

Lemma capitals (d : ascii) : (65 <= nat_of_ascii d <= 90)%nat -> upper_char d = d.
Proof. intros H. destruct (small_chars d) as [E|[L _]]; [exact E|lia]. Qed.

Lemma upper_char_spec (c d : ascii) : (65 <= nat_of_ascii d <= 90)%nat ->
  (upper_char c = d <-> c = d \/ small_of c d).
Proof.
  intros H. split.
  - intros E. destruct (small_chars c) as [U|[_ P]]; [left; congruence|right].
    rewrite E in P. split; [exact H|lia].
  - intros [-> |[_ E]]; [now apply capitals|].
    unfold upper_char. rewrite E.
    replace (_ && _)%bool with true.
    + replace (nat_of_ascii d + 32 - 32)%nat with (nat_of_ascii d) by lia. apply ascii_nat_embedding.
    + symmetry. apply andb_true_intro. split; apply Nat.leb_le; lia.
Qed.

Fixpoint all_capitals (t : string) : Prop :=
  match t with EmptyString => True | String d t => (65 <= nat_of_ascii d <= 90)%nat /\ all_capitals t end.
Lemma upper_spec t : all_capitals t -> forall s, upper s = t <-> spelled s t.
Proof.
  induction t as [|d t IH]; intros H [|c s]; cbn; split; intros E; try easy.
  - destruct H as [Hd H]. inversion E as [[E1 E2]]. rewrite E1, E2. split.
    + now apply upper_char_spec.
    + now apply IH.
  - destruct H as [Hd H]. destruct E as [E1 E2]. f_equal.
    + now apply upper_char_spec.
    + now apply IH.
Qed.

Lemma get_In d key v : NoDup (map fst d) -> (get d key = Some v <-> In (key, v) d).
Proof.
  induction d as [|[k x] d IH]; cbn; intros N; [easy|]. inversion N as [|? ? N1 N2]; subst.
  destruct (string_dec k key) as [-> |D]; split.
  - intros E; inversion E; auto.
  - intros [E|E]; [now inversion E|]. exfalso. apply N1. now apply (in_map fst) in E.
  - intros E. right. now apply IH.
  - intros [E|E]; [congruence|]. now apply IH.
Qed.

Lemma words_capital w l : In (w, l) log_levels -> all_capitals w.
Proof.
  cbn [log_levels In]. intros I.
  repeat (destruct I as [I|I];
    [injection I as I1 I2; rewrite <- I1; cbn [all_capitals nat_of_ascii]; repeat split; apply Nat.leb_le; reflexivity|]).
  easy.
Qed.

Lemma level_get env level :
  get log_levels (upper (match env with Some s => s | None => "INFO" end)) = Some level <-> names env level.
Proof.
  destruct env as [s|].
  - rewrite get_In.
    + cbn [names]. split.
      * intros I. exists (upper s). split; [|exact I].
        apply upper_spec; [|reflexivity]. now apply words_capital in I.
      * intros [w [S I]]. replace (upper s) with w; [exact I|]. symmetry. apply upper_spec; [|exact S].
        now apply words_capital in I.
    + cbn. repeat constructor; cbn; intuition discriminate.
  - cbn. split; [intros E; now inversion E|intros ->; reflexivity].
Qed.

Lemma names_unique env a b : names env a -> names env b -> a = b.
Proof. rewrite <- !level_get. congruence. Qed.

(** One construction of the logger. *)
Theorem C99_logger (env : option string) (arg : nat) (file : string) (g : log) :
  (forall level, names env level -> logger_init env arg file g = Ok (Log level (S (g_handlers g)), None)) /\
  ((forall level, ~ names env level) -> logger_init env arg file g = Err TypeError).
Proof.
  split.
  - intros level H. apply level_get in H. unfold logger_init. now rewrite H.
  - intros H. unfold logger_init.
    destruct (get log_levels _) as [l|] eqn:E; [|reflexivity].
    exfalso. apply level_get in E. now apply (H l).
Qed.

(** What is known after a sequence of attempts to import the package. *)
Definition after (us : list surroundings) : process := fst (attempts us fresh).

(** The invariant: nothing is imported before an attempt finds a good value. *)
Lemma names_dec env : {level | names env level} + {forall level, ~ names env level}.
Proof.
  destruct (get log_levels (upper (match env with Some s => s | None => "INFO" end))) as [l|] eqn:E.
  - left. exists l. now apply level_get.
  - right. intros l H. apply level_get in H. congruence.
Qed.

Lemma attempts_imported us p : p_imported p = true -> attempts us p = (p, map (fun _ => None) us).
Proof.
  intros I. induction us as [|u us IH]; [reflexivity|]. cbn. unfold import_package.
  now rewrite I, IH.
Qed.

Lemma attempts_app us vs p : attempts (us ++ vs) p =
  let '(q, r) := attempts us p in let '(q', r') := attempts vs q in (q', (r ++ r')%list).
Proof.
  revert p; induction us as [|u us IH]; intros p; cbn.
  - now destruct (attempts vs p).
  - destruct (import_package u p) as [q r]. rewrite IH.
    destruct (attempts us q) as [q' rs], (attempts vs q') as [q'' rs']. reflexivity.
Qed.

Definition warned (o : outcome) : nat := match o with Broken => 1 | _ => 0 end.
Definition available (o : outcome) : bool := match o with Loaded => true | _ => false end.

Lemma load_spec o : load_cutensor_extension o = (available o, warned o).
Proof. now destruct o. Qed.

Lemma bad_attempts us b w :
  (forall u, In u us -> forall level, ~ names (u_env u) level) ->
  attempts us (Proc (Some b) w (Log 0 0) false None) =
  (Proc (Some b) w (Log 0 0) false None, map (fun _ => Some TypeError) us).
Proof.
  induction us as [|u us IH]; intros H; [reflexivity|].
  cbn [attempts]. unfold import_package. cbn [p_imported p_ext p_log].
  rewrite (proj2 (C99_logger (u_env u) 20 "debug.log" (Log 0 0)) (H u (or_introl eq_refl))).
  cbn [p_warnings p_file]. rewrite Nat.add_0_r, IH; [reflexivity|].
  intros v I. apply H. now right.
Qed.

(** Attempts that all meet a value that stands for no level: each of them raises
    TypeError, no handler is added, and only the extension has been loaded. *)
Theorem C99_refused (u : surroundings) (us : list surroundings) :
  (forall v, In v (u :: us) -> forall level, ~ names (u_env v) level) ->
  attempts (u :: us) fresh =
  (Proc (Some (available (u_ext u))) (warned (u_ext u)) (Log 0 0) false None,
   map (fun _ => Some TypeError) (u :: us)).
Proof.
  intros H. cbn [attempts]. unfold import_package. cbn [p_imported p_ext p_log fresh].
  rewrite load_spec.
  rewrite (proj2 (C99_logger (u_env u) 20 "debug.log" (Log 0 0)) (H u (or_introl eq_refl))).
  cbn [p_warnings p_file fresh]. rewrite bad_attempts; [reflexivity|].
  intros v I. apply H. now right.
Qed.

(** The first attempt [v] that meets a good value settles the level, whatever
    follows; the first attempt of all, [u], settles the extension. *)
Theorem C99_settled (bad rest : list surroundings) (v : surroundings) (level : nat) :
  (forall x, In x bad -> forall l, ~ names (u_env x) l) ->
  names (u_env v) level ->
  let u := hd v bad in
  attempts (bad ++ v :: rest) fresh =
  (Proc (Some (available (u_ext u))) (warned (u_ext u)) (Log level 1) true None,
   (map (fun _ => Some TypeError) bad ++ None :: map (fun _ => None) rest)%list).
Proof.
  intros H N u. rewrite attempts_app. destruct bad as [|x bad].
  - cbn [attempts map app]. unfold import_package. cbn [p_imported p_ext p_log fresh].
    rewrite load_spec, (proj1 (C99_logger (u_env v) 20 "debug.log" (Log 0 0)) level N).
    cbn [p_warnings fresh g_handlers]. rewrite attempts_imported; reflexivity.
  - rewrite (C99_refused x bad H). cbn [attempts]. unfold import_package. cbn [p_imported p_ext p_log].
    rewrite (proj1 (C99_logger (u_env v) 20 "debug.log" (Log 0 0)) level N).
    cbn [p_warnings g_handlers]. rewrite Nat.add_0_r, attempts_imported by reflexivity. reflexivity.
Qed.

(** Either all attempts were refused or one of them was the first good one. *)
Lemma split_attempts us :
  (forall x, In x us -> forall l, ~ names (u_env x) l) \/
  (exists bad v rest level, us = (bad ++ v :: rest)%list /\
    (forall x, In x bad -> forall l, ~ names (u_env x) l) /\ names (u_env v) level).
Proof.
  induction us as [|u us [IH|(bad & v & rest & level & -> & B & N)]].
  - left. easy.
  - destruct (names_dec (u_env u)) as [[l L]|L].
    + right. exists [], u, us, l. now repeat split.
    + left. intros x [<- |I]; [exact L|now apply IH].
  - destruct (names_dec (u_env u)) as [[l L]|L].
    + right. exists [], u, (bad ++ v :: rest)%list, l. now repeat split.
    + right. exists (u :: bad), v, rest, level. repeat split; auto.
      intros x [<- |I]; [exact L|now apply B].
Qed.

Lemma lines_le g k : (g_handlers g <= 1)%nat -> (lines g k <= 1)%nat.
Proof. unfold lines. destruct (enabled g k); lia. Qed.

(** The package is imported exactly if some attempt met a good value; there is
    never more than one handler, so every message is written at most once; there
    is never a log file; and the extension counts as available exactly if the
    first attempt could load it. *)
Theorem C99_state (us : list surroundings) :
  let p := after us in
  (p_imported p = true <-> exists u level, In u us /\ names (u_env u) level) /\
  (g_handlers (p_log p) = if p_imported p then 1 else 0) /\
  p_file p = None /\
  cutensor_available p = match us with [] => false | u :: _ => available (u_ext u) end /\
  (forall level, (lines (p_log p) level <= 1)%nat).
Proof.
  intros p. unfold p, after.
  destruct (split_attempts us) as [B|(bad & v & rest & l & -> & B & N)].
  - destruct us as [|u us].
    + repeat split; try easy.
      * intros (x & l & [] & _).
      * intros l. apply lines_le. cbn. lia.
    + rewrite C99_refused by exact B. cbn [fst p_imported p_log g_handlers p_file cutensor_available p_ext]. repeat split; try easy.
      * intros (x & l & I & N). exfalso. exact (B x I l N).
      * intros l. apply lines_le. cbn. lia.
  - rewrite (C99_settled bad rest v l B N). cbn [fst p_imported p_log g_handlers p_file cutensor_available p_ext].
    repeat split; try easy.
    * intros _. exists v, l. split; [|exact N]. apply in_or_app. right. now left.
    * now destruct bad.
    * intros k. apply lines_le. cbn. lia.
Qed.

(** Debug mode: the value that settled the level spells DEBUG. *)
Theorem C99_debug (bad rest : list surroundings) (v : surroundings) :
  (forall x, In x bad -> forall l, ~ names (u_env x) l) ->
  (exists level, names (u_env v) level) ->
  is_debug_mode (after (bad ++ v :: rest)) = true <-> (exists s, u_env v = Some s /\ spelled s "DEBUG").
Proof.
  intros B [level N]. unfold after. rewrite (C99_settled bad rest v level B N).
  unfold is_debug_mode, enabled. cbn [fst p_log g_level]. rewrite Nat.leb_le. split.
  - intros L. destruct (u_env v) as [s|]; cbn [names] in N; [|lia].
    destruct N as [w [S I]]. exists s. split; [reflexivity|].
    cbn in I. repeat (destruct I as [I|I]; [inversion I; subst; first [exact S | lia]|]). easy.
  - intros (s & E & S). rewrite E in N.
    assert (level = 10); [|lia]. apply (names_unique (Some s)); [exact N|].
    exists "DEBUG". split; [exact S|now left].
Qed.

(** Evolution in an importing process: the level changes neither the tensors nor
    the bond order; the reports are written in debug mode only, one per ten
    steps, each as four lines (evolve.py 49-52). *)
Theorem C99_evolve (B S T : Type) (bond_update : B -> S -> S * (T * T)) (tzero : T)
    (tadd : T -> T -> T) (tdiv : T -> nat -> T) (us us' : list surroundings)
    (steps : nat) (s : S) (bonds : list B) :
  let run us := evolve_loop B S T bond_update tzero tadd tdiv (is_debug_mode (after us)) steps s bonds in
  l_state _ _ _ (run us) = l_state _ _ _ (run us') /\
  l_bonds _ _ _ (run us) = l_bonds _ _ _ (run us') /\
  (p_imported (after us) = true ->
   length (l_log _ _ _ (run us)) * (4 * lines (p_log (after us)) 10) =
   if is_debug_mode (after us) then 4 * (steps / 10) else 0)%nat.
Proof.
  cbn zeta. repeat split.
  - now rewrite !P02_Evolve.C07_schedule.
  - now rewrite !P02_Evolve.C08_bond_order_after.
  - intros I. destruct (C99_state us) as (_ & Hh & _). rewrite I in Hh.
    unfold lines, is_debug_mode. destruct (enabled _ _).
    + rewrite P02_Evolve.C09_labels_exchanged, map_length, seq_length, Hh. lia.
    + lia.
Qed.

(** The compiled solver is only asked for where it is: whatever the user's
    dictionary asks, after any number of attempts to import the package a
    configuration with the backend "cutensor" is one whose solver import
    succeeds, whatever has become of the extension since. *)
Theorem C99_backend (us : list surroundings) (w : world) (user : dict) (g : config) (now : outcome) :
  w_cutensor w = cutensor_available (after us) ->
  ipeps_config w user = Ok g ->
  dlookup (g_evolution g) "backend" = Some (VStr "cutensor") ->
  solver_import (after us) now = Ok tt.
Proof.
  intros W G L. rewrite (P08_Control.C57_backend w user g G) in L.
  unfold solver_import. unfold cutensor_available in W.
  destruct (p_ext (after us)) as [[|]|]; [reflexivity| |]; exfalso; rewrite W in L; clear W.
  all: destruct (P08_Control.dflt _ _) as [| | | |s| | | |]; try discriminate.
  all: destruct (string_dec s "cutensor"); congruence.
Qed.

(** Examples: the value " debug" (with a blank) is refused, "Debug" is not; a
    program that sets the variable right after a refusal gets its level, but the
    extension it has built in the meantime is not seen. *)
Example C99_turns :
  names (Some "Debug") 10 /\ (forall level, ~ names (Some " debug") level) /\
  attempts [Surr (Some " debug") Broken; Surr (Some "Debug") Loaded; Surr None Loaded] fresh =
  (Proc (Some false) 1 (Log 10 1) true None, [Some TypeError; None; None]).
Proof.
  split; [|split].
  - apply level_get. reflexivity.
  - intros level H. apply level_get in H. discriminate.
  - vm_compute. reflexivity.
Qed.

(** With a well-formed configuration the hypotheses of C99_backend are met. *)
Example C99_backend_case :
  match ipeps_config (World (fun _ => None) false (cutensor_available (after [Surr None Loaded]))
                        (fun s => Ok (VDtype s)) (fun s => Ok (Dev s None)))
        [("TN", VDict []); ("evolution", VDict [("backend", VStr "cutensor")])] with
  | Ok g => dlookup (g_evolution g) "backend"
  | Err _ => None
  end = Some (VStr "cutensor").
Proof. vm_compute. reflexivity. Qed.

Print Assumptions C99_logger.
Print Assumptions C99_refused.
Print Assumptions C99_settled.
Print Assumptions C99_state.
Print Assumptions C99_debug.
Print Assumptions C99_evolve.
Print Assumptions C99_backend.
