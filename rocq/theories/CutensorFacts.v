(** Facts about the model of cuTENSOR contractions. *)
From Coq Require Import String Ascii.
From mathcomp Require Import all_ssreflect all_algebra.
From Verif Require Import Base Mover Tensor TN Mat Linalg Rsvd Renorm Als Strides AlsLoop Cutensor.
Set Implicit Arguments.
Unset Strict Implicit.
Unset Printing Implicit Defensive.
Import GRing.Theory Num.Theory.
Local Open Scope ring_scope.
Local Open Scope string_scope.

(** ---- addresses ---- *)
Lemma volumeE sh : volume sh = numel sh.
Proof. by elim: sh => //= d sh IH; rewrite /volume /= -/(volume sh) IH. Qed.
Lemma addressE sh idx : address (compute_row_major_strides sh) idx = ravel sh idx.
Proof.
rewrite strides_eq; elim: sh idx => [|d sh IH] [|x idx] //=.
by rewrite /address /= -/(address _ _) IH volumeE.
Qed.

(** ---- the two parsers ---- *)
Definition no_char (c : ascii) (s : seq ascii) : bool := ~~ has (Ascii.eqb^~ c) s.
Definition expression (la lb lc : seq label) : string :=
  string_of_list_ascii (la ++ ","%char :: lb ++ "-"%char :: ">"%char :: lc)%SEQ.

Lemma find_arrowS a b s : Ascii.eqb a "-" = false ->
  find_arrow (a :: b :: s) = match find_arrow (b :: s) with Some (l, r) => Some (a :: l, r) | None => None end.
Proof. by move=> /= ->. Qed.
Lemma find_arrowE s r : no_char "-" s -> find_arrow (s ++ "-"%char :: ">"%char :: r)%SEQ = Some (s, r).
Proof.
elim: s => [//|a s IH] H; have [Ha Hs] : Ascii.eqb a "-" = false /\ no_char "-" s.
  by move: H; rewrite /no_char /= negb_or => /andP[/negbTE-> ->].
have := IH Hs; rewrite cat_cons; case E : (s ++ _)%SEQ => [|b s'] IH'; first by case: s E {H IH Hs IH'}.
by rewrite find_arrowS // IH'.
Qed.
Lemma find_charE c s r : no_char c s -> find_char c (s ++ c :: r)%SEQ = Some (s, r).
Proof.
elim: s => [|a s IH]; rewrite /no_char /= ?Ascii.eqb_refl // negb_or => /andP[Ha Hs].
by rewrite (negbTE Ha) IH.
Qed.
Lemma split_atE c s r acc : no_char c s -> split_at c (s ++ c :: r)%SEQ acc = (rev acc ++ s)%SEQ :: split_at c r [::].
Proof.
elim: s acc => [|a s IH] acc; rewrite /no_char /= ?Ascii.eqb_refl ?cats0 // negb_or => /andP[Ha Hs].
by rewrite (negbTE Ha) IH // rev_cons cat_rcons.
Qed.
Lemma split_at0 c s acc : no_char c s -> split_at c s acc = [:: (rev acc ++ s)%SEQ].
Proof.
elim: s acc => [|a s IH] acc; rewrite /no_char /= ?cats0 // negb_or => /andP[Ha Hs].
by rewrite (negbTE Ha) IH // rev_cons cat_rcons.
Qed.
Lemma no_char_cat c s r : no_char c (s ++ r)%SEQ = no_char c s && no_char c r.
Proof. by rewrite /no_char has_cat negb_or. Qed.

Definition plain (la lb lc : seq label) : bool :=
  [&& no_char "-" la, no_char "-" lb, no_char "-" lc, no_char "," la & no_char "," lb].

Lemma parseE la lb lc : plain la lb lc -> parse (expression la lb lc) = Some ([:: la; lb], lc).
Proof.
case/and5P=> A B Cc A' B'; rewrite /parse /expression list_ascii_of_string_of_list_ascii.
have -> : (la ++ ","%char :: lb ++ "-"%char :: ">"%char :: lc)%SEQ = ((la ++ ","%char :: lb) ++ "-"%char :: ">"%char :: lc)%SEQ by rewrite -catA.
rewrite split_atE; last by rewrite no_char_cat A /no_char /= -/(no_char _ _).
rewrite (@split_at0 "-" (">"%char :: lc)) /=; last by rewrite /no_char /= -/(no_char _ _).
by rewrite split_atE // split_at0.
Qed.
Lemma cparseE la lb lc : plain la lb lc -> find_arrow (list_ascii_of_string (expression la lb lc)) = Some ((la ++ ","%char :: lb)%SEQ, lc) /\
  find_char "," (la ++ ","%char :: lb)%SEQ = Some (la, lb).
Proof.
case/and5P=> A B Cc A' B'; rewrite /expression list_ascii_of_string_of_list_ascii find_charE //; split=> //.
have -> : (la ++ ","%char :: lb ++ "-"%char :: ">"%char :: lc)%SEQ = ((la ++ ","%char :: lb) ++ "-"%char :: ">"%char :: lc)%SEQ by rewrite -catA.
by rewrite find_arrowE // no_char_cat A /no_char /= -/(no_char _ _).
Qed.

(** ---- label environments ---- *)
Lemma distinctE s : distinct s = uniq_labels s. Proof. by elim: s => //= a s ->. Qed.

Lemma map_findE l m : map_find l m = if mem_label l (map fst m) then Some (lookup 0%N l m) else None.
Proof. by elim: m => //= -[l' d] m ->; rewrite /=; case: Ascii.eqb. Qed.

Lemma allIn T (P : T -> bool) s : reflect (forall x, List.In x s -> P x) (all P s).
Proof.
elim: s => [|a s IH] /=; first by constructor.
apply: (iffP andP) => [[Pa /IH Ps] x [<-|/Ps]//|H]; split; first by apply: H; left.
by apply/IH => x Hx; apply: H; right.
Qed.
Lemma lookup_in l (e : seq (label * nat)) : mem_label l (map fst e) -> List.In (l, lookup 0%N l e) e.
Proof.
elim: e => //= -[l' d] e IH /=; case: eqbP => [->|] /= _; first by left.
by move=> H; right; apply: IH.
Qed.
Lemma in_mem l d (e : seq (label * nat)) : List.In (l, d) e -> mem_label l (map fst e).
Proof. by elim: e => //= -[l' d'] e IH /= [[-> _]|/IH->]; rewrite ?Ascii.eqb_refl ?orbT. Qed.

Definition agree (e : seq (label * nat)) : bool := all (fun x => all (fun y => Ascii.eqb x.1 y.1 ==> (x.2 == y.2)) e) e.
Lemma agreeP e : reflect (forall l d d', List.In (l, d) e -> List.In (l, d') e -> d = d') (agree e).
Proof.
apply: (iffP (allIn _ _)) => [H l d d' H1 H2|H [l d] H1].
  by have /allIn/(_ _ H2) := H _ H1; rewrite /= Ascii.eqb_refl => /eqP.
apply/allIn => -[l' d'] /= H2; apply/implyP => /eqbP E; apply/eqP; apply: H H1 _; by rewrite E.
Qed.
Lemma dims_okP e : reflect (forall l d, List.In (l, d) e -> lookup 0%N l e = d) (dims_ok e).
Proof.
apply: (iffP (allIn _ _)) => [H l d /H /eqP //|H [l d] /H /= ->]; exact: eqxx.
Qed.
Lemma agree_dims e : agree e = dims_ok e.
Proof.
apply/agreeP/dims_okP => [H l d Hd|H l d d' /H <- /H <- //].
have Hm := in_mem Hd; exact: H _ _ _ (lookup_in Hm) Hd.
Qed.
Lemma in_zip_map l d (f : label -> nat) s : List.In (l, d) (zip s [seq f l | l <- s]) -> d = f l /\ mem_label l s.
Proof. by elim: s => //= a s IH [[-> ->]|/IH[-> ->]]; rewrite ?Ascii.eqb_refl ?orbT. Qed.
Lemma agree_out (e : seq (label * nat)) out : all (fun l => mem_label l (map fst e)) out ->
  agree (e ++ zip out [seq lookup 0%N l e | l <- out])%SEQ = agree e.
Proof.
move=> Ho; rewrite [RHS]agree_dims; apply/agreeP/dims_okP => H.
  move=> l d Hd; have Hm := in_mem Hd; apply: (H l); apply: List.in_or_app; left=> //; exact: lookup_in.
have K l d : List.In (l, d) (e ++ zip out [seq lookup 0%N l e | l <- out])%SEQ -> d = lookup 0%N l e.
  by case/(List.in_app_or e) => [/H //|/in_zip_map[->]].
by move=> l d d' /K -> /K ->.
Qed.
Lemma mem_label_cat l s1 s2 : mem_label l (s1 ++ s2)%SEQ = mem_label l s1 || mem_label l s2.
Proof. by rewrite !mem_labelE has_cat. Qed.

(** ---- label_to_dim ---- *)
Definition first_of (m e : seq (label * nat)) l : option nat := if map_find l m is Some d then Some d else map_find l e.
Lemma insertA e m l : map_find l (foldl (fun m '(l, d) => if map_find l m is Some _ then m else (l, d) :: m) m e) = first_of m e l.
Proof.
elim: e m => [|[l' d] e IH] m /=; first by rewrite /first_of /=; case: map_find.
rewrite IH /first_of /=; case E : (map_find l' m) => [d'|] /=.
  by case E' : (map_find l m) => //; case: eqbP => // El; rewrite El E in E'.
by case: eqbP => // ->; rewrite E.
Qed.

Definition insB : label * nat -> seq (label * nat) -> res (seq (label * nat)) := fun '(l, d) m =>
  match map_find l m with
    | None => Ok ((l, d) :: m)
    | Some d' => if d' != d then Err RuntimeError else Ok m
    end.
Lemma insertB e m : (forall l d, List.In (l, d) e -> first_of m e l = Some d) ->
  exists2 m', for_each e insB m = Ok m' & forall l, map_find l m' = first_of m e l.
Proof.
elim: e m => [|[l d] e IH] m H /=; first by exists m => // l; rewrite /first_of /=; case: map_find.
have := H l d (or_introl erefl); rewrite /first_of /= Ascii.eqb_refl => Hl.
case E : (map_find l m) Hl => [d'|] /=.
  case=> ->; rewrite eqxx /=; have [|m' -> Hm'] := IH m.
    move=> l' d'' Hi; have := H l' d'' (or_intror Hi); rewrite /first_of /=.
    by case E' : (map_find l' m) => //; case: eqbP => // El; rewrite El E in E'.
  exists m' => // l'; rewrite Hm' /first_of /=; case E' : (map_find l' m) => //.
  by case: eqbP => // El; rewrite El E in E'.
move=> _; have [|m' -> Hm'] := IH ((l, d) :: m).
  move=> l' d'' Hi; have := H l' d'' (or_intror Hi); rewrite /first_of /=.
  by case: eqbP => // ->; rewrite E.
exists m' => // l'; rewrite Hm' /first_of /=; case: eqbP => // ->; by rewrite E.
Qed.

Lemma insB_err s m e : for_each s insB m = Err e -> e = RuntimeError.
Proof.
elim: s m => //= -[l d] s IH m; rewrite /insB; case: (map_find l m) => [d'|]; last exact: IH.
by case: (d' == d); [apply: IH | case].
Qed.

Lemma extents_of m lc acc : for_each lc (fun l ext => match map_find l m with None => Err RuntimeError | Some d => Ok (rcons ext d) end) acc =
  if all (fun l => isSome (map_find l m)) lc then Ok (acc ++ [seq odflt 0%N (map_find l m) | l <- lc])%SEQ else Err RuntimeError.
Proof.
elim: lc acc => [|l lc IH] acc /=; first by rewrite cats0.
by case: (map_find l m) => [d|] //=; rewrite IH cat_rcons.
Qed.

Definition dims_of (la lb : seq label) (shA shB : seq nat) : seq (label * nat) := (zip la shA ++ zip lb shB)%SEQ.

Lemma first_ofE la lb shA shB l :
  first_of (zip la shA) (zip lb shB) l = if mem_label l (map fst (dims_of la lb shA shB)) then Some (lookup 0%N l (dims_of la lb shA shB)) else None.
Proof.
rewrite /first_of !map_findE /dims_of map_cat mem_label_cat lookup_cat.
by case: (mem_label l (map fst (zip la shA))).
Qed.

Lemma create_planE (cplx : bool) la lb lc shA shB ca cb : plain la lb lc -> distinct la -> distinct lb -> distinct lc ->
  create_contraction_plan cplx (expression la lb lc) shA shB ca cb =
  if [&& size la == size shA, size lb == size shB, dims_ok (dims_of la lb shA shB) & all (fun l => mem_label l (map fst (dims_of la lb shA shB))) lc] then
    Ok (Plan (Modes [seq lookup 0%N l (dims_of la lb shA shB) | l <- lc] la lb lc) shA shB
          (compute_row_major_strides shA) (compute_row_major_strides shB)
          (compute_row_major_strides [seq lookup 0%N l (dims_of la lb shA shB) | l <- lc]) (ca && cplx) (cb && cplx))
  else Err RuntimeError.
Proof.
move=> Hp Da Db Dc; rewrite /create_contraction_plan /parseEinsumExpression.
have [-> ->] := cparseE Hp.
case: eqP => [Ea|_] //=; case: eqP => [Eb|_] //=.
have Fst : map fst (dims_of la lb shA shB) = (la ++ lb)%SEQ by rewrite /dims_of map_cat !zip_fst.
move Ed : (dims_of la lb shA shB) => dm; rewrite Ed in Fst.
have AC ext : agree (zip la shA ++ zip lb shB ++ zip lc ext)%SEQ -> dims_ok dm.
  rewrite -agree_dims -Ed /dims_of catA => /agreeP H; apply/agreeP => l d d' H1 H2.
  by apply: (H l); apply: List.in_or_app; left.
case El : lc => [|c lc'].
  rewrite /= /library_accepts /= Da Db /= cats0 !andbT -/(agree _) agree_dims.
  by move: Ed; rewrite /dims_of => ->; case: ifP.
rewrite -El; set m1 := foldl _ _ _.
have HB f : f = insB -> for_each (zip lb shB) f m1 = for_each (zip lb shB) insB m1 by move=> ->.
rewrite HB {HB}; last by [].
have Hm1 l : map_find l m1 = map_find l (zip la shA) by rewrite insertA /first_of.
have F1 l : first_of m1 (zip lb shB) l = first_of (zip la shA) (zip lb shB) l by rewrite /first_of Hm1.
case: ifP => [/andP[Hd Hc]|Hn].
  have [|m2 -> Hm2] := @insertB (zip lb shB) m1.
    move=> l d Hi; rewrite F1 first_ofE Ed.
    have Hi' : List.In (l, d) dm by rewrite -Ed; apply: List.in_or_app; right.
    by rewrite (in_mem Hi') (dims_okP _ Hd _ _ Hi').
  rewrite [bind (Ok m2) _]/bind extents_of cat0s.
  have Hm l : map_find l m2 = if mem_label l (map fst dm) then Some (lookup 0%N l dm) else None by rewrite Hm2 F1 first_ofE Ed.
  have -> : all (fun l => isSome (map_find l m2)) lc by apply: sub_all Hc => l; rewrite Hm => ->.
  have -> : [seq odflt 0%N (map_find l m2) | l <- lc] = [seq lookup 0%N l dm | l <- lc].
    elim: (lc) Hc => //= l s IH /andP[H1 /IH->]; by rewrite Hm H1.
  rewrite [bind (Ok (Modes _ _ _ _)) _]/bind /=.
  rewrite /library_accepts /= Da Db Dc catA -/(agree _) -[(zip la shA ++ _)%SEQ]/(dims_of la lb shA shB) Ed agree_out // agree_dims Hd /=.
  by rewrite -Fst Hc.
case E2 : (for_each _ insB m1) => [m2|e] /=; last by rewrite (insB_err E2).
rewrite extents_of cat0s; case: (all _ lc) => //=.
rewrite /library_accepts /= Da Db Dc /= -/(agree _); case: ifP => // /andP[/AC Hd Hc].
by rewrite Hd Fst Hc in Hn.
Qed.

(** ---- the value of a contraction ---- *)
Lemma new_labels_ext s o o' : (forall l, mem_label l o = mem_label l o') -> new_labels s o = new_labels s o'.
Proof.
elim: s o o' => //= x s IH o o' H; rewrite H; case: ifP => _; first exact: IH.
by congr cons; apply: IH => l /=; rewrite H.
Qed.
Lemma new_labels_cat s1 s2 o : distinct s1 ->
  new_labels (s1 ++ s2)%SEQ o = ([seq l <- s1 | ~~ mem_label l o] ++ new_labels s2 (s1 ++ o))%SEQ.
Proof.
elim: s1 o => [|x s1 IH] o //= /andP[Hx Hd]; case E : (mem_label x o) => /=.
  rewrite IH //; congr cat; apply: new_labels_ext => l /=; rewrite mem_label_cat.
  by case: eqbP => // ->; rewrite E orbT.
rewrite IH //; congr (_ :: _ ++ _)%SEQ; last first.
  by apply: new_labels_ext => l /=; rewrite !mem_label_cat /= orbCA.
elim: s1 Hx {IH Hd} => //= y s1 IH; rewrite negb_or => /andP[Hxy /IH->].
have -> : Ascii.eqb y x = false by rewrite Ascii.eqb_sym; apply: negbTE.
by [].
Qed.
Lemma summed_modesE la lb lc ext : distinct la -> distinct lb ->
  new_labels (la ++ lb)%SEQ lc = summed_modes (Modes ext la lb lc).
Proof.
move=> Ha Hb; rewrite new_labels_cat // /summed_modes /= filter_cat; congr cat.
have /= := @new_labels_cat lb [::] (la ++ lc)%SEQ Hb; rewrite cats0 cats0 => ->.
rewrite -filter_predI; apply: eq_filter => l /=; by rewrite mem_label_cat negb_or andbC.
Qed.
Lemma mem_filter l (P : label -> bool) s : mem_label l [seq x <- s | P x] = P l && mem_label l s.
Proof.
elim: s => [|x s IH] /=; first by rewrite andbF.
case: ifP => Px /=; rewrite IH; first by case: eqbP => [->|]; rewrite ?Px.
by case: eqbP => [->|//]; rewrite Px.
Qed.
Lemma summed_distinct m : distinct (modeA m) -> distinct (modeB m) -> distinct (summed_modes m).
Proof.
move=> Ha Hb; rewrite /summed_modes.
have Hf (P : label -> bool) s : distinct s -> distinct [seq x <- s | P x].
  elim: s => //= x s IH /andP[Hx /IH Hd]; case: ifP => //= _; by rewrite mem_filter (negbTE Hx) andbF.
have := Hf (fun l => ~~ mem_label l (modeA m)) _ Hb; move=> Hr; apply: Hf; move: Hr.
have Hd l : mem_label l (modeA m) -> ~~ mem_label l [seq x <- modeB m | ~~ mem_label x (modeA m)] by rewrite mem_filter => ->.
elim: (modeA m) Ha [seq x <- _ | _] Hd => //= x s IH /andP[Hx Hs] r Hr Hd.
rewrite mem_label_cat negb_or Hx IH //= ?andbT; last by move=> l Hl; apply: Hr; rewrite Hl orbT.
by apply: Hr; rewrite Ascii.eqb_refl.
Qed.

Lemma lookup_absent l (e : seq (label * nat)) : mem_label l (map fst e) = false -> lookup 0%N l e = 0%N.
Proof. by elim: e => //= -[l' d] e IH /=; case: Ascii.eqb. Qed.
Lemma lookup_swap l s o (v idx : seq nat) : size v = size s -> size idx = size o -> distinct s -> (forall l, mem_label l s -> ~~ mem_label l o) ->
  lookup 0%N l (rev (zip s v) ++ zip o idx)%SEQ = lookup 0%N l (zip o idx ++ zip s v)%SEQ.
Proof.
move=> Sv So Hd Hs; rewrite !lookup_cat map_rev !zip_fst //.
have -> : mem_label l (rev s) = mem_label l s by rewrite !mem_labelE has_rev.
rewrite lookup_rev ?zip_fst -?distinctE //; case: ifP => H; first by rewrite (negbTE (Hs _ H)).
by case: ifP => Ho //; rewrite !lookup_absent ?zip_fst.
Qed.
Lemma lookup_lt (f : label -> nat) s v l : in_range [seq f l | l <- s] v -> mem_label l s -> (lookup 0%N l (zip s v) < f l)%N.
Proof.
elim: s v => [|x s IH] [|y v] //= /andP[Hy Hv]; case: eqbP => [->|_] //= H; exact: IH.
Qed.
Lemma in_range_map (f : label -> nat) ls sh : size ls = size sh ->
  (forall l d, List.In (l, d) (zip ls sh) -> (f l < d)%N) -> in_range sh [seq f l | l <- ls].
Proof.
elim: ls sh => [|l ls IH] [|d sh] //= [Hs] H; rewrite (H l d) /=; last by left.
by apply: IH => // l' d' Hi; apply: H; right.
Qed.

Section Contract.
Variable C : numClosedFieldType.
Notation tensor := (tensor C).

(** the buffer holds the tensor, contiguously *)
Definition holds (buf : mem C) (t : tensor) : Prop :=
  forall idx, in_range (shape t) idx -> buf (ravel (shape t) idx) = at_ t idx.
Definition opt_conj (cj : bool) (t : tensor) : tensor := if cj then conj t else t.

Lemma einsum2 la lb lc (A B : tensor) : plain la lb lc ->
  let dm := dims_of la lb (shape A) (shape B) in
  einsum (expression la lb lc) [:: A; B] =
  if [&& size la == size (shape A), size lb == size (shape B), dims_ok dm & all (fun l => mem_label l (map fst dm)) lc] then
    Ok (Tensor [seq lookup 0%N l dm | l <- lc] (fun idx => sum_labels [seq (l, lookup 0%N l dm) | l <- new_labels (la ++ lb)%SEQ lc] (zip lc idx)
          (fun env => factor env la A * factor env lb B)))
  else Err ShapeError.
Proof.
move=> Hp; rewrite /einsum parseE //= !cats0 andbT /dims_of.
by case: (size la == _); case: (size lb == _).
Qed.

Lemma shape_opt cj (t : tensor) : shape (opt_conj cj t) = shape t. Proof. by case: cj. Qed.
Lemma holds_opt (buf : mem C) t cj idx : holds buf t -> in_range (shape t) idx ->
  (if cj then (buf (ravel (shape t) idx))^* else buf (ravel (shape t) idx)) = at_ (opt_conj cj t) idx.
Proof. by move=> H Hi; rewrite H //; case: cj. Qed.

Lemma indices_filter sh idx : in_range sh idx -> [seq i <- indices sh | ravel sh i == ravel sh idx] = [:: idx].
Proof.
move=> Hi; have -> : [seq i <- indices sh | ravel sh i == ravel sh idx] = [seq i <- indices sh | i == idx].
  apply: eq_in_filter => i; rewrite mem_indices => Hj; apply/eqP/eqP => [E|-> //].
  by rewrite -(ravelK Hj) E ravelK.
by rewrite filter_pred1_uniq // ?uniq_indices // mem_indices.
Qed.

Lemma contractE cplx la lb lc (A B : tensor) (bufA bufB out : mem C) ca cb p : plain la lb lc -> distinct la -> distinct lb -> distinct lc ->
  holds bufA A -> holds bufB B -> create_contraction_plan cplx (expression la lb lc) (shape A) (shape B) ca cb = Ok p ->
  exists2 T, einsum (expression la lb lc) [:: opt_conj (ca && cplx) A; opt_conj (cb && cplx) B] = Ok T &
    holds (contract p bufA bufB out) T /\ forall a, (numel (shape T) <= a)%N -> contract p bufA bufB out a = out a.
Proof.
move=> Hp Da Db Dc HA HB; rewrite create_planE // einsum2 // !shape_opt.
set dm := dims_of _ _ _ _; case: ifP => // /and4P[/eqP Sa /eqP Sb Hd Hc] [<-]; eexists; first by [].
split; last first.
  move=> a Ha; rewrite /contract /=.
  have -> // : [seq idx <- indices [seq lookup 0%N l dm | l <- lc] | address (compute_row_major_strides [seq lookup 0%N l dm | l <- lc]) idx == a] = [::].
  apply/eqP; rewrite -(negbK (_ == _)) -has_filter; apply/hasPn => i; rewrite mem_indices addressE => /ravel_lt Hi.
  by apply: contraTN Ha => /eqP <-; rewrite -ltnNge.
move=> idx /= Hi; rewrite /contract /=.
have -> : [seq i <- indices [seq lookup 0%N l dm | l <- lc] | address (compute_row_major_strides [seq lookup 0%N l dm | l <- lc]) i == ravel [seq lookup 0%N l dm | l <- lc] idx] = [:: idx].
  by rewrite -[RHS](indices_filter Hi); apply: eq_filter => i; rewrite addressE.
rewrite sum_labelsE -map_comp /= -map_comp /= (summed_modesE lc [seq lookup 0%N l dm | l <- lc] Da Db).
set m := Modes _ _ _ _; set ls := summed_modes m; rewrite /contract_value /= -/m -/ls.
have -> : [seq extent (Plan m (shape A) (shape B) (compute_row_major_strides (shape A)) (compute_row_major_strides (shape B)) (compute_row_major_strides [seq lookup 0%N l dm | l <- lc]) (ca && cplx) (cb && cplx)) l | l <- ls] = [seq lookup 0%N l dm | l <- ls] by [].
apply: eq_sum_indices => v Hv.
have -> : [seq (fst \o (fun l => (l, lookup 0%N l dm))) l | l <- ls] = ls by rewrite map_id.
have Sv : size v = size ls by rewrite (in_range_size Hv) size_map.
have Si : size idx = size lc by rewrite (in_range_size Hi) size_map.
have Dl : distinct ls by apply: summed_distinct.
have Ho l : mem_label l ls -> ~~ mem_label l lc by rewrite mem_filter => /andP[].
have Ein (t : tensor) la' : [seq lookup 0%N l (rev (zip ls v) ++ zip lc idx)%SEQ | l <- la'] = [seq lookup 0%N l (zip lc idx ++ zip ls v)%SEQ | l <- la'].
  by apply: eq_map => l; rewrite lookup_swap.
have Rg l d : List.In (l, d) dm -> (lookup 0%N l (zip lc idx ++ zip ls v)%SEQ < d)%N.
  move=> Hl; rewrite lookup_cat zip_fst //; have Ed := dims_okP _ Hd _ _ Hl.
  case: ifP => Hm; first by rewrite -Ed; apply: (lookup_lt (f := fun l => lookup 0%N l dm)) Hm.
  rewrite -Ed; apply: (lookup_lt (f := fun l => lookup 0%N l dm)) => //.
  rewrite mem_filter Hm /= mem_label_cat mem_filter.
  have := in_mem Hl; rewrite /dm map_cat mem_label_cat !zip_fst //.
  by case: (mem_label l la).
rewrite /factor !Ein // /fetch /= !addressE.
congr (_ * _); apply: holds_opt => //; apply: in_range_map => // l d Hl; apply: Rg; apply: List.in_or_app; by [left|right].
Qed.
End Contract.
