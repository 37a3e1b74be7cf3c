(** Symbolic evaluation of einsum programs: every intermediate tensor of a
    program is described by a flat network (one sum over all internal indices of
    a product of entries of the input tensors).  Two programs are compared by
    comparing their networks up to renaming and reordering, by computation. *)
From Coq Require Import String Ascii.
From mathcomp Require Import all_ssreflect all_algebra.
From Verif Require Import Base Tensor.
Set Implicit Arguments.
Unset Strict Implicit.
Unset Printing Implicit Defensive.
Import GRing.Theory Num.Theory.
Local Open Scope ring_scope.

(** ---- sums over multi-indices ---- *)

Lemma mem_indices sh v : (v \in indices sh) = in_range sh v.
Proof.
elim: sh v => [|d sh IH] [|x v] //=.
  by apply/flattenP => -[s /mapP[x _ ->] /mapP[]].
apply/flattenP/andP => [[s /mapP[y Hy ->] /mapP[i Hi [-> ->]]]|[Hx Hv]].
  by rewrite mem_iota add0n in Hy; rewrite -IH.
exists [seq x :: i | i <- indices sh]; first by apply/mapP; exists x => //; rewrite mem_iota.
by apply/mapP; exists v => //; rewrite IH.
Qed.

Lemma in_range_size sh v : in_range sh v -> size v = size sh.
Proof. by elim: sh v => [|d sh IH] [|x v] //= /andP[_ /IH ->]. Qed.

Lemma uniq_indices sh : uniq (indices sh).
Proof.
elim: sh => [|d sh IH] //=.
have: uniq (iota 0 d) by rewrite iota_uniq.
elim: (iota 0 d) => [|x s IHs] //= /andP[Hx /IHs Hs].
rewrite cat_uniq Hs andbT map_inj_uniq ?IH /=; last by move=> a b [].
apply/hasPn => v /flattenP[s' /mapP[y Hy ->] /mapP[i Hi ->]].
by apply/mapP => -[j _ [E _]]; move: Hx; rewrite -E Hy.
Qed.

Lemma size_indices sh : size (indices sh) = numel sh.
Proof.
elim: sh => [|d sh IH] //=.
rewrite -[in RHS](size_iota 0 d); elim: (iota 0 d) => //= x s IHs.
by rewrite size_cat size_map IH IHs mulSn.
Qed.

Lemma numelE sh : numel sh = (\prod_(d <- sh) d)%N.
Proof. by elim: sh => [|d sh IH]; rewrite ?big_nil ?big_cons //= IH. Qed.

Lemma in_range_cat s1 s2 v1 v2 : size v1 = size s1 ->
  in_range (s1 ++ s2) (v1 ++ v2) = in_range s1 v1 && in_range s2 v2.
Proof. by elim: s1 v1 => [|d s IH] [|x v] //= [] /IH ->; rewrite andbA. Qed.

Lemma in_range_nth sh v : in_range sh v = (size v == size sh) && all (fun k => nth 0%N v k < nth 0%N sh k)%N (iota 0 (size sh)).
Proof.
elim: sh v => [|d sh IH] [|x v] //=.
rewrite eqSS IH. case: (size v == size sh) => //=; last by rewrite andbF.
rewrite (iotaDl 1 0) all_map; by congr (_ && _); apply: eq_all.
Qed.

Section Sums.
Variable C : numClosedFieldType.

Lemma sumnE n (F : nat -> C) : sumn n F = \sum_(i <- iota 0 n) F i.
Proof. by rewrite /sumn -(big_mkord xpredT) /index_iota subn0. Qed.

Lemma indices_cons d sh (F : seq nat -> C) :
  \sum_(v <- indices (d :: sh)) F v = sumn d (fun i => \sum_(v <- indices sh) F (i :: v)).
Proof. by rewrite /= big_flatten /= big_map sumnE; apply: eq_bigr => i _; rewrite big_map. Qed.

Lemma eq_sumn n (F G : nat -> C) : (forall i, (i < n)%N -> F i = G i) -> sumn n F = sumn n G.
Proof. by move=> H; apply: eq_bigr => i _; apply: H. Qed.

Lemma indices_cat s1 s2 (F : seq nat -> C) :
  \sum_(v <- indices (s1 ++ s2)) F v = \sum_(v1 <- indices s1) \sum_(v2 <- indices s2) F (v1 ++ v2).
Proof.
elim: s1 F => [|d s IH] F; first by rewrite big_seq1.
rewrite cat_cons !indices_cons; apply: eq_sumn => i _.
by rewrite (IH (fun v => F (i :: v))).
Qed.

Lemma eq_sum_indices sh (F G : seq nat -> C) : (forall v, in_range sh v -> F v = G v) ->
  \sum_(v <- indices sh) F v = \sum_(v <- indices sh) G v.
Proof. by move=> H; apply: eq_big_seq => v Hv; apply: H; rewrite -mem_indices. Qed.

Lemma sum_labelsE ls env (f : seq (label * nat) -> C) :
  sum_labels ls env f = \sum_(v <- indices (map snd ls)) f (rev (zip (map fst ls) v) ++ env).
Proof.
elim: ls env => [|[l d] ls IH] env; first by rewrite /= big_seq1.
rewrite [map snd _]/= indices_cons /=; apply: eq_sumn => i _; rewrite IH.
by apply: eq_bigr => v _; rewrite rev_cons cat_rcons.
Qed.

Lemma prod_listE (l : seq C) : prod_list l = \prod_(x <- l) x.
Proof.
elim: l => [|x l IH]; first by rewrite big_nil.
rewrite big_cons -IH /=. by case: l {IH} => [|y l] //=; rewrite mulr1.
Qed.
End Sums.

(** ---- label positions ---- *)
Definition lpos (l : label) (s : seq label) : nat := find (Ascii.eqb l) s.

Lemma mem_labelE l s : mem_label l s = has (Ascii.eqb l) s.
Proof. by elim: s => [|x s IH] //=; rewrite IH. Qed.

Fixpoint uniq_labels (s : seq label) : bool :=
  match s with [::] => true | x :: s' => ~~ mem_label x s' && uniq_labels s' end.

Lemma eqbP (a b : ascii) : reflect (a = b) (Ascii.eqb a b).
Proof. by apply: (iffP idP) => [/Ascii.eqb_eq|/Ascii.eqb_eq]. Qed.

Lemma all_labels (p : pred label) s : (forall l, mem_label l s -> p l) -> all p s.
Proof.
elim: s => [|x s IH] H //=; rewrite H /= ?Ascii.eqb_refl // IH // => l Hl; apply: H.
by rewrite /= Hl orbT.
Qed.

Lemma lookup_zip l s (v : seq nat) : size v = size s -> lookup 0%N l (zip s v) = nth 0%N v (lpos l s).
Proof.
rewrite /lpos; elim: s v => [|x s IH] [|y v] //= []; case: Ascii.eqb => //= ?; exact: IH.
Qed.

Lemma lookup_cat l (e1 e2 : seq (label * nat)) :
  lookup 0%N l (e1 ++ e2) = if mem_label l (map fst e1) then lookup 0%N l e1 else lookup 0%N l e2.
Proof. by elim: e1 => [|[x y] e1 IH] //=; case: Ascii.eqb => //=. Qed.

Lemma mem_label_cat l s1 s2 : mem_label l (s1 ++ s2) = mem_label l s1 || mem_label l s2.
Proof. by rewrite !mem_labelE has_cat. Qed.

Lemma mem_label_rev l s : mem_label l (rev s) = mem_label l s.
Proof. by rewrite !mem_labelE has_rev. Qed.

Lemma uniq_labels_rcons s x : uniq_labels (rcons s x) = ~~ mem_label x s && uniq_labels s.
Proof.
elim: s => [|y s IH] //=; rewrite IH -cats1 mem_label_cat /= orbF negb_or negb_or.
rewrite (_ : Ascii.eqb y x = Ascii.eqb x y); last by apply: Ascii.eqb_sym.
by case: (Ascii.eqb x y); rewrite ?andbF ?andbT //= andbCA.
Qed.

Lemma lookup_rev l (e : seq (label * nat)) : uniq_labels (map fst e) -> lookup 0%N l (rev e) = lookup 0%N l e.
Proof.
elim: e => [|[x y] e IH] //= /andP[Hx /IH E]. rewrite rev_cons -cats1 lookup_cat map_rev mem_label_rev E /=.
case: eqbP => [->|//] /=; first by rewrite (negbTE Hx).
have [//|N] := boolP (mem_label l (map fst e)).
by elim: (e) N => [|[a b] e' IHe] //=; rewrite negb_or => /andP[/negbTE -> /IHe].
Qed.

Lemma zip_fst (s : seq label) (v : seq nat) : size v = size s -> map fst (zip s v) = s.
Proof. by move=> H; rewrite -/(unzip1 _) unzip1_zip ?H. Qed.

Lemma lpos_cat l s1 s2 : lpos l (s1 ++ s2) = if mem_label l s1 then lpos l s1 else (size s1 + lpos l s2)%N.
Proof. by rewrite /lpos find_cat mem_labelE. Qed.

Lemma lpos_lt l s : mem_label l s -> (lpos l s < size s)%N.
Proof. by rewrite mem_labelE -has_find. Qed.

Lemma uniq_labels_cat s1 s2 : uniq_labels (s1 ++ s2) ->
  [/\ uniq_labels s1, uniq_labels s2 & forall l, mem_label l s1 -> ~~ mem_label l s2].
Proof.
elim: s1 => [|x s1 IH] //= /andP[]; rewrite mem_label_cat negb_or => /andP[-> N] /IH[-> -> H]; split=> // l.
by case: eqbP => [->|_] //= /H.
Qed.

Lemma lookup_env l out summed (idx v : seq nat) :
  uniq_labels (out ++ summed) -> size idx = size out -> size v = size summed ->
  mem_label l (out ++ summed) ->
  lookup 0%N l (rev (zip summed v) ++ zip out idx) = nth 0%N (idx ++ v) (lpos l (out ++ summed)).
Proof.
move=> U Hi Hv Hl; have [U1 U2 D] := uniq_labels_cat U.
rewrite lookup_cat map_rev mem_label_rev zip_fst // lpos_cat.
have [Hs|Hs] := boolP (mem_label l summed).
  have N : ~~ mem_label l out by apply/negP => /D; rewrite Hs.
  rewrite (negbTE N) lookup_rev ?zip_fst // lookup_zip // nth_cat Hi ltnNge leq_addr /=.
  by rewrite addKn.
move: Hl; rewrite mem_label_cat (negbTE Hs) orbF => Ho; rewrite Ho lookup_zip //.
by rewrite nth_cat Hi lpos_lt.
Qed.

Lemma map_all_ext (T : Type) (S : Type) (p : pred T) (f g : T -> S) s :
  (forall x, p x -> f x = g x) -> all p s -> map f s = map g s.
Proof. by move=> H; elim: s => [|x s IH] //= /andP[/H -> /IH ->]. Qed.
Lemma all_imp2 (T : Type) (p q r : pred T) s : (forall x, p x -> q x -> r x) -> all p s -> all q s -> all r s.
Proof. by move=> H; elim: s => [|x s IH] //= /andP[/H Hx /IH Hs] /andP[/Hx -> /Hs]. Qed.
Lemma sub_all_seq (T : Type) (p q : pred T) s : (forall x, p x -> q x) -> all p s -> all q s.
Proof. by move=> H; apply: sub_all. Qed.

(** ---- symbolic networks ---- *)

(** a factor: input tensor, conjugated or not, and the positions of its indices
    in (free ++ bound) *)
Definition fac : Type := (nat * bool * seq nat)%type.
(** dimensions are numbers of dimension variables *)
Record net := Net { nfree : seq nat; nbound : seq nat; nfacs : seq fac }.

Definition ren (r : nat -> nat) (f : fac) : fac := (f.1.1, f.1.2, map r f.2).

(** all positions in range *)
Definition net_wf (N : net) : bool :=
  all (fun f : fac => all (fun k => (k < size (nfree N) + size (nbound N))%N) f.2) (nfacs N).

(** an input tensor as a network *)
Definition atom_net (a : nat) (dims : seq nat) : net := Net dims [::] [:: (a, false, iota 0 (size dims))].
(** torch.conj *)
Definition conj_net (N : net) : net :=
  Net (nfree N) (nbound N) [seq (f.1.1, ~~ f.1.2, f.2) | f <- nfacs N].

Fixpoint comb (pos : label -> nat) (off : nat) (l : seq (seq label * net)) : seq nat * seq fac :=
  match l with
  | [::] => ([::], [::])
  | (ls, N) :: l' =>
      let r := comb pos (off + size (nbound N)) l' in
      (nbound N ++ r.1,
       [seq ren (fun k => if (k < size ls)%N then pos (nth Ascii.zero ls k) else (off + (k - size ls))%N) f | f <- nfacs N] ++ r.2)
  end.

Fixpoint sdim_env (ins : seq (seq label)) (Ns : seq net) : seq (label * nat) :=
  match ins, Ns with
  | ls :: ins', N :: Ns' => zip ls (nfree N) ++ sdim_env ins' Ns'
  | _, _ => [::]
  end.
Fixpoint sranks_ok (ins : seq (seq label)) (Ns : seq net) : bool :=
  match ins, Ns with
  | [::], [::] => true
  | ls :: ins', N :: Ns' => (size ls == size (nfree N)) && sranks_ok ins' Ns'
  | _, _ => false
  end.

Definition sym_einsum (spec : string) (Ns : seq net) : option net :=
  match parse spec with
  | None => None
  | Some (ins, out) =>
      if sranks_ok ins Ns && all net_wf Ns then
        let dm := sdim_env ins Ns in
        let summed := new_labels (flatten ins) out in
        if [&& dims_ok dm, all (fun l => mem_label l (map fst dm)) out & uniq_labels (out ++ summed)] then
          let r := comb (fun l => lpos l (out ++ summed)) (size out + size summed) (zip ins Ns) in
          Some (Net [seq lookup 0%N l dm | l <- out] ([seq lookup 0%N l dm | l <- summed] ++ r.1) r.2)
        else None
      else None
  end.

(** the match of two networks: [s] gives, for each bound index of the second, the
    corresponding position in the first *)
Definition net_match (N1 N2 : net) (s : seq nat) : bool :=
  let m := size (nfree N1) in
  [&& nfree N1 == nfree N2, perm_eq s (iota m (size (nbound N1))),
      nbound N2 == [seq nth 0%N (nbound N1) (k - m) | k <- s], net_wf N1, net_wf N2 &
      perm_eq [seq ren (nth 0%N (iota 0 m ++ s)) f | f <- nfacs N2] (nfacs N1)].

(** ---- finding the match ---- *)
(** partial assignment of the positions of N2, as a list of pairs *)
Fixpoint assoc (k : nat) (e : seq (nat * nat)) : option nat :=
  match e with [::] => None | (a, b) :: e' => if a == k then Some b else assoc k e' end.
Fixpoint unify (i2 i1 : seq nat) (e : seq (nat * nat)) : option (seq (nat * nat)) :=
  match i2, i1 with
  | [::], [::] => Some e
  | a :: i2', b :: i1' =>
      match assoc a e with
      | Some c => if c == b then unify i2' i1' e else None
      | None => unify i2' i1' ((a, b) :: e)
      end
  | _, _ => None
  end.
Fixpoint search (f2 : seq fac) (f1 : seq fac) (e : seq (nat * nat)) : option (seq (nat * nat)) :=
  match f2 with
  | [::] => Some e
  | f :: f2' =>
      (fix try_ (done todo : seq fac) :=
         match todo with
         | [::] => None
         | g :: todo' =>
             let next := try_ (g :: done) todo' in
             if (g.1.1 == f.1.1) && (g.1.2 == f.1.2) then
               match unify f.2 g.2 e with
               | Some e' => match search f2' (done ++ todo') e' with Some r => Some r | None => next end
               | None => next
               end
             else next
         end) [::] f1
  end.
Definition find_match (N1 N2 : net) : seq nat :=
  let m := size (nfree N2) in
  match search (nfacs N2) (nfacs N1) [seq (k, k) | k <- iota 0 m] with
  | Some e => [seq match assoc k e with Some c => c | None => 0%N end | k <- iota m (size (nbound N2))]
  | None => [::]
  end.
Definition net_eq (N1 N2 : net) : bool := net_match N1 N2 (find_match N1 N2).

(** ---- soundness ---- *)
Section Sound.
Variable C : numClosedFieldType.
Variables (ds : seq nat) (atoms : seq (tensor C)).
Definition dim (k : nat) : nat := nth 0%N ds k.
Definition atom (k : nat) : tensor C := nth (Tensor [::] (fun _ => 0)) atoms k.

Definition fval (w : seq nat) (f : fac) : C :=
  let x := at_ (atom f.1.1) [seq nth 0%N w k | k <- f.2] in if f.1.2 then x^* else x.
Definition ev (N : net) (idx : seq nat) : C :=
  \sum_(v <- indices (map dim (nbound N))) \prod_(f <- nfacs N) fval (idx ++ v) f.

(** tensor t is c times the network N *)
Definition rep (c : C) (t : tensor C) (N : net) : Prop :=
  shape t = map dim (nfree N) /\ forall idx, in_range (shape t) idx -> at_ t idx = c * ev N idx.

Lemma rep_atom a dims : shape (atom a) = map dim dims -> rep 1 (atom a) (atom_net a dims).
Proof.
move=> Hs; split=> // idx Hi; rewrite /ev /= big_seq1 big_seq1 mul1r /fval /= cats0.
have Hz : size idx = size dims by rewrite (in_range_size Hi) Hs size_map.
congr (at_ _ _); rewrite -Hz; apply: (@eq_from_nth _ 0%N); rewrite ?size_map ?size_iota // => i Hi'.
by rewrite (nth_map 0%N) ?size_iota // nth_iota.
Qed.

Lemma rep_conj c t N : rep c t N -> rep c^* (conj t) (conj_net N).
Proof.
move=> [Hs H]; split=> // idx Hi; rewrite /= H // rmorphM; congr (_ * _).
rewrite /ev rmorph_sum; apply: eq_bigr => v _ /=; rewrite rmorph_prod big_map.
by apply: eq_bigr => -[[a b] ix] _; rewrite /fval /=; case: b => //=; rewrite conjCK.
Qed.

Lemma rep_scale c d t N : rep c t N -> rep (d * c) (tscale d t) N.
Proof. by move=> [Hs H]; split=> // idx Hi; rewrite /= H // mulrA. Qed.

(** permutation of the legs (Tensor.permute) *)
Definition perm_net (p : seq nat) (N : net) : net :=
  Net [seq nth 0%N (nfree N) j | j <- p] (nbound N)
      [seq ren (fun k => if (k < size p)%N then index k p else k) f | f <- nfacs N].

Lemma rep_permute c t N p : rep c t N -> perm_eq p (iota 0 (size (nfree N))) -> net_wf N ->
  rep c (permute t p) (perm_net p N).
Proof.
move=> [Hs H] Hp W.
have Pm k : (k \in p) = (k < size (nfree N))%N by rewrite (perm_mem Hp) mem_iota.
have Sp : size p = size (nfree N) by rewrite (perm_size Hp) size_iota.
have Hsh : shape (permute t p) = map dim (nfree (perm_net p N)).
  rewrite /= Hs -map_comp; apply/eq_in_map => j; rewrite Pm => Hj /=.
  by rewrite (nth_map 0%N).
split=> // idx Hi; have Si : size idx = size p by rewrite (in_range_size Hi) Hsh /= !size_map.
have R : in_range (shape t) [seq nth 0%N idx (index j p) | j <- iota 0 (size p)].
  rewrite in_range_nth size_map size_iota Hs size_map Sp eqxx /=; apply/allP => k; rewrite mem_iota /= add0n => Hk.
  have Kp : k \in p by rewrite Pm.
  rewrite (nth_map 0%N) ?size_iota // nth_iota // add0n.
  move: Hi; rewrite in_range_nth => /andP[_ /allP /(_ (index k p))].
  rewrite mem_iota add0n Hsh !size_map index_mem => /(_ Kp).
  by rewrite /= -map_comp (nth_map 0%N) ?index_mem //= nth_index // (nth_map 0%N).
rewrite /= (H _ R); congr (_ * _); rewrite /ev /=; apply: eq_bigr => v _; rewrite big_map.
apply: eq_big_seq => f Hf; rewrite /fval /= -map_comp.
set a := at_ _ _; set b := at_ _ _; suff -> : a = b by [].
rewrite /a /b; congr (at_ _ _); apply/eq_in_map => k Hk /=.
have B := allP (allP W f Hf) k Hk.
rewrite nth_cat size_map size_iota; case: ltnP => Hm.
  rewrite (nth_map 0%N) ?size_iota // nth_iota // add0n nth_cat Si index_mem.
  by rewrite Pm -Sp Hm.
by rewrite nth_cat Si ltnNge Hm.
Qed.

Lemma fval_ext w w' f : (forall k, k \in f.2 -> nth 0%N w k = nth 0%N w' k) -> fval w f = fval w' f.
Proof.
move=> H; rewrite /fval; suff -> : [seq nth 0%N w k | k <- f.2] = [seq nth 0%N w' k | k <- f.2] by [].
by apply/eq_in_map.
Qed.

Lemma fval_ren w r f : fval w (ren r f) = fval [seq nth 0%N w (r k) | k <- iota 0 (\max_(k <- f.2) k.+1)] f.
Proof.
rewrite /fval /ren /= -map_comp.
suff -> : [seq (nth 0%N w \o r) k | k <- f.2] =
  [seq nth 0%N [seq nth 0%N w (r k) | k <- iota 0 (\max_(k <- f.2) k.+1)] k | k <- f.2] by [].
apply/eq_in_map => k Hk /=.
have B : (k < \max_(k <- f.2) k.+1)%N.
  by rewrite (big_rem k) //= leq_max leqnn.
by rewrite (nth_map 0%N) ?size_iota // nth_iota.
Qed.

Lemma comb_sound pos (l : seq (seq label * net)) : forall off u,
  size u = off ->
  (forall p, p \in map (fun q => size q.1 == size (nfree q.2)) l -> p) ->
  all (fun q => net_wf q.2) l ->
  all (fun q => all (fun lb => (pos lb < size u)%N) q.1) l ->
  \prod_(q <- l) ev q.2 [seq nth 0%N u (pos lb) | lb <- q.1] =
  \sum_(v <- indices (map dim (comb pos off l).1)) \prod_(f <- (comb pos off l).2) fval (u ++ v) f.
Proof.
elim: l => [|[ls N] l IH] off u Hu Hr Hw Hp; first by rewrite big_nil /= big_seq1 big_nil.
rewrite big_cons [comb _ _ _]/= map_cat indices_cat /= {1}/ev big_distrl /=.
move: Hw Hp; rewrite /= => /andP[HwN Hwl] /andP[HpN Hpl].
have Hrk : size ls = size (nfree N) by apply/eqP/(Hr (size ls == size (nfree N))); rewrite inE eqxx.
apply: eq_sum_indices => v1 Hv1.
have Sv1 : size v1 = size (nbound N) by rewrite (in_range_size Hv1) size_map.
have -> : \prod_(q <- l) ev q.2 [seq nth 0%N u (pos lb) | lb <- q.1] =
          \prod_(q <- l) ev q.2 [seq nth 0%N (u ++ v1) (pos lb) | lb <- q.1].
  elim: (l) Hpl => [|q l' IHl]; first by rewrite !big_nil.
  rewrite /= !big_cons => /andP[Hq /IHl ->]; congr (ev _ _ * _).
  by apply: map_all_ext Hq => lb H; rewrite nth_cat H.
rewrite (IH (off + size (nbound N))%N); first last.
- by apply: sub_all_seq Hpl => q; apply: sub_all_seq => lb H; rewrite size_cat ltn_addr.
- by [].
- by move=> p Hp; apply: Hr; rewrite inE Hp orbT.
- by rewrite size_cat Hu Sv1.
rewrite big_distrr /=; apply: eq_bigr => v2 _; rewrite big_cat big_map /=; congr (_ * _).
  apply: eq_big_seq => f Hf; rewrite /fval /= -map_comp.
  set a := at_ _ _; set b := at_ _ _; suff -> : a = b by [].
  rewrite /a /b {a b}; congr (at_ _ _); apply/eq_in_map => k Hk /=.
  have := allP (allP HwN f Hf) k Hk; rewrite -Hrk => Bk.
  rewrite nth_cat size_map; case: ltnP => B.
    rewrite (nth_map Ascii.zero) // nth_cat.
    by rewrite (all_nthP Ascii.zero HpN k B).
  by rewrite nth_cat Hu ltnNge leq_addr /= addKn nth_cat Sv1 ltn_subLR // Bk.
by apply: eq_bigr => f _; rewrite catA.
Qed.

Fixpoint reps (cs : seq C) (ts : seq (tensor C)) (Ns : seq net) : Prop :=
  match cs, ts, Ns with
  | [::], [::], [::] => True
  | c :: cs', t :: ts', N :: Ns' => rep c t N /\ reps cs' ts' Ns'
  | _, _, _ => False
  end.

Lemma reps_dim_env ins cs ts Ns : reps cs ts Ns ->
  dim_env ins ts = [seq (p.1, dim p.2) | p <- sdim_env ins Ns].
Proof.
elim: ins cs ts Ns => [|ls ins IH] [|c cs] [|t ts] [|N Ns] //= [[Hs _] /IH ->].
rewrite map_cat Hs; congr (_ ++ _).
by elim: ls (nfree N) => [|x ls IHl] [|d ds'] //=; rewrite IHl.
Qed.

Lemma reps_ranks ins cs ts Ns : reps cs ts Ns -> ranks_ok ins ts = sranks_ok ins Ns.
Proof.
by elim: ins cs ts Ns => [|ls ins IH] [|c cs] [|t ts] [|N Ns] //= [[-> _] /IH ->]; rewrite size_map.
Qed.

Lemma lookup_dim l (e : seq (label * nat)) : mem_label l (map fst e) ->
  lookup 0%N l [seq (p.1, dim p.2) | p <- e] = dim (lookup 0%N l e).
Proof. by elim: e => [|[x y] e IH] //=; case: Ascii.eqb => //=. Qed.

Lemma fst_dims (e : seq (label * nat)) : map fst [seq (p.1, dim p.2) | p <- e] = map fst e.
Proof. by rewrite -map_comp. Qed.

Lemma dims_ok_dim e : dims_ok e -> dims_ok [seq (p.1, dim p.2) | p <- e].
Proof.
rewrite /dims_ok all_map.
have : all (fun p => mem_label p.1 (map fst e)) e.
  elim: (e) => [|[x y] e' IH] //=; rewrite Ascii.eqb_refl /=.
  by apply: sub_all_seq IH => p ->; rewrite orbT.
suff H : forall e', all (fun p => mem_label p.1 (map fst e)) e' -> all (fun p => lookup 0%N p.1 e == p.2) e' ->
  all (fun p => lookup 0%N p.1 [seq (p.1, dim p.2) | p <- e] == dim p.2) e' by exact: H.
elim=> [|p e' IH] //= /andP[H1 H2] /andP[/eqP H3 H4].
by rewrite lookup_dim // H3 eqxx IH.
Qed.

Lemma new_labels_mem l s out : mem_label l s -> mem_label l (out ++ new_labels s out).
Proof.
rewrite mem_label_cat.
elim: s out => [|x s IH] out //=; case: eqbP => [->|_] /= H.
  by case E: (mem_label x out) => //=; rewrite Ascii.eqb_refl.
case E: (mem_label x out) => /=; first exact: IH.
by have /= := IH (x :: out) H; case: Ascii.eqb => //=; rewrite orbT.
Qed.

Lemma new_labels_sub l s out : mem_label l (new_labels s out) -> mem_label l s.
Proof.
elim: s out => [|x s IH] out //=; case: ifP => _ /=; first by move=> /IH ->; rewrite orbT.
by case: Ascii.eqb => //= /IH.
Qed.

Lemma sdim_env_labels ins Ns : sranks_ok ins Ns -> map fst (sdim_env ins Ns) = flatten ins.
Proof.
elim: ins Ns => [|ls ins IH] [|N Ns] //= /andP[/eqP H /IH E].
by rewrite map_cat E zip_fst.
Qed.

Lemma factors_rep ins cs ts Ns env u pos : reps cs ts Ns -> sranks_ok ins Ns ->
  all (fun p => (lookup 0%N p.1 env == nth 0%N u (pos p.1)) && (nth 0%N u (pos p.1) < dim p.2)%N) (sdim_env ins Ns) ->
  factors env ins ts =
  [seq q.1 * ev q.2.2 [seq nth 0%N u (pos lb) | lb <- q.2.1] | q <- zip cs (zip ins Ns)].
Proof.
elim: ins cs ts Ns => [|ls ins IH] [|c cs] [|t ts] [|N Ns] //= [[Hs Ht] Hr] /andP[/eqP Hz Hk].
rewrite all_cat => /andP[H1 H2]; rewrite (IH cs ts Ns) //; congr (_ :: _).
rewrite /factor.
have [E R] : [seq lookup 0%N l env | l <- ls] = [seq nth 0%N u (pos l) | l <- ls] /\
  in_range (map dim (nfree N)) [seq nth 0%N u (pos l) | l <- ls].
  elim: (ls) (nfree N) Hz H1 => [|l ls' IHl] [|d ds'] //= [Hz] /andP[/andP[/eqP -> ->] H].
  by have [-> ->] := IHl _ Hz H.
by rewrite E Ht // Hs.
Qed.

Lemma range_lookup (dm : seq (label * nat)) s u l : in_range [seq dim (lookup 0%N l dm) | l <- s] u ->
  mem_label l s -> (nth 0%N u (lpos l s) < dim (lookup 0%N l dm))%N.
Proof.
rewrite /lpos; elim: s u => [|x s IH] [|y u] //= /andP[Hx Hu]; case: eqbP => [->|_] //= H; exact: IH.
Qed.

Lemma rep_einsum spec cs ts Ns N : reps cs ts Ns -> sym_einsum spec Ns = Some N ->
  exists t, einsum spec ts = Ok t /\ rep (\prod_(c <- cs) c) t N.
Proof.
move=> Hr; rewrite /sym_einsum /einsum.
case: (parse spec) => [[ins out]|] //; rewrite (reps_ranks ins Hr).
case: ifP => // /andP[Hrk Hwf]; case: ifP => // /and3P[Hd Ho Hu] [<-] {N}.
rewrite Hrk (reps_dim_env ins Hr) dims_ok_dim // fst_dims Ho /=; eexists; split; first by [].
have El := sdim_env_labels Hrk.
set dm := sdim_env ins Ns in Hd Ho El *; set summed := new_labels _ _ in Hu *.
have Eo : [seq lookup 0%N l [seq (p.1, dim p.2) | p <- dm] | l <- out] = map dim [seq lookup 0%N l dm | l <- out].
  by rewrite -map_comp; apply: map_all_ext Ho => l H /=; rewrite lookup_dim.
have Es : [seq lookup 0%N l [seq (p.1, dim p.2) | p <- dm] | l <- summed] = map dim [seq lookup 0%N l dm | l <- summed].
  rewrite -map_comp.
  have : all (fun l => mem_label l (map fst dm)) summed.
    by rewrite El /summed; apply: all_labels => l; apply: new_labels_sub.
  by apply: map_all_ext => l H /=; rewrite lookup_dim.
split=> [|idx /= Hi]; first exact: Eo.
rewrite sum_labelsE -!map_comp /=.
rewrite /ev /= map_cat indices_cat big_distrr /=.
rewrite (_ : [seq (snd \o _) x | x <- summed] = map dim [seq lookup 0%N l dm | l <- summed]); last by rewrite -Es.
have Sidx : size idx = size out by rewrite (in_range_size Hi) size_map.
apply: eq_sum_indices => v Hv.
have Sv : size v = size summed by rewrite (in_range_size Hv) !size_map.
rewrite (_ : [seq (fst \o _) x | x <- summed] = summed); last by elim: (summed) => //= x s ->.
set env := _ ++ _; rewrite prod_listE.
pose pos l := lpos l (out ++ summed).
have Hpos : all (fun l => mem_label l (out ++ summed)) (flatten ins).
  by apply: all_labels => l; apply: new_labels_mem.
rewrite (factors_rep (u := idx ++ v) (pos := pos) Hr Hrk); last first.
  have R : in_range [seq dim (lookup 0%N l dm) | l <- out ++ summed] (idx ++ v).
    rewrite map_cat in_range_cat ?size_map //; move: Hi Hv; rewrite Eo -!map_comp => -> //.
  move: Hpos; rewrite -El all_map => Hm; apply: all_imp2 Hm Hd => -[l d] /= Hm /eqP Hl.
  by rewrite /env lookup_env // eqxx /= -Hl range_lookup.
rewrite big_map big_split /=.
have Sz : size cs = size (zip ins Ns).
  by move: Hr Hrk; clear; elim: ins cs ts Ns => [|ls ins IH] [|c cs] [|t ts] [|N Ns] //= [_ /IH H] /andP[_ /H ->].
have -> : \prod_(i <- zip cs (zip ins Ns)) i.1 = \prod_(c <- cs) c.
  by rewrite -(big_map fst xpredT id) -/(unzip1 _) unzip1_zip ?Sz.
have -> : \prod_(i <- zip cs (zip ins Ns)) ev i.2.2 [seq nth 0%N (idx ++ v) (pos lb) | lb <- i.2.1] =
          \prod_(q <- zip ins Ns) ev q.2 [seq nth 0%N (idx ++ v) (pos lb) | lb <- q.1].
  by rewrite -(big_map snd xpredT (fun q => ev q.2 [seq nth 0%N (idx ++ v) (pos lb) | lb <- q.1])) -/(unzip2 _) unzip2_zip ?Sz.
congr (_ * _); rewrite (@comb_sound pos _ (size out + size summed) (idx ++ v)).
- by apply: eq_bigr => v2 _; rewrite catA.
- by rewrite size_cat Sidx Sv.
- by move: Hrk; clear; elim: ins Ns => [|ls ins IH] [|N Ns] //= /andP[H /IH Hr] p; rewrite inE => /predU1P[->|/Hr].
- by move: Hwf Hrk; clear; elim: ins Ns => [|ls ins IH] [|N Ns] //= /andP[-> /IH H] /andP[_ /H].
move: Hpos; rewrite /pos size_cat Sidx Sv -size_cat; move: (out ++ summed) Hrk; clear => s.
elim: ins Ns => [|ls ins IH] [|N Ns] //= /andP[_ /IH H]; rewrite all_cat => /andP[H1 /H ->]; rewrite andbT.
by apply: sub_all_seq H1 => l; apply: lpos_lt.
Qed.

Lemma net_matchP N1 N2 s idx : net_match N1 N2 s -> size idx = size (nfree N1) -> ev N1 idx = ev N2 idx.
Proof.
rewrite /net_match; set m := size (nfree N1).
move=> /and5P[/eqP Ef Hs /eqP Eb W1 /andP[W2 Hp]] Si.
pose g (v : seq nat) := [seq nth 0%N v (k - m) | k <- s].
have Sm k : (k \in s) = (m <= k < m + size (nbound N1))%N by rewrite (perm_mem Hs) mem_iota.
have G v : in_range (map dim (nbound N1)) v -> in_range (map dim (nbound N2)) (g v).
  move=> R; rewrite Eb /g -map_comp; have : all (fun k => m <= k < m + size (nbound N1))%N s by apply/allP => k; rewrite Sm.
  elim: (s) => [|k s' IH] //= /andP[/andP[H1 H2] /IH ->]; rewrite andbT.
  move: R; rewrite in_range_nth size_map => /andP[_ /allP /(_ (k - m)%N)].
  by rewrite mem_iota add0n (nth_map 0%N) ?ltn_subLR // H2 => /(_ isT).
have P : perm_eq [seq g v | v <- indices (map dim (nbound N1))] (indices (map dim (nbound N2))).
  have U : uniq [seq g v | v <- indices (map dim (nbound N1))].
    rewrite map_inj_in_uniq ?uniq_indices // => v v'; rewrite !mem_indices => /in_range_size S1 /in_range_size S2 E.
    apply: (@eq_from_nth _ 0%N); first by rewrite S1 S2.
    move=> i; rewrite S1 size_map => Hi.
    have Hk : (m + i)%N \in s by rewrite Sm leq_addr ltn_add2l.
    have := congr1 (fun z => nth 0%N z (index (m + i)%N s)) E.
    by rewrite !(nth_map 0%N) ?index_mem // nth_index // addKn.
  have [||_ E] := uniq_min_size U (s2 := indices (map dim (nbound N2))).
  - by move=> w /mapP[v Hv ->]; rewrite mem_indices G // -mem_indices.
  - rewrite size_map !size_indices !numelE Eb -map_comp !big_map.
    rewrite (perm_big _ Hs) /= -[m in iota m]addn0 iotaDl big_map.
    rewrite -[in X in (_ <= X)%N](mkseq_nth 0%N (nbound N1)) big_map.
    by under [X in (X <= _)%N]eq_bigr do rewrite addKn.
  by apply: uniq_perm; rewrite ?uniq_indices.
rewrite /ev -(perm_big _ P) /= big_map; apply: eq_sum_indices => v Rv.
have Sv : size v = size (nbound N1) by rewrite (in_range_size Rv) size_map.
rewrite -(perm_big _ Hp) /= big_map; apply: eq_big_seq => f Hf.
rewrite /fval /= -map_comp.
suff -> : [seq (nth 0%N (idx ++ v) \o nth 0%N (iota 0 m ++ s)) i | i <- f.2] = [seq nth 0%N (idx ++ g v) k | k <- f.2] by [].
apply/eq_in_map => k Hk /=.
have B := allP (allP W2 f Hf) k Hk; rewrite -Ef -/m in B.
have Ss : size s = size (nbound N2) by rewrite Eb size_map.
rewrite [nth _ (idx ++ g v) k]nth_cat Si -/m; case: ltnP => Hm.
  by rewrite (nth_cat _ (iota 0 m)) size_iota Hm nth_iota // nth_cat Si -/m add0n Hm.
have Bk : (k - m < size s)%N by rewrite Ss ltn_subLR.
rewrite (nth_cat _ (iota 0 m)) size_iota ltnNge Hm /= (nth_map 0%N) // nth_cat Si -/m.
have := mem_nth 0%N Bk; rewrite Sm => /andP[H _].
by rewrite ltnNge H.
Qed.

Lemma net_eqP N1 N2 idx : net_eq N1 N2 -> size idx = size (nfree N1) -> ev N1 idx = ev N2 idx.
Proof. exact: net_matchP. Qed.

Lemma rep_eq c t N N' : rep c t N -> net_eq N N' -> rep c t N'.
Proof.
move=> [Hs H] E; have Ef : nfree N = nfree N' by case/andP: E => /eqP.
split=> [|idx Hi]; first by rewrite -Ef.
by rewrite H // (net_eqP E) // (in_range_size Hi) Hs size_map.
Qed.

Lemma rep_of_teq c t t' N : rep c t N -> teq t t' -> rep c t' N.
Proof.
by move=> [Hs H] [S E]; split=> [|idx Hi]; rewrite -?S // -E ?S // H // S.
Qed.

Lemma rep_teq c t t' N N' : rep c t N -> rep c t' N' -> net_eq N N' -> teq t t'.
Proof.
move=> /rep_eq H [Hs' H'] /H [Hs {}H]; split; first by rewrite Hs Hs'.
by move=> i Hi; rewrite H // H' // Hs' -Hs.
Qed.

End Sound.

Lemma reps_nil (C : numClosedFieldType) ds (atoms : seq (tensor C)) : reps ds atoms [::] [::] [::].
Proof. by []. Qed.
Lemma reps_cons (C : numClosedFieldType) ds (atoms : seq (tensor C)) c t N cs ts Ns :
  rep ds atoms c t N -> reps ds atoms cs ts Ns -> reps ds atoms (c :: cs) (t :: ts) (N :: Ns).
Proof. by []. Qed.

(** ---- tactics: symbolic execution of an einsum program ---- *)

(** the representation of a tensor, found among the hypotheses *)
Ltac tn_get t :=
  match t with
  | conj ?t' => let r := tn_get t' in constr:(rep_conj r)
  | _ => match goal with H : rep _ _ _ t _ |- _ => constr:(H) end
  end.
Ltac tn_reps ds atoms ts :=
  match ts with
  | nil => constr:(reps_nil ds atoms)
  | cons ?t ?ts' => let h := tn_get t in let r := tn_reps ds atoms ts' in constr:(reps_cons h r)
  end.
Ltac tn_norm R := rewrite ?big_cons ?big_nil ?mulr1 ?rmorph1 ?mulr1 in R.
Ltac tn_id x l :=
  lazymatch l with
  | cons ?y ?l' => match constr:(Set) with
                   | _ => let _ := match constr:(Set) with _ => constr_eq x y end in constr:(0%N)
                   | _ => let k := tn_id x l' in constr:((S k)%N)
                   end
  end.
Ltac tn_ids xs l :=
  lazymatch xs with
  | nil => constr:(@nil nat)
  | cons ?x ?xs' => let k := tn_id x l in let r := tn_ids xs' l in constr:(cons k r)
  end.
(** execute one einsum: the call is replaced by a new tensor with a known network *)
Ltac tn_einsum_keep :=
  match goal with
  | H : rep ?ds ?atoms _ _ _ |- context [einsum ?s ?ts] =>
      let r := tn_reps ds atoms ts in
      match type of r with
      | reps _ _ ?cs _ ?Ns =>
          let v := eval vm_compute in (sym_einsum s Ns) in
          match v with
          | Some ?N =>
              let t := fresh "t" in let E := fresh "E" in let R := fresh "R" in
              have [t [E R]] := rep_einsum (N := N) r (ltac:(vm_cast_no_check (@erefl (option net) (Some N))) : sym_einsum s Ns = Some N);
              tn_norm R; rewrite E /bind; cbv beta
          end
      end
  end.
Ltac tn_einsum := tn_einsum_keep; match goal with E : einsum _ _ = Ok ?t, R : rep _ _ _ ?t _ |- _ => clear E end.
(** introduce the input tensor number a, its shape given by hypothesis H *)
Ltac tn_atom ds atoms a dims H :=
  match type of H with
  | shape ?t = _ =>
      let R := fresh "R" in
      let N := eval vm_compute in (atom_net a dims) in
      have R : rep ds atoms 1 t N by exact (@rep_atom _ ds atoms a dims H)
  end.
(** introduce all listed input tensors, with dimensions from the list dl *)
Ltac tn_atoms ds atoms dl al a :=
  lazymatch al with
  | nil => idtac
  | cons ?t ?al' =>
      match goal with
      | H : shape t = ?sh |- _ =>
          let ids := tn_ids sh dl in let a' := eval vm_compute in a in tn_atom ds atoms a' ids H; tn_atoms ds atoms dl al' (S a)
      end
  end.
Ltac tn_setup dl al :=
  let ds := fresh "ds" in let atoms := fresh "atoms" in
  pose ds := dl; pose atoms := al; tn_atoms ds atoms dl al 0%N.
(** compare the networks of two tensors *)
Ltac tn_teq :=
  match goal with
  | H1 : rep _ _ _ ?a ?N1, H2 : rep _ _ _ ?b ?N2 |- teq ?a ?b =>
      apply: (rep_teq H1 H2); vm_cast_no_check (erefl true)
  end.
