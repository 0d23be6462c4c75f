(* Lemmas: closed form of KFAC's parameter mapping, and the layers of a network. *)
From mathcomp Require Import all_ssreflect all_algebra.
From Verif Require Import PyPrelude Tensor Spec KfacSpec Kfac KfacProof.
Set Implicit Arguments.
Unset Strict Implicit.
Unset Printing Implicit Defensive.
Import GRing.Theory.
Local Open Scope ring_scope.

Section DictLemmas.
Variables (K : eqType) (V : Type).
Lemma dset_new (k : K) (v : V) d : ~~ dmem k d -> dset k v d = rcons d (k, v).
Proof. by elim: d => //= -[k' v'] d IH; rewrite /dmem /= inE negb_or eq_sym => /andP[/negbTE -> /IH ->]. Qed.

Lemma dget_in (k : K) (v : V) d : dget k d = Some v -> List.In (k, v) d.
Proof.
rewrite /dget; elim: d => //= -[k' v'] d IH /=; case: eqP => [->|_] /=; first by move=> [->]; left.
by move/IH; right.
Qed.

Lemma in_dget (k : K) (v : V) d : uniq (dkeys d) -> List.In (k, v) d -> dget k d = Some v.
Proof.
rewrite /dget; elim: d => //= -[k' v'] d IH /= /andP[hn hu] [[-> ->]|h]; first by rewrite eqxx.
case: eqP => [e|_]; last exact: IH.
exfalso; move/negP: hn; apply; rewrite e.
by elim: d h {IH hu} => //= -[a b] d IH [[-> _]|/IH h]; rewrite inE ?eqxx // h orbT.
Qed.

Lemma dget_none (k : K) (d : dict K V) : k \notin dkeys d -> dget k d = None.
Proof. by rewrite /dget; elim: d => //= -[k' v'] d IH; rewrite inE negb_or eq_sym => /andP[/negbTE -> /IH]. Qed.
End DictLemmas.

Section Closed.
Variable ids : seq nat.

Definition kept (m : module) : seq (pname * nat) := [seq p <- m_params m | p.2 \in ids].
Definition positions (m : module) : dict pname_eqType nat := [seq (p.1, index p.2 ids) | p <- kept m].
Definition relevant (m : module) : bool := m_supported m && has (fun p : pname * nat => p.2 \in ids) (m_params m).

Lemma map_params_closed ps done : uniq [seq p.1 | p <- ps] ->
  (map_params ids ps done).1 = [seq (p.1, index p.2 ids) | p <- ps & p.2 \in ids] /\
  (uniq done -> uniq (map_params ids ps done).2) /\
  (map_params ids ps done).2 =i done ++ [seq p.2 | p <- ps & p.2 \in ids].
Proof.
rewrite /map_params => hu.
suff H : forall acc dn, uniq (dkeys acc ++ [seq p.1 | p <- ps]) ->
   let r := foldl (fun st p => if p.2 \in ids then (dset p.1 (index p.2 ids) st.1, undup (p.2 :: st.2)) else st) (acc, dn) ps in
   r.1 = acc ++ [seq (p.1, index p.2 ids) | p <- ps & p.2 \in ids] /\ (uniq dn -> uniq r.2) /\
   r.2 =i dn ++ [seq p.2 | p <- ps & p.2 \in ids].
  by have [-> [h1 h2]] := H [::] done hu.
elim: ps {hu} => [|[n i] ps IH] acc dn /= hu; first by rewrite !cats0.
case: ifP => hi; last first.
  by apply: IH; apply: subseq_uniq hu; rewrite subseq_cat2l subseq_cons.
have hn : ~~ dmem n acc by move: hu; rewrite cat_uniq => /and3P[_ /hasPn/(_ n)]; rewrite inE eqxx => /(_ isT).
have h2 : uniq (dkeys (dset n (index i ids) acc) ++ [seq p.1 | p <- ps]).
  by rewrite dset_new // /dkeys map_rcons cat_rcons.
have [-> [h3 h4]] := IH (dset n (index i ids) acc) (if i \in dn then undup dn else i :: undup dn) h2.
split; first by rewrite dset_new // cat_rcons.
split; first by move=> hd; apply: h3; case: ifP => h; rewrite /= ?undup_uniq ?mem_undup ?h.
move=> x; rewrite h4 !mem_cat /= inE; case: ifP => h; rewrite ?inE mem_undup //; last by rewrite orbCA orbA.
by case: eqP => [->|]; rewrite ?h.
Qed.

Lemma mapping_closed mods : uniq (map m_name mods) -> (forall m, List.In m mods -> uniq [seq p.1 | p <- m_params m]) ->
  exists done, [/\ uniq done, done =i flatten [seq [seq p.2 | p <- kept m] | m <- mods & relevant m] &
   compute_parameter_mapping ids mods =
   (if size done == size ids then Ok [seq (m_name m, positions m) | m <- mods & relevant m] else Err NotImplementedError)].
Proof.
move=> hu hp; rewrite /compute_parameter_mapping.
set step := map_module ids.
suff [h1 [h2 h3]] : let r := foldl step ([::] : mapping, [::]) mods in
    r.1 = [::] ++ [seq (m_name m, positions m) | m <- mods & relevant m] /\ (uniq (Nil nat) -> uniq r.2) /\
    r.2 =i [::] ++ flatten [seq [seq p.2 | p <- kept m] | m <- mods & relevant m].
  exists (foldl step ([::] : mapping, [::]) mods).2; split=> //; first exact: h2.
  by rewrite /raise_if h1; case: eqP.
have : uniq (dkeys ([::] : mapping) ++ map m_name mods) by [].
elim: mods ([::] : mapping) (Nil nat) hp {hu} => [|m mods IH] acc dn hp hu /=; first by rewrite !cats0.
have hp' m0 : List.In m0 mods -> uniq [seq p.1 | p <- m_params m0] by move=> h; apply: hp; right.
rewrite {2 4 6}/step /map_module -/(relevant m); case: ifP => hr; last first.
  by apply: IH => //; apply: subseq_uniq hu; exact: cat_subseq (subseq_refl _) (subseq_cons _ _).
have [c1 [c2 c3]] := @map_params_closed (m_params m) dn (hp m (or_introl erefl)).
have hn : ~~ dmem (m_name m) acc by move: hu; rewrite cat_uniq => /and3P[_ /hasPn/(_ (m_name m))]; rewrite inE eqxx => /(_ isT).
set pm := map_params _ _ _ in c1 c2 c3 *.
have [|-> [h3 h4]] := IH (dset (m_name m) pm.1 acc) pm.2 hp'; first by rewrite dset_new // /dkeys map_rcons cat_rcons.
split; first by rewrite dset_new // cat_rcons c1.
split; first by move=> h; apply: h3; exact: c2.
by move=> x; rewrite h4 /= !mem_cat c3 mem_cat orbA.
Qed.
End Closed.

(* ---- the layers of a network ----
   [ids]: the data pointers of the parameters the operator was created for. *)
Definition well_named (mods : seq module) : Prop :=
  uniq (map m_name mods) /\ (forall m, List.In m mods -> uniq [seq p.1 | p <- m_params m]).
(* every parameter is owned by exactly one parameter slot of a supported layer *)
Definition owned_once (ids : seq nat) (mods : seq module) : Prop :=
  uniq ids /\
  perm_eq (flatten [seq [seq p.2 | p <- m_params m & p.2 \in ids] | m <- mods & m_supported m]) ids.
(* position of the module's parameter called n in the operator's parameter list *)
Definition at_pos (ids : seq nat) (m : module) (n : pname) : option nat :=
  if dget n (m_params m : dict pname_eqType nat) is Some i then
    if i \in ids then Some (index i ids) else None
  else None.

Section Net.
Variable F : comRingType.
Local Notation tens := (tensor F).
Local Notation cov := (dict nat_eqType tens).

(* the matrix kept for a layer *)
Definition stored (C : cov) (name : nat) (i j : nat) : F :=
  if dget name C is Some t then entry (last 0%N (tshape t)) (tdata t) i j else 0.
Definition net_layer ids (inC grC : cov) (m : module) : layer F :=
  Layer (at_pos ids m Weight) (at_pos ids m Bias) (stored inC (m_name m)) (stored grC (m_name m)).
(* layers that own at least one of the operator's parameters *)
Definition net_layers ids inC grC (mods : seq module) : seq (layer F) :=
  [seq net_layer ids inC grC m | m <- mods & m_supported m && has (fun p : pname * nat => p.2 \in ids) (m_params m)].

(* factors of the sizes the parameters need; the input factor symmetric *)
Definition fits sep S ids (inC grC : cov) (m : module) : Prop :=
  all (fun p : pname * nat => (p.1 == Weight) || (p.1 == Bias)) (m_params m) /\
  exists o G,
   [/\ dget (m_name m) grC = Some G, tshape G = [:: o; o],
       (forall w, at_pos ids m Weight = Some w -> exists rest A,
          [/\ pshape S w = o :: rest, dget (m_name m) inC = Some A &
           let n := (numel rest + (~~ sep && (at_pos ids m Bias != None)))%N in
           tshape A = [:: n; n] /\
           (forall i j, (i < n)%N -> (j < n)%N -> entry n (tdata A) i j = entry n (tdata A) j i)]) &
       (forall b, at_pos ids m Bias = Some b -> pshape S b = [:: o])].

Lemma dget_positions ids m n : uniq [seq p.1 | p <- m_params m] ->
  dget n (positions ids m) = at_pos ids m n.
Proof.
rewrite /positions /kept /at_pos /dget; elim: (m_params m) => //= -[k i] ps IH /= /andP[hn hu].
case hi : (i \in ids) => /=.
  by case: eqP => [e|ne] /=; [rewrite hi|exact: IH].
case: eqP => [e|ne] /=; last exact: IH.
rewrite hi IH // -e -/(dget k (ps : dict pname_eqType nat)).
by rewrite dget_none.
Qed.

Lemma net_describes sep S ids inC grC mods : well_named mods ->
  (forall m, List.In m mods -> relevant ids m -> fits sep S ids inC grC m) ->
  describes_all sep S inC grC [seq (m_name m, positions ids m) | m <- mods & relevant ids m] (net_layers ids inC grC mods).
Proof.
move=> [_ hp] hf; rewrite /net_layers /describes_all.
have {hp hf} H m : List.In m [seq m <- mods | relevant ids m] ->
   describes sep S inC grC (m_name m, positions ids m) (net_layer ids inC grC m).
  move=> hin; have [hin' hr] : List.In m mods /\ relevant ids m.
    elim: (mods) hin => //= a ms IH; case: ifP => ha /= h; first by case: h => [<-|/IH[h1 h2]]; auto.
    by have [h1 h2] := IH h; split=> //; right.
  have hu := hp m hin'; have [hn [o [G [g1 g2 hw hb]]]] := hf m hin' hr.
  split=> /=.
  - by rewrite /dkeys /positions -map_comp; apply: subseq_uniq hu; apply: map_subseq; exact: filter_subseq.
  - rewrite /positions all_map /kept; apply/allP => p; rewrite mem_filter => /andP[_ hpin]; by move/allP: hn => /(_ p hpin).
  - exact: dget_positions.
  - exact: dget_positions.
  exists o, G; split=> //.
  - by move=> i j hi hj; rewrite /stored g1 g2.
  - move=> w hw0; have [rest [A [w1 w2 [w3 w4]]]] := hw w hw0; exists rest; split=> //.
    have hj : joint sep (net_layer ids inC grC m) = (~~ sep && (at_pos ids m Bias != None)) by rewrite /joint /= hw0.
    rewrite hj /=; exists A; split=> // i j hi hj'; rewrite /stored w2 w3 //=.
    exact: w4.
elim: [seq m <- mods | relevant ids m] H => [|m ms IH] H /=; first by constructor.
constructor; first by apply: H; left.
by apply: IH => m' h; apply: H; right.
Qed.

Lemma l_pos_net ids inC grC m : uniq [seq p.1 | p <- m_params m] ->
  all (fun p : pname * nat => (p.1 == Weight) || (p.1 == Bias)) (m_params m) ->
  perm_eq (l_pos (net_layer ids inC grC m)) [seq index p.2 ids | p <- kept ids m].
Proof.
move=> hu hn; have hk : uniq (dkeys (positions ids m)).
  by rewrite /dkeys /positions -map_comp; apply: subseq_uniq hu; apply: map_subseq; exact: filter_subseq.
have ha : all (fun p : pname * nat => (p.1 == Weight) || (p.1 == Bias)) (positions ids m).
  rewrite /positions all_map /kept; apply/allP => p; rewrite mem_filter => /andP[_ hpin]; by move/allP: hn => /(_ p hpin).
have -> : [seq index p.2 ids | p <- kept ids m] = [seq p.2 | p <- positions ids m] by rewrite /positions -map_comp.
rewrite /l_pos /net_layer /= -!dget_positions //.
have [->|[[w ->]|[[b ->]|[[w [b ->]]|[w [b ->]]]]]] := dict_forms hk ha; rewrite /dget //=.
by rewrite (perm_catC [:: w] [:: b]).
Qed.

Lemma net_unshared S ids inC grC mods : well_named mods -> size S = size ids -> owned_once ids mods ->
  (forall m, List.In m mods -> relevant ids m -> all (fun p : pname * nat => (p.1 == Weight) || (p.1 == Bias)) (m_params m)) ->
  unshared S (net_layers ids inC grC mods).
Proof.
move=> [_ hp] hS [hu hperm] hn; rewrite /unshared hS.
have h1 : perm_eq (flatten (map (@l_pos F) (net_layers ids inC grC mods)))
   [seq index i ids | i <- flatten [seq [seq p.2 | p <- kept ids m] | m <- mods & m_supported m]].
  rewrite map_flatten /net_layers; elim: mods hp hn {hperm} => //= m ms IH hp hn.
  have {}IH := IH (fun m' h => hp m' (or_intror h)) (fun m' h => hn m' (or_intror h)).
  case hs : (m_supported m) => //=.
  case hh : (has _ (m_params m)) => /=.
    apply: perm_cat => //; rewrite -map_comp; apply: l_pos_net; first by apply: hp; left.
    by apply: hn; [left|rewrite /relevant hs].
  suff -> : kept ids m = [::] by [].
  by apply/eqP; rewrite -size_eq0 size_filter -leqn0 leqNgt -has_count hh.
apply: (perm_trans h1); apply: (perm_trans (perm_map _ hperm)).
rewrite (_ : [seq index i ids | i <- ids] = iota 0 (size ids)) //.
apply: (@eq_from_nth _ 0%N); first by rewrite size_map size_iota.
by move=> i; rewrite size_map => hi; rewrite (nth_map 0%N) // nth_iota // index_uniq.
Qed.

Lemma net_mapping ids mods : well_named mods -> owned_once ids mods ->
  compute_parameter_mapping ids mods = Ok [seq (m_name m, positions ids m) | m <- mods & relevant ids m].
Proof.
move=> [hu hp] [ui hperm]; have [done [d1 d2 ->]] := mapping_closed ids hu hp.
suff -> : size done = size ids by rewrite eqxx.
apply: esym; apply/eqP; rewrite -(uniq_size_uniq d1) //.
move=> x; rewrite d2 -(perm_mem hperm).
elim: (mods) => //= m ms IH; rewrite /relevant; case: (m_supported m) => //=.
case hh : (has _ (m_params m)) => /=; first by rewrite !mem_cat IH.
suff e : [seq p <- m_params m | p.2 \in ids] = [::] by rewrite e.
by apply/eqP; rewrite -size_eq0 size_filter -leqn0 leqNgt -has_count hh.
Qed.

End Net.
