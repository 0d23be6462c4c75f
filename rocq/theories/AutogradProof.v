(* Back-propagation on a tape computes partial derivatives. *)
From Coq Require Import Reals FunctionalExtensionality.
From Coquelicot Require Import Coquelicot.
From mathcomp Require Import all_ssreflect all_algebra.
From Verif Require Import PyPrelude Tensor RInst Calculus Losses Curvature ActHess Autograd.
Set Implicit Arguments.
Unset Strict Implicit.
Unset Printing Implicit Defensive.
Import GRing.Theory.
Local Open Scope ring_scope.

Local Notation vec := (seq R).

(* entry c of the i-th of some vectors *)
Definition en (x : seq vec) (i c : nat) : R := nth 0 (nth [::] x i) c.
Definition ip (x y : vec) : R := \sum_(c < size y) nth 0 x c * nth 0 y c.

(* us is a curve through xs, entrywise differentiable at t0 with derivative du *)
Definition moves (us : R -> seq vec) (xs du : seq vec) (t0 : R) : Prop :=
  [/\ us t0 = xs,
      forall t, map size (us t) = map size xs,
      map size du = map size xs &
      forall i c, (c < size (nth [::] xs i))%N -> is_derive (fun t => en (us t) i c) t0 (en du i c)].

(* The backward function of a call is right at xs: along every curve through xs the
   result is differentiable, and pairing a cotangent with the derivative of the result
   is pairing the cotangents of the arguments with the derivatives of the arguments. *)
Definition vjp_ok (n : node) (xs : seq vec) : Prop :=
  [/\ forall ys, map size ys = map size xs -> size (nd_fun n ys) = nd_size n,
      forall w, size w = nd_size n -> map size (nd_vjp n xs w) = map size xs &
      forall us du t0, moves us xs du t0 ->
        exists d : vec, [/\ size d = nd_size n,
          forall c, (c < nd_size n)%N -> is_derive (fun t => nth 0 (nd_fun n (us t)) c) t0 (nth 0 d c) &
          forall w, size w = nd_size n ->
            ip w d = \sum_(k < size xs) ip (nth [::] (nd_vjp n xs w) k) (nth [::] du k)]].

(* every call refers to earlier tensors and its backward function is right at the
   values it is called with *)
Definition item_ok (vs : seq vec) (it : item) : Prop :=
  match it with Data _ => True | Call n => all (fun a => a < size vs)%N (nd_args n) /\ vjp_ok n (args_of vs n) end.
Fixpoint tape_ok (L : seq vec) (t : seq item) : Prop :=
  match t with [::] => True | it :: t' => item_ok L it /\ tape_ok (rcons L (item_val L it)) t' end.

Lemma tape_ok_rcons L t it : tape_ok L (rcons t it) <-> tape_ok L t /\ item_ok (tape_vals L t) it.
Proof.
elim: t L => [|i t IH] L /=; first by split=> [[]|[]].
rewrite IH /tape_vals /=; split=> [[? [? ?]]|[[? ?] ?]]; by [].
Qed.
Lemma tape_ok_cat L t1 t2 : tape_ok L (t1 ++ t2) <-> tape_ok L t1 /\ tape_ok (tape_vals L t1) t2.
Proof.
elim: t1 L => [|i t IH] L /=; first by split=> [|[]].
rewrite IH /tape_vals /=; split=> [[? [? ?]]|[[? ?] ?]]; by [].
Qed.

Lemma tape_valsS L t it : tape_vals L (rcons t it) = rcons (tape_vals L t) (item_val (tape_vals L t) it).
Proof. by rewrite /tape_vals -cats1 scan_cat. Qed.
Lemma size_tape_vals L t : size (tape_vals L t) = (size L + size t)%N.
Proof. exact: size_scan. Qed.
Lemma tape_rgS rq t it : tape_rg rq (rcons t it) = rcons (tape_rg rq t) (item_rg (tape_rg rq t) it).
Proof. by rewrite /tape_rg -cats1 scan_cat. Qed.
Lemma size_tape_rg rq t : size (tape_rg rq t) = (size rq + size t)%N.
Proof. exact: size_scan. Qed.

Lemma nth_map_size (x y : seq vec) i : map size x = map size y -> size (nth [::] x i) = size (nth [::] y i).
Proof.
move=> e; have es : size x = size y by have := congr1 size e; rewrite !size_map.
case: (ltnP i (size x)) => h; last by rewrite !nth_default // -es.
by have := congr1 (fun s => nth 0%N s i) e; rewrite !(nth_map [::]) // -es.
Qed.
Lemma map_size_eq (x y : seq vec) : size x = size y ->
  (forall i, size (nth [::] x i) = size (nth [::] y i)) -> map size x = map size y.
Proof.
move=> es h; apply: (@eq_from_nth _ 0%N); rewrite ?size_map // => i hi.
by rewrite !(nth_map [::]) // -es.
Qed.


(* gathering arguments *)
Lemma moves_args us xs du t0 (args : seq nat) : moves us xs du t0 ->
  moves (fun t => [seq nth [::] (us t) a | a <- args]) [seq nth [::] xs a | a <- args] [seq nth [::] du a | a <- args] t0.
Proof.
case=> e hs hd h; split=> [|t||i c].
- by rewrite e.
- by rewrite -!map_comp; apply: eq_map => a /=; apply: nth_map_size.
- by rewrite -!map_comp; apply: eq_map => a /=; apply: nth_map_size.
- rewrite /en; case: (ltnP i (size args)) => hi; last by rewrite nth_default ?size_map.
  rewrite !(nth_map 0%N) // => hc.
  by apply: (@derive_ext (fun t => en (us t) (nth 0%N args i) c)) => [t|]; [rewrite (nth_map 0%N) | apply: h].
Qed.

(* all values on the tape are differentiable along a curve of parameters *)
Lemma tape_moves L us du t0 t : moves us L du t0 -> tape_ok L t ->
  exists dvs, moves (fun s => tape_vals (us s) t) (tape_vals L t) dvs t0 /\
    (forall i, (i < size L)%N -> nth [::] dvs i = nth [::] du i).
Proof.
move=> mv; elim/last_ind: t => [|t it IH] ok; first by exists du.
have [{}/IH [dvs [mvs hdv]] okit] := (tape_ok_rcons _ _ _).1 ok.
have sdv : size dvs = size (tape_vals L t) by case: mvs => _ _ /(congr1 size); rewrite !size_map.
have [d [sd hd]] : exists d : vec, size d = size (item_val (tape_vals L t) it) /\
   (forall s, size (item_val (tape_vals (us s) t) it) = size (item_val (tape_vals L t) it)) /\
   forall c, (c < size d)%N -> is_derive (fun s => nth 0 (item_val (tape_vals (us s) t) it) c) t0 (nth 0 d c).
  case: it okit {ok} => [v _|n [ha [h1 _ h3]]] /=.
    exists (nseq (size v) 0); rewrite size_nseq; split=> //; split=> // c hc.
    by rewrite nth_nseq hc; exact: is_derive_const.
  have mva := moves_args (nd_args n) mvs.
  have [d [sd hd _]] := h3 _ _ _ mva.
  exists d; rewrite h1 // sd; split=> //; split=> // s.
  by rewrite h1 //; case: mva => _ hh _ _; apply: hh.
have e1 : (fun s => tape_vals (us s) (rcons t it)) =
          (fun s => rcons (tape_vals (us s) t) (item_val (tape_vals (us s) t) it)).
  by apply: functional_extensionality => s; rewrite tape_valsS.
exists (rcons dvs d); rewrite e1 tape_valsS; case: mvs => e hs hsd hder; split; last first.
  by move=> i hi; rewrite nth_rcons sdv size_tape_vals ltn_addr // hdv.
split=> [|s||i c].
- by rewrite e.
- by rewrite !map_rcons hs hd.1.
- by rewrite !map_rcons hsd sd.
- have es s : size (tape_vals (us s) t) = size (tape_vals L t) by have := congr1 size (hs s); rewrite !size_map.
  rewrite /en !nth_rcons sdv; case: (ltnP i (size (tape_vals L t))) => hi.
    move=> hc; apply: (@derive_ext (fun s => en (tape_vals (us s) t) i c)) => [s|]; last exact: hder.
    by rewrite nth_rcons es hi.
  case: (i =P size (tape_vals L t)) => [ei|ne] // hc.
  apply: (@derive_ext (fun s => nth 0 (item_val (tape_vals (us s) t) it) c)) => [s|]; last by apply: hd.2; rewrite sd.
  by rewrite nth_rcons es ei ltnn eqxx.
Qed.

Lemma derive_uniq (f : R -> R) t0 l1 l2 : is_derive f t0 l1 -> is_derive f t0 l2 -> l1 = l2.
Proof. by move=> /is_derive_unique <- /is_derive_unique <-. Qed.

(* tensors that do not require grad do not move with the parameters that do *)
Lemma frozen L (us : R -> seq vec) t rq : size rq = size L -> (forall s, size (us s) = size L) ->
  (forall s p, nth false rq p = false -> nth [::] (us s) p = nth [::] L p) ->
  forall s i, nth false (tape_rg rq t) i = false -> nth [::] (tape_vals (us s) t) i = nth [::] (tape_vals L t) i.
Proof.
move=> hq hu hf; elim/last_ind: t => [|t it IH] s i; first exact: hf.
rewrite tape_rgS !tape_valsS !nth_rcons size_tape_rg !size_tape_vals hq hu.
case: ltnP => _; first exact: IH.
case: eqP => // _; case: it => [//|n] /= /hasPn ha.
by congr nd_fun; apply/eq_in_map => a /ha /negbTE; apply: IH.
Qed.

Lemma tape_ok_nth L t j : tape_ok L t -> (j < size t)%N -> item_ok (tape_vals L (take j t)) (nth (Data [::]) t j).
Proof.
move=> ok hj; rewrite -(cat_take_drop j t) in ok; have [_] := (tape_ok_cat _ _ _).1 ok.
by rewrite (drop_nth (Data [::]) hj) => -[].
Qed.
Lemma tape_vals_take L t j i : (i < size L + j)%N -> (j <= size t)%N ->
  nth [::] (tape_vals L (take j t)) i = nth [::] (tape_vals L t) i.
Proof.
move=> h hj; rewrite -{2}(cat_take_drop j t) /tape_vals scan_cat [RHS]nth_scan //.
by rewrite size_scan size_takel.
Qed.
(* a call on the tape: its arguments come before it, its backward function is right,
   and its result is what the tape holds at its position *)
Lemma tape_call L t j n : tape_ok L t -> (j < size t)%N -> nth (Data [::]) t j = Call n ->
  [/\ all (fun a => a < size L + j)%N (nd_args n), vjp_ok n (args_of (tape_vals L t) n) &
      nth [::] (tape_vals L t) (size L + j) = nd_fun n (args_of (tape_vals L t) n)].
Proof.
move=> ok hj e; have := tape_ok_nth ok hj; rewrite e /= size_tape_vals size_takel ?(ltnW hj) // => -[ha hv].
have ea : args_of (tape_vals L (take j t)) n = args_of (tape_vals L t) n.
  by apply/eq_in_map => a /(allP ha) h; rewrite tape_vals_take // ltnW.
split=> //; first by rewrite -ea.
rewrite -ea -(tape_vals_take (j := j.+1)) // ?addnS // (take_nth (Data [::]) hj) e tape_valsS nth_rcons.
by rewrite size_tape_vals size_takel ?(ltnW hj) // ltnn eqxx.
Qed.
(* the same position, for other parameters *)
Lemma tape_call_val L t j n L' : tape_ok L t -> (j < size t)%N -> nth (Data [::]) t j = Call n -> size L' = size L ->
  nth [::] (tape_vals L' t) (size L + j) = nd_fun n (args_of (tape_vals L' t) n).
Proof.
move=> ok hj e es; have [ha _ _] := tape_call ok hj e.
have ea : args_of (tape_vals L' (take j t)) n = args_of (tape_vals L' t) n.
  by apply/eq_in_map => a /(allP ha) h; rewrite tape_vals_take ?es // ltnW.
rewrite -ea -es -(tape_vals_take (j := j.+1)) // ?addnS // (take_nth (Data [::]) hj) e tape_valsS nth_rcons.
by rewrite size_tape_vals size_takel ?(ltnW hj) // ltnn eqxx.
Qed.

Section Potential.
Variables (vals dvs : seq vec).
Hypothesis sz : map size dvs = map size vals.
Definition term (cot : seq (option vec)) (j : nat) : R :=
  if nth None cot j is Some w then ip w (nth [::] dvs j) else 0.
Definition pot (cot : seq (option vec)) (m : nat) : R := \sum_(j < m) term cot j.
Definition sized (cot : seq (option vec)) : Prop :=
  forall j w, nth None cot j = Some w -> size w = size (nth [::] vals j).

Lemma ip_vadd x g y : size x = size y -> ip (vadd x g) y = ip x y + ip g y.
Proof.
move=> e; rewrite /ip -big_split; apply: eq_bigr => c _.
by rewrite nth_mkseq ?e // mulrDl.
Qed.
Lemma accumulate_other cot a g j : j != a -> nth None (accumulate cot a g) j = nth None cot j.
Proof. by move=> h; rewrite nth_set_nth /= (negbTE h). Qed.
Lemma accumulate_sized cot a g : sized cot -> size g = size (nth [::] vals a) -> sized (accumulate cot a g).
Proof.
move=> h hg j w; rewrite nth_set_nth /=; case: (j =P a) => [->|_]; last exact: h.
by case e: (nth None cot a) => [x|] [<-] //; rewrite size_mkseq; apply: h.
Qed.
Lemma accumulate_pot cot a g m : (a < m)%N -> sized cot -> size g = size (nth [::] vals a) ->
  pot (accumulate cot a g) m = pot cot m + ip g (nth [::] dvs a).
Proof.
move=> ha hs hg; rewrite /pot (bigD1 (Ordinal ha)) //= [in RHS](bigD1 (Ordinal ha)) //=.
rewrite addrAC; congr (_ + _); last first.
  by apply: eq_bigr => j hj; rewrite /term accumulate_other.
rewrite /term nth_set_nth /= eqxx; case e: (nth None cot a) => [x|]; last by rewrite add0r.
by rewrite ip_vadd // (hs _ _ e) (nth_map_size _ sz).
Qed.

Variable rs : seq bool.
Hypothesis still : forall j w, nth false rs j = false -> ip w (nth [::] dvs j) = 0.
Lemma fold_accumulate m args gs cot : all (fun a => a < m)%N args -> sized cot ->
  map size gs = map (fun a => size (nth [::] vals a)) args ->
  let cot' := foldl (fun c ag => if nth false rs ag.1 then accumulate c ag.1 ag.2 else c) cot (zip args gs) in
  sized cot' /\ pot cot' m = pot cot m + \sum_(k < size args) ip (nth [::] gs k) (nth [::] dvs (nth 0%N args k)).
Proof.
elim: args gs cot => [|a args IH] [|g gs] cot //=; first by rewrite big_ord0 addr0.
move=> /andP[ha hall] hs [hg hgs]; rewrite big_ord_recl /=.
case er: (nth false rs a).
  have [h1 h2] := IH gs _ hall (accumulate_sized hs hg) hgs.
  by split=> //; rewrite h2 accumulate_pot // addrA.
have [h1 h2] := IH gs _ hall hs hgs; split=> //.
by rewrite h2 (still _ er) add0r.
Qed.
End Potential.

(* ---- back-propagation ---- *)
Section Backward.
Variables (L : seq vec) (rq : seq bool) (t : seq item) (us : R -> seq vec) (du : seq vec) (t0 : R) (out : nat).
Hypothesis ok : tape_ok L t.
Hypothesis srq : size rq = size L.
Hypothesis mv : moves us L du t0.
Hypothesis hfix : forall s p, nth false rq p = false -> nth [::] (us s) p = nth [::] L p.
Hypothesis hout : (out < size L + size t)%N.
Hypothesis sout : size (nth [::] (tape_vals L t) out) = 1%N.

Lemma backward_moves : exists l : R,
  is_derive (fun s => en (tape_vals (us s) t) out 0) t0 l /\
  l = \sum_(p < size L) term du (backward L t (tape_rg rq t) out) p.
Proof.
have [dvs [mvs hdv]] := tape_moves mv ok; have [evs hsz sdv hder] := mvs.
have hus s : size (us s) = size L by case: mv => _ h _ _; have := congr1 size (h s); rewrite !size_map.
exists (en dvs out 0); split; first by apply: hder; rewrite sout.
set vals := tape_vals L t; set rs := tape_rg rq t.
have still j w : nth false rs j = false -> ip w (nth [::] dvs j) = 0.
  move=> /(frozen srq hus hfix) hc; apply: big1 => c _.
  have hcs : (c < size (nth [::] vals j))%N by rewrite -(nth_map_size _ sdv).
  have d0 : is_derive (fun s => en (tape_vals (us s) t) j c) t0 0.
    by apply: (@derive_ext (fun=> en vals j c)) => [s|]; [rewrite /en hc | exact: is_derive_const].
  by rewrite -/(en dvs j c) (derive_uniq (hder _ _ hcs) d0) mulr0.
have step cot i : (size L <= i)%N -> (i < size L + size t)%N -> sized vals cot ->
    sized vals (back_step (size L) t vals rs cot i) /\ pot dvs (back_step (size L) t vals rs cot i) i = pot dvs cot i.+1.
  move=> hi hi' hs; have -> : pot dvs cot i.+1 = pot dvs cot i + term dvs cot i by rewrite /pot big_ord_recr.
  rewrite /back_step /term.
  case ew: (nth None cot i) => [w|]; last by rewrite addr0.
  have hj : (i - size L < size t)%N by rewrite ltn_subLR.
  have ei : (size L + (i - size L) = i)%N by rewrite subnKC.
  case en_ : (nth (Data [::]) t (i - size L)) => [v|n].
    (* data: nothing moves there *)
    split=> //; rewrite still ?addr0 // -ei.
    have : nth (Data [::]) t (i - size L) = Data v by [].
    move: (i - size L)%N hj => j hj ej.
    have -> : rs = tape_rg (tape_rg rq (take j t)) (drop j t) by rewrite /rs /tape_rg -scan_cat cat_take_drop.
    rewrite (drop_nth (Data [::]) hj) ej /tape_rg /= -/(tape_rg _ _).
    rewrite nth_scan ?size_rcons ?size_tape_rg ?size_takel ?srq ?(ltnW hj) ?ltnS //.
    by rewrite nth_rcons size_tape_rg size_takel ?srq ?(ltnW hj) // ltnn eqxx.
  have [ha hv hval] := tape_call ok hj en_; rewrite ei in ha hval.
  case: (hv) => [h1 h2 h3].
  have sw : size w = nd_size n by rewrite (hs _ _ ew) hval h1.
  have sg : map size (nd_vjp n (args_of vals n) w) = map (fun a => size (nth [::] vals a)) (nd_args n).
    by rewrite h2 // /args_of -map_comp.
  have [f1 f2] := fold_accumulate sdv still ha hs sg; split=> //; rewrite f2; congr (_ + _).
  have mva := moves_args (nd_args n) mvs; have [d [sd hd hpair]] := h3 _ _ _ mva.
  have ed : nth [::] dvs i = d.
    apply: (@eq_from_nth _ 0) => [|c hc]; first by rewrite sd (nth_map_size _ sdv) hval h1.
    have hcs : (c < size (nth [::] vals i))%N by rewrite -(nth_map_size _ sdv).
    apply: derive_uniq (hder _ _ hcs) _; rewrite hval h1 // in hcs.
    apply: derive_ext (hd _ hcs) => s.
    by rewrite /en -(tape_call_val ok hj en_ (hus s)) ei.
  rewrite ed hpair // /args_of size_map; apply: eq_bigr => k _.
  by rewrite (nth_map 0%N).
have main m cot : (m <= size t)%N -> sized vals cot ->
    pot dvs (foldl (back_step (size L) t vals rs) cot (rev (iota (size L) m))) (size L) = pot dvs cot (size L + m).
  elim: m cot => [|m IH] cot hm hs; first by rewrite addn0.
  rewrite -addn1 iotaD rev_cat /=.
  have [s1 s2] := step cot (size L + m)%N (leq_addr _ _) (ltac:(by rewrite ltn_add2l)) hs.
  by rewrite IH ?(ltnW hm) // s2 addnA addn1.
rewrite -[en dvs out 0]mulr1.
have sz0 : sized vals (set_nth None (nseq (size L + size t) None) out (Some [:: 1])).
  move=> j w; rewrite nth_set_nth /=; case: (j =P out) => [->|_]; first by case=> <-; rewrite sout.
  by rewrite nth_nseq if_same.
transitivity (pot dvs (set_nth None (nseq (size L + size t) None) out (Some [:: 1])) (size L + size t)).
  rewrite /pot (bigD1 (Ordinal hout)) //= big1 ?addr0 => [|j hj].
    by rewrite /term nth_set_nth /= eqxx /ip (nth_map_size _ sdv) sout big_ord1 /= mulr1 mul1r.
  by rewrite -(inj_eq val_inj) /= in hj; rewrite /term nth_set_nth /= (negbTE hj) nth_nseq if_same.
rewrite -main // -/(backward _ _ _ _); apply: eq_bigr => p _.
by rewrite /term hdv.
Qed.
End Backward.

(* ---- parameters given by the coordinates of a point ---- *)
Lemma offset_lt Sz q p : (q < p)%N -> (q < size Sz)%N -> (offset Sz q + nth 0%N Sz q <= offset Sz p)%N.
Proof.
move=> hqp hq; rewrite /offset -(subnKC hqp) takeD sumn_cat (take_nth 0%N hq) -cats1 sumn_cat /= addn0.
exact: leq_addr.
Qed.
Lemma offset_inj Sz q k p c : (k < nth 0 Sz q)%N -> (c < nth 0 Sz p)%N -> (offset Sz q + k = offset Sz p + c)%N -> q = p /\ k = c.
Proof.
have ins r m : (m < nth 0 Sz r)%N -> (r < size Sz)%N by case: (ltnP r (size Sz)) => // h; rewrite nth_default.
move=> hk hc e; have hq := ins _ _ hk; have hp := ins _ _ hc.
have epq : q = p; last by move: e; rewrite epq => /addnI.
case: (ltngtP q p) => // h.
  have := offset_lt h hq; rewrite leqNgt => /negP[]; apply: (@leq_ltn_trans (offset Sz p + c)%N); first exact: leq_addr.
  by rewrite -e ltn_add2l.
have := offset_lt h hp; rewrite leqNgt => /negP[]; apply: (@leq_ltn_trans (offset Sz q + k)%N); first exact: leq_addr.
by rewrite e ltn_add2l.
Qed.
Lemma size_leaves Sz th : size (leaves Sz th) = size Sz.
Proof. by rewrite size_map size_iota. Qed.
Lemma nth_leaves Sz th p : (p < size Sz)%N ->
  nth [::] (leaves Sz th) p = mkseq (fun c => th (offset Sz p + c)%N) (nth 0%N Sz p).
Proof. by move=> h; rewrite (nth_map 0%N) ?size_iota // nth_iota. Qed.
Lemma leaves_sizes Sz th : map size (leaves Sz th) = Sz.
Proof.
apply: (@eq_from_nth _ 0%N); rewrite size_map size_leaves // => p hp.
by rewrite (nth_map [::]) ?size_leaves // nth_leaves // size_mkseq.
Qed.
Lemma size_leaf Sz th p : size (nth [::] (leaves Sz th) p) = nth 0%N Sz p.
Proof.
case: (ltnP p (size Sz)) => h; first by rewrite nth_leaves // size_mkseq.
by rewrite !nth_default // size_leaves.
Qed.

Lemma leaves_move Sz th j : moves (fun s => leaves Sz (upd th j s)) (leaves Sz th) (leaves Sz (fun i => (i == j)%:R)) (th j).
Proof.
split=> [|s||i c]; rewrite ?upd_id ?leaves_sizes // size_leaf => hc.
have hi : (i < size Sz)%N by move: hc; case: (ltnP _ (size Sz)) => // h; rewrite nth_default.
rewrite /en nth_leaves // nth_mkseq //.
apply: (@derive_ext (fun s => upd th j s (offset Sz i + c)%N)) => [s|]; first by rewrite nth_leaves // nth_mkseq.
rewrite /upd; case: eqP => _; [exact: is_derive_id | exact: is_derive_const].
Qed.

(* what arrives at a parameter is the partial derivative of the output, and a
   parameter at which nothing arrives has derivative zero *)
Theorem backward_pd Sz th rq t out p c : tape_ok (leaves Sz th) t -> size rq = size Sz ->
  (out < size Sz + size t)%N -> size (nth [::] (tape_vals (leaves Sz th) t) out) = 1%N ->
  nth false rq p -> (c < nth 0 Sz p)%N ->
  let F z := en (tape_vals (leaves Sz z) t) out 0 in
  is_derive (fun s => F (upd th (offset Sz p + c) s)) (th (offset Sz p + c)%N)
    (if nth None (backward (leaves Sz th) t (tape_rg rq t) out) p is Some g then nth 0 g c else 0).
Proof.
move=> ok hq ho so hp hc F; set j := (offset Sz p + c)%N.
have ps : (p < size Sz)%N by move: hc; case: (ltnP _ (size Sz)) => // h; rewrite nth_default.
have hfix s q : nth false rq q = false -> nth [::] (leaves Sz (upd th j s)) q = nth [::] (leaves Sz th) q.
  move=> hqf; case: (ltnP q (size Sz)) => hqs; last by rewrite !nth_default ?size_leaves.
  rewrite !nth_leaves //; apply/eq_in_map => k; rewrite mem_iota /= => hk; rewrite /upd.
  by case: eqP => // /(offset_inj hk hc)[eqp _]; rewrite eqp hp in hqf.
have hq' : size rq = size (leaves Sz th) by rewrite size_leaves.
have ho' : (out < size (leaves Sz th) + size t)%N by rewrite size_leaves.
have [l [hl el]] := backward_moves ok hq' (leaves_move Sz th j) hfix ho' so.
apply: derive_val hl; rewrite el size_leaves (bigD1 (Ordinal ps)) //= big1 ?addr0 => [|q hqp].
  rewrite /term; case: (nth None _ p) => [g|//].
  rewrite /ip size_leaf (bigD1 (Ordinal hc)) //= big1 ?addr0 => [|k hk]; rewrite nth_leaves // nth_mkseq //.
    by rewrite eqxx mulr1.
  by case: eqP => [/addnI ek|_]; [case/negP: hk; apply/eqP/val_inj | rewrite mulr0].
rewrite /term; case: (nth None _ q) => [g|//].
apply: big1 => k _; have hk : (k < nth 0 Sz q)%N by rewrite -(size_leaf Sz (fun i => (i == j)%:R)).
move: (nat_of_ord k) hk => {}k hk; rewrite nth_leaves // nth_mkseq //; case: eqP => [|_]; last by rewrite mulr0.
by move=> /(offset_inj hk hc)[eqp _]; case/negP: hqp; apply/eqP/val_inj.
Qed.

(* ---- which parameters take part ---- *)

(* the tensors the output is computed from, through tensors that require grad *)
Inductive uses (P : nat) (t : seq item) (rs : seq bool) (out : nat) : nat -> Prop :=
| uses_out : uses P t rs out out
| uses_arg k n a : uses P t rs out k -> (P <= k)%N -> nth (Data [::]) t (k - P) = Call n ->
    a \in nd_args n -> nth false rs a -> uses P t rs out a.

Section Uses.
Variables (L : seq vec) (rs : seq bool) (t : seq item) (out : nat).
Hypothesis ok : tape_ok L t.
Let P := size L.
Let vals := tape_vals L t.
Let upd_fold := foldl (fun (c : seq (option vec)) (ag : nat * vec) => if nth false rs ag.1 then accumulate c ag.1 ag.2 else c).

Lemma fold_keeps cot ags j : nth None cot j <> None -> nth None (upd_fold cot ags) j <> None.
Proof.
elim: ags cot => [//|[a g] ags IH] cot h /=; apply: IH; case: (nth false rs _) => //=.
by rewrite nth_set_nth /=; case: (j =P a).
Qed.
Lemma fold_sound cot ags j : nth None (upd_fold cot ags) j <> None ->
  nth None cot j <> None \/ (j \in unzip1 ags /\ nth false rs j).
Proof.
elim: ags cot => [|[a g] ags IH] cot /=; first by left.
move=> /IH [|[h r]]; last by right; rewrite inE h orbT.
case er: (nth false rs a); last by left.
by rewrite nth_set_nth /=; case: (j =P a) => [->|_]; [right; rewrite inE eqxx | left].
Qed.
Lemma fold_complete cot ags j : j \in unzip1 ags -> nth false rs j -> nth None (upd_fold cot ags) j <> None.
Proof.
elim: ags cot => [//|[a g] ags IH] cot /=; rewrite inE => /orP[/eqP -> r|]; last by move=> h; apply: IH.
by rewrite r; apply: fold_keeps; rewrite nth_set_nth /= eqxx.
Qed.
Lemma fold_other cot ags j : j \notin unzip1 ags -> nth None (upd_fold cot ags) j = nth None cot j.
Proof.
elim: ags cot => [//|[a g] ags IH] cot /=; rewrite inE negb_or => /andP[ha hj].
by rewrite IH //; case: (nth false rs a) => //; rewrite accumulate_other.
Qed.
Lemma fold_sized cot args gs : sized vals cot -> map size gs = map (fun a => size (nth [::] vals a)) args ->
  sized vals (upd_fold cot (zip args gs)).
Proof.
elim: args gs cot => [|a args IH] [|g gs] cot //= hs [hg hgs].
by apply: IH => //; case: (nth false rs a) => //; apply: accumulate_sized.
Qed.

Lemma unzip1_zip_args n w : vjp_ok n (args_of vals n) -> size w = nd_size n ->
  map size (nd_vjp n (args_of vals n) w) = map (fun a => size (nth [::] vals a)) (nd_args n) /\
  unzip1 (zip (nd_args n) (nd_vjp n (args_of vals n) w)) = nd_args n.
Proof.
move=> [_ h2 _] hw; have e := h2 _ hw; split; first by rewrite e /args_of -map_comp.
by rewrite unzip1_zip //; have := congr1 size e; rewrite !size_map => ->.
Qed.

Notation step := (back_step P t vals rs).
Lemma step_facts cot i : (P <= i)%N -> (i < P + size t)%N -> sized vals cot ->
  [/\ sized vals (step cot i), forall j, (i <= j)%N -> nth None (step cot i) j = nth None cot j,
      forall j, nth None cot j <> None -> nth None (step cot i) j <> None,
      forall j, nth None (step cot i) j <> None -> nth None cot j <> None \/
        exists2 n, nth (Data [::]) t (i - P) = Call n & [/\ nth None cot i <> None, j \in nd_args n & nth false rs j] &
      forall n j, nth (Data [::]) t (i - P) = Call n -> nth None cot i <> None -> j \in nd_args n -> nth false rs j ->
        nth None (step cot i) j <> None].
Proof.
move=> h1 h2 hs; rewrite /back_step; case ew: (nth None cot i) => [w|]; last first.
  by split=> // j; left.
have hj : (i - P < size t)%N by rewrite ltn_subLR.
have ei : (P + (i - P) = i)%N by rewrite subnKC.
case en_ : (nth (Data [::]) t (i - P)) => [v|n]; first by split=> // j; left.
have [ha hv hval] := tape_call ok hj en_; rewrite ei in ha hval.
have sw : size w = nd_size n by rewrite (hs _ _ ew) hval; case: hv => -> //.
have [e1 e2] := unzip1_zip_args hv sw; rewrite -/upd_fold; split.
- exact: fold_sized.
- move=> j hij; apply: fold_other; rewrite e2; apply/negP => /(allP ha).
  by rewrite ltnNge hij.
- by move=> j; apply: fold_keeps.
- by move=> j /fold_sound; rewrite e2 => -[|[? ?]]; [left | right; exists n].
- by move=> n' j [<-] _ hin hr; apply: fold_complete; rewrite ?e2.
Qed.

Notation run := (foldl step).
Lemma run_facts b m cot : (P <= b)%N -> (b + m <= P + size t)%N -> sized vals cot ->
  let cot' := run cot (rev (iota b m)) in
  [/\ sized vals cot', forall j, (b + m <= j)%N -> nth None cot' j = nth None cot j &
      forall j, nth None cot j <> None -> nth None cot' j <> None].
Proof.
move=> hb; elim: m cot => [//|m IH] cot hm hs; rewrite -addn1 iotaD rev_cat /= addn1; rewrite addnS in hm.
have [s1 s2 s3 _ _] := step_facts (leq_trans hb (leq_addr m b)) hm hs.
have [r1 r2 r3] := IH _ (ltnW hm) s1; split=> // j hj; last by apply/r3/s3.
by rewrite addnS in hj; rewrite r2 ?s2 // ltnW.
Qed.

Hypothesis sout : size (nth [::] vals out) = 1%N.
Lemma init_sized : sized vals (set_nth None (nseq (P + size t) None) out (Some [:: 1])).
Proof.
move=> j w; rewrite nth_set_nth /=; case: (j =P out) => [->|_]; first by case=> <-; rewrite sout.
by rewrite nth_nseq if_same.
Qed.

Lemma backward_uses j : nth None (backward L t rs out) j <> None <-> uses P t rs out j.
Proof.
rewrite /backward -/P -/vals; have h0 := init_sized; set c0 := set_nth _ _ _ _ in h0 *; split.
  have : forall j, nth None c0 j <> None -> uses P t rs out j.
    move=> i; rewrite nth_set_nth /=; case: (i =P out) => [-> _|_]; first exact: uses_out.
    by rewrite nth_nseq if_same.
  move: (leqnn (size t)) c0 h0; move: {1 3}(size t) => m; elim: m => [|m IH] hm c hs hu; first exact: hu.
  rewrite -addn1 iotaD rev_cat /= => h.
  have hi : (P + m < P + size t)%N by rewrite ltn_add2l.
  have [s1 _ _ s4 _] := step_facts (leq_addr m P) hi hs.
  apply: (IH (ltnW hm) _ s1) h => i /s4 [|[n en_ [hc hin hr]]]; first exact: hu.
  by apply: uses_arg en_ hin hr; [apply: hu | apply: leq_addr].
elim=> [|k n a _ IH hk en_ hin hr].
  by have [_ _ h] := run_facts (leqnn P) (leqnn _) h0; apply: h; rewrite nth_set_nth /= eqxx.
have hj : (k - P < size t)%N.
  by case: (ltnP (k - P) (size t)) => // h; move: en_; rewrite nth_default.
have hkt : (k < P + size t)%N by rewrite -ltn_subLR.
have hd : rev (iota P (size t)) = rev (iota k.+1 (P + size t - k.+1)) ++ k :: rev (iota P (k - P)).
  have : size t = (k - P + (1 + (P + size t - k.+1)))%N.
    by apply: (@addnI P); rewrite add1n subnSK // addnA subnKC // subnKC // ltnW.
  move: (P + size t - k.+1)%N => m ->.
  by rewrite 2!iotaD rev_cat rev_cat /= subnKC // addn1 -catA.
have hu : (k.+1 + (P + size t - k.+1) <= P + size t)%N by rewrite subnKC.
move: IH; rewrite hd foldl_cat /=; have [u1 _ _] := run_facts (leqW hk) hu h0; move: u1; set c1 := run c0 _ => u1.
have [s1 s2 _ _ s5] := step_facts hk hkt u1.
have hl : (P + (k - P) <= P + size t)%N by rewrite subnKC // ltnW.
have [_ r2 r3] := run_facts (leqnn P) hl s1.
rewrite r2 ?subnKC // s2 // => h; apply: r3; exact: s5 en_ h hin hr.
Qed.
End Uses.
