(* Gradients of gradients: torch.autograd.grad(..., create_graph=True) (hessian.py 65)
   records the backward pass on the tape, so that it can be differentiated again
   (hessian.py 78-80, the double-backward of hessian_vector_product).  On the tape of
   Autograd.v.  Simplification: the products with the given vectors are recorded as one
   call whose result is the scalar <gradients, vectors>; torch.autograd.grad with
   grad_outputs starts from the same cotangents without this call. *)
From Coq Require Import Reals FunctionalExtensionality.
From Coquelicot Require Import Coquelicot.
From mathcomp Require Import all_ssreflect all_algebra.
From Verif Require Import PyPrelude Tensor RInst Calculus Losses Curvature ActHess Autograd AutogradProof AutogradLoss.
Set Implicit Arguments.
Unset Strict Implicit.
Unset Printing Implicit Defensive.
Import GRing.Theory.
Local Open Scope ring_scope.

Local Notation vec := (seq R).

(* accumulation of two cotangents with sz entries *)
Definition add_node (x y sz : nat) : node :=
  Node [:: x; y] sz (fun vs => mkseq (fun c => nth 0 (nth [::] vs 0) c + nth 0 (nth [::] vs 1) c) sz)
    (fun vs w => mkseq (fun k => mkseq (fun c => \sum_(o < sz) nth 0 w o * (o == c :> nat)%:R) (size (nth [::] vs k))) (size vs)).
(* <gradients, vectors> *)
Definition dot_node (gs : seq nat) (v : seq vec) : node :=
  Node gs 1 (fun vs => mkseq (fun _ => \sum_(k < size v) \sum_(c < size (nth [::] v k)) en vs k c * en v k c) 1)
    (fun vs w => mkseq (fun k => mkseq (fun c => \sum_(o < 1) nth 0 w o * en v k c) (size (nth [::] vs k))) (size vs)).

Section Record.
(* the backward functions of backward functions: vjp2 n k is the one of the cotangent of
   argument k of the call n, as a function of the arguments of n and the cotangent of its
   result.  Simplification: a recorded backward call refers to all arguments of n; torch's
   refer only to those that the formula needs, so that the second pass of torch may leave
   out (and, without allow_unused, reject) inputs that are reached here with derivative 0. *)
Variable vjp2 : node -> nat -> seq vec -> vec -> seq vec.
Definition vjp_node (n : node) (k w sz : nat) : node :=
  Node (rcons (nd_args n) w) sz
    (fun xs => nth [::] (nd_vjp n (take (size (nd_args n)) xs) (nth [::] xs (size (nd_args n)))) k) (vjp2 n k).

Variables (Sz : seq nat) (t : seq item) (rs : seq bool).
(* the number of entries of a tensor on the tape *)
Definition item_size (a : nat) : nat :=
  if (a < size Sz)%N then nth 0%N Sz a
  else match nth (Data [::]) t (a - size Sz) with Data v => size v | Call n => nd_size n end.

(* the tape with what has been recorded of the backward pass so far, and where the
   cotangent of each tensor is *)
Definition recording : Type := seq item * seq (option nat).
Definition push (st : recording) (it : item) : recording := (rcons st.1 it, st.2).
Definition next (st : recording) : nat := (size Sz + size st.1)%N.
(* as Autograd.accumulate *)
Definition rec_accumulate (st : recording) (a g : nat) : recording :=
  match nth None st.2 a with
  | None => (st.1, set_nth None st.2 a (Some g))
  | Some x => (rcons st.1 (Call (add_node x g (item_size a))), set_nth None st.2 a (Some (next st)))
  end.
Definition rec_arg (n : node) (w : nat) (st : recording) (ka : nat * nat) : recording :=
  if nth false rs ka.2 then rec_accumulate (push st (Call (vjp_node n ka.1 w (item_size ka.2)))) ka.2 (next st) else st.
(* as Autograd.back_step *)
Definition rec_step (st : recording) (i : nat) : recording :=
  match nth None st.2 i, nth (Data [::]) t (i - size Sz) with
  | Some w, Call n => foldl (rec_arg n w) st (zip (iota 0 (size (nd_args n))) (nd_args n))
  | _, _ => st
  end.
(* as Autograd.backward *)
Definition rec_backward (out : nat) : recording :=
  foldl rec_step (rcons t (Data [:: 1]), set_nth None (nseq (size Sz + size t) None) out (Some (size Sz + size t)%N))
    (rev (iota (size Sz) (size t))).
End Record.

(* grad_params = grad(loss, params, create_graph=True) (hessian.py 65) *)
Definition rec_grad (vjp2 : node -> nat -> seq vec -> vec -> seq vec) (Sz : seq nat) (rq : seq bool) (t : seq item)
    (out : nat) (inputs : seq nat) : res (seq item * seq nat) :=
  let rs := tape_rg rq t in
  if ~~ nth false rs out then Err RuntimeError else
  if has (fun p => ~~ nth false rq p) inputs then Err RuntimeError else
  let st := rec_backward vjp2 Sz t rs out in
  let! gs := mapM (fun p => match nth None st.2 p with Some g => Ok g | None => Err RuntimeError end) inputs in
  Ok (st.1, gs).
(* grad(grad_params, inputs2, grad_outputs=v), with inputs2 = inputs for the product of the
   vectors v with the Hessian *)
Definition double_backward (vjp2 : node -> nat -> seq vec -> vec -> seq vec) (Sz : seq nat) (rq : seq bool) (t : seq item)
    (out : nat) (inputs : seq nat) (v : seq vec) (inputs2 : seq nat) (th : point) : res (seq vec) :=
  let! eg := rec_grad vjp2 Sz rq t out inputs in
  grad (leaves Sz th) rq (rcons eg.1 (Call (dot_node eg.2 v))) (size Sz + size eg.1) inputs2.

(* ---- the recorded calls ---- *)
Lemma add_ok x y sz (X Y : vec) : size X = sz -> size Y = sz -> vjp_ok (add_node x y sz) [:: X; Y].
Proof.
move=> sX sY; apply: (@vjp_ok_of _ _ (fun c vs => nth 0 (nth [::] vs 0) c + nth 0 (nth [::] vs 1) c) (fun o k c => (o == c)%:R)) => //.
move=> us du t0 o [e hs hd h] ho; rewrite (sum_over2 (fun k c => (o == c)%:R * en du k c)) sX sY.
have pick (f : nat -> R) : \sum_(c < sz) (o == c)%:R * f c = f o.
  rewrite (bigD1 (Ordinal ho)) //= eqxx mul1r big1 ?addr0 // => c /eqP ne.
  by rewrite (_ : (o == c :> nat) = false) ?mul0r //; apply/negbTE/eqP => eo; apply: ne; apply/val_inj.
rewrite !pick; apply: (@derive_ext (fun s => (en (us s) 0 o + en (us s) 1 o)%R)) => [s //|].
by apply: is_derive_plus; apply: h; rewrite /= ?sX ?sY.
Qed.
Lemma dot_ok gs v (xs : seq vec) : map size xs = map size v -> vjp_ok (dot_node gs v) xs.
Proof.
move=> es; have sx : size xs = size v by have := congr1 size es; rewrite !size_map.
apply: (@vjp_ok_of _ _ (fun _ vs => \sum_(k < size v) \sum_(c < size (nth [::] v k)) en vs k c * en v k c)
  (fun o k c => en v k c)) => // us du t0 o [e hs hd h] ho; rewrite sx.
apply: (@is_derive_sum_ord (size v) (fun k s => \sum_(c < size (nth [::] v k)) en (us s) k c * en v k c)
  (fun k => \sum_(c < size (nth [::] xs k)) en v k c * en du k c)) => k hk.
rewrite (nth_map_size k es).
apply: (@is_derive_sum_ord _ (fun c s => en (us s) k c * en v k c) (fun c => en v k c * en du k c)) => c hc.
have d := h k c (ltac:(by rewrite (nth_map_size k es))).
have := is_derive_scal (fun s => en (us s) k c) t0 (en v k c) _ d.
rewrite /scal /= /mult /=; apply: derive_ext => s; by rewrite RmultE mulrC.
Qed.

Lemma item_sizeE Sz t z a : tape_ok (leaves Sz z) t -> (a < size Sz + size t)%N ->
  size (nth [::] (tape_vals (leaves Sz z) t) a) = item_size Sz t a.
Proof.
move=> ok ha; rewrite /item_size; case: ltnP => h.
  have := @tape_vals_take (leaves Sz z) t 0 a; rewrite addn0 take0 size_leaves => <- //.
  by rewrite /tape_vals /= size_leaf.
have hj : (a - size Sz < size t)%N by rewrite ltn_subLR.
have ej : (size (leaves Sz z) + (a - size Sz) = a)%N by rewrite size_leaves subnKC.
case e: (nth _ t _) => [v|n].
  rewrite -{1}ej -(@tape_vals_take _ _ (a - size Sz).+1) ?addnS // (take_nth (Data [::]) hj) e tape_valsS nth_rcons.
  by rewrite size_tape_vals size_takel ?(ltnW hj) // ltnn eqxx.
by have [_ hv hval] := tape_call ok hj e; rewrite ej in hval; rewrite hval; case: hv => ->.
Qed.

Section Correct.
Variable vjp2 : node -> nat -> seq vec -> vec -> seq vec.
Variables (Sz : seq nat) (t : seq item) (rs : seq bool) (z : point).
Let L := leaves Sz z.
Let vals := tape_vals L t.
Hypothesis ok : tape_ok L t.
Hypothesis ok2 : forall j n k w pos, (j < size t)%N -> nth (Data [::]) t j = Call n -> (k < size (nd_args n))%N ->
  size w = nd_size n -> vjp_ok (vjp_node vjp2 n k pos (item_size Sz t (nth 0%N (nd_args n) k))) (rcons (args_of vals n) w).

Definition follows (st : recording) (cot : seq (option vec)) : Prop :=
  [/\ exists e, st.1 = t ++ e, tape_ok L st.1, sized vals cot,
      forall j, nth None cot j = omap (nth [::] (tape_vals L st.1)) (nth None st.2 j) &
      forall j p, nth None st.2 j = Some p -> (p < size Sz + size st.1)%N].

Lemma tape_old ext it p : (p < size Sz + size ext)%N -> nth [::] (tape_vals L (rcons ext it)) p = nth [::] (tape_vals L ext) p.
Proof. by move=> hp; rewrite tape_valsS nth_rcons size_tape_vals size_leaves hp. Qed.
Lemma tape_new ext it : nth [::] (tape_vals L (rcons ext it)) (size Sz + size ext) = item_val (tape_vals L ext) it.
Proof. by rewrite tape_valsS nth_rcons size_tape_vals size_leaves ltnn eqxx. Qed.
Lemma tape_prefix e p : (p < size Sz + size t)%N -> nth [::] (tape_vals L (t ++ e)) p = nth [::] vals p.
Proof.
move=> hp; rewrite -(@tape_vals_take L (t ++ e) (size t)) ?size_leaves ?size_cat ?leq_addr //.
by rewrite take_size_cat.
Qed.

Lemma follows_push st cot it : follows st cot -> item_ok (tape_vals L st.1) it -> follows (push st it) cot.
Proof.
move=> [[e h1] h2 h3 h4 h5] hi; split=> //=.
- by exists (rcons e it); rewrite h1 rcons_cat.
- by apply/tape_ok_rcons.
- by move=> j; rewrite h4; case ej: (nth None st.2 j) => [p|] //=; rewrite tape_old //; apply: h5 ej.
- by move=> j p /h5; rewrite size_rcons addnS => /ltnW.
Qed.

Lemma follows_accumulate st cot a g : follows st cot -> (a < size Sz + size t)%N -> (g < next Sz st)%N ->
  size (nth [::] (tape_vals L st.1) g) = size (nth [::] vals a) ->
  follows (rec_accumulate Sz t st a g) (accumulate cot a (nth [::] (tape_vals L st.1) g)) /\
  exists e, (rec_accumulate Sz t st a g).1 = st.1 ++ e.
Proof.
move=> hf ha hg sg; have [_ _ h3 h4 h5] := hf; have hs := accumulate_sized h3 sg.
rewrite /rec_accumulate; case ex: (nth None st.2 a) => [x|]; last first.
  split; last by exists [::]; rewrite cats0.
  case: hf => h1 h2 _ _ _; split=> //= [j|j p].
    rewrite /accumulate h4 ex /= !nth_set_nth /=; case: eqP => //= _; exact: h4.
  by rewrite nth_set_nth /=; case: eqP => [_ [<-]|_]; [exact: hg | apply: h5].
set it := Call _; have hx := h5 _ _ ex.
have eX : nth None cot a = Some (nth [::] (tape_vals L st.1) x) by rewrite h4 ex.
have sX := h3 _ _ eX.
have hit : item_ok (tape_vals L st.1) it.
  split; first by rewrite /= size_tape_vals size_leaves hx andbT.
  by apply: add_ok; rewrite ?sX ?sg item_sizeE.
have [[e p1] p2 p3 p4 p5] := follows_push hf hit.
split; last by exists [:: it]; rewrite cats1.
split=> //= [|j|j p]; first by exists e.
  rewrite /accumulate eX !nth_set_nth /=; case: eqP => [_|_] /=; last exact: p4.
  by rewrite tape_new /= /vadd sX item_sizeE.
by rewrite nth_set_nth /=; case: eqP => [_ [<-]|_]; [rewrite size_rcons addnS | apply: p5].
Qed.

Lemma follows_arg st cot j n w W k : follows st cot -> (j < size t)%N -> nth (Data [::]) t j = Call n ->
  (w < next Sz st)%N -> nth [::] (tape_vals L st.1) w = W -> size W = nd_size n -> (k < size (nd_args n))%N ->
  let a := nth 0%N (nd_args n) k in
  let st' := rec_arg vjp2 Sz t rs n w st (k, a) in
  follows st' (if nth false rs a then accumulate cot a (nth [::] (nd_vjp n (args_of vals n) W) k) else cot) /\
  exists e, st'.1 = st.1 ++ e.
Proof.
move=> hf hj en_ hw eW sW hk a st'; rewrite /st' /rec_arg /=; case: (nth false rs a); last by split=> //; exists [::]; rewrite cats0.
have [[e h1] h2 h3 h4 h5] := hf; have [hargs hv _] := tape_call ok hj en_; rewrite -/vals in hv.
have lt a' : a' \in nd_args n -> (a' < size Sz + size t)%N.
  by move=> /(allP hargs); rewrite size_leaves => h; apply: leq_trans h _; rewrite leq_add2l ltnW.
have ha : (a < size Sz + size t)%N by apply/lt/mem_nth.
set vn := vjp_node _ _ _ _ _.
have ea : args_of (tape_vals L st.1) vn = rcons (args_of vals n) W.
  rewrite /args_of /= map_rcons eW; congr rcons; apply/eq_in_map => a' /lt h.
  by rewrite h1 tape_prefix.
have hit : item_ok (tape_vals L st.1) (Call vn).
  split; last by rewrite ea; apply: ok2 en_ hk sW.
  apply/allP => a'; rewrite /= mem_rcons inE size_tape_vals size_leaves => /orP[/eqP -> //|/lt h].
  by apply: leq_trans h _; rewrite h1 size_cat leq_add2l leq_addr.
have hp := follows_push hf hit.
have ev : nth [::] (tape_vals L (push st (Call vn)).1) (next Sz st) = nth [::] (nd_vjp n (args_of vals n) W) k.
  have sA : size (args_of vals n) = size (nd_args n) by rewrite size_map.
  by rewrite /push /= tape_new /= ea -cats1 -sA take_size_cat // nth_cat ltnn subnn.
have ha' : (next Sz st < next Sz (push st (Call vn)))%N by rewrite /next /push /= size_rcons addnS.
have sg : size (nth [::] (tape_vals L (push st (Call vn)).1) (next Sz st)) = size (nth [::] vals a).
  rewrite ev; case: hv => _ hs _; rewrite (nth_map_size k (hs _ sW)) /args_of (nth_map 0%N) //.
have [r1 [e2 r2]] := follows_accumulate hp ha ha' sg; rewrite ev in r1; split=> //.
by exists (Call vn :: e2); rewrite r2 /push /= cat_rcons.
Qed.

Lemma follows_args st cot j n w W s m : follows st cot -> (j < size t)%N -> nth (Data [::]) t j = Call n ->
  (w < next Sz st)%N -> nth [::] (tape_vals L st.1) w = W -> size W = nd_size n -> (s + m = size (nd_args n))%N ->
  follows (foldl (rec_arg vjp2 Sz t rs n w) st (zip (iota s m) (drop s (nd_args n))))
    (foldl (fun c ag => if nth false rs ag.1 then accumulate c ag.1 ag.2 else c) cot
      (zip (drop s (nd_args n)) (drop s (nd_vjp n (args_of vals n) W)))).
Proof.
move=> hf hj en_ hw eW sW; have [_ hv _] := tape_call ok hj en_; rewrite -/vals in hv.
have sG : size (nd_vjp n (args_of vals n) W) = size (nd_args n).
  by case: hv => _ h _; have := congr1 size (h _ sW); rewrite !size_map.
elim: m s st cot hf hw eW => [|m IH] s st cot hf hw eW es.
  by rewrite addn0 in es; rewrite es !drop_oversize ?sG //=.
have hs : (s < size (nd_args n))%N by rewrite -es addnS ltnS leq_addr.
rewrite (drop_nth 0%N hs) (drop_nth [::] (n := s)) ?sG //= .
have [h1 [e h2]] := follows_arg hf hj en_ hw eW sW hs.
apply: (IH s.+1) => //; last by rewrite addSnnS.
  by rewrite /next h2 size_cat addnA ltn_addr.
rewrite h2; have := @tape_vals_take L (st.1 ++ e) (size st.1) w; rewrite take_size_cat // => <- //.
  by rewrite size_leaves.
by rewrite size_cat leq_addr.
Qed.

Lemma follows_step st cot i : follows st cot -> (size Sz <= i)%N -> (i < size Sz + size t)%N ->
  follows (rec_step vjp2 Sz t rs st i) (back_step (size L) t vals rs cot i).
Proof.
move=> hf h1 h2; have [_ _ hs hc hl] := hf; rewrite /rec_step /back_step hc size_leaves.
case ew: (nth None st.2 i) => [w|] //=; case en_: (nth _ t _) => [v|n] //.
have hj : (i - size Sz < size t)%N by rewrite ltn_subLR.
have [_ hv hval] := tape_call ok hj en_; rewrite size_leaves subnKC // -/vals in hv hval.
have sW : size (nth [::] (tape_vals L st.1) w) = nd_size n.
  by rewrite (hs i) ?hc ?ew //= hval; case: hv => ->.
have := follows_args (s := 0) (m := size (nd_args n)) hf hj en_ (hl _ _ ew) erefl sW erefl.
by rewrite !drop0.
Qed.

Lemma follows_backward out : (out < size Sz + size t)%N -> size (nth [::] vals out) = 1%N ->
  follows (rec_backward vjp2 Sz t rs out) (backward L t rs out).
Proof.
move=> ho so; rewrite /rec_backward /backward size_leaves.
have h0 : follows (rcons t (Data [:: 1]), set_nth None (nseq (size Sz + size t) None) out (Some (size Sz + size t)%N))
    (set_nth None (nseq (size Sz + size t) None) out (Some [:: 1])).
  split=> //=; first by exists [:: Data [:: 1]]; rewrite cats1.
  - by apply/tape_ok_rcons.
  - by have := init_sized so; rewrite size_leaves.
  - move=> j; rewrite !nth_set_nth /=; case: eqP => _ /=; last by rewrite !nth_nseq !if_same.
    by rewrite tape_new.
  - move=> j p; rewrite nth_set_nth /= size_rcons; case: eqP => [_ [<-]|_]; first by rewrite addnS.
    by rewrite nth_nseq if_same.
have : all (fun i => (size Sz <= i)%N && (i < size Sz + size t)%N) (rev (iota (size Sz) (size t))).
  by apply/allP => i; rewrite mem_rev mem_iota.
move: h0; move: (rcons t _, _) => st; move: (set_nth _ _ _ _) => cot.
elim: (rev _) st cot => [//|i s IH] st cot hf /= /andP[/andP[h1 h2] hs].
have := follows_step hf h1 h2; rewrite size_leaves => h; exact: IH h hs.
Qed.
End Correct.

Lemma mapM_through (A B C : Type) (f : A -> res B) (g : A -> res C) (V : B -> C) xs :
  (forall x, g x = (let! y := f x in Ok (V y))) -> mapM g xs = (let! ys := mapM f xs in Ok (map V ys)).
Proof.
move=> h; elim: xs => [//|x xs IH] /=; rewrite h IH; case: (f x) => [y|e] //=.
by case: (mapM f xs).
Qed.

Section Double.
Variable vjp2 : node -> nat -> seq vec -> vec -> seq vec.
Variables (Sz : seq nat) (t : seq item) (rq : seq bool) (out : nat).
Hypothesis srq : size rq = size Sz.
Hypothesis ok : forall z, tape_ok (leaves Sz z) t.
(* the backward functions of the backward functions are right wherever they are called *)
Definition vjp2_ok : Prop := forall z j n k w pos, (j < size t)%N -> nth (Data [::]) t j = Call n -> (k < size (nd_args n))%N ->
  size w = nd_size n ->
  vjp_ok (vjp_node vjp2 n k pos (item_size Sz t (nth 0%N (nd_args n) k))) (rcons (args_of (tape_vals (leaves Sz z) t) n) w).
Hypothesis ok2 : vjp2_ok.
Hypothesis ho : (out < size Sz + size t)%N.
Hypothesis so : item_size Sz t out = 1%N.
Notation F := (fun z => nth 0 (nth [::] (tape_vals (leaves Sz z) t) out) 0).

Lemma recorded_gradient z inputs : grad (leaves Sz z) rq t out inputs =
  (let! eg := rec_grad vjp2 Sz rq t out inputs in Ok [seq nth [::] (tape_vals (leaves Sz z) eg.1) g | g <- eg.2]).
Proof.
rewrite /grad /rec_grad; case: (~~ _) => //; case: (has _ _) => //.
have so' : size (nth [::] (tape_vals (leaves Sz z) t) out) = 1%N by rewrite item_sizeE.
have [_ _ _ h _] := follows_backward (tape_rg rq t) (ok z) (@ok2 z) ho so'.
set st := rec_backward _ _ _ _ _ in h *.
rewrite (mapM_through (f := fun p => match nth None st.2 p with Some g => Ok g | None => Err RuntimeError end)
  (V := nth [::] (tape_vals (leaves Sz z) st.1))) => [|p]; first by case: (mapM _ _).
by rewrite h; case: (nth None st.2 p).
Qed.

Lemma rec_grad_ok z inputs ext gs : rec_grad vjp2 Sz rq t out inputs = Ok (ext, gs) ->
  [/\ tape_ok (leaves Sz z) ext, all (fun g => g < size Sz + size ext)%N gs, size gs = size inputs &
   forall k, (k < size inputs)%N -> let p := nth 0%N inputs k in let g := nth [::] (tape_vals (leaves Sz z) ext) (nth 0%N gs k) in
     [/\ nth false rq p, size g = nth 0%N Sz p & forall c, (c < nth 0 Sz p)%N ->
       is_derive (fun s => F (upd z (offset Sz p + c) s)) (z (offset Sz p + c)%N) (nth 0 g c)]].
Proof.
rewrite /rec_grad; case: (~~ _) => //; case hh: (has _ _) => //.
have so' : size (nth [::] (tape_vals (leaves Sz z) t) out) = 1%N by rewrite item_sizeE.
have [_ h2 h3 h4 h5] := follows_backward (tape_rg rq t) (ok z) (@ok2 z) ho so'.
set st := rec_backward _ _ _ _ _ in h2 h3 h4 h5 *.
case em: (mapM _ _) => [gs'|//] /= [<- eg]; subst gs'.
have sg := mapM_size em.
have hk k : (k < size inputs)%N -> nth None st.2 (nth 0%N inputs k) = Some (nth 0%N gs k).
  move=> hk; have := mapM_nth 0%N 0%N em hk; by case: (nth None st.2 _) => [g [->]|].
split=> //.
  by apply/(all_nthP 0%N) => k; rewrite sg => /hk /h5.
move=> k hk'; set p := nth 0%N inputs k; set g := nth [::] _ (nth 0%N gs k); have hp : nth false rq p.
  by apply/negPn/negP => hn; move/negP: hh; apply; apply/hasP; exists p; rewrite ?mem_nth.
have ps : (p < size Sz)%N by rewrite -srq; case: ltnP hp => // h; rewrite nth_default.
have ep : nth None (backward (leaves Sz z) t (tape_rg rq t) out) p = Some g by rewrite h4 (hk _ hk').
split=> // [|c hc].
  rewrite (h3 _ _ ep) item_sizeE ?ltn_addr // /item_size ps //.
by have := backward_pd (ok z) srq ho so' hp hc; rewrite ep.
Qed.

Lemma double_tape_ok z inputs v ext gs : map size v = [seq nth 0%N Sz p | p <- inputs] ->
  rec_grad vjp2 Sz rq t out inputs = Ok (ext, gs) -> tape_ok (leaves Sz z) (rcons ext (Call (dot_node gs v))).
Proof.
move=> sv er; have [h1 h2 h3 h4] := @rec_grad_ok z _ _ _ er.
apply/tape_ok_rcons; split=> //; split; first by rewrite size_tape_vals size_leaves.
apply: dot_ok; rewrite sv /args_of /= -map_comp.
apply: (@eq_from_nth _ 0%N); rewrite !size_map // h3 => k hk.
by rewrite !(nth_map 0%N) ?h3 //=; have [_ ->] := h4 _ hk.
Qed.
Lemma double_backward_ok inputs v inputs2 th Hs :
  map size v = [seq nth 0%N Sz p | p <- inputs] ->
  double_backward vjp2 Sz rq t out inputs v inputs2 th = Ok Hs ->
  size Hs = size inputs2 /\
  forall k, (k < size inputs2)%N -> let p := nth 0%N inputs2 k in
    size (nth [::] Hs k) = nth 0%N Sz p /\
    forall c, (c < nth 0 Sz p)%N ->
      is_derive (fun s => (fun z => \sum_(i < size inputs) \sum_(d < nth 0%N Sz (nth 0%N inputs i))
          pd (offset Sz (nth 0%N inputs i) + d) F z * nth 0 (nth [::] v i) d) (upd th (offset Sz p + c) s))
        (th (offset Sz p + c)%N) (nth 0 (nth [::] Hs k) c).
Proof.
move=> sv; have sv' : size v = size inputs by have := congr1 size sv; rewrite !size_map.
have svk k : (k < size inputs)%N -> size (nth [::] v k) = nth 0%N Sz (nth 0%N inputs k).
  by move=> hk; have := congr1 (fun s => nth 0%N s k) sv; rewrite !(nth_map 0%N) // (nth_map [::]) ?sv'.
rewrite /double_backward; case er: (rec_grad _ _ _ _ _ _) => [[ext gs]|//] /=.
set T := rcons ext _; have rz z := @rec_grad_ok z _ _ _ er.
have okT z : tape_ok (leaves Sz z) T by apply: double_tape_ok er.
have vT z : nth [::] (tape_vals (leaves Sz z) T) (size Sz + size ext) = [:: \sum_(i < size inputs) \sum_(d < nth 0%N Sz (nth 0%N inputs i))
          pd (offset Sz (nth 0%N inputs i) + d) F z * nth 0 (nth [::] v i) d].
  rewrite tape_new /= /mkseq /= sv'; congr [:: _]; apply: eq_bigr => i _; rewrite svk //; apply: eq_bigr => d _.
  have [_ _ h3 h4] := rz z; have [_ _ h] := h4 i (ltn_ord i).
  rewrite /en /args_of /= (nth_map 0%N) ?h3 //; congr (_ * _).
  by have := h d (ltn_ord d); move=> /is_derive_unique <-.
rewrite /grad; case: (~~ _) => //; case hh: (has _ _) => //.
move=> em; have sH := mapM_size em; split=> // k hk; set p := nth 0%N inputs2 k.
have hT : (size Sz + size ext < size Sz + size T)%N by rewrite ltn_add2l size_rcons.
have sT : size (nth [::] (tape_vals (leaves Sz th) T) (size Sz + size ext)) = 1%N by rewrite vT.
have hp : nth false rq p.
  by apply/negPn/negP => hn; move/negP: hh; apply; apply/hasP; exists p; rewrite ?mem_nth.
have ps : (p < size Sz)%N by rewrite -srq; case: ltnP hp => // h; rewrite nth_default.
have ep : nth None (backward (leaves Sz th) T (tape_rg rq T) (size Sz + size ext)) p = Some (nth [::] Hs k).
  by have := mapM_nth 0%N [::] em hk; rewrite -/p; case: (nth None _ p) => [g [->]|].
split=> [|c hc].
  have hs0 := init_sized sT; have hP : (size (leaves Sz th) <= size (leaves Sz th))%N by [].
  have [hs _ _] := run_facts (tape_rg rq T) (okT th) hP (leqnn _) hs0.
  rewrite (hs _ _ ep) item_sizeE ?ltn_addr // /item_size ps //.
have := backward_pd (okT th) srq hT sT hp hc; rewrite ep.
by apply: derive_ext => s; rewrite /en vT.
Qed.
(* when the second pass returns *)
Lemma double_backward_returns inputs v inputs2 th ext gs :
  map size v = [seq nth 0%N Sz p | p <- inputs] -> all (fun p => p < size Sz)%N inputs2 -> inputs2 <> [::] ->
  rec_grad vjp2 Sz rq t out inputs = Ok (ext, gs) ->
  let T := rcons ext (Call (dot_node gs v)) in
  let used p := nth false rq p /\ uses (size Sz) T (tape_rg rq T) (size Sz + size ext) p in
  ((forall p, p \in inputs2 -> used p) -> exists Hs, double_backward vjp2 Sz rq t out inputs v inputs2 th = Ok Hs) /\
  ((exists2 p, p \in inputs2 & ~ used p) -> double_backward vjp2 Sz rq t out inputs v inputs2 th = Err RuntimeError).
Proof.
move=> sv hin hne er T used; have okT := double_tape_ok th sv er.
have hT : (size Sz + size ext < size Sz + size T)%N by rewrite ltn_add2l size_rcons.
have sT : size (nth [::] (tape_vals (leaves Sz th) T) (size Sz + size ext)) = 1%N by rewrite tape_new.
rewrite /double_backward er /=; split=> hu; last exact: (grad_raises okT sT).
by have [Hs [e _ _]] := grad_ok okT srq hT sT hin hne hu; exists Hs.
Qed.
End Double.
