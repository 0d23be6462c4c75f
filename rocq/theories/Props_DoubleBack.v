(* C90 (continued): gradients that are recorded on the tape, and their gradients. *)
From Coq Require Import Reals.
From Coquelicot Require Import Coquelicot.
From mathcomp Require Import all_ssreflect all_algebra.
From Verif Require Import PyPrelude Tensor RInst Calculus Losses Curvature ActHess Autograd AutogradProof AutogradLoss DoubleBack.
Set Implicit Arguments.
Unset Strict Implicit.
Unset Printing Implicit Defensive.
Import GRing.Theory.
Local Open Scope ring_scope.

Local Notation vec := (seq R).

(* Recording the backward pass (create_graph=True) changes neither the gradients nor the
   errors, for every tape: the tensors that are returned hold what grad returns without
   recording, whatever values the parameters take. *)
Theorem C90_recorded_gradient vjp2 Sz t rq out inputs z : (forall z, tape_ok (leaves Sz z) t) ->
  vjp2_ok vjp2 Sz t -> (out < size Sz + size t)%N -> size (nth [::] (tape_vals (leaves Sz z) t) out) = 1%N ->
  (forall e, rec_grad vjp2 Sz rq t out inputs = Err e <-> grad (leaves Sz z) rq t out inputs = Err e) /\
  forall ext gs, rec_grad vjp2 Sz rq t out inputs = Ok (ext, gs) ->
    grad (leaves Sz z) rq t out inputs = Ok [seq nth [::] (tape_vals (leaves Sz z) ext) g | g <- gs].
Proof.
move=> ok ok2 ho so; have so' : item_size Sz t out = 1%N by rewrite -(item_sizeE (ok z) ho).
rewrite (recorded_gradient rq ok ok2 ho so' z inputs).
case: (rec_grad _ _ _ _ _ _) => [[ext gs]|e'] /=; last first.
  by split=> [e|? ? E]; [split=> -[->] | discriminate E].
by split=> [e|? ? [<- <-]]; [split=> E; discriminate E | ].
Qed.
Print Assumptions C90_recorded_gradient.

(* Differentiating the recorded gradients: if grad(grads, inputs2, grad_outputs=v) returns,
   it returns the partial derivatives of the directional derivative of the scalar along v,
   for every tape whose calls and recorded backward functions have right backward functions. *)
Theorem C90_double_backward vjp2 Sz t rq out inputs v inputs2 th Hs : size rq = size Sz ->
  (forall z, tape_ok (leaves Sz z) t) -> vjp2_ok vjp2 Sz t ->
  (out < size Sz + size t)%N -> size (nth [::] (tape_vals (leaves Sz th) t) out) = 1%N ->
  [seq size x | x <- v] = [seq nth 0%N Sz p | p <- inputs] ->
  double_backward vjp2 Sz rq t out inputs v inputs2 th = Ok Hs ->
  let F z := nth 0 (nth [::] (tape_vals (leaves Sz z) t) out) 0 in
  let along_v z := \sum_(i < size inputs) \sum_(d < nth 0%N Sz (nth 0%N inputs i))
    pd (offset Sz (nth 0%N inputs i) + d) F z * nth 0 (nth [::] v i) d in
  size Hs = size inputs2 /\
  forall k, (k < size inputs2)%N -> let p := nth 0%N inputs2 k in
    size (nth [::] Hs k) = nth 0%N Sz p /\
    forall c, (c < nth 0 Sz p)%N ->
      ex_pd (offset Sz p + c) along_v th /\ nth 0 (nth [::] Hs k) c = pd (offset Sz p + c) along_v th.
Proof.
move=> sq ok ok2 ho so sv e F along_v; have so' : item_size Sz t out = 1%N by rewrite -(item_sizeE (ok th) ho).
have [h1 h2] := double_backward_ok sq ok ok2 ho so' sv e; split=> // k hk p.
have [h3 h4] := h2 k hk; split=> // c hc; have h := h4 c hc; split; first by eexists; exact: h.
by rewrite /pd; apply/esym/is_derive_unique; exact: h.
Qed.
Print Assumptions C90_double_backward.

(* It returns exactly if every input takes part in the recorded gradients, i.e. requires grad
   and is reached from <gradients, v> on the tape with the recorded calls.  (On the model's
   tape: see the simplification at vjp_node for the inputs that torch would leave out.) *)
Theorem C90_second_pass vjp2 Sz t rq out inputs v inputs2 th ext gs : size rq = size Sz ->
  (forall z, tape_ok (leaves Sz z) t) -> vjp2_ok vjp2 Sz t ->
  (out < size Sz + size t)%N -> size (nth [::] (tape_vals (leaves Sz th) t) out) = 1%N ->
  [seq size x | x <- v] = [seq nth 0%N Sz p | p <- inputs] -> all (fun p => p < size Sz)%N inputs2 -> inputs2 <> [::] ->
  rec_grad vjp2 Sz rq t out inputs = Ok (ext, gs) ->
  let T := rcons ext (Call (dot_node gs v)) in
  let used p := nth false rq p /\ uses (size Sz) T (tape_rg rq T) (size Sz + size ext) p in
  ((forall p, p \in inputs2 -> used p) -> exists Hs, double_backward vjp2 Sz rq t out inputs v inputs2 th = Ok Hs) /\
  ((exists2 p, p \in inputs2 & ~ used p) -> double_backward vjp2 Sz rq t out inputs v inputs2 th = Err RuntimeError).
Proof.
move=> sq ok ok2 ho so; have so' : item_size Sz t out = 1%N by rewrite -(item_sizeE (ok th) ho).
exact: double_backward_returns.
Qed.
Print Assumptions C90_second_pass.

(* For a twice continuously differentiable scalar these are the entries of the product of v
   with the Hessian's rows of inputs2. *)
Theorem C90_hessian_product vjp2 Sz t rq out inputs v inputs2 th Hs : size rq = size Sz ->
  (forall z, tape_ok (leaves Sz z) t) -> vjp2_ok vjp2 Sz t ->
  (out < size Sz + size t)%N -> size (nth [::] (tape_vals (leaves Sz th) t) out) = 1%N ->
  [seq size x | x <- v] = [seq nth 0%N Sz p | p <- inputs] ->
  let F z := nth 0 (nth [::] (tape_vals (leaves Sz z) t) out) 0 in
  twice_diff (sumn Sz) F th -> C2_at (sumn Sz) F th ->
  double_backward vjp2 Sz rq t out inputs v inputs2 th = Ok Hs ->
  forall k c, (k < size inputs2)%N -> (c < nth 0 Sz (nth 0%N inputs2 k))%N ->
    nth 0 (nth [::] Hs k) c = \sum_(i < size inputs) \sum_(d < nth 0%N Sz (nth 0%N inputs i))
      pd (offset Sz (nth 0%N inputs i) + d) (pd (offset Sz (nth 0%N inputs2 k) + c) F) th * nth 0 (nth [::] v i) d.
Proof.
move=> sq ok ok2 ho so sv F hF2 hF e k c hk hc.
have [_ /(_ k hk)[_ /(_ c hc)[_ ->]]] := C90_double_backward sq ok ok2 ho so sv e; rewrite -/F.
have coord p d : (d < nth 0 Sz p)%N -> (offset Sz p + d < sumn Sz)%N.
  move=> hd; have ps : (p < size Sz)%N by move: hd; case: (ltnP p (size Sz)) => // h; rewrite nth_default.
  rewrite -{2}(cat_take_drop p Sz) sumn_cat (drop_nth 0%N ps) /= ltn_add2l; exact: ltn_addr.
have hj := coord _ _ hc; set j := (offset Sz (nth 0%N inputs2 k) + c)%N in hj *.
have ex i : (i < sumn Sz)%N -> ex_pd j (pd i F) th by move=> hi; have [] := hF2 i j hi hj.
have term i d : (d < nth 0 Sz (nth 0%N inputs i))%N ->
    ex_pd j (fun z => pd (offset Sz (nth 0%N inputs i) + d) F z * nth 0 (nth [::] v i) d) th /\
    pd j (fun z => pd (offset Sz (nth 0%N inputs i) + d) F z * nth 0 (nth [::] v i) d) th =
    pd (offset Sz (nth 0%N inputs i) + d) (pd j F) th * nth 0 (nth [::] v i) d.
  move=> /coord hd; split.
    by apply: (@ex_pd_ext (fun z => nth 0 (nth [::] v i) d * pd (offset Sz (nth 0%N inputs i) + d) F z)) => [z|];
      [rewrite mulrC | apply/ex_pd_scal/ex].
  rewrite (@pd_ext _ (fun z => nth 0 (nth [::] v i) d * pd (offset Sz (nth 0%N inputs i) + d) F z)) => [|z]; last by rewrite mulrC.
  by rewrite pd_scal (pd_symm hd hj hF) mulrC.
rewrite pd_sum; last by apply: Forall_in_all => i; apply: ex_pd_sum; apply: Forall_in_all => d; have [] := term i d (ltn_ord d).
apply: eq_bigr => i _; rewrite pd_sum; last by apply: Forall_in_all => d; have [] := term i d (ltn_ord d).
by apply: eq_bigr => d _; have [] := term i d (ltn_ord d).
Qed.
Print Assumptions C90_hessian_product.

(* ---- a case: products of scalars, and the scalar x^3 ---- *)
Definition times (a b : nat) : node :=
  Node [:: a; b] 1 (fun vs => [:: en vs 0 0 * en vs 1 0]) (fun vs w => [:: [:: nth 0 w 0 * en vs 1 0]; [:: nth 0 w 0 * en vs 0 0]]).
(* the arguments vs are the two factors and the cotangent of their product *)
Definition times2 (_ : node) (k : nat) (vs : seq vec) (u : vec) : seq vec :=
  if k == 0%N then [:: [:: 0]; [:: nth 0 u 0 * en vs 2 0]; [:: nth 0 u 0 * en vs 1 0]]
  else [:: [:: nth 0 u 0 * en vs 2 0]; [:: 0]; [:: nth 0 u 0 * en vs 0 0]].
Lemma times_ok a b (x y : R) : vjp_ok (times a b) [:: [:: x]; [:: y]].
Proof.
apply: (@vjp_ok_of _ _ (fun _ vs => en vs 0 0 * en vs 1 0) (fun _ k _ => if k == 0%N then y else x)) => [//|w|].
  by rewrite /mkseq /= !big_ord1.
move=> us du t0 o [e _ _ h] _; rewrite !big_ord_recl !big_ord0 /= !addr0.
have := is_derive_mult _ _ _ _ _ (h 0%N 0%N erefl) (h 1%N 0%N erefl) (fun _ _ => Rmult_comm _ _).
by rewrite e; apply: derive_val; rewrite /mult /plus /= !(RplusE, RmultE) /en /= [y * _]mulrC.
Qed.
Lemma times2_ok a b k pos (x y w : R) : (k < 2)%N -> vjp_ok (vjp_node times2 (times a b) k pos 1) [:: [:: x]; [:: y]; [:: w]].
Proof.
case: k => [|[|//]] _.
  apply: (@vjp_ok_of _ _ (fun _ vs => en vs 2 0 * en vs 1 0) (fun _ k _ => if k == 0%N then 0 else if k == 1%N then w else y)) => [ys|u|].
  - by rewrite /mkseq /= /en nth_take.
  - by rewrite /mkseq /= !big_ord1 mulr0.
  move=> us du t0 o [e _ _ h] _; rewrite !big_ord_recl !big_ord0 /= !addr0 mul0r add0r.
  have := is_derive_mult _ _ _ _ _ (h 2%N 0%N erefl) (h 1%N 0%N erefl) (fun _ _ => Rmult_comm _ _).
  by rewrite e; apply: derive_val; rewrite /mult /plus /= !(RplusE, RmultE) /en /= addrC [y * _]mulrC.
apply: (@vjp_ok_of _ _ (fun _ vs => en vs 2 0 * en vs 0 0) (fun _ k _ => if k == 0%N then w else if k == 1%N then 0 else x)) => [ys|u|].
- by rewrite /mkseq /= /en nth_take.
- by rewrite /mkseq /= !big_ord1 mulr0.
move=> us du t0 o [e _ _ h] _; rewrite !big_ord_recl !big_ord0 /= !addr0 mul0r add0r.
have := is_derive_mult _ _ _ _ _ (h 2%N 0%N erefl) (h 0%N 0%N erefl) (fun _ _ => Rmult_comm _ _).
by rewrite e; apply: derive_val; rewrite /mult /plus /= !(RplusE, RmultE) /en /= addrC [x * _]mulrC.
Qed.

(* y = x * x; z = y * x: the contracts hold, and the double backward pass returns 6 x v *)
Definition cube : seq item := [:: Call (times 0 0); Call (times 1 0)].
Lemma cube_ok z : tape_ok (leaves [:: 1%N] z) cube.
Proof. by split; [split=> //; apply: times_ok | split=> //; split=> //; apply: times_ok]. Qed.
Lemma cube_ok2 : vjp2_ok times2 [:: 1%N] cube.
Proof.
move=> z [|[|//]] n k w pos _ [<-] /= hk; case: w => [//|w [|//]] _; case: k hk => [|[|//]] hk; exact: times2_ok.
Qed.
Example C90_ex_double_backward (x v : R) : exists h,
  double_backward times2 [:: 1%N] [:: true] cube 2 [:: 0%N] [:: [:: v]] [:: 0%N] (fun=> x) = Ok [:: [:: h]] /\ h = 6%:R * x * v.
Proof.
eexists; split; first by lazy -[bigop GRing.add GRing.mul GRing.zero GRing.one index_enum nat_of_ord]; reflexivity.
rewrite !big_ord1 /= !(mulr1, mul1r, mulr0, mul0r, addr0, add0r).
by rewrite -mulrA mulr_natl !mulrS [x * v]mulrC mulr0n addr0 !addrA.
Qed.
(* and C90_double_backward applies to it, so that 6 x v is the second derivative of x^3 times v *)
Example C90_ex_cube (x v : R) :
  pd 0 (fun z => pd 0 (fun u => u 0%N * u 0%N * u 0%N) z * v) (fun=> x) = 6%:R * x * v.
Proof.
have [h [e <-]] := C90_ex_double_backward x v.
have := @C90_double_backward times2 [:: 1%N] cube [:: true] 2 [:: 0%N] [:: [:: v]] [:: 0%N] (fun=> x) [:: [:: h]]
  erefl cube_ok cube_ok2 erefl erefl erefl e.
move=> [_ /(_ 0%N erefl)[_ /(_ 0%N erefl)[_ h1]]]; apply: etrans (esym h1).
by apply: pd_ext => z; rewrite !big_ord1.
Qed.
(* a parameter that the scalar does not use: recording raises, as grad without recording does *)
Example C90_ex_recording_raises z :
  rec_grad times2 [:: 1; 1]%N [:: true; true] [:: Call (times 0 0)] 2 [:: 0; 1]%N = Err RuntimeError /\
  grad (leaves [:: 1; 1]%N z) [:: true; true] [:: Call (times 0 0)] 2 [:: 0; 1]%N = Err RuntimeError.
Proof. by []. Qed.
