(* C90: gradients by back-propagation, and which parameters an operator accepts. *)
From Coq Require Import Reals FunctionalExtensionality Lra.
From Coquelicot Require Import Coquelicot.
From mathcomp Require Import all_ssreflect all_algebra.
From Verif Require Import PyPrelude Tensor RInst Calculus Losses Curvature HessGGN Risk ActHess Autograd AutogradProof AutogradLoss.
Set Implicit Arguments.
Unset Strict Implicit.
Unset Printing Implicit Defensive.
Import GRing.Theory.
Local Open Scope ring_scope.

Local Notation vec := (seq R).

Lemma derive_pd F i x l : is_derive (fun s => F (upd x i s)) (x i) l -> ex_pd i F x /\ l = pd i F x.
Proof. by move=> h; split; [exists l | rewrite /pd (is_derive_unique _ _ _ h)]. Qed.

(* Reverse-mode differentiation of a scalar computed by any tape of calls with right
   backward functions: for parameters that are not frozen and that the scalar is
   computed from, grad returns the partial derivatives, one vector per requested
   parameter, in the order of the request (which may repeat parameters). *)
Theorem C90_grad Sz th rq t out inputs : tape_ok (leaves Sz th) t -> size rq = size Sz ->
  (out < size Sz + size t)%N -> size (nth [::] (tape_vals (leaves Sz th) t) out) = 1%N ->
  all (fun p => p < size Sz)%N inputs -> inputs <> [::] ->
  (forall p, p \in inputs -> nth false rq p /\ uses (size Sz) t (tape_rg rq t) out p) ->
  let F z := nth 0 (nth [::] (tape_vals (leaves Sz z) t) out) 0 in
  exists gs, [/\ grad (leaves Sz th) rq t out inputs = Ok gs, size gs = size inputs &
    forall k, (k < size inputs)%N -> let p := nth 0%N inputs k in
      size (nth [::] gs k) = nth 0%N Sz p /\
      forall c, (c < nth 0 Sz p)%N ->
        ex_pd (offset Sz p + c) F th /\ nth 0 (nth [::] gs k) c = pd (offset Sz p + c) F th].
Proof.
move=> ok sq ho so hin hne hu F; have [gs [e1 e2 e3]] := grad_ok ok sq ho so hin hne hu.
have sg : size gs = size inputs by have := congr1 size e2; rewrite !size_map.
exists gs; split=> // k hk p; split.
  by have := congr1 (fun s => nth 0%N s k) e2; rewrite (nth_map [::]) ?sg // (nth_map 0%N).
by move=> c hc; apply: derive_pd (e3 k c hk hc).
Qed.
Print Assumptions C90_grad.

(* It raises as soon as one of them is frozen or not used ... *)
Theorem C90_grad_raises Sz th rq t out inputs : tape_ok (leaves Sz th) t -> 
  size (nth [::] (tape_vals (leaves Sz th) t) out) = 1%N ->
  (exists2 p, p \in inputs & ~ (nth false rq p /\ uses (size Sz) t (tape_rg rq t) out p)) ->
  grad (leaves Sz th) rq t out inputs = Err RuntimeError.
Proof. exact: grad_raises. Qed.
Print Assumptions C90_grad_raises.

(* ... although the scalar is differentiable in the unused ones, with derivative zero. *)
Theorem C90_unused_is_zero Sz th rq t out p c : tape_ok (leaves Sz th) t -> size rq = size Sz ->
  (out < size Sz + size t)%N -> size (nth [::] (tape_vals (leaves Sz th) t) out) = 1%N ->
  nth false rq p -> ~ uses (size Sz) t (tape_rg rq t) out p -> (c < nth 0 Sz p)%N ->
  let F z := nth 0 (nth [::] (tape_vals (leaves Sz z) t) out) 0 in
  ex_pd (offset Sz p + c) F th /\ pd (offset Sz p + c) F th = 0.
Proof.
move=> ok sq ho so hp hn hc F; have h := backward_pd ok sq ho so hp hc.
have e : nth None (backward (leaves Sz th) t (tape_rg rq t) out) p = None.
  by case ew: (nth None _ p) => [w|//]; case: hn; apply/(backward_used rq ok so); rewrite ew.
by rewrite e in h; have [? <-] := @derive_pd F _ _ _ h.
Qed.
Print Assumptions C90_unused_is_zero.

Section Operators.
Variables (B : Type) (bsize : B -> nat) (record : B -> seq item * nat).
Variables (Sz : seq nat) (rq : seq bool) (params : seq nat) (th : point).
Hypothesis srq : size rq = size Sz.
Hypothesis hparams : all (fun p => p < size Sz)%N params.
Hypothesis hne : params <> [::].
(* the loss of a batch as a function of the parameters *)
Let loss b z := nth 0 (nth [::] (tape_vals (leaves Sz z) (record b).1) (record b).2) 0.

(* gradient_and_loss() of an operator whose parameters all take part in the loss of
   every batch returns the loss of the data and its partial derivatives, for each
   position in the list of parameters. *)
Theorem C90_gradient_and_loss red num_data loader : red <> ROther ->
  (0 < infer_num_data bsize num_data loader)%N ->
  Forall_in (batch_ok record Sz th) loader ->
  Forall_in (fun b => forall p, p \in params -> takes_part record Sz rq b p) loader ->
  let risk z := \sum_(b <- loader) nfac red (bsize b) (infer_num_data bsize num_data loader) * loss b z in
  exists gs, [/\ tape_gradient_and_loss bsize record true red num_data loader Sz rq params th = Ok (gs, risk th),
    size gs = size params &
    forall k, (k < size params)%N -> let p := nth 0%N params k in
      size (nth [::] gs k) = nth 0%N Sz p /\
      forall c, (c < nth 0 Sz p)%N -> ex_pd (offset Sz p + c) risk th /\ nth 0 (nth [::] gs k) c = pd (offset Sz p + c) risk th].
Proof.
move=> hr hN hb hu risk; have [gs [e1 e2 e3]] := tape_total_ok srq hparams hr hN hne hb hu.
have sg : size gs = size params by have := congr1 size e2; rewrite !size_map.
exists gs; split=> // k hk p; split.
  by have := congr1 (fun s => nth 0%N s k) e2; rewrite (nth_map [::]) ?sg // (nth_map 0%N).
by move=> c hc; apply: derive_pd (e3 k c hk hc).
Qed.

(* It raises as soon as one batch leaves out one of the parameters, whatever the
   other batches do. *)
Theorem C90_left_out_raises red num_data l1 b l2 : red <> ROther ->
  (0 < infer_num_data bsize num_data (l1 ++ b :: l2))%N ->
  Forall_in (batch_ok record Sz th) (l1 ++ b :: l2) ->
  (exists2 p, p \in params & ~ takes_part record Sz rq b p) ->
  tape_gradient_and_loss bsize record true red num_data (l1 ++ b :: l2) Sz rq params th = Err RuntimeError.
Proof. by move=> hr hN hb hn; apply: tape_total_raises. Qed.
End Operators.

(* An operator without loss function has neither. *)
Theorem C90_no_loss (B : Type) (bsize : B -> nat) record red num_data (loader : seq B) Sz rq params th :
  tape_gradient_and_loss bsize record false red num_data loader Sz rq params th = Err ValueError.
Proof. by []. Qed.
Print Assumptions C90_no_loss.
Print Assumptions C90_gradient_and_loss.
Print Assumptions C90_left_out_raises.

(* ---- the abstract gradient of the other properties ---- *)
Lemma nth_pack off S p : (p < size S)%N ->
  nth (Param 0 [::]) (pack off S) p = Param (off + sumn (take p [seq numel s | s <- S])) (nth [::] S p).
Proof.
elim: S off p => [//|s S IH] off [|p] /= h; first by rewrite addn0.
by rewrite IH // addnA.
Qed.
Lemma pack_offset S : pack 0 S = [seq Param (offset [seq numel s | s <- S] p) (nth [::] S p) | p <- iota 0 (size S)].
Proof.
apply: (@eq_from_nth _ (Param 0 [::])); rewrite size_pack ?size_map ?size_iota // => p hp.
by rewrite nth_pack // (nth_map 0%N) ?size_iota // nth_iota.
Qed.

(* tensors of shapes S with given entries *)
Definition with_shapes (S : seq (seq nat)) (gs : seq vec) : seq (tensor R) :=
  [seq Tensor sg.1 sg.2 | sg <- zip S gs].

Lemma adds_with_shapes S xs ys : size xs = size S -> size ys = size S ->
  adds_alpha 1 (with_shapes S xs) (with_shapes S ys) = Ok (with_shapes S [seq vadd p.1 p.2 | p <- zip xs ys]).
Proof.
elim: S xs ys => [|s S IH] [|x xs] [|y ys] //= [h1] [h2].
rewrite /add_alpha /= eqxx /= IH //; congr (Ok (Tensor _ _ :: _)).
by apply: eq_mkseq => e; rewrite mul1r.
Qed.

(* For a network and loss recorded on tapes, gradient_and_loss computed by
   back-propagation is gradient_and_loss of the model used for the other properties,
   in which autograd returns exact partial derivatives. *)
Theorem C90_refines (X Y : Type) O (net : X -> point -> seq R) lossd record red num_data
    (loader : seq (seq (X * Y))) S rq th : size rq = size S -> S <> [::] -> red <> ROther ->
  (0 < infer_num_data (@size _) num_data loader)%N ->
  let Sz := [seq numel s | s <- S] in
  Forall_in (batch_ok record Sz th) loader ->
  Forall_in (fun b => forall p, (p < size S)%N -> takes_part record Sz rq b p) loader ->
  Forall_in (fun b => forall z, nth 0 (nth [::] (tape_vals (leaves Sz z) (record b).1) (record b).2) 0 = batch_loss O net lossd red b z)
    loader ->
  exists gs l,
    tape_gradient_and_loss (@size _) record true red num_data loader Sz rq (iota 0 (size S)) th = Ok (gs, l) /\
    gradient_and_loss O net lossd true red num_data loader S th = Ok (with_shapes S gs, l).
Proof.
move=> sq hS hr hN Sz hb hu hl; rewrite /tape_gradient_and_loss /gradient_and_loss /=.
move: (infer_num_data _ _ _) hN => N hN.
have sS : size Sz = size S by rewrite size_map.
have hp : all (fun p => p < size Sz)%N (iota 0 (size S)) by apply/allP => p; rewrite mem_iota sS.
have hne : iota 0 (size S) <> [::] by case: S hS {Sz hb hu hl sq sS hp}.
have -> : [seq Tensor s (nseq (numel s) 0) | s <- S] = with_shapes S [seq nseq (nth 0%N Sz p) 0 | p <- iota 0 (size S)].
  apply: (@eq_from_nth _ (Tensor [::] [::])); rewrite ?size_map ?size_zip ?size_map ?size_iota ?minnn // => p hps.
  rewrite (nth_map [::]) // (nth_map ([::], [::])) ?size_zip ?size_map ?size_iota ?minnn // nth_zip ?size_map ?size_iota //=.
  by rewrite (nth_map 0%N) ?size_iota // nth_iota // (nth_map [::]).
have st0 : size [seq nseq (nth 0%N Sz p) (0 : R) | p <- iota 0 (size S)] = size S by rewrite size_map size_iota.
match goal with |- exists gs l, foldM ?f _ _ = _ /\ foldM ?g _ _ = _ =>
  suff gen : forall ld tg l0, Forall_in (batch_ok record Sz th) ld ->
    Forall_in (fun b => forall p, (p < size S)%N -> takes_part record Sz rq b p) ld ->
    Forall_in (fun b => forall z, nth 0 (nth [::] (tape_vals (leaves Sz z) (record b).1) (record b).2) 0 = batch_loss O net lossd red b z) ld ->
    size tg = size S -> exists gs l, foldM f (tg, l0) ld = Ok (gs, l) /\ foldM g (with_shapes S tg, l0) ld = Ok (with_shapes S gs, l)
end; first exact: gen.
elim=> [|b ld IH] tg l0 {}hb {}hu {}hl st; first by exists tg, l0.
have [hb1 hb2] := hb; have [hu1 hu2] := hu; have [hl1 hl2] := hl.
have hu1' p : p \in iota 0 (size S) -> takes_part record Sz rq b p by rewrite mem_iota; apply: hu1.
have sq' : size rq = size Sz by rewrite sS.
have [gs [e1 e2 e3]] := loss_gradient_ok (@size _) sq' hp hb1 hr hN hne hu1'.
rewrite /= e1 normalization_ok //=; set nf := nfac _ _ _.
have sg : size gs = size S by have := congr1 size e2; rewrite !size_map size_iota.
have eg : [seq Tensor (tshape g) [seq f th | f <- tdata g] | g <- autograd (pack 0 S) (fun z => batch_loss O net lossd red b z * nf)]
          = with_shapes S gs.
  rewrite pack_offset /autograd -!map_comp; apply: (@eq_from_nth _ (Tensor [::] [::])).
    by rewrite !size_map size_zip size_iota sg minnn.
  move=> p; rewrite size_map size_iota => hps.
  rewrite (nth_map 0%N) ?size_iota // nth_iota // (nth_map ([::], [::])) ?size_zip ?sg ?minnn // nth_zip ?sg //=.
  have szp : size (nth [::] gs p) = nth 0%N Sz p.
    have := congr1 (fun s => nth 0%N s p) e2; rewrite (nth_map [::]) ?sg // (nth_map 0%N) ?size_iota // nth_iota //.
  congr (Tensor _ _); apply: (@eq_from_nth _ 0); rewrite size_map size_mkseq ?szp ?(nth_map [::]) // => c hc.
  have hc' : (c < nth 0 Sz p)%N by rewrite (nth_map [::]).
  rewrite (nth_map (fun=> 0)) ?size_mkseq // nth_mkseq //=; have := e3 p c; rewrite size_iota nth_iota // => /(_ hps hc') d.
  have [_] := @derive_pd (fun z => nf * loss_of record Sz b z) _ _ _ d; rewrite /en => ->.
  by apply: pd_ext => z; rewrite -hl1 mulrC.
rewrite eg adds_with_shapes //= -/nf -hl1 [nth 0 _ 0 * nf]mulrC.
by apply: IH => //; rewrite size_map size_zip st sg minnn.
Qed.
Print Assumptions C90_refines.

(* ---- Hessians ---- *)
(* Products with the Hessian need that all parameters take part in the loss of every
   batch: then they are the products of C14's model ... *)
Theorem C90_hessian (X Y : Type) O (net : X -> point -> seq R) lossd record red num_data
    (loader : seq (seq (X * Y))) S rq bs th M : size rq = size S -> S <> [::] ->
  let Sz := [seq numel s | s <- S] in
  Forall_in (batch_ok record Sz th) loader ->
  Forall_in (fun b => forall p, (p < size S)%N -> takes_part record Sz rq b p) loader ->
  Forall_in (fun b => forall z, nth 0 (nth [::] (tape_vals (leaves Sz z) (record b).1) (record b).2) 0 = batch_loss O net lossd red b z)
    loader ->
  tape_hessian_matmat (@size _) record red num_data loader S rq bs th M = hessian_matmat O net lossd red num_data loader S bs th M.
Proof.
move=> sq hS Sz hb hu hl; rewrite /tape_hessian_matmat /hessian_matmat /base_matmat -/Sz.
move: (infer_num_data _ _ _) => N; move: [seq zeros_like m | m <- M] => Z.
elim: loader hb hu hl Z => [//|b ld IH] hb hu hl Z.
have [hb1 hb2] := hb; have [hu1 hu2] := hu; have [hl1 hl2] := hl; case: (hb1) => ok ho so.
have sS : size Sz = size S by rewrite size_map.
have hp : all (fun p => p < size Sz)%N (iota 0 (size S)) by apply/allP => p; rewrite mem_iota sS.
have hne : iota 0 (size S) <> [::] by case: (S) hS.
have sq' : size rq = size Sz by rewrite sS.
have hu' p : p \in iota 0 (size S) -> nth false rq p /\ uses (size Sz) (record b).1 (tape_rg rq (record b).1) (record b).2 p.
  by rewrite mem_iota; apply: hu1.
have [gs [eg _ _]] := grad_ok ok sq' ho so hp hne hu'; rewrite /= eg /=.
have -> : (fun z => nth 0 (nth [::] (tape_vals (leaves Sz z) (record b).1) (record b).2) 0) = batch_loss O net lossd red b.
  exact: functional_extensionality.
case: (normalization_factor _ _ _) => //= nf.
case: (hessian_batch _ _ _ _ _) => //= BM; case: (adds_alpha _ _ _) => //= AM; exact: IH.
Qed.
Print Assumptions C90_hessian.

(* ... and raise at the first batch that leaves one out, whatever the matrix. *)
Theorem C90_hessian_raises (B : Type) (bsize : B -> nat) record red num_data l1 b l2 S rq bs th M Y :
  let N := infer_num_data bsize num_data (l1 ++ b :: l2) in
  let Sz := [seq numel s | s <- S] in
  red <> ROther -> (0 < N)%N -> batch_ok record Sz th b -> (exists2 p, (p < size S)%N & ~ takes_part record Sz rq b p) ->
  tape_hessian_matmat bsize record red (Some N) l1 S rq bs th M = Ok Y ->
  tape_hessian_matmat bsize record red num_data (l1 ++ b :: l2) S rq bs th M = Err RuntimeError.
Proof.
move=> N Sz hr hN [ok ho so] [p hp hn]; rewrite /tape_hessian_matmat /base_matmat -/Sz -/N foldM_cat /= => -> /=.
rewrite normalization_ok //= grad_raises //; exists p; first by rewrite mem_iota.
exact: hn.
Qed.
Print Assumptions C90_hessian_raises.

(* ---- fully connected networks of any depth ---- *)
Section Mlp.
Variables f df : R -> R.                 (* the activation and its derivative *)
Hypothesis hf : forall u, is_derive f u (df u).

(* the numbers of entries of the weights of a network with I inputs and layers of the given widths *)
Fixpoint mlp_sizes (I : nat) (dims : seq nat) : seq nat :=
  match dims with [::] => [::] | W :: dims' => (W * I)%N :: mlp_sizes W dims' end.
(* the calls of its forward pass; the weights are parameters k, k+1, ..., the input is tensor prev *)
Fixpoint mlp_calls (k prev I : nat) (dims : seq nat) : seq item :=
  match dims with
  | [::] => [::]
  | W :: dims' => [:: Call (linear_node k prev W I), Call (map_node f df prev.+1 W) & mlp_calls k.+1 prev.+2 W dims']
  end.
(* forward pass on one datum and squared error, in a program with P parameters *)
Definition mlp_record (P I : nat) (dims : seq nat) (d : vec * vec) : seq item * nat :=
  (Data d.1 :: mlp_calls 0 P I dims ++ [:: Call (sqerr_node d.2 (P + (size dims).*2) (last I dims))], (P + (size dims).*2).+1).

Lemma size_mlp_sizes I dims : size (mlp_sizes I dims) = size dims.
Proof. by elim: dims I => //= W dims IH I; rewrite IH. Qed.
Lemma size_mlp_calls k prev I dims : size (mlp_calls k prev I dims) = (size dims).*2.
Proof. by elim: dims k prev I => //= W dims IH k prev I; rewrite IH doubleS. Qed.

Lemma mlp_calls_ok vs k prev I dims : size vs = prev.+1 -> size (nth [::] vs prev) = I -> (0 < I)%N ->
  all (fun W => 0 < W)%N dims -> (k + size dims <= prev)%N ->
  (forall j, (j < size dims)%N -> size (nth [::] vs (k + j)) = nth 0%N (mlp_sizes I dims) j) ->
  tape_ok vs (mlp_calls k prev I dims) /\
  size (nth [::] (tape_vals vs (mlp_calls k prev I dims)) (prev + (size dims).*2)) = last I dims.
Proof.
elim: dims vs k prev I => [|W dims IH] vs k prev I sv sI hI hd hk hw; first by rewrite /= addn0.
move: hd => /= /andP[hW hd]; rewrite /tape_vals /=.
set v1 := mkseq _ W; set vs1 := rcons vs v1.
have n1 : nth [::] vs1 prev.+1 = v1 by rewrite nth_rcons sv ltnn eqxx.
set v2 := mkseq _ W.
have s1 : size v1 = W by rewrite size_mkseq.
have s2 : size v2 = W by rewrite size_mkseq.
have sv2 : size (rcons vs1 v2) = prev.+3 by rewrite !size_rcons sv.
have n2 : size (nth [::] (rcons vs1 v2) prev.+2) = W by rewrite nth_rcons size_rcons sv ltnn eqxx.
have hk1 : (k.+1 + size dims <= prev)%N by rewrite addSnnS.
have hw2 j : (j < size dims)%N -> size (nth [::] (rcons vs1 v2) (k.+1 + j)) = nth 0%N (mlp_sizes W dims) j.
  move=> hj; have h : (k.+1 + j < prev.+1)%N.
    by rewrite ltnS; apply: leq_trans hk1; rewrite leq_add2l ltnW.
  by rewrite nth_rcons size_rcons nth_rcons sv h ltnW // addSnnS (hw j.+1 hj).
have [h1 h2] := IH _ k.+1 prev.+2 W sv2 n2 hW hd (leqW (leqW hk1)) hw2.
split; last by rewrite doubleS addnS addnS.
split; first split; first by rewrite /= sv ltnS (leq_trans (leq_addr _ _) hk) ltnSn.
  apply: linear_ok => //; have := hw 0%N (ltn0Sn _); by rewrite addn0.
split; first by split; [rewrite /= size_rcons sv ltnSn | apply: map_ok; rewrite /= ?n1].
exact: h1.
Qed.

Lemma nth_mlp k prev I dims i : (i < size dims)%N -> exists W J,
  nth (Data [::]) (mlp_calls k prev I dims) i.*2 = Call (linear_node (k + i) (prev + i.*2) W J) /\
  nth (Data [::]) (mlp_calls k prev I dims) i.*2.+1 = Call (map_node f df (prev + i.*2).+1 W).
Proof.
elim: dims k prev I i => [//|W dims IH] k prev I [_|i hi]; first by exists W, I; rewrite /= !addn0.
have [W' [J [h1 h2]]] := IH k.+1 prev.+2 W i hi; exists W', J.
by rewrite doubleS /= h1 h2 !addSn !addnS.
Qed.
Lemma mlp_args k prev I dims (Q : pred nat) : (forall i, (i < size dims)%N -> Q (k + i)%N) ->
  (forall j, (prev <= j)%N -> Q j) ->
  all (fun it => if it is Call n then all Q (nd_args n) else true) (mlp_calls k prev I dims).
Proof.
elim: dims k prev I => [//|W dims IH] k prev I h1 h2 /=.
have := h1 0%N (ltn0Sn _); rewrite addn0 => ->; rewrite !h2 //= IH // => [i hi|j hj].
  by rewrite addSnnS; apply: h1.
by apply: h2; do 2!apply: ltnW.
Qed.

Variables (I : nat) (dims extra : seq nat).
Hypothesis hI : (0 < I)%N.
Hypothesis hdims : all (fun W => 0 < W)%N dims.
(* the weights of the network, and parameters that the network does not use *)
Let Sz := mlp_sizes I dims ++ extra.
Let P := size Sz.
Let l := size dims.
Let rec := mlp_record P I dims.

Lemma mlp_l_le : (l <= P)%N. Proof. by rewrite /P size_cat size_mlp_sizes leq_addr. Qed.
Lemma size_mlp_tape d : size (rec d).1 = l.*2.+2.
Proof. by rewrite /= size_cat size_mlp_calls addn1. Qed.

Lemma mlp_ok th d : size d.1 = I -> batch_ok rec Sz th d.
Proof.
move=> sx; set vs := rcons (leaves Sz th) d.1.
have sv : size vs = P.+1 by rewrite size_rcons size_leaves.
have nP : size (nth [::] vs P) = I by rewrite nth_rcons size_leaves ltnn eqxx.
have hw j : (j < l)%N -> size (nth [::] vs (0 + j)) = nth 0%N (mlp_sizes I dims) j.
  move=> hj; have hjP := leq_trans hj mlp_l_le.
  by rewrite add0n nth_rcons size_leaves hjP size_leaf /Sz nth_cat size_mlp_sizes hj.
have [h1 h2] := mlp_calls_ok sv nP hI hdims (mlp_l_le : (0 + l <= P)%N) hw.
have e : tape_vals (leaves Sz th) (rec d).1 =
  rcons (tape_vals vs (mlp_calls 0 P I dims)) (nd_fun (sqerr_node d.2 (P + l.*2) (last I dims))
    [:: nth [::] (tape_vals vs (mlp_calls 0 P I dims)) (P + l.*2)]).
  by rewrite /tape_vals /= scan_cat.
have sm : size (tape_vals vs (mlp_calls 0 P I dims)) = (P + l.*2).+1.
  by rewrite size_tape_vals sv size_mlp_calls addSn.
split.
- split=> //; apply/tape_ok_cat; split=> //=; split=> //; split; first by rewrite sm ltnSn.
  by apply: sqerr_ok.
- by rewrite size_mlp_tape -/P !addnS.
- by rewrite e nth_rcons sm ltnn eqxx.
Qed.

Variable rq : seq bool.
Hypothesis srq : size rq = P.
Hypothesis hrq : forall p, (p < l)%N -> nth false rq p.

Lemma mlp_takes_part d p : size d.1 = I -> (p < l)%N -> takes_part rec Sz rq d p.
Proof.
move=> sx hp; split; first exact: hrq.
have [ok ho _] := mlp_ok (fun=> 0) sx; rewrite -/P; set t := (rec d).1 in ok ho *; set rs := tape_rg rq t.
have node i : (i < l)%N -> exists W J, nth (Data [::]) t i.*2.+1 = Call (linear_node i (P + i.*2) W J) /\
    nth (Data [::]) t i.*2.+2 = Call (map_node f df (P + i.*2).+1 W).
  move=> hi; have [W [J [e1 e2]]] := nth_mlp 0 P I hi; exists W, J.
  by rewrite /t /= !nth_cat !size_mlp_calls -/l !ltn_Sdouble ltn_double hi e1 e2.
have st : size t = l.*2.+2 by exact: size_mlp_tape.
have rgE j n : (j < size t)%N -> nth (Data [::]) t j = Call n -> nth false rs (P + j) = has (nth false rs) (nd_args n).
  move=> hj e; rewrite -srq; apply: nth_tape_rg => //.
  by have [+ _ _] := tape_call ok hj e; rewrite size_leaves -/P srq.
have il i : (i < l)%N -> (i.*2.+2 < size t)%N by rewrite st !ltnS ltn_double.
have rlin i : (i < l)%N -> nth false rs (P + i.*2).+1.
  move=> hi; have [W [J [e1 _]]] := node i hi.
  rewrite -addnS (rgE _ _ (ltnW (il i hi)) e1) /= nth_rg_leaf ?hrq // srq.
  exact: leq_trans hi mlp_l_le.
have ract i : (i < l)%N -> nth false rs (P + i.+1.*2).
  move=> hi; have [W [J [_ e2]]] := node i hi.
  by rewrite doubleS (rgE _ _ (il i hi) e2) /= rlin.
have uact : forall m, (m < l)%N -> uses P t rs (rec d).2 (P + (l - m).*2).
  elim=> [_|m IH hm].
    rewrite subn0; apply: (uses_arg (n := sqerr_node d.2 (P + l.*2) (last I dims)) (uses_out _ _ _ _)).
    - by rewrite /= -addnS leq_addr.
    - by rewrite /= -addnS addKn /= nth_cat size_mlp_calls -/l ltnn subnn.
    - by rewrite inE eqxx.
    - by case: (l) hp ract => [//|k] _ ract; apply: ract.
  set i := (l - m.+1)%N; have ei : (l - m = i.+1)%N by rewrite /i subnSK // ltnW.
  have hi : (i < l)%N by rewrite /i ltn_subrL /= (leq_ltn_trans _ hm).
  have i0 : (0 < i)%N by rewrite subn_gt0.
  have [W [J [e1 e2]]] := node i hi.
  have u1 : uses P t rs (rec d).2 (P + i.*2).+1.
    apply: (uses_arg (IH (ltnW hm)) (leq_addr _ _)) (rlin i hi); first by rewrite addKn ei doubleS e2.
    by rewrite inE eqxx.
  apply: (uses_arg u1) => //; first by rewrite -addnS leq_addr.
  - by rewrite -addnS addKn e1.
  - by rewrite !inE eqxx orbT.
  - by case: (i) i0 hi => [//|i'] _ hi'; apply: ract; apply: ltnW.
have [W [J [e1 e2]]] := node p hp.
have hu := uact (l - p.+1)%N (ltac:(by rewrite ltn_subrL /= (leq_ltn_trans _ hp))).
rewrite subKn // in hu.
have u1 : uses P t rs (rec d).2 (P + p.*2).+1.
  apply: (uses_arg hu (leq_addr _ _)) (rlin p hp); first by rewrite addKn doubleS e2.
  by rewrite inE eqxx.
apply: (uses_arg u1) => //; first by rewrite -addnS leq_addr.
- by rewrite -addnS addKn e1.
- by rewrite !inE eqxx.
- by rewrite nth_rg_leaf ?hrq // srq (leq_trans hp mlp_l_le).
Qed.

Lemma mlp_extra d p : (l <= p)%N -> (p < P)%N -> ~ takes_part rec Sz rq d p.
Proof.
move=> hl hp [_]; rewrite -/P.
have inv j : uses P (rec d).1 (tape_rg rq (rec d).1) (rec d).2 j -> (j < l)%N || (P <= j)%N.
  elim=> [|k n a _ _ hk e hin _]; first by rewrite /= -addnS leq_addr orbT.
  pose Q j := (j < l)%N || (P <= j)%N.
  have hall : all (fun it => if it is Call n then all Q (nd_args n) else true) (rec d).1.
    rewrite /= all_cat mlp_args /= => [|i hi|m hm]; rewrite /Q ?leq_addr ?orbT // ?add0n ?hi // hm orbT //.
  have hj : (k - P < size (rec d).1)%N.
    by case: (ltnP (k - P) (size (rec d).1)) => // h; move: e; rewrite nth_default.
  by have := all_nthP (Data [::]) hall _ hj; rewrite e => /allP /(_ _ hin).
by move=> /inv; rewrite ltnNge hl leqNgt hp.
Qed.

(* the network as a function: its weights are the coordinates off, off + 1, ... of z *)
Fixpoint mlp_net (off I : nat) (dims : seq nat) (z : point) (x : vec) : vec :=
  match dims with
  | [::] => x
  | W :: dims' => mlp_net (off + W * I) W dims' z
      (mkseq (fun o => f (\sum_(i < I) z (off + (o * I + i))%N * nth 0 x i)) W)
  end.

Lemma mlp_value z vs off k prev J ds : size vs = prev.+1 -> (k + size ds <= prev)%N ->
  (forall j, (j < size ds)%N -> nth [::] vs (k + j) =
     mkseq (fun c => z (off + offset (mlp_sizes J ds) j + c)%N) (nth 0%N (mlp_sizes J ds) j)) ->
  nth [::] (tape_vals vs (mlp_calls k prev J ds)) (prev + (size ds).*2) = mlp_net off J ds z (nth [::] vs prev).
Proof.
elim: ds vs off k prev J => [|W ds IH] vs off k prev J sv hk hw; first by rewrite /= addn0.
rewrite /tape_vals /= doubleS 2!addnS -addSn -addSn.
have hk1 : (k.+1 + size ds <= prev)%N by rewrite addSnnS.
set v1 := mkseq _ W; set v2 := mkseq _ W.
have sv2 : size (rcons (rcons vs v1) v2) = prev.+3 by rewrite !size_rcons sv.
rewrite -/(tape_vals _ _) (IH _ (off + W * J)%N k.+1 prev.+2 W sv2 (leqW (leqW hk1))) => [|j hj].
  rewrite nth_rcons size_rcons sv ltnn eqxx; congr (mlp_net _ _ _ _ _); apply/eq_in_map => o; rewrite mem_iota /= => ho.
  rewrite {1}/en /= nth_rcons sv ltnn eqxx nth_mkseq //; congr f; apply: eq_bigr => i _; rewrite /en /=.
  have h0 := hw 0%N (ltn0Sn _); rewrite addn0 /= /offset /= addn0 in h0; rewrite h0 nth_mkseq //.
  by apply: leq_trans (leq_mul ho (leqnn J)); rewrite mulSn addnC ltn_add2r.
have h : (k.+1 + j < prev.+1)%N by rewrite ltnS; apply: leq_trans hk1; rewrite leq_add2l ltnW.
rewrite nth_rcons size_rcons nth_rcons sv h ltnW // addSnnS (hw j.+1 hj) /=.
by apply: eq_mkseq => c; rewrite /offset /= !addnA.
Qed.

(* the squared error of the network on a datum *)
Definition mlp_loss (d : vec * vec) (z : point) : R :=
  \sum_(c < last I dims) (nth 0 (mlp_net 0 I dims z d.1) c - nth 0 d.2 c) * (nth 0 (mlp_net 0 I dims z d.1) c - nth 0 d.2 c).
Lemma mlp_lossE d z : nth 0 (nth [::] (tape_vals (leaves Sz z) (rec d).1) (rec d).2) 0 = mlp_loss d z.
Proof.
set vs := rcons (leaves Sz z) d.1.
have sv : size vs = P.+1 by rewrite size_rcons size_leaves.
have nP : nth [::] vs P = d.1 by rewrite nth_rcons size_leaves ltnn eqxx.
rewrite /mlp_loss -nP -(@mlp_value z vs 0 0 P) //; first last.
- move=> j hj; have hjP := leq_trans hj mlp_l_le.
  rewrite add0n nth_rcons size_leaves hjP nth_leaves // /Sz nth_cat size_mlp_sizes hj.
  by apply: eq_mkseq => c; rewrite add0n /offset take_cat size_mlp_sizes hj.
- exact: mlp_l_le.
have -> : tape_vals (leaves Sz z) (rec d).1 =
  rcons (tape_vals vs (mlp_calls 0 P I dims)) (nd_fun (sqerr_node d.2 (P + l.*2) (last I dims))
    [:: nth [::] (tape_vals vs (mlp_calls 0 P I dims)) (P + l.*2)]).
  by rewrite /tape_vals /= scan_cat.
by rewrite nth_rcons size_tape_vals sv size_mlp_calls addSn ltnn eqxx.
Qed.
End Mlp.

(* Squared error of a fully connected network of any depth and width with a
   differentiable activation: gradient_and_loss() of an operator for any of its weights
   (in any order, possibly repeated) returns the loss and the partial derivatives. *)
Theorem C90_mlp (f df : R -> R) I dims extra rq params red num_data (loader : seq (vec * vec)) th :
  (forall u, is_derive f u (df u)) -> (0 < I)%N -> all (fun W => 0 < W)%N dims ->
  let Sz := mlp_sizes I dims ++ extra in
  size rq = size Sz -> (forall p, (p < size dims)%N -> nth false rq p) ->
  params <> [::] -> all (fun p => p < size dims)%N params ->
  red <> ROther -> (0 < infer_num_data (fun=> 1%N) num_data loader)%N ->
  Forall_in (fun d => size d.1 = I) loader ->
  let risk z := \sum_(d <- loader) nfac red 1 (infer_num_data (fun=> 1%N) num_data loader) *
    \sum_(c < last I dims) (nth 0 (mlp_net f 0 I dims z d.1) c - nth 0 d.2 c) * (nth 0 (mlp_net f 0 I dims z d.1) c - nth 0 d.2 c) in
  exists gs, [/\ tape_gradient_and_loss (fun=> 1%N) (mlp_record f df (size Sz) I dims) true red num_data loader Sz rq params th
        = Ok (gs, risk th),
    size gs = size params &
    forall k, (k < size params)%N -> let p := nth 0%N params k in
      size (nth [::] gs k) = nth 0%N Sz p /\
      forall c, (c < nth 0 Sz p)%N -> nth 0 (nth [::] gs k) c = pd (offset Sz p + c) risk th].
Proof.
move=> hf hI hd Sz srq hrq hne hp hr hN hl risk.
have hp' : all (fun p => p < size Sz)%N params.
  by apply: sub_all hp => p h; rewrite size_cat size_mlp_sizes ltn_addr.
have hb : Forall_in (batch_ok (mlp_record f df (size Sz) I dims) Sz th) loader.
  by apply: Forall_in_impl hl => d; apply: mlp_ok.
have hu : Forall_in (fun b => forall p, p \in params -> takes_part (mlp_record f df (size Sz) I dims) Sz rq b p) loader.
  by apply: Forall_in_impl hl => d sd p /(allP hp); apply: mlp_takes_part.
have [gs [e1 e2 e3]] := C90_gradient_and_loss srq hp' hne hr hN hb hu.
have er z : \sum_(b <- loader) nfac red 1 (infer_num_data (fun=> 1%N) num_data loader) *
    nth 0 (nth [::] (tape_vals (leaves Sz z) (mlp_record f df (size Sz) I dims b).1) (mlp_record f df (size Sz) I dims b).2) 0 = risk z.
  by apply: eq_bigr => d _; rewrite mlp_lossE.
exists gs; rewrite e1 er; split=> // k hk p; have [h1 h2] := e3 k hk; split=> // c hc.
by have [_ ->] := h2 c hc; apply: pd_ext.
Qed.
Print Assumptions C90_mlp.

(* With a parameter in the list that the network does not use it raises, for any data. *)
Theorem C90_mlp_extra (f df : R -> R) I dims extra rq params red num_data (loader : seq (vec * vec)) th p :
  (forall u, is_derive f u (df u)) -> (0 < I)%N -> all (fun W => 0 < W)%N dims ->
  let Sz := mlp_sizes I dims ++ extra in
  size rq = size Sz -> all (fun p => p < size Sz)%N params -> p \in params -> (size dims <= p)%N ->
  red <> ROther -> (0 < infer_num_data (fun=> 1%N) num_data loader)%N -> loader <> [::] ->
  Forall_in (fun d => size d.1 = I) loader ->
  tape_gradient_and_loss (fun=> 1%N) (mlp_record f df (size Sz) I dims) true red num_data loader Sz rq params th = Err RuntimeError.
Proof.
move=> hf hI hd Sz srq hp hin hlp hr hN hl hsz.
case: loader hN hl hsz => [//|d ld] hN _ hsz; rewrite -[d :: ld]cat0s.
apply: tape_total_raises => //; first by case: (params) hin.
  by apply: Forall_in_impl hsz => d'; apply: mlp_ok.
by exists p => //; apply: mlp_extra => //; apply: allP hp _ hin.
Qed.
Print Assumptions C90_mlp_extra.

(* a network with two inputs, three hidden units, one output and exp as activation, and
   a further parameter; the first weight is listed twice *)
Example C90_ex_mlp (loader : seq (vec * vec)) th : loader <> [::] -> Forall_in (fun d => size d.1 = 2%N) loader ->
  let Sz := mlp_sizes 2 [:: 3; 1]%N ++ [:: 4]%N in
  let call ps := tape_gradient_and_loss (fun=> 1%N) (mlp_record exp exp 3 2 [:: 3; 1]%N) true RMean None loader Sz [:: true; true; true] ps th in
  (exists gs l, call [:: 0; 1; 0]%N = Ok (gs, l) /\ [seq size g | g <- gs] = [:: 6; 3; 6]%N) /\
  call [:: 0; 2]%N = Err RuntimeError.
Proof.
move=> hl hs Sz call.
have hN : (0 < infer_num_data (fun=> 1%N) None loader)%N by case: (loader) hl.
split; last first.
  by rewrite /call; exact: (@C90_mlp_extra exp exp 2 [:: 3; 1]%N [:: 4]%N [:: true; true; true] [:: 0; 2]%N RMean None loader th 2%N
    is_derive_exp erefl erefl erefl erefl erefl erefl (ltac:(by [])) hN hl hs).
have [||||gs [e1 e2 e3]] := @C90_mlp exp exp 2 [:: 3; 1]%N [:: 4]%N [:: true; true; true] [:: 0; 1; 0]%N RMean None loader th is_derive_exp erefl erefl erefl _ _ _ _ hN hs => //.
  by case=> [|[|]].
eexists; eexists; split; first exact: e1.
case: gs e1 e2 e3 => [|g1 [|g2 [|g3 [|]]]] //= _ _ e3.
by have [-> _] := e3 0%N erefl; have [-> _] := e3 1%N erefl; have [-> _] := e3 2%N erefl.
Qed.

(* the Hessian for all three parameters of that network raises, with the network's own two weights it does not
   differ from the model of C14 *)
Example C90_ex_hessian (d : vec * vec) ld th bs M : size d.1 = 2%N ->
  tape_hessian_matmat (fun=> 1%N) (mlp_record exp exp 3 2 [:: 3; 1]%N) RSum None (d :: ld) [:: [:: 3; 2]; [:: 1; 3]; [:: 4]]%N
    [:: true; true; true] bs th M = Err RuntimeError.
Proof.
move=> sd.
apply: (@C90_hessian_raises _ (fun=> 1%N) (mlp_record exp exp 3 2 [:: 3; 1]%N) RSum None [::] d ld [:: [:: 3; 2]; [:: 1; 3]; [:: 4]]%N
  [:: true; true; true] bs th M [seq zeros_like m | m <- M]) => //.
  exact: (@mlp_ok exp exp is_derive_exp 2 [:: 3; 1]%N [:: 4]%N).
by exists 2%N => //; apply: (@mlp_extra exp exp 2 [:: 3; 1]%N [:: 4]%N [:: true; true; true] d 2).
Qed.
Example C90_ex_hessian_ok (d : vec * vec) ld th bs M : size d.1 = 2%N -> Forall_in (fun d => size d.1 = 2%N) ld ->
  let S := [:: [:: 3; 2]; [:: 1; 3]]%N in
  tape_hessian_matmat (@size _) (fun b : seq (vec * vec) => mlp_record exp exp 2 2 [:: 3; 1]%N (head ([::], [::]) b))
    RSum None [seq [:: x] | x <- d :: ld] S [:: true; true] bs th M =
  hessian_matmat 1 (fun x z => mlp_net exp 0 2 [:: 3; 1]%N z x) (fun o y => (nth 0 o 0 - nth 0 y 0) * (nth 0 o 0 - nth 0 y 0))
    RSum None [seq [:: x] | x <- d :: ld] S bs th M.
Proof.
move=> sd sl S.
have hall (Q : seq (vec * vec) -> Prop) : (forall x, size x.1 = 2%N -> Q [:: x]) -> Forall_in Q [seq [:: x] | x <- d :: ld].
  by move=> h; split; [apply: h | elim: ld sl => [//|x l IH] [? ?]; split; [apply: h | apply: IH]].
apply: C90_hessian => //; apply: hall => x sx.
- have := @mlp_ok exp exp is_derive_exp 2 [:: 3; 1]%N [::] erefl erefl th x sx; exact.
- have hrq p : (p < 2)%N -> nth false [:: true; true] p by case: p => [|[|]].
  by move=> p hp; apply: (@mlp_takes_part exp exp is_derive_exp 2 [:: 3; 1]%N [::]).
- move=> z; rewrite -[mlp_record _ _ _ _ _ _]/(mlp_record exp exp (size (mlp_sizes 2 [:: 3; 1]%N ++ [::])) 2 [:: 3; 1]%N x).
  rewrite (@mlp_lossE exp exp 2 [:: 3; 1]%N [::] x z) /mlp_loss /batch_loss /loss_func /= big_ord1.
  by rewrite big_seq1.
Qed.
