(* C90 (continued): second derivatives of fully connected networks by two backward passes. *)
From Coq Require Import Reals.
From Coquelicot Require Import Coquelicot.
From mathcomp Require Import all_ssreflect all_algebra.
From Verif Require Import PyPrelude Tensor RInst Calculus Losses Curvature ActHess Autograd AutogradProof AutogradLoss
  Props_Autograd DoubleBack Props_DoubleBack DoubleBackMlp.
Set Implicit Arguments.
Unset Strict Implicit.
Unset Printing Implicit Defensive.
Import GRing.Theory.
Local Open Scope ring_scope.

Local Notation vec := (seq R).

Section Mlp2.
Variables f df ddf : R -> R.
Hypothesis hf : forall u, is_derive f u (df u).
Hypothesis hdf : forall u, is_derive df u (ddf u).

Lemma mlp_calls_twice vs k prev I dims : size vs = prev.+1 -> size (nth [::] vs prev) = I -> (0 < I)%N ->
  all (fun W => 0 < W)%N dims -> (k + size dims <= prev)%N ->
  (forall j, (j < size dims)%N -> size (nth [::] vs (k + j)) = nth 0%N (mlp_sizes I dims) j) ->
  tape_twice vs (mlp_calls f df k prev I dims).
Proof.
elim: dims vs k prev I => [|W dims IH] vs k prev I sv sI hI hd hk hw //.
move: hd => /= /andP[hW hd].
set v1 := mkseq _ W; set vs1 := rcons vs v1.
have n1 : nth [::] vs1 prev.+1 = v1 by rewrite nth_rcons sv ltnn eqxx.
set v2 := mkseq _ W.
have s1 : size v1 = W by rewrite size_mkseq.
have sv2 : size (rcons vs1 v2) = prev.+3 by rewrite !size_rcons sv.
have n2 : size (nth [::] (rcons vs1 v2) prev.+2) = W by rewrite nth_rcons size_rcons sv ltnn eqxx size_mkseq.
have hk1 : (k.+1 + size dims <= prev)%N by rewrite addSnnS.
have hw2 j : (j < size dims)%N -> size (nth [::] (rcons vs1 v2) (k.+1 + j)) = nth 0%N (mlp_sizes W dims) j.
  move=> hj; have h : (k.+1 + j < prev.+1)%N.
    by rewrite ltnS; apply: leq_trans hk1; rewrite leq_add2l ltnW.
  by rewrite nth_rcons size_rcons nth_rcons sv h ltnW // addSnnS (hw j.+1 hj).
split; first by move=> k' u pos hk' su; apply: linear2_ok => //; have := hw 0%N (ltn0Sn _); rewrite addn0.
split; last exact: (IH _ k.+1 prev.+2 W sv2 n2 hW hd (leqW (leqW hk1)) hw2).
by move=> k' u pos hk' su; apply: (@map2_ok f df ddf) => //=; rewrite n1.
Qed.

Variables (I : nat) (dims extra : seq nat).
Hypothesis hI : (0 < I)%N.
Hypothesis hdims : all (fun W => 0 < W)%N dims.
Let Sz := mlp_sizes I dims ++ extra.
Let P := size Sz.
Let l := size dims.

Lemma mlp_twice z d : size d.1 = I -> tape_twice (leaves Sz z) (mlp_record f df P I dims d).1.
Proof.
move=> sx; set vs := rcons (leaves Sz z) d.1.
have lP : (l <= P)%N by rewrite /P size_cat size_mlp_sizes leq_addr.
have sv : size vs = P.+1 by rewrite size_rcons size_leaves.
have nP : size (nth [::] vs P) = I by rewrite nth_rcons size_leaves ltnn eqxx.
have hw j : (j < l)%N -> size (nth [::] vs (0 + j)) = nth 0%N (mlp_sizes I dims) j.
  move=> hj; have hjP := leq_trans hj lP.
  by rewrite add0n nth_rcons size_leaves hjP size_leaf /Sz nth_cat size_mlp_sizes hj.
have [h1 h2] := mlp_calls_ok hf sv nP hI hdims (lP : (0 + l <= P)%N) hw.
split=> //; apply/tape_twice_cat; split; first exact: (mlp_calls_twice sv nP hI hdims (lP : (0 + l <= P)%N) hw).
by split=> // k u pos hk su; apply: sqerr2_ok.
Qed.
End Mlp2.

(* Networks with any numbers of layers and units, any twice differentiable activation and
   squared error, possibly with further parameters that the network does not use: if the two
   backward passes return, they return the derivatives of the loss' derivative along v. *)
Theorem C90_mlp_double_backward (f df ddf : R -> R) I dims extra rq (d : vec * vec) inputs v inputs2 th Hs :
  (forall u, is_derive f u (df u)) -> (forall u, is_derive df u (ddf u)) ->
  (0 < I)%N -> all (fun W => 0 < W)%N dims -> size d.1 = I ->
  let Sz := mlp_sizes I dims ++ extra in
  size rq = size Sz -> [seq size x | x <- v] = [seq nth 0%N Sz p | p <- inputs] ->
  let t := mlp_record f df (size Sz) I dims d in
  double_backward exact_vjp2 Sz rq t.1 t.2 inputs v inputs2 th = Ok Hs ->
  let loss z := \sum_(c < last I dims)
    (nth 0 (mlp_net f 0 I dims z d.1) c - nth 0 d.2 c) * (nth 0 (mlp_net f 0 I dims z d.1) c - nth 0 d.2 c) in
  let along_v z := \sum_(i < size inputs) \sum_(e < nth 0%N Sz (nth 0%N inputs i))
    pd (offset Sz (nth 0%N inputs i) + e) loss z * nth 0 (nth [::] v i) e in
  size Hs = size inputs2 /\
  forall k, (k < size inputs2)%N -> let p := nth 0%N inputs2 k in
    size (nth [::] Hs k) = nth 0%N Sz p /\
    forall c, (c < nth 0 Sz p)%N ->
      ex_pd (offset Sz p + c) along_v th /\ nth 0 (nth [::] Hs k) c = pd (offset Sz p + c) along_v th.
Proof.
move=> hf hdf hI hd sx Sz sq sv t e loss along_v.
have ok z : tape_ok (leaves Sz z) t.1 by have [] := mlp_ok hf extra hI hd z sx.
have tw z : tape_twice (leaves Sz z) t.1 by apply: (@mlp_twice f df ddf).
have [_ ho so] := mlp_ok hf extra hI hd th sx.
have [h1 h2] := C90_double_backward sq ok (twice_vjp2 ok tw) ho so sv e; split=> // k hk p.
have [h3 h4] := h2 k hk; split=> // c hc; have [h5 h6] := h4 c hc.
have el z : nth 0 (nth [::] (tape_vals (leaves Sz z) t.1) t.2) 0 = loss z by rewrite /t mlp_lossE.
have ea z : \sum_(i < size inputs) \sum_(e < nth 0%N Sz (nth 0%N inputs i))
    pd (offset Sz (nth 0%N inputs i) + e) (fun z => nth 0 (nth [::] (tape_vals (leaves Sz z) t.1) t.2) 0) z * nth 0 (nth [::] v i) e = along_v z.
  by apply: eq_bigr => i _; apply: eq_bigr => e' _; congr (_ * _); apply: pd_ext.
split; first exact: ex_pd_ext ea h5.
by rewrite h6; apply: pd_ext.
Qed.
Print Assumptions C90_mlp_double_backward.

(* a search for paths on the tape *)
Fixpoint usesb (fuel P : nat) (t : seq item) (rs : seq bool) (out j : nat) : bool :=
  if fuel is fuel'.+1 then (j == out) || (nth false rs j &&
    has (fun i => if nth (Data [::]) t i is Call n then (j \in nd_args n) && usesb fuel' P t rs out (P + i) else false) (iota 0 (size t)))
  else false.
Lemma usesbP fuel P t rs out j : usesb fuel P t rs out j -> uses P t rs out j.
Proof.
elim: fuel j => [//|fuel IH] j /= /orP[/eqP ->|/andP[hr /hasP[i _]]]; first exact: uses_out.
case e: (nth _ t i) => [//|n] /andP[hin /IH hu].
by apply: (uses_arg hu (leq_addr _ _) _ hin hr); rewrite addKn.
Qed.

(* for a network with two inputs, two hidden units, one output, exp as activation and a
   further parameter, the passes return when the network's own weights are given (one of
   them twice) *)
Example C90_ex_mlp_double_backward (d : vec * vec) th v : size d.1 = 2%N -> [seq size x | x <- v] = [:: 2; 4; 2]%N ->
  let Sz := mlp_sizes 2 [:: 2; 1]%N ++ [:: 3]%N in
  let t := mlp_record exp exp (size Sz) 2 [:: 2; 1]%N d in
  exists Hs, double_backward exact_vjp2 Sz [:: true; true; true] t.1 t.2 [:: 1; 0; 1]%N v [:: 0; 1]%N th = Ok Hs.
Proof.
move=> sx sv Sz t; have [ext [gs [er hu]]] : exists ext gs,
    rec_grad exact_vjp2 Sz [:: true; true; true] t.1 t.2 [:: 1; 0; 1]%N = Ok (ext, gs) /\
    let T := rcons ext (Call (dot_node gs v)) in
    all (usesb 20 (size Sz) T (tape_rg [:: true; true; true] T) (size Sz + size ext)) [:: 0; 1]%N.
  eexists; eexists; split; first by lazy -[exact_vjp2 mkseq bigop]; reflexivity.
  by [].
have ok z : tape_ok (leaves Sz z) t.1 by have [] := @mlp_ok exp exp is_derive_exp 2 [:: 2; 1]%N [:: 3]%N erefl erefl z d sx.
have tw z : tape_twice (leaves Sz z) t.1 by apply: (@mlp_twice exp exp exp is_derive_exp is_derive_exp).
have [_ ho so] := @mlp_ok exp exp is_derive_exp 2 [:: 2; 1]%N [:: 3]%N erefl erefl th d sx.
have [h _] := @C90_second_pass exact_vjp2 Sz t.1 [:: true; true; true] t.2 [:: 1; 0; 1]%N v [:: 0; 1]%N th ext gs erefl ok (twice_vjp2 ok tw) ho so
  sv erefl (ltac:(by [])) er.
apply: h => p hp; split; first by move: hp; rewrite !inE => /orP[] /eqP ->.
by apply: (@usesbP 20); apply: allP hu _ hp.
Qed.
