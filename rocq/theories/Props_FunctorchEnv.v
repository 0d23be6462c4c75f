(* C73: the vectors the reference implementations and the operators are compared on hold the
   listed parameters one after the other. *)
From Coq Require Import Reals.
From mathcomp Require Import all_ssreflect all_algebra.
From Verif Require Import PyPrelude Tensor Spec RInst Calculus HessGGN Kfac Functorch FunctorchProof Props_Functorch.
Set Implicit Arguments.
Unset Strict Implicit.
Unset Printing Implicit Defensive.
Import GRing.Theory.
Local Open Scope ring_scope.

Lemma dget_in (l : seq (nat * nat)) a b : uniq [seq p.1 | p <- l] -> (a, b) \in l -> dget a l = Some b.
Proof.
move=> u h; have hi : (index (a, b) l < size l)%N by rewrite index_mem.
have := dget_nth 0%N u hi; rewrite (nth_map (a, b)) // (nth_map (a, b)) // nth_index //.
Qed.

Section Env.
Variables (named : seq (nat * nat)) (frozen : nat -> seq R) (params : seq tparam).
Local Notation S := [seq tp_shape p | p <- params].
Hypothesis ok : params_ok named params.

(* the parameter listed at place i reads the entries after those of the parameters before it,
   by whatever name the module knows it, in the module and in functional_call alike *)
Theorem C73_parameter_values i nm p z : nth None [seq Some p | p <- params] i = Some p -> (nm, tp_ptr p) \in named ->
  let vals := [seq z j | j <- iota (total (take i S)) (numel (tp_shape p))] in
  module_env named frozen params z nm = vals /\
  exists d, make_params_dict named params = Ok d /\ dict_env frozen d z nm = vals.
Proof.
move=> hi hnm vals; suff h : module_env named frozen params z nm = vals.
  by split=> //; exists (zip (names named params) params); split; [exact: make_params_dictE|rewrite envE].
have hs : (i < size params)%N.
  by case: ltnP => // h; move: hi; rewrite nth_default // size_map.
have ep : nth p params i = p by move: hi; rewrite (nth_map p) // => -[].
case/and4P: ok => u1 u2 u3 _.
rewrite /module_env (dget_in u1 hnm).
have hptr : nth (tp_ptr p) [seq tp_ptr p | p <- params] i = tp_ptr p by rewrite (nth_map p) // ep.
have e : index (tp_ptr p) [seq tp_ptr p | p <- params] = i by rewrite -[in LHS]hptr index_uniq ?size_map.
have -> : tp_ptr p \in [seq tp_ptr p | p <- params] by apply/(nthP (tp_ptr p)); exists i; rewrite ?size_map.
rewrite e.
rewrite /param_val /param_at pshape_nth ?size_map // poff_pack ?size_map // (nth_map p) // ep.
rewrite /slice /vals /mkseq add0n -[in RHS](addn0 (total _)) iotaDl /total !map_take.
by rewrite -!map_comp /offset.
Qed.

(* all other parameters of the module keep their values *)
Theorem C73_other_values nm ptr z : (nm, ptr) \in named -> ptr \notin [seq tp_ptr p | p <- params] ->
  module_env named frozen params z nm = frozen nm /\
  exists d, make_params_dict named params = Ok d /\ dict_env frozen d z nm = frozen nm.
Proof.
move=> hnm hp; suff h : module_env named frozen params z nm = frozen nm.
  by split=> //; exists (zip (names named params) params); split; [exact: make_params_dictE|rewrite envE].
by case/and4P: ok => u1 _ _ _; rewrite /module_env (dget_in u1 hnm) (negbTE hp).
Qed.
End Env.
Print Assumptions C73_parameter_values.
Print Assumptions C73_other_values.

(* the bias, listed first although the module lists it second *)
Example C73_ex_values z : module_env FEx.named FEx.frozen FEx.params z 11 = [:: z 0%N] /\
  module_env FEx.named FEx.frozen FEx.params z 10 = [:: z 1%N].
Proof.
have h : params_ok FEx.named FEx.params by [].
by have [-> _] := @C73_parameter_values _ FEx.frozen _ h 0%N 11%N (TParam 8 0 [:: 1%N]) z erefl isT;
   have [-> _] := @C73_parameter_values _ FEx.frozen _ h 1%N 10%N (TParam 7 0 [:: 1%N]) z erefl isT.
Qed.
