(* Concrete networks for C70-C72 and C76. *)
From Coq Require Import Reals String Lra.
From Coquelicot Require Import Coquelicot.
From mathcomp Require Import all_ssreflect all_algebra.
From Verif Require Import PyPrelude Tensor Spec TorchBase Submatrix RInst Calculus Curvature HessGGN OpSpec
  Activation ActivationProof Props_Activation ActHess Props_ActHess.
Set Implicit Arguments.
Unset Strict Implicit.
Unset Printing Implicit Defensive.
Import GRing.Theory.
Local Open Scope ring_scope.

Local Notation tens := (tensor R).

(* Sequential(Linear, square), one datum with one feature; a hook of the user on the
   first layer *)
Definition ex_lin := Layer 1 (Tensor [:: 1; 1]%N [:: IZR 3]) [:: 1; 1]%N (fun p v => [:: nth 0 p 0 * nth 0 v 0]).
Definition ex_sq := Layer 2 (Tensor [::] [:: R1]) [:: 1; 1]%N (fun p v => [:: nth 0 p 0 * (nth 0 v 0 * nth 0 v 0)]).
Definition ex_ls := [:: ex_lin; ex_sq].
Definition ex_paths := [:: (""%string, 0%N); ("lin"%string, 1%N); ("sq"%string, 2%N)].
Definition ex_w := World [:: (4%N, (1%N, User (fun _ out => Ok out)))] 7 [::].
Definition ex_ell (p : seq R) (y : R) : R := nth 0 p 0 - y.
Definition ex_x : tens := Tensor [:: 1; 1]%N [:: IZR 5].

Lemma ex_w_users : only_users (w_hooks ex_w) /\ ids_below ex_w /\ observing (users (w_hooks ex_w)).
Proof. by split=> //; split=> // m ins out; rewrite /users /=; case: m => [|[|m]]. Qed.


Definition ex_acts (a : activation) : Prop :=
  a = ("lin"%string, "output"%string, 0 : int) \/ a = ("sq"%string, "input"%string, 0 : int).
Example C76_ex act : ex_acts act ->
  exists H, act_hessian_is (fun=> 1%N) (fun=> false) ex_paths (sequential 0 ex_ls) (loss_prog ex_ell) RMean ex_w act (ex_x, R1)
    [:: 1; 1]%N H /\ H 0%N 0%N = IZR 2.
Proof.
have [h1 [h2 h3]] := ex_w_users.
have hr : RMean <> ROther by [].
move=> ha.
have hidx : act.2 = 0 by case: ha => ->.
have hsel : selects 0 ex_ls ex_lin ex_paths 0 act.
  case: ha => ->; [apply: Or31|apply: Or32]; split=> //.
    by split=> //; right; left.
  by split=> //; right; right; left.
have := @C76_sequential R ex_ell R1 0 ex_ls ex_x ex_lin (fun=> 1%N) (fun=> false) ex_paths RMean ex_w h1 h2 h3
  erefl isT hr isT 0 act isT hidx hsel.
move=> h; eexists; split; first exact: h.
rewrite /through /= /apply_layer /=.
set f := fun z : point => _.
have e1 : forall z, pd 0 f z = IZR 2 * z 0%N.
  move=> z; apply: is_derive_unique.
  apply: (is_derive_ext (fun t => Rminus (Rmult t t) R1)).
    by move=> t; rewrite /f /ex_ell /= upd_same mul1r.
  by auto_derive => //; toR; ring.
rewrite (@pd_ext _ (fun z => IZR 2 * z 0%N)) //.
by rewrite pd_scal pd_coord /= mulr1.
Qed.

Example C05_ex_activation act : ex_acts act ->
  act_self_adjoint (fun=> 1%N) (fun=> false) ex_paths (sequential 0 ex_ls) (loss_prog ex_ell) RMean ex_w act (ex_x, R1) [:: 1; 1]%N.
Proof.
have [h1 [h2 h3]] := ex_w_users.
have hr : RMean <> ROther by [].
move=> ha.
have hidx : act.2 = 0 by case: ha => ->.
have hsel : selects 0 ex_ls ex_lin ex_paths 0 act.
  case: ha => ->; [apply: Or31|apply: Or32]; split=> //.
    by split=> //; right; left.
  by split=> //; right; right; left.
apply: (@C05_activation_hessian_self_adjoint R ex_ell R1 0 ex_ls ex_x ex_lin (fun=> 1%N) (fun=> false) ex_paths RMean ex_w h1 h2 h3
  erefl isT hr isT 0 act isT hidx hsel).
by move=> [|i] [|j].
Qed.
Example C76_network_input_ex : exists A,
  (act_init (fun=> 1%N) (fun=> false) ex_paths (sequential 0 ex_ls) ex_w ("lin"%string, "input"%string, 0 : int) [:: (ex_x, R1)]).2 = Ok A /\
  (act_matmul (fun=> 1%N) ex_paths (sequential 0 ex_ls) (loss_prog ex_ell) RMean ex_w A [:: (ex_x, R1)]
     (VTensor (Tensor [:: 1]%N [:: R1]))).2 = Err RuntimeError.
Proof.
have [h1 [h2 h3]] := ex_w_users.
have [|A [e1 _ e3]] := @C76_network_input_refuted R ex_ell R1 0 ex_ls ex_x ex_lin (fun=> 1%N) (fun=> false) ex_paths RMean ex_w h1 h3
  erefl isT (fun e => eq_ind RMean (fun r => if r is ROther then False else True) I _ e) isT ("lin"%string, "input"%string, 0 : int) isT erefl.
- by left; split=> //; right; left.
by exists A; split=> //; apply: (e3 _ false None).
Qed.

(* a model that calls its only submodule twice and then raises or not *)
Definition ex_twice (fail : bool) : prog arg :=
  Compute (leaf false ex_x) (fun x => Compute (leaf true ex_x) (fun a => Leave 1 [:: ATens x] (OTens a) (fun r1 =>
  Compute (leaf true ex_x) (fun b => Leave 1 [:: ATens a] (OTuple [:: ATens a; ATens b]) (fun r2 =>
  if fail then Throw (UserError 3) else match r1, r2 with Ok _, Ok _ => Ret (ATens b) | Err e, _ | _, Err e => Throw e end))))).

Example C70_ex : let uses := [:: Construct (fun=> 1%N) (fun=> false) ex_paths (fun _ : tens => ex_twice true) ("lin"%string, "output"%string, 0 : int) [:: (ex_x, R1)];
      Shape ex_paths (fun _ : tens => ex_twice false) ("lin"%string, "input"%string, 5%:Z) [:: (ex_x, R1)]] in
  w_hooks (foldl (fun w u => after u w) ex_w uses) = w_hooks ex_w /\
  (act_init (fun=> 1%N) (fun=> false) ex_paths (fun _ : tens => ex_twice true) ex_w ("lin"%string, "output"%string, 0 : int) [:: (ex_x, R1)]).2 = Err (UserError 3).
Proof. by split; [apply: C70_hooks_restored|]. Qed.

(* the second call's input is tensor 1, its output is tensor 2 *)
Example C72_ex : [/\ calls (users (w_hooks ex_w)) 1 (ex_twice false) 0 = [:: ([:: ATens 0], OTens 1); ([:: ATens 1], OTuple [:: ATens 1; ATens 2])],
  requested "input" 0 [:: ATens 1] (OTuple [:: ATens 1; ATens 2]) (ATens 1) &
  requested "output" (-1) [:: ATens 1] (OTuple [:: ATens 1; ATens 2]) (ATens 2)].
Proof.
split=> //; first by exists 0%N => //; split=> //; left.
by exists 1%N => //; split=> //; right.
Qed.
