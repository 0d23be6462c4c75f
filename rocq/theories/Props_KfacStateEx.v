(* Concrete histories of KFAC operators: cases that meet the hypotheses of
   Props_KfacState.v, and histories for which C38-C42 are false of the code. *)
From Coq Require Import Reals Lra String ZArith.
From Coquelicot Require Import Coquelicot.
From mathcomp Require Import all_ssreflect all_algebra.
From Verif Require Import PyPrelude Tensor Spec TorchBase OpSpec RInst ROrd Calculus Curvature HessGGN Risk Losses Fisher Kfac KfacSpec KfacProof KfacMap KfacScalar Conv KfacCov Props_Kfac KfacState KfacStateProof Props_KfacState.
Set Implicit Arguments.
Unset Strict Implicit.
Unset Printing Implicit Defensive.
Import GRing.Theory.
Local Open Scope ring_scope.
Local Notation tens := (tensor R).

(* ---- deciding that a history is clean ---- *)
Definition isok (A : Type) (r : res A) : bool := if r is Ok _ then true else false.
Lemma isokE (r : res unit) : isok r -> r = Ok tt.
Proof. by case: r => // -[]. Qed.
Section Check.
Variables (Theta : Type) (arch : Theta -> nat) (partial_load : Theta -> Theta -> Theta).
Variables (passes : kop -> Theta -> nat -> seq (res firing)) (mconv : nat -> nat -> option conv).
Local Notation step := (step arch partial_load passes mconv).
Definition map_eqb (a b : mapping) : bool := a == b.
Definition clean_step_b (w : world Theta) (a : action Theta) : bool :=
  match a with
  | AMatmat i _ => isok (ensure passes mconv w i).2
  | ARead _ _ => isok (step w a).2
  | ALoad i j =>
      if lget (w_ops w) i is Ok o then if lget (w_saved w) j is Ok s then
        own_keys_ok (get_dicts w (o_dicts o)) (o_mapping o) && (isok (step w a).2 ==> map_eqb (sd_origin s) (o_mapping o)) else true else true
  | AFrom j m ids mods => isok (step w a).2 ==>
      (if lget (w_saved w) j is Ok s then if compute_parameter_mapping ids mods is Ok mp then map_eqb mp (sd_origin s) else false else true)
  | _ => true
  end.
Lemma clean_step_bP w a : clean_step_b w a -> clean_step arch partial_load passes mconv w a.
Proof.
case: a => [m lo ids mods s'|i M|i p|i|i j|j m ids mods|j|m th] //=.
- exact: isokE.
- exact: isokE.
- move=> h o s ho hs; move: h; rewrite ho hs => /andP[-> h]; split=> // e.
  by move: h; rewrite [isok _]/(isok _) e => /eqP.
- move=> h s hs; move: h; rewrite hs => h e; move: h; rewrite e /=.
  by case: (compute_parameter_mapping _ _) => // mp /eqP ->.
Qed.
Fixpoint clean_b (w : world Theta) (acts : seq (action Theta)) : bool :=
  if acts is a :: acts' then clean_step_b w a && clean_b (step w a).1 acts' else true.
Lemma clean_bP w acts : clean_b w acts -> clean arch partial_load passes mconv w acts.
Proof. by elim: acts w => [|a acts IH] w //= /andP[/clean_step_bP h1 /IH h2]. Qed.
End Check.

(* models with one parameter th (a Linear layer with one input and one output,
   without bias); a datum with input 1 and output gradient th *)
Definition ids1 := [:: 10%N].
Definition mods1 := [:: Module 0 true [:: (Weight, 10%N)]].
Definition set1 := Settings false (1, 1)%N 0 Empirical 1 Expand 1 true 1.
Definition loss1 := LossObj LMSE true RSum.
Definition t11 (x : R) : tens := Tensor [:: 1; 1]%N [:: x].
Definition good1 (k : nat) (th : R) : seq (res firing) := [:: Ok (FIn k (t11 1)); Ok (FGrad k (t11 th))].
Definition w1 : world R := World [:: MState (1 : R) [::]; MState (2%:R : R) [::]] [::] [::] [::] 0.
Definition arch1 (th : R) := 0%N.
Definition pl1 (a b : R) := a.
Definition mc1 (m k : nat) : option conv := None.
Definition passes1 (o : kop) (th : R) (n : nat) := good1 0 th.
Local Notation run1 := (run arch1 pl1 passes1 mc1).
Local Notation step1 := (step arch1 pl1 passes1 mc1).
Local Notation clean1 := (clean arch1 pl1 passes1 mc1).

Lemma fresh1 : fresh w1.
Proof. by split=> //; case=> [|[|m]] ms //= [<-]. Qed.

(* operators whose factors are computed, saved, restored, loaded and shared; the
   last one is for another loss and rejects the state *)
Definition acts1 : seq (action R) :=
  [:: ANew _ 0 loss1 ids1 mods1 set1; ASave _ 0; ARead _ 0 Trace; ASave _ 0; AFrom _ 1 1 ids1 mods1;
      ATrain 1 (5%:R : R); ARead _ 1 Trace; ANew _ 1 loss1 ids1 mods1 set1; AMatmat _ 2 [::]; ALoad _ 2 1;
      ANew _ 1 (LossObj LCE true RSum) ids1 mods1 set1; ALoad _ 3 1; ARead _ 2 Trace].
Lemma clean_acts1 : clean1 w1 acts1.
Proof.
by apply: clean_bP; vm_compute.
Qed.

Ltac real_ifs := repeat match goal with |- context [Req_EM_T ?a ?b] => destruct (Req_EM_T a b); try (exfalso; lra) end.

Definition last1 := read passes1 mc1 (run1 w1 acts1) 1 Trace.
Definition op1 : kop := if lget (w_ops last1.1) 1 is Ok o then o else Op 0 loss1 [::] set1 0 no_cache.
Definition dicts1 := get_dicts last1.1 (o_dicts op1).
Lemma read1 : last1.2 = Ok (1 : R).
Proof. by vm_compute; congr Ok; real_ifs; lra. Qed.
Lemma op1E : lget (w_ops last1.1) 1 = Ok op1.
Proof. vm_compute; reflexivity. Qed.
Lemma dicts1E : exists a g, dicts1 = ([:: (0%N, t11 a)], [:: (0%N, t11 g)]).
Proof. do 2 eexists; vm_compute; reflexivity. Qed.
Lemma sep1 : s_sep (o_set op1) = true.
Proof. vm_compute; reflexivity. Qed.
Lemma map1 : o_mapping op1 = [:: (0%N, [:: (Weight, 0%N)])].
Proof. vm_compute; reflexivity. Qed.
Lemma net1 (a g : R) : kfac_net (F := [fieldType of R]) true [:: [:: 1; 1]%N] ids1 mods1 [:: (0%N, t11 a)] [:: (0%N, t11 g)].
Proof.
split=> //; first by split=> // m /=; case=> [<-|//].
move=> m /=; case=> [<-|//] _; split=> //.
exists 1%N, (t11 g); split=> // [w]; rewrite /at_pos /= => -[<-].
exists [:: 1%N], (t11 a); split=> //; split=> //; by case=> [|i] [|j].
Qed.
(* the hypotheses of C38_properties_match_product hold: operator 1, restored from
   a state saved by operator 0, after it was trained and read *)
Example C38_ex : [/\ fresh w1, clean1 w1 acts1, last1.2 = Ok (1 : R), lget (w_ops last1.1) 1 = Ok op1 &
  compute_parameter_mapping ids1 mods1 = Ok (o_mapping op1) /\
  kfac_net (F := [fieldType of R]) (s_sep (o_set op1)) [:: [:: 1; 1]%N] ids1 mods1 dicts1.1 dicts1.2].
Proof.
split; [exact: fresh1|exact: clean_acts1|exact: read1|exact: op1E|split]; first by rewrite map1.
by have [a [g ->]] := dicts1E; rewrite sep1; exact: net1.
Qed.

(* ---------- states of other operators: C38, C40 ---------- *)
(* one Linear layer with bias; a second one called 1 *)
Definition mods2 := [:: Module 0 true [:: (Weight, 10%N); (Bias, 11%N)]; Module 1 true [:: (Weight, 20%N); (Bias, 21%N)]].
Definition passes2 (o : kop) (th : R) (n : nat) := good1 0 th ++ good1 1 th.
Local Notation run2 := (run arch1 pl1 passes2 mc1).
Local Notation step2 := (step arch1 pl1 passes2 mc1).
Local Notation read2 := (read passes2 mc1).
Local Notation matmat2 := (matmat passes2 mc1).

(* An operator for the weight of layer 0 loads the state of one for its weight and
   bias.  The load succeeds, but trace is the other operator's: 2 instead of 1. *)
Definition foreign : seq (action R) :=
  [:: ANew _ 0 loss1 [:: 10; 11]%N mods2 set1; ARead _ 0 Trace; ASave _ 0; ANew _ 1 loss1 [:: 10]%N mods2 set1; ALoad _ 1 0].
Definition factors (w : world R) (i : nat) : dict nat_eqType tens * dict nat_eqType tens :=
  if lget (w_ops w) i is Ok o then get_dicts w (o_dicts o) else ([::], [::]).
Definition op_of (w : world R) (i : nat) : kop := if lget (w_ops w) i is Ok o then o else Op 0 loss1 [::] set1 0 no_cache.
Definition true_value (w : world R) (i : nat) (p : prop) : res R :=
  prop_value p (s_sep (o_set (op_of w i))) (factors w i).1 (factors w i).2 (o_mapping (op_of w i)).
Theorem C38_foreign_state_refuted : exists (v v' : R),
  [/\ (step2 (run2 w1 (take 4 foreign)) (ALoad _ 1 0)).2 = Ok tt, (read2 (run2 w1 foreign) 1 Trace).2 = Ok v,
      true_value (run2 w1 foreign) 1 Trace = Ok v' & v <> v'].
Proof.
exists 2%:R, 1; split; [by []|vm_compute; congr Ok; real_ifs; lra|vm_compute; congr Ok; real_ifs; lra|].
by toR; lra.
Qed.
Print Assumptions C38_foreign_state_refuted.

(* A state for layer 1 is accepted by an operator for layer 0, whose product then
   raises a KeyError. *)
Theorem C40_foreign_layers_accepted_refuted :
  let w := run2 w1 [:: ANew _ 0 loss1 [:: 20]%N mods2 set1; ARead _ 0 Trace; ASave _ 0; ANew _ 1 loss1 [:: 10]%N mods2 set1] in
  [/\ (step2 w (ALoad _ 1 0)).2 = Ok tt,
      (exists Y, (matmat2 w 1 [:: Tensor [:: 1; 1; 1]%N [:: 1]]).2 = Ok Y) &
      (matmat2 (step2 w (ALoad _ 1 0)).1 1 [:: Tensor [:: 1; 1; 1]%N [:: 1]]).2 = Err KeyError].
Proof. by split; [vm_compute|eexists; vm_compute; reflexivity|vm_compute]. Qed.
Print Assumptions C40_foreign_layers_accepted_refuted.

(* ---------- C39, C40: the keys that are checked are the operator's own ---------- *)
(* the weight of layer 0 and only the bias of layer 1 *)
Definition bias_only : seq (action R) := [:: ANew _ 0 loss1 [:: 10; 21]%N mods2 set1; ARead _ 0 Trace; ASave _ 0].
Theorem C39_bias_only_refuted :
  [/\ (exists v, (read2 (run2 w1 bias_only) 0 Trace).2 = Ok v),
      (exists s, lget (w_saved (run2 w1 bias_only)) 0 = Ok s /\ state_dict (op_of (run2 w1 bias_only) 0) = Ok s) &
      (step2 (run2 w1 bias_only) (ALoad _ 0 0)).2 = Err ValueError].
Proof. split; [eexists; vm_compute; reflexivity|eexists; split; vm_compute; reflexivity|by vm_compute]. Qed.
Print Assumptions C39_bias_only_refuted.

(* operators whose loss is an instance of a subclass cannot be saved *)
Theorem C39_loss_subclass_refuted o : ~~ l_exact (o_loss o) -> state_dict o = Err KeyError.
Proof. by rewrite /state_dict; case: (l_exact _). Qed.
Print Assumptions C39_loss_subclass_refuted.

(* A state with separate_weight_and_bias = False is rejected because of the keys,
   but its settings are kept: the product that worked before the failed load now
   raises. *)
Definition set2 := Settings false (3, 3)%N 0 Empirical 1 Expand 1 false 1.
Definition rejected : seq (action R) :=
  [:: ANew _ 0 loss1 [:: 10; 11; 21]%N mods2 set1; ARead _ 0 Trace; ANew _ 1 loss1 [:: 10; 11; 21]%N mods2 set2; ASave _ 1].
Definition M3 : seq tens := [:: Tensor [:: 1; 1; 1]%N [:: 1]; Tensor [:: 1; 1]%N [:: 1]; Tensor [:: 1; 1]%N [:: 1]].
Theorem C40_settings_overwritten_refuted : let w := run2 w1 rejected in
  [/\ (exists Y, (matmat2 w 0 M3).2 = Ok Y), (step2 w (ALoad _ 0 0)).2 = Err ValueError,
      s_sep (o_set (op_of (step2 w (ALoad _ 0 0)).1 0)) <> s_sep (o_set (op_of w 0)) &
      exists e, (matmat2 (step2 w (ALoad _ 0 0)).1 0 M3).2 = Err e].
Proof.
split; [eexists; vm_compute; reflexivity|by vm_compute|by vm_compute|eexists; vm_compute; reflexivity].
Qed.
Print Assumptions C40_settings_overwritten_refuted.

(* A state for another loss is rejected, but the model has its parameters. *)
Definition theta_of (w : world R) (m : nat) : R := if lget (w_models w) m is Ok ms then m_theta ms else 0.
Theorem C40_model_overwritten_refuted :
  let w := run2 w1 [:: ANew _ 0 loss1 [:: 10]%N mods2 set1; ANew _ 1 (LossObj LCE true RSum) [:: 10]%N mods2 set1; ASave _ 1] in
  [/\ (step2 w (ALoad _ 0 0)).2 = Err ValueError, theta_of w 0 = 1 & theta_of (step2 w (ALoad _ 0 0)).1 0 = 2%:R].
Proof. by split; vm_compute. Qed.
Print Assumptions C40_model_overwritten_refuted.
Example C40_ex_loss : let w := run2 w1 [:: ANew _ 0 loss1 [:: 10]%N mods2 set1; ANew _ 1 (LossObj LCE true RSum) [:: 10]%N mods2 set1; ASave _ 1] in
  exists o s, [/\ lget (w_ops w) 0 = Ok o, lget (w_saved w) 0 = Ok s, exists m, lget (w_models w) (o_model o) = Ok m,
    exists m, lget (w_models w) (sd_model s) = Ok m & sd_kind s <> l_kind (o_loss o)].
Proof. do 2 eexists; split; [reflexivity|reflexivity|eexists; reflexivity|eexists; reflexivity|by []]. Qed.

(* ---------- C41 ---------- *)
(* a state saved before the factors were computed gets them later *)
Theorem C41_live_dictionaries_refuted : let w := run1 w1 [:: ANew _ 0 loss1 ids1 mods1 set1; ASave _ 0] in
  exists s, [/\ lget (w_saved w) 0 = Ok s, clean1 w [:: ARead _ 0 Trace], get_dicts w (sd_dicts s) = ([::], [::]) &
    get_dicts (run1 w [:: ARead _ 0 Trace]) (sd_dicts s) <> ([::], [::])].
Proof. by eexists; split; [reflexivity|vm_compute|by []|vm_compute]. Qed.
Print Assumptions C41_live_dictionaries_refuted.

(* the parameters in a saved state are those of the model *)
Theorem C41_live_parameters_refuted : let w := run1 w1 [:: ANew _ 0 loss1 ids1 mods1 set1; ASave _ 0] in
  exists s, [/\ lget (w_saved w) 0 = Ok s, theta_of w (sd_model s) = 1 & theta_of (run1 w [:: ATrain 0 (5%:R : R)]) (sd_model s) = 5%:R].
Proof. by eexists; split. Qed.
Print Assumptions C41_live_parameters_refuted.

(* Two operators restored from one state saved before the factors were computed:
   operator 2 gets the factors of operator 1's model, although the parameters of
   operator 2's model are others and were changed before. *)
Definition w3 : world R := World [:: MState (1 : R) [::]; MState (2%:R : R) [::]; MState (2%:R : R) [::]] [::] [::] [::] 0.
Definition shared : seq (action R) :=
  [:: ANew _ 0 loss1 ids1 mods1 set1; ASave _ 0; AFrom _ 0 1 ids1 mods1; AFrom _ 0 2 ids1 mods1; ATrain 2 (2%:R : R)].
Theorem C41_shared_restore_refuted : let w := run1 w3 shared in
  [/\ clean1 w3 shared, (read passes1 mc1 w 2 Trace).2 = Ok (4%:R : R) &
      (read passes1 mc1 (run1 w [:: ARead _ 1 Trace]) 2 Trace).2 = Ok (1 : R)].
Proof.
split; [|vm_compute; congr Ok; real_ifs; lra|vm_compute; congr Ok; real_ifs; lra].
by apply: clean_bP; vm_compute.
Qed.
Print Assumptions C41_shared_restore_refuted.

(* ---------- C42 ---------- *)
(* two batches, an exception in the second one at the first attempt *)
Definition passes_fail (o : kop) (th : R) (n : nat) :=
  if n == 0%N then good1 0 th ++ [:: Err (UserError 0)] else good1 0 th ++ good1 0 th.
Local Notation run4 := (run arch1 pl1 passes_fail mc1).
Definition new1 : seq (action R) := [:: ANew _ 0 loss1 ids1 mods1 set1].
(* the next call uses the factors of the first batch: 1 instead of 2 * 2 *)
Theorem C42_partial_factors_refuted :
  let w := run4 w1 new1 in let w' := (read passes_fail mc1 w 0 Trace).1 in
  [/\ (read passes_fail mc1 w 0 Trace).2 = Err (UserError 0), (read passes_fail mc1 w' 0 Trace).2 = Ok (1 : R) &
      (* without the failed attempt *)
      (read passes_fail mc1 (World (w_models w) (w_dicts w) (w_ops w) (w_saved w) 1) 0 Trace).2 = Ok (4%:R : R)].
Proof. by split; [vm_compute|vm_compute; congr Ok; real_ifs; lra|vm_compute; congr Ok; real_ifs; lra]. Qed.
Print Assumptions C42_partial_factors_refuted.

(* an exception before anything was computed: the hooks stay on the model, and the
   second attempt accumulates everything twice: 4 instead of 1 *)
Definition passes_retry (o : kop) (th : R) (n : nat) := if n == 0%N then [:: Err (UserError 0)] else good1 0 th.
Theorem C42_retry_doubles_refuted :
  let w := run arch1 pl1 passes_retry mc1 w1 new1 in let w' := (read passes_retry mc1 w 0 Trace).1 in
  [/\ (read passes_retry mc1 w 0 Trace).2 = Err (UserError 0), factors w' 0 = ([::], [::]),
      [seq m_hooks m | m <- w_models w'] = [:: [:: 0%N]; [::]],
      (read passes_retry mc1 w' 0 Trace).2 = Ok (4%:R : R) &
      (read passes_retry mc1 (World (w_models w) (w_dicts w) (w_ops w) (w_saved w) 1) 0 Trace).2 = Ok (1 : R)].
Proof. by split; [vm_compute|vm_compute|vm_compute|vm_compute; congr Ok; real_ifs; lra|vm_compute; congr Ok; real_ifs; lra]. Qed.
Print Assumptions C42_retry_doubles_refuted.

(* the left-over hooks of operator 0 run when operator 1 computes its factors *)
Theorem C42_hooks_stay_refuted :
  let w := (read passes_retry mc1 (run arch1 pl1 passes_retry mc1 w1 (new1 ++ new1)) 0 Trace).1 in
  factors w 0 = ([::], [::]) /\ factors (read passes_retry mc1 w 1 Trace).1 0 <> ([::], [::]).
Proof. by split; vm_compute. Qed.
Print Assumptions C42_hooks_stay_refuted.

(* an exception after the forward pass: the second read raises a KeyError, the
   third returns 0 *)
Definition passes_forward (o : kop) (th : R) (n : nat) : seq (res firing) := [:: Ok (FIn 0 (t11 1)); Err (UserError 0)].
Theorem C42_zero_trace_refuted :
  let rd w := read passes_forward mc1 w 0 Trace in let w := run arch1 pl1 passes_forward mc1 w1 new1 in
  [/\ (rd w).2 = Err (UserError 0), (rd (rd w).1).2 = Err KeyError & (rd (rd (rd w).1).1).2 = Ok (0 : R)].
Proof. by split; vm_compute. Qed.
Print Assumptions C42_zero_trace_refuted.

(* cases for the positive theorems on C39, C41 and C42 *)
Example C39_ex : let w := run1 w1 [:: ANew _ 0 loss1 ids1 mods1 set1; ARead _ 0 Trace; ANew _ 1 loss1 ids1 mods1 set1] in
  exists o o2 s, [/\ lget (w_ops w) 0 = Ok o, lget (w_ops w) 1 = Ok o2, state_dict o = Ok s, o_mapping o2 = o_mapping o &
    computed (get_dicts w (o_dicts o)) /\ keys_complete (get_dicts w (o_dicts o2)) (o_mapping o2)].
Proof. by do 3 eexists; split; try (vm_compute; reflexivity); split; [vm_compute|left]. Qed.
Example C41_ex : let w := run1 w1 (take 4 acts1) in
  exists s o, [/\ lget (w_saved w) 1 = Ok s, computed (get_dicts w (sd_dicts s)), lget (w_ops w) 0 = Ok o,
    computed (get_dicts w (o_dicts o)) & ~~ has (loads 0) (drop 4 acts1)].
Proof. by do 2 eexists; split; vm_compute. Qed.
Example C42_ex : exists w', ensure passes_retry mc1 (run arch1 pl1 passes_retry mc1 w1 new1) 0 = (w', Err (UserError 0)).
Proof. by eexists; vm_compute; reflexivity. Qed.

(* a case for the theorem on successful computations *)
Example C42_ex_success : let w := run1 w1 new1 in let w' := (read passes1 mc1 w 0 Trace).1 in
  [/\ exists v, read passes1 mc1 w 0 Trace = (w', Ok v), factors w 0 = ([::], [::]) & factors w' 0 <> ([::], [::])].
Proof. by split; [eexists; vm_compute; reflexivity|vm_compute|vm_compute]. Qed.

(* a reachable state with two operators for C37_operators_have_parameters, and a
   rejected empty list *)
Example C37_ex_parameters : let w := run1 w1 (new1 ++ [:: ARead _ 0 Frob] ++ new1) in
  [/\ fresh w1, size (w_ops w) = 2%N & (construct w 0 loss1 [::] mods1 set1).2 = Err RuntimeError].
Proof.
split; last 2 first; try by vm_compute.
by split=> // -[|[|m]] ms //= [<-].
Qed.
