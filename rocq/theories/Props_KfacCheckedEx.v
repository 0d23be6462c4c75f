(* Concrete cases for C87, and behaviour of KFAC's determinism check that users
   would not expect. *)
From Coq Require Import Reals Lra String ZArith.
From Coquelicot Require Import Coquelicot.
From mathcomp Require Import all_ssreflect all_algebra.
From Verif Require Import PyPrelude Tensor Spec RInst ROrd Calculus Curvature HessGGN Risk Losses Fisher Kfac KfacScalar Conv KfacCov KfacState KfacStateProof Determinism Props_Det Props_KfacState Props_KfacStateEx KfacChecked Props_KfacChecked.
Set Implicit Arguments.
Unset Strict Implicit.
Unset Printing Implicit Defensive.
Import GRing.Theory Num.Theory.
Local Open Scope ring_scope.
Local Notation tens := (tensor R).

(* the model of Props_KfacStateEx.v: one weight th, one datum, gradient th; both
   loops over the data see the same batch *)
Definition sh1 (o : kop) := [:: [:: 1; 1]%N].
Definition rt (x : R) : tensor (option R) := Tensor [:: 1; 1]%N [:: Some x].
Definition batch1 (o : kop) (th : R) (n : nat) : seq (res (item R_realFieldType)) :=
  [:: Ok (Item (XTensor (rt 1)) (rt 0) (rt th) (Tensor [::] [:: Some th]) [:: rt th])].
Definition fired1 (o : kop) (th : R) (n : nat) := [:: FIn 0 (t11 1); FGrad 0 (t11 th)].
Definition vec1 (o : kop) (n : nat) : seq tens := [:: Tensor [:: 1; 1; 1]%N [:: 1 : R]].
Local Notation cc ps := (construct_checked ps mc1 sh1 batch1 batch1 fired1 vec1 true).
Local Notation fc ps := (from_checked arch1 pl1 ps mc1 sh1 batch1 batch1 fired1 vec1 true).

Lemma allclose_refl (t : tensor (option R_realFieldType)) : wf t -> nan_free t -> allclose_report t t = Ok true.
Proof.
move=> hw hn; have ss : same_shape t t by apply/and3P.
rewrite allclose_same //; case: (@t_closeP R_realFieldType _ _ ss) => // h; exfalso; apply: h; split=> //.
move=> e _; rewrite /close_to subrr normr0; apply: addr_ge0.
  by apply: divr_ge0; [exact: ler01|apply/exprn_ge0/ler0n].
by apply: mulr_ge0; [apply: divr_ge0; [exact: ler0n|apply/exprn_ge0/ler0n]|exact: normr_ge0].
Qed.
Lemma verdict1 (w : world R) o th : data_verdict sh1 batch1 batch1 w o th = Ok tt.
Proof.
rewrite /data_verdict /check_passes /= /expect_close allclose_refl //=.
by rewrite [allclose_report _ _]allclose_refl.
Qed.

(* a checked construction on model 0 of a world without hooks *)
Definition after ps (w : world R) s := (matmat ps mc1 (construct w 0 loss1 ids1 mods1 s).1 (size (w_ops w)) [:: Tensor [:: 1; 1; 1]%N [:: 1 : R]]).1.
Lemma accepted1 ps (w : world R) s ms :
  (construct w 0 loss1 ids1 mods1 s).2 = Ok tt -> lget (w_models w) 0 = Ok ms -> m_hooks ms = [::] ->
  isok (matmat ps mc1 (construct w 0 loss1 ids1 mods1 s).1 (size (w_ops w)) [:: Tensor [:: 1; 1; 1]%N [:: 1 : R]]).2 ->
  cc ps w 0 loss1 ids1 mods1 s = (after ps w s, Ok tt).
Proof.
rewrite /after; case hc : (construct _ _ _ _ _ _) => [wc [[]|e]] //= _ hm hh.
have [_ [o ho _]] := constructed hc.
case hY : (matmat _ _ _ _ _) => [w' [Y|e]] //= _.
exact: (C87_probe_never_rejects fired1 (vec := vec1) hm hh hc ho (verdict1 _ _ _) hY).
Qed.

(* ---- the hypotheses of the theorems hold ---- *)
Definition wc1 := (construct w1 0 loss1 ids1 mods1 set1).1.
Example C87_ex_construct : exists ms o w' Y, [/\ lget (w_models w1) 0 = Ok ms /\ m_hooks ms = [::],
  construct w1 0 loss1 ids1 mods1 set1 = (wc1, Ok tt), lget (w_ops wc1) 0 = Ok o,
  data_verdict sh1 batch1 batch1 wc1 o (m_theta ms) = Ok tt /\ matmat passes1 mc1 wc1 0 (vec1 o (w_tick wc1)) = (w', Ok Y) &
  cc passes1 w1 0 loss1 ids1 mods1 set1 = (w', Ok tt) /\
  clean arch1 pl1 passes1 mc1 w' [:: ATrain 0 (5%:R : R); ANew _ 0 loss1 ids1 mods1 set1; ARead _ 1 Trace; ARead _ 0 Trace]].
Proof.
exists (MState (1 : R) [::]); eexists; exists (after passes1 w1 set1); eexists; split; [by []|by []|reflexivity| |].
  by split; [exact: verdict1|vm_compute; reflexivity].
split; first by apply: (accepted1 (ms := MState (1 : R) [::])) => //; vm_compute.
by apply: clean_bP; vm_compute.
Qed.
(* two loops that see different losses *)
Definition batch2 (o : kop) (th : R) (n : nat) : seq (res (item R_realFieldType)) := [:: Err (UserError 3)].
Example C87_ex_rejected : exists ms o, [/\ lget (w_models w1) 0 = Ok ms /\ m_hooks ms = [::],
  construct w1 0 loss1 ids1 mods1 set1 = (wc1, Ok tt), lget (w_ops wc1) 0 = Ok o &
  data_verdict sh1 batch1 batch2 wc1 o (m_theta ms) = Err (UserError 3)].
Proof. by exists (MState (1 : R) [::]); eexists; split. Qed.

(* ---- nondeterministic factors are accepted ---- *)
(* The factors differ from computation to computation (as those of Monte-Carlo KFAC
   do if the loader shuffles, since the labels are drawn in the order of the data),
   while the loops over the data agree.  The check accepts both operators. *)
Definition passes_nd (o : kop) (th : R) (n : nat) := good1 0 (n.+1%:R : R).
Theorem C87_nondeterminism_refuted :
  let w' := after passes_nd w1 set1 in let w'' := after passes_nd w' set1 in
  [/\ cc passes_nd w1 0 loss1 ids1 mods1 set1 = (w', Ok tt), cc passes_nd w' 0 loss1 ids1 mods1 set1 = (w'', Ok tt),
      (read passes_nd mc1 w'' 0 Trace).2 = Ok (1 : R) & (read passes_nd mc1 w'' 1 Trace).2 = Ok (4%:R : R)].
Proof.
split; [| |vm_compute; congr Ok; real_ifs; lra|vm_compute; congr Ok; real_ifs; lra].
  by apply: (accepted1 (ms := MState (1 : R) [::])) => //; vm_compute.
by apply: (accepted1 (ms := MState (1 : R) [::])) => //; vm_compute.
Qed.
Print Assumptions C87_nondeterminism_refuted.

(* ---- the check decides which matrix is represented ---- *)
(* the parameter changes from 1 to 5 after construction and before the first use:
   with the check the matrix of the old parameter, without it that of the new one *)
Theorem C87_check_decides_matrix_refuted :
  let train w := run arch1 pl1 passes1 mc1 w [:: ATrain 0 (5%:R : R)] in
  [/\ cc passes1 w1 0 loss1 ids1 mods1 set1 = (after passes1 w1 set1, Ok tt),
      (read passes1 mc1 (train (after passes1 w1 set1)) 0 Trace).2 = Ok (1 : R) &
      (read passes1 mc1 (train wc1) 0 Trace).2 = Ok (25%:R : R)].
Proof.
split; [|vm_compute; congr Ok; real_ifs; lra|vm_compute; congr Ok; real_ifs; lra].
by apply: (accepted1 (ms := MState (1 : R) [::])) => //; vm_compute.
Qed.
Print Assumptions C87_check_decides_matrix_refuted.

(* ---- a constructor that raises spoils the model ---- *)
(* num_per_example_loss_terms=0 makes the first factor computation, inside the
   constructor, divide by zero.  Its hooks stay on the model although no operator
   was returned: constructing a correct operator on the model raises from then on. *)
Definition set0 := Settings false (1, 1)%N 0 Empirical 1 Expand 0 true 1.
Definition spoiled := (cc passes1 w1 0 loss1 ids1 mods1 set0).1.
Theorem C87_spoiled_model_refuted :
  [/\ (cc passes1 w1 0 loss1 ids1 mods1 set0).2 = Err ZeroDivisionError,
      (cc passes1 w1 0 loss1 ids1 mods1 set1).2 = Ok tt &
      (cc passes1 spoiled 0 loss1 ids1 mods1 set1).2 = Err ZeroDivisionError].
Proof.
have h0 : cc passes1 w1 0 loss1 ids1 mods1 set0 = (after passes1 w1 set0, Err ZeroDivisionError).
  have hc : construct w1 0 loss1 ids1 mods1 set0 = ((construct w1 0 loss1 ids1 mods1 set0).1, Ok tt) by [].
  have [_ [o ho [h1 h2 _]]] := constructed hc.
  rewrite /construct_checked hc (checkE _ _ _ _ _ _ _ (ms := MState (1 : R) [::]) ho h2) //; last by rewrite h1.
  rewrite verdict1 /after [size _]/=; congr pair.
split; [by rewrite h0| |].
  by rewrite (accepted1 (ms := MState (1 : R) [::])) //; vm_compute.
by rewrite /spoiled h0; vm_compute.
Qed.
Print Assumptions C87_spoiled_model_refuted.

(* ---- restoring fills the operator that was saved ---- *)
(* operator 0 (model 0, gradient th) is saved before its first use and restored
   with the check on model 1 with other data (gradient 3 th).  Operator 0 now uses
   the factors of these data: trace 9 instead of 1. *)
Definition passes_two (o : kop) (th : R) (n : nat) := good1 0 (if o_model o == 0%N then th else 3%:R * th).
Definition w_saved1 := run arch1 pl1 passes_two mc1 w1 [:: ANew _ 0 loss1 ids1 mods1 set1; ASave _ 0].
Definition saved1 : saved := if lget (w_saved w_saved1) 0 is Ok s then s else Saved 0 LMSE RSum set1 0 no_cache [::].
Theorem C87_restore_fills_saved_refuted : exists w',
  [/\ lget (w_saved w_saved1) 0 = Ok saved1, fc passes_two w_saved1 saved1 1 ids1 mods1 = (w', Ok tt),
      (read passes_two mc1 w_saved1 0 Trace).2 = Ok (1 : R) & (read passes_two mc1 w' 0 Trace).2 = Ok (9%:R : R)].
Proof.
pose wf := (from_state_dict arch1 pl1 w_saved1 saved1 1 ids1 mods1).1.
exists (matmat passes_two mc1 wf 1 [:: Tensor [:: 1; 1; 1]%N [:: 1 : R]]).1.
split; [by []| |vm_compute; congr Ok; real_ifs; lra|vm_compute; congr Ok; real_ifs; lra].
have hf : from_state_dict arch1 pl1 w_saved1 saved1 1 ids1 mods1 = (wf, Ok tt) by [].
have [o [ms [ho hp [e1 e2 e3 e4] [f1 f2] [f3 f4]]]] := loaded (erefl : lget (w_models w_saved1) 1 = Ok (MState (2%:R : R) [::])) hf.
by rewrite /from_checked hf (checkE _ _ _ _ _ _ _ (ms := ms) ho hp) ?e1 // verdict1.
Qed.
Print Assumptions C87_restore_fills_saved_refuted.
(* cases of the theorems on from_state_dict: as above, and for a state with factors *)
Definition w_saved2 := run arch1 pl1 passes_two mc1 w1 [:: ANew _ 0 loss1 ids1 mods1 set1; ARead _ 0 Trace; ASave _ 0].
Definition saved2 : saved := if lget (w_saved w_saved2) 0 is Ok s then s else Saved 0 LMSE RSum set1 0 no_cache [::].
Example C87_ex_restore : exists ms0 w', [/\ lget (w_models w_saved2) 1 = Ok ms0, m_hooks ms0 = [::],
  (sd_dicts saved2 < size (w_dicts w_saved2))%N && computed (get_dicts w_saved2 (sd_dicts saved2)),
  from_state_dict arch1 pl1 w_saved2 saved2 1 ids1 mods1 = (w', Ok tt) &
  isok (matmat passes_two mc1 w' 1 (vec1 (Op 0 loss1 [::] set1 0 no_cache) 0)).2 /\ fc passes_two w_saved2 saved2 1 ids1 mods1 = (w', Ok tt)].
Proof.
pose wf := (from_state_dict arch1 pl1 w_saved2 saved2 1 ids1 mods1).1.
have hf : from_state_dict arch1 pl1 w_saved2 saved2 1 ids1 mods1 = (wf, Ok tt).
  have h2 : (from_state_dict arch1 pl1 w_saved2 saved2 1 ids1 mods1).2 = Ok tt by vm_compute.
  by rewrite [LHS]surjective_pairing h2.
have hd : (sd_dicts saved2 < size (w_dicts w_saved2))%N && computed (get_dicts w_saved2 (sd_dicts saved2)) by vm_compute.
exists (MState (2%:R : R) [::]), wf; split=> //.
have hm : isok (matmat passes_two mc1 wf 1 (vec1 (Op 0 loss1 [::] set1 0 no_cache) 0)).2 by vm_compute.
split=> //; have [hd1 hd2] := andP hd.
have ms1 : lget (w_models w_saved2) 1 = Ok (MState (2%:R : R) [::]) by vm_compute.
have [o [ms [ho hms h1 h2 h3]]] := C87_restore_computed passes_two mc1 sh1 batch1 batch1 fired1 vec1 ms1 erefl hd1 hd2 hf.
move: h1 (h3 (verdict1 _ _ _)); case: (from_checked _ _ _ _ _ _ _ _ _ _ _ _ _ _ _) => w' r /= -> ->.
by [].
Qed.
