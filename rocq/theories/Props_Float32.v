(* C84 for single precision (Flocq: 24 bits, round to nearest even). *)
From Coq Require Import ZArith Lia Reals Lra Permutation.
From Flocq Require Import Core Relative.
From mathcomp Require Import all_ssreflect all_algebra.
From Verif Require Import PyPrelude Tensor Spec TorchBase RInst ROrd Calculus Curvature HessGGN Risk Determinism Props_Det Rounding Props_Rounding.
Set Implicit Arguments.
Unset Strict Implicit.
Unset Printing Implicit Defensive.
Import GRing.Theory Order.TTheory Num.Theory.

Definition rnd32 : R -> R := round radix2 (FLX_exp 24) ZnearestE.
Definition u32 : R := bpow radix2 (-24).

Lemma prec24 : Prec_gt_0 24. Proof. by []. Qed.

Local Open Scope ring_scope.
Lemma u32_ge0 : 0 <= u32 :> R.
Proof. by apply/leRE; apply: bpow_ge_0. Qed.

Lemma rnd32_rounds : rounds u32 rnd32.
Proof.
move=> x; apply/leRE; have h := @relative_error_N_FLX radix2 24 prec24 (fun x => negb (Z.even x)) x.
rewrite /rnd32 /u32; toR; apply: Rle_trans h _; apply: Req_le; congr Rmult.
by rewrite -[X in _ = X]/(bpow radix2 (-24)) /= ; lra.
Qed.

Lemma natE (n : nat) : n%:R = IZR (Z.of_nat n) :> R.
Proof. by rewrite natrE INR_IZR_INZ. Qed.
Lemma u32E : u32 = Rinv (IZR 16777216) :> R.
Proof. by rewrite /u32 /=; congr Rinv. Qed.
Lemma rtolE : Determinism.rtol [realFieldType of R] = Rdiv (IZR 5) (IZR 100000) :> R.
Proof.
rewrite /Determinism.rtol.
have e : 10%:R ^+ 5 = IZR 100000 :> R by rewrite !natE !exprS expr0 [Z.of_nat 10]/=; toR; lra.
have h : (10%:R ^+ 5 : R) != 0 by rewrite expf_neq0 // pnatr_eq0.
by apply: (mulIf h); rewrite mulfVK // e !natE [Z.of_nat 5]/=; toR; lra.
Qed.

Lemma gam_linear u n : 0 <= u :> R -> n%:R * u * 2%:R <= 1 -> gam u n <= n%:R * u * 2%:R.
Proof.
move=> hu; rewrite /gam ler_subl_addl; elim: n => [|n IH] h; first by rewrite expr0 !mul0r addr0.
have hn : n%:R * u * 2%:R <= 1.
  by apply: le_trans h; rewrite !ler_wpmul2r ?ler0n // ler_nat.
rewrite exprS; apply: le_trans (ler_wpmul2l _ (IH hn)) _; first by rewrite addr_ge0 ?ler01.
have -> : (1 + u) * (1 + n%:R * u * 2%:R) = 1 + n%:R * u * 2%:R + (u + u * (n%:R * u * 2%:R)) by toR; ring.
have -> : 1 + n.+1%:R * u * 2%:R = 1 + n%:R * u * 2%:R + (u + u) by rewrite [n.+1%:R]mulrSr; toR; ring.
by rewrite !ler_add2l -[X in _ <= X]mulr1 ler_wpmul2l.
Qed.

(* up to 200 batches whose gradient entries do not change sign: the order does not matter
   for the check *)
Theorem C84_single_precision S (a b : seq (item [realFieldType of R])) : a <> [::] -> (size a <= 200)%N -> Permutation a b ->
  Forall_items (item_ok S) a -> grads_nan_free S a -> t_close (last_loss a) (last_loss b) ->
  (forall e, (e < total S)%N ->
     Forall_in (fun it => 0 <= odflt 0 (nth None (flat (it_grad it)) e)) a \/
     Forall_in (fun it => odflt 0 (nth None (flat (it_grad it)) e) <= 0) a) ->
  fl_check_passes rnd32 true false S (map Ok a) (map Ok b) = Ok tt.
Proof.
move=> ha hsz hp hok hnf hl hsign.
apply: (C84_check_accepts u32_ge0 rnd32_rounds (kappa := 1)) => //.
  move=> e he; rewrite mul1r /total_grad; case: (hsign e he) => h; first by rewrite norm_sum.
  rewrite -normrN -sumrN -norm_sum; last by apply: Forall_in_impl h => it; rewrite oppr_ge0.
  by under [X in _ <= X]eq_bigr => it _ do rewrite normrN.
rewrite mulr1.
have hg : gam u32 (size a) <= 200%:R * u32 * 2%:R.
  apply: le_trans (gam_mono u32_ge0 hsz) (gam_linear u32_ge0 _); apply/leRE.
  by rewrite !natE u32E [Z.of_nat 200]/= [Z.of_nat 2]/=; toR; lra.
apply: (@le_trans _ _ (200%:R * u32 * 2%:R * (2%:R + Determinism.rtol [realFieldType of R]))).
  by apply: ler_wpmul2r => //; rewrite addr_ge0 ?ler0n // /Determinism.rtol divr_ge0 ?exprn_ge0 ?ler0n.
by apply/leRE; rewrite rtolE !natE u32E [Z.of_nat 200]/= [Z.of_nat 2]/=; toR; lra.
Qed.
Print Assumptions C84_single_precision.

(* ---- cancellation ---- *)
Definition big : R := bpow radix2 25.

Lemma rnd32_0 : rnd32 0 = 0 :> R. Proof. exact: round_0. Qed.
Lemma rnd32_bpow e : rnd32 (bpow radix2 e) = bpow radix2 e.
Proof. by apply: round_generic; apply: generic_format_bpow; rewrite /FLX_exp; lia. Qed.
Lemma rnd32_1 : rnd32 1 = 1 :> R. Proof. exact: (rnd32_bpow 0). Qed.
Lemma bigE : big = IZR 33554432 :> R. Proof. by rewrite /big /=. Qed.
Lemma rnd32_big1 : rnd32 (big + 1) = big.
Proof.
have hm : mag radix2 (big + 1) = Z.pos 26 :> Z.
  apply: mag_unique; rewrite bigE /=; toR; rewrite Rabs_pos_eq; lra.
rewrite /rnd32 /round /scaled_mantissa /cexp hm [FLX_exp 24 26]/= .
have -> : ZnearestE ((big + 1) * bpow radix2 (-2)) = Z.pos 8388608.
  by apply: Znearest_imp; rewrite bigE /=; toR; apply: Rabs_lt; lra.
by rewrite /F2R bigE /=; toR; lra.
Qed.

(* a linear model with one parameter at 0: loss 0, gradient x *)
Definition lin_item (x : R) : item [realFieldType of R] :=
  Item (XTensor (scalar (Some x))) (scalar (Some 0)) (scalar (Some 0)) (scalar (Some 0)) [:: Tensor [:: 1%N] [:: Some x]].

Lemma lin_passes (r : R -> R) (B : R) :
  fl_check_passes r true false [:: [:: 1%N]] (map Ok (map lin_item [:: B; 1; - B])) (map Ok (map lin_item [:: B; - B; 1])) =
  if isclose (Some (r (r (r (0 + B) + 1) - B) : [realFieldType of R])) (Some (r (r (r (0 + B) - B) + 1))) then Ok tt else Err RuntimeError.
Proof.
rewrite /fl_check_passes /= expect_close_same; last by [].
rewrite (introT (t_closeP _)) //=; last by apply: t_close_refl.
by rewrite /allclose_report /= andbT; case: (_ <= _).
Qed.

(* the same batches in two orders, no difference in exact arithmetic: RuntimeError *)
Theorem C84_cancellation_refuted : exists S (a b : seq (item [realFieldType of R])),
  [/\ Permutation a b, Forall_items (item_ok S) a, grads_nan_free S a &
   fl_check_passes id true false S (map Ok a) (map Ok b) = Ok tt /\
   fl_check_passes rnd32 true false S (map Ok a) (map Ok b) = Err RuntimeError].
Proof.
exists [:: [:: 1%N]], (map lin_item [:: big; 1; - big]), (map lin_item [:: big; - big; 1]); split.
- by apply/perm_skip/perm_swap.
- by rewrite /=; do !split.
- by case=> // e; rewrite /=; do !split.
split; rewrite lin_passes.
  have -> : id (id (id (0 + big) + 1) - big) = id (id (id (0 + big) - big) + 1) by rewrite /= addrAC.
  by rewrite /isclose ifT //; exact: (@close_refl [realFieldType of R] _).
rewrite add0r (rnd32_bpow 25) -/big rnd32_big1 subrr rnd32_0 add0r rnd32_1 /isclose sub0r normrN normr1 mulr1.
have -> // : (1 <= Determinism.atol [realFieldType of R] + Determinism.rtol [realFieldType of R]) = false.
apply/negP => /leRE; rewrite rtolE.
have -> : Determinism.atol [realFieldType of R] = Rdiv (IZR 1) (IZR 1000000) :> R.
  rewrite /Determinism.atol.
  have e : 10%:R ^+ 6 = IZR 1000000 :> R by rewrite !natE !exprS expr0 [Z.of_nat 10]/=; toR; lra.
  have h : (10%:R ^+ 6 : R) != 0 by rewrite expf_neq0 // pnatr_eq0.
  by apply: (mulIf h); rewrite mulfVK // e; toR; lra.
by toR; lra.
Qed.
Print Assumptions C84_cancellation_refuted.

(* ---- concrete cases ---- *)
Definition rnd64 : R -> R := round radix2 (FLX_exp 53) ZnearestE.

(* tensors in single precision, Python's factor in double precision, both kernels *)
Example C84_ex_rounding : [/\ rounds u32 rnd64, axpy_rounds u32 (axpy_unfused rnd32) & axpy_rounds u32 (axpy_fused rnd32)].
Proof.
split; [|exact: (unfused_rounds u32_ge0 rnd32_rounds)|exact: (fused_rounds u32_ge0 rnd32_rounds)].
move=> x; have p53 : Prec_gt_0 53 by [].
apply/leRE; have h := @relative_error_N_FLX radix2 53 p53 (fun x => negb (Z.even x)) x.
rewrite /rnd64; toR; apply: Rle_trans h _; apply: Rmult_le_compat_r; first exact: Rabs_pos.
rewrite u32E /=; lra.
Qed.

(* two batches with results 2 and 3 for one parameter *)
Example C84_ex_products : let B := fun n : nat => [:: Tensor [:: 1; 1]%N [:: n%:R : R]] in
  valid_mat [:: [:: 1%N]] 1 [:: Tensor [:: 1; 1]%N [:: 1 : R]] /\
  Forall_in (fun n => (fun b _ => Ok (B b)) n [:: Tensor [:: 1; 1]%N [:: 1 : R]] = Ok (B n) /\ valid_mat [:: [:: 1%N]] 1 (B n)) [:: 2; 3]%N.
Proof. by do !split. Qed.

Example C84_ex_gradient : Forall_in (fun x : R => Ok ([:: Tensor [:: 1%N] [:: x]], x * x) = Ok ([:: Tensor [:: 1%N] [:: x]], x * x) :> res _ /\
  gshaped [:: [:: 1%N]] [:: Tensor [:: 1%N] [:: x]]) [:: 1; 1 + 1].
Proof. by do !split. Qed.

Example C84_ex_check : let a := map lin_item [:: 1; 1 + 1] in let b := map lin_item [:: 1 + 1; 1] in
  [/\ Permutation a b, Forall_items (item_ok [:: [:: 1%N]]) a, grads_nan_free [:: [:: 1%N]] a,
      t_close (last_loss a) (last_loss b) &
      forall e, (e < total [:: [:: 1%N]])%N -> Forall_in (fun it => 0 <= odflt 0 (nth None (flat (it_grad it)) e)) a].
Proof.
split; [exact: perm_swap|by rewrite /=; do !split|by case=> // e; rewrite /=; do !split|exact: t_close_refl|].
by case=> // _ /=; split; [exact: ler01|split; [rewrite addr_ge0 ?ler01|]].
Qed.
