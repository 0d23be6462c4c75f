(* C44: the matrix square root of the loss Hessian. *)
From Coq Require Import Reals Lra FunctionalExtensionality.
From Coquelicot Require Import Coquelicot.
From mathcomp Require Import all_ssreflect all_algebra.
From Verif Require Import PyPrelude Tensor Spec TorchBase Submatrix RInst Calculus Curvature Losses Fisher FisherMC LossHess.
Set Implicit Arguments.
Unset Strict Implicit.
Unset Printing Implicit Defensive.
Import GRing.Theory.
Local Open Scope ring_scope.

Local Notation tens := (tensor R).

(* the loss of one datum with C logits, reduced as torch documents *)
Definition reduced_loss (k : loss_kind) (red : reduction) (C : nat) (y : target) (f : point) : R :=
  match red with RMean => (if is_ce k then 1 else C%:R^-1) | _ => 1 end * torch_row k C (mkseq f C) y.

Lemma sqrt2 (x : R) : Rle (IZR 0) x -> sqrt x * sqrt x = x.
Proof. exact: sqrt_sqrt. Qed.

Lemma sum_delta2 C (f g : nat -> R) i j : (i < C)%N -> (j < C)%N ->
  \sum_(k < C) ((i == k :> nat)%:R * f k) * ((j == k :> nat)%:R * g k) = (i == j)%:R * (f i * g i).
Proof.
move=> hi hj; rewrite (bigD1 (Ordinal hi)) //= eqxx mul1r big1 ?addr0; first by rewrite (eq_sym j) mulrCA.
move=> k /eqP hk; case: (i =P k :> nat) => [e|_]; last by rewrite mul0r mul0r.
by case: hk; apply: val_inj.
Qed.

Lemma invn_ge0 n : (0 < n)%N -> Rle (IZR 0) (n%:R^-1).
Proof.
move=> h; have n0 : (n%:R : R) <> 0 by apply/eqP; exact: natr_neq0.
rewrite -(RinvE n0) natrE; apply: Rlt_le; apply: Rinv_0_lt_compat.
by apply: lt_0_INR; apply/ltP.
Qed.

Lemma mk2_entry C f i j : (i < C)%N -> (j < C)%N -> entry C (tdata (mk2 C f)) i j = f i j.
Proof.
move=> hi hj; have C0 : (0 < C)%N by apply: leq_ltn_trans hj.
rewrite /entry nth_mkseq; last first.
  by apply: (@leq_trans (i.+1 * C)%N); [rewrite mulSn addnC ltn_add2r | rewrite leq_mul2r hi orbT].
by rewrite divnMDl // divn_small // addn0 modnMDl modn_small.
Qed.

Lemma c_factorE red C : red <> ROther -> (0 < C)%N ->
  exists c, [/\ c_factor red C = Ok c, Rle (IZR 0) c & c = match red with RMean => C%:R^-1 | _ => 1 end].
Proof.
move=> hr hC; rewrite /c_factor /py_div (negbTE (natr_neq0 hC)) /= mul1r.
case: red hr => // _; eexists; split; try reflexivity; first exact: invn_ge0.
by apply: Rlt_le; exact: Rlt_0_1.
Qed.

Lemma row_of_mkseq k C y f : torch_row k C (mkseq f C) y =
  match k, y with
  | LMSE, TVec y => mse_row C f y | LCE, TCls y => if (y < C)%N then ce_row C f y else torch_row k C (mkseq f C) (TCls y)
  | LBCE, TVec y => bce_row C f y | _, _ => 0 end.
Proof.
case: k y => [] [y|y] //=.
- by apply: eq_bigr => c _; rewrite nth_mkseq.
- case: ifP => // hy; rewrite /ce_row /softmax nth_mkseq //; congr (- ln (Rdiv _ _)).
  by apply: eq_bigr => c _; rewrite nth_mkseq.
by apply: eq_bigr => c _; rewrite nth_mkseq.
Qed.

(* S S^T is the matrix of second derivatives of the reduced loss, for every
   prediction and admissible target, for all three losses and both reductions *)
Theorem C44_square_root k red C (f : seq R) (y : target) yrest yvals :
  red <> ROther -> (0 < C)%N -> size f = C -> target_ok k C y ->
  (k = LCE -> C <> 1%N) ->                              (* see C44_one_class_refuted *)
  (k = LBCE -> binary yvals) ->                         (* yvals: the entries of the target tensor *)
  exists S, [/\ loss_hessian_matrix_sqrt k red (Tensor [:: 1; C]%N f) (1%N :: yrest) yvals = Ok S,
    tshape S = [:: C; C], wf S &
    forall i j, (i < C)%N -> (j < C)%N ->
      \sum_(l < C) entry C (tdata S) i l * entry C (tdata S) j l =
      pd j (pd i (reduced_loss k red C y)) (nth 0 f)].
Proof.
move=> hr hC hf hy hce hbce.
have wf2 g : wf (mk2 C g) by rewrite /wf /= size_mkseq muln1.
have hess i j : pd j (pd i (reduced_loss k red C y)) (nth 0 f) =
    match red with RMean => (if is_ce k then 1 else C%:R^-1) | _ => 1 end *
    pd j (pd i (fun g => torch_row k C (mkseq g C) y)) (nth 0 f).
  by rewrite /reduced_loss pd2_scal.
have [c [ec c0 cE]] := c_factorE hr hC.
rewrite /loss_hessian_matrix_sqrt /=.
case: k y hy hce hbce hess => [] [y|y] //= hy hce hbce hess.
- rewrite ec /=; eexists; split; [reflexivity|reflexivity|exact: wf2|move=> i j hi hj].
  under eq_bigr => l _ do rewrite !mk2_entry //.
  rewrite hess (sum_delta2 (fun=> sqrt (2 * c)) (fun=> sqrt (2 * c))) // -cE.
  rewrite sqrt2; last by apply: Rmult_le_pos => //; toR; lra.
  have -> : pd j (pd i (fun g => mse_row C (nth 0 (mkseq g C)) y)) (nth 0 f) = pd j (pd i (mse_row C ^~ y)) (nth 0 f).
    by apply: pd_ext => z; apply: pd_ext => z'; apply: (row_of_mkseq LMSE C (TVec y)).
  rewrite mse_hessian //; case: eqP => _; rewrite ?mul1r ?mul0r ?mulr0 //.
  by rewrite mulrC.
- rewrite (introF eqP (hce erefl)); eexists; split; [reflexivity|reflexivity|exact: wf2|move=> i j hi hj].
  under eq_bigr => l _ do rewrite !mk2_entry //.
  rewrite hess (_ : match red with RMean => 1 | _ => 1 end = 1); last by case: red {hr ec cE hess}.
  rewrite mul1r; set p := softmax C (nth 0 f).
  have -> : pd j (pd i (fun g => ce_row C (nth 0 (mkseq g C)) y)) (nth 0 f) = pd j (pd i (ce_row C ^~ y)) (nth 0 f).
    by apply: pd_ext => z; apply: pd_ext => z'; have := row_of_mkseq LCE C (TCls y) z'; rewrite hy.
  rewrite ce_hessian // -/p sqrt_1.
  have p0 l : Rle (IZR 0) (p l) by apply: Rlt_le; apply: softmax_gt0.
  have sp l : sqrt (p l) * sqrt (p l) = p l by apply: sqrt2.
  transitivity (\sum_(l < C) (((i == l :> nat)%:R * sqrt (p l)) * ((j == l :> nat)%:R * sqrt (p l))
     - p j * ((i == l :> nat)%:R * p l) - p i * ((j == l :> nat)%:R * p l) + p i * p j * p l)).
    apply: eq_bigr => l _; have e (a : nat) : (a == l :> nat)%:R * sqrt (p a) = (a == l :> nat)%:R * sqrt (p l) :> R.
      by case: eqP => [->|_] //; rewrite !mul0r.
    rewrite !e; have hs := sp l; set s := sqrt (p l) in hs *; clearbody s; rewrite -hs.
    rewrite (_ : IZR 1 = 1 :> R) // !mulr1; move: (i == l :> nat)%:R (j == l :> nat)%:R (p i) (p j) => a b u v.
    by toR; ring.
  rewrite !big_split /= !sumrN -!mulr_sumr.
  rewrite (sum_delta2 (fun l => sqrt (p l)) (fun l => sqrt (p l))) // sp softmax_sum //.
  have dl (a : nat) : (a < C)%N -> \sum_(l < C) (a == l :> nat)%:R * p l = p a.
    move=> ha; rewrite (bigD1 (Ordinal ha)) //= eqxx mul1r big1 ?addr0 // => l /eqP hl.
    by case: eqP => [e|_]; [case: hl; apply: val_inj|rewrite mul0r].
  by rewrite !dl //; toR; ring.
rewrite (hbce erefl) /= ec /=; eexists; split; [reflexivity|reflexivity|exact: wf2|move=> i j hi hj].
under eq_bigr => l _ do rewrite !mk2_entry //.
set p := fun i => sigmoid (nth 0 f i).
have -> : \sum_(l < C) ((i == l :> nat)%:R * (sqrt c * sqrt (sigmoid (nth 0 f i) * (1 - sigmoid (nth 0 f i))))) *
    ((j == l :> nat)%:R * (sqrt c * sqrt (sigmoid (nth 0 f j) * (1 - sigmoid (nth 0 f j))))) =
    (i == j)%:R * ((sqrt c * sqrt (p i * (1 - p i))) * (sqrt c * sqrt (p j * (1 - p j)))).
  exact: (sum_delta2 (fun=> (sqrt c * sqrt (p i * (1 - p i)))) (fun=> (sqrt c * sqrt (p j * (1 - p j))))).
have -> : pd j (pd i (reduced_loss LBCE red C (TVec y))) (nth 0 f) = c * pd j (pd i (bce_row C ^~ y)) (nth 0 f).
  rewrite hess cE; congr (_ * _).
  by apply: pd_ext => z; apply: pd_ext => z'; apply: (row_of_mkseq LBCE C (TVec y)).
rewrite bce_hessian //; case: eqP => [->|_]; last by rewrite mul0r mulr0.
rewrite mul1r mulrACA sqrt2 // sqrt2 //.
have [h1 h2] := sigmoid_bounds (nth 0 f j); apply: Rmult_le_pos; exact: Rlt_le.
Qed.
Print Assumptions C44_square_root.

(* a classifier with a single class is refused although its Hessian (0) has a root *)
Theorem C44_one_class_refuted red (t : R) yrest yvals :
  loss_hessian_matrix_sqrt LCE red (Tensor [:: 1; 1]%N [:: t]) (1%N :: yrest) yvals = Err RuntimeError /\
  pd 0 (pd 0 (reduced_loss LCE red 1 (TCls 0))) (fun=> t) = 0.
Proof.
split=> //; rewrite /reduced_loss pd2_scal.
rewrite (_ : match red with RMean => _ | _ => 1 end = 1) ?mul1r; last by case: red.
have -> : pd 0 (pd 0 (fun f => torch_row LCE 1 (mkseq f 1) (TCls 0))) (fun=> t) = pd 0 (pd 0 (ce_row 1 ^~ 0%N)) (fun=> t).
  by apply: pd_ext => z; apply: pd_ext => z'; have := row_of_mkseq LCE 1 (TCls 0) z'.
rewrite ce_hessian // eqxx.
have <- : softmax 1 (fun=> t) 0 = 1 by rewrite -(@softmax_sum 1 (fun=> t)) // big_ord1.
have -> : softmax 1 (fun=> t) 0 = 1 by rewrite -(@softmax_sum 1 (fun=> t)) // big_ord1.
by rewrite !mulr1 subrr.
Qed.
Print Assumptions C44_one_class_refuted.

(* which inputs are refused *)
Theorem C44_rejects k red (o : tens) yshape yvals :
  (forall C, tshape o <> [:: 1%N; C]) ->
  loss_hessian_matrix_sqrt k red o yshape yvals = Err ValueError.
Proof.
rewrite /loss_hessian_matrix_sqrt; case: (tshape o) => [|[|[|n]] [|C []]] //= h.
by case: (h C).
Qed.
Print Assumptions C44_rejects.
Theorem C44_rejects_targets k red (o : tens) C n yrest yvals : tshape o = [:: 1%N; C] ->
  (n <> 1%N -> loss_hessian_matrix_sqrt k red o (n :: yrest) yvals = Err ValueError) /\
  (k = LBCE -> ~~ binary yvals -> loss_hessian_matrix_sqrt k red o (1%N :: yrest) yvals = Err NotImplementedError).
Proof.
move=> ho; rewrite /loss_hessian_matrix_sqrt ho; split; first by move=> /eqP ->.
by move=> -> /= ->.
Qed.
Print Assumptions C44_rejects_targets.

(* The documentation's formula for cross-entropy, diag(sqrt p) - sqrt(p) p^T, is
   the transpose of what the code returns and is not a root in the documented
   sense S S^T. *)
Definition documented_root (C : nat) (f : point) (i j : nat) : R :=
  (i == j)%:R * sqrt (softmax C f i) - sqrt (softmax C f i) * softmax C f j.
Theorem C44_documented_formula_refuted : exists f : point,
  \sum_(l < 2) documented_root 2 f 0 l * documented_root 2 f 0 l <>
  pd 0 (pd 0 (reduced_loss LCE RSum 2 (TCls 0))) f.
Proof.
pose f : point := fun c => if c == 0%N then ln (IZR 3) else IZR 0.
exists f.
have hs : sumexp 2 f = IZR 4.
  rewrite /sumexp !big_ord_recl big_ord0 /f /= exp_ln; last by lra.
  by rewrite exp_0; toR; lra.
have p0 : softmax 2 f 0 = Rdiv (IZR 3) (IZR 4).
  by rewrite /softmax hs /f /= exp_ln //; lra.
have p1 : softmax 2 f 1 = Rdiv (IZR 1) (IZR 4) by rewrite /softmax hs /f /= exp_0.
have -> : pd 0 (pd 0 (reduced_loss LCE RSum 2 (TCls 0))) f = Rdiv (IZR 3) (IZR 16).
  rewrite /reduced_loss pd2_scal mul1r.
  have -> : pd 0 (pd 0 (fun f => torch_row LCE 2 (mkseq f 2) (TCls 0))) f = pd 0 (pd 0 (ce_row 2 ^~ 0%N)) f.
    by apply: pd_ext => z; apply: pd_ext => z'; have := row_of_mkseq LCE 2 (TCls 0) z'.
  rewrite ce_hessian // p0 eqxx; rewrite mulr1n; toR; lra.
rewrite !big_ord_recl big_ord0 /documented_root /= /bump /= !mulr1n !mulr0n p0 p1.
have hq : sqrt (Rdiv (IZR 3) (IZR 4)) * sqrt (Rdiv (IZR 3) (IZR 4)) = Rdiv (IZR 3) (IZR 4) by apply: sqrt2; lra.
move: hq; move: (sqrt _) => s; toR => hq h; nra.
Qed.
Print Assumptions C44_documented_formula_refuted.

Example C44_ex : exists S, loss_hessian_matrix_sqrt LCE RMean (Tensor [:: 1; 3]%N [:: 0; 1; 2 : R]) [:: 1%N] [::] = Ok S /\
  forall i j, (i < 3)%N -> (j < 3)%N -> \sum_(l < 3) entry 3 (tdata S) i l * entry 3 (tdata S) j l =
      pd j (pd i (reduced_loss LCE RMean 3 (TCls 2))) (nth 0 [:: 0; 1; 2 : R]).
Proof. by have [//|//|//|//|//|//|S [h1 h2 h3 h4]] := @C44_square_root LCE RMean 3 [:: 0; 1; 2 : R] (TCls 2) [::] [::]; exists S. Qed.
Example C44_ex_bce : exists S, loss_hessian_matrix_sqrt LBCE RMean (Tensor [:: 1; 2]%N [:: 0; 1 : R]) [:: 1; 2]%N [:: 0; 1] = Ok S.
Proof.
have [//|//|//|//|//|_|S [h _ _ _]] := @C44_square_root LBCE RMean 2 [:: 0; 1 : R] (TVec (nth 0 [:: 0; 1 : R])) [:: 2%N] [:: 0; 1]; last by exists S.
by rewrite /binary /= !eqxx orbT.
Qed.
