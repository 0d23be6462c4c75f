(* torch's MSELoss, CrossEntropyLoss and BCEWithLogitsLoss on one prediction row,
   without reduction, following the formulas of their documentation, and their
   first and second derivatives.  Used by /repo/curvlinops/gradient_moments.py,
   fisher.py 267-332, kfac_utils.py 15-141. *)
From Coq Require Import Reals Lra FunctionalExtensionality.
From Coquelicot Require Import Coquelicot.
From mathcomp Require Import all_ssreflect all_algebra.
From Verif Require Import RInst Calculus.
Set Implicit Arguments.
Unset Strict Implicit.
Unset Printing Implicit Defensive.
Import GRing.Theory.
Local Open Scope ring_scope.

(* softmax(f)_c over C logits, sigmoid(t) *)
Definition sumexp (C : nat) (f : point) : R := \sum_(c < C) exp (f c).
Definition softmax (C : nat) (f : point) (c : nat) : R := Rdiv (exp (f c)) (sumexp C f).
Definition sigmoid (t : R) : R := Rdiv (IZR 1) (Rplus (IZR 1) (exp (Ropp t))).

(* MSELoss: sum_c (f_c - y_c)^2 *)
Definition mse_row (C : nat) (f y : point) : R := \sum_(c < C) (f c - y c) * (f c - y c).
(* CrossEntropyLoss with class label y: -log softmax(f)_y *)
Definition ce_row (C : nat) (f : point) (y : nat) : R := - ln (softmax C f y).
(* BCEWithLogitsLoss: -sum_c [y_c log s(f_c) + (1 - y_c) log(1 - s(f_c))] *)
Definition bce_term (t y : R) : R := - (y * ln (sigmoid t) + (1 - y) * ln (1 - sigmoid t)).
Definition bce_row (C : nat) (f y : point) : R := \sum_(c < C) bce_term (f c) (y c).

(* differentiability along curves: the derivative of t -> F(u t) exists and is
   given by the gradient g, for every curve u whose first n coordinates are
   differentiable at t0 and which passes through x *)
Definition curve_diff (n : nat) (F : point -> R) (x : point) (g : nat -> R) : Prop :=
  forall (u : R -> point) (du : nat -> R) t0, u t0 = x ->
    (forall c, (c < n)%N -> is_derive (fun t => u t c) t0 (du c)) ->
    (forall t c, (n <= c)%N -> u t c = x c) ->
    is_derive (fun t => F (u t)) t0 (\sum_(c < n) g c * du c).

Lemma tdiff_curve n F x g : tdiff n F x g -> curve_diff n F x g.
Proof.
move=> h u du t0 ux hu ho; apply: chain_rule => //; first by rewrite ux.
by move=> t c hc; rewrite ux; apply: ho.
Qed.

Lemma derive_ext (f g : R -> R) t l : (forall z, f z = g z) -> is_derive f t l -> is_derive g t l.
Proof. by move=> h; apply: is_derive_ext. Qed.

Lemma derive_val (f : R -> R) t l l' : l = l' -> is_derive f t l -> is_derive f t l'.
Proof. by move=> ->. Qed.

Lemma is_derive_sum_ord n (f : nat -> R -> R) (df : nat -> R) t0 :
  (forall c, (c < n)%N -> is_derive (f c) t0 (df c)) ->
  is_derive (fun t => \sum_(c < n) f c t) t0 (\sum_(c < n) df c).
Proof.
elim: n => [_|n IH h].
  by rewrite big_ord0; apply: (@derive_ext (fun=> 0)) => [t|]; [rewrite big_ord0 | exact: is_derive_const].
rewrite big_ord_recr /=.
apply: (@derive_ext (fun t => Rplus (\sum_(c < n) f c t) (f n t))) => [t|].
  by rewrite big_ord_recr.
apply: (@is_derive_plus _ R_NormedModule); last exact: h.
by apply: IH => c hc; apply: h; apply: ltnW.
Qed.

Lemma sumexp_gt0 C f : (0 < C)%N -> rlt 0 (sumexp C f).
Proof.
case: C => // C _; rewrite /sumexp; elim: C => [|C IH].
  by rewrite big_ord_recr big_ord0 /= add0r; apply: exp_pos.
rewrite big_ord_recr /=; apply: Rplus_lt_0_compat => //; exact: exp_pos.
Qed.

Lemma sumexp_neq0 C f : (0 < C)%N -> sumexp C f <> 0.
Proof. by move=> h; apply: Rgt_not_eq; apply: sumexp_gt0. Qed.

Lemma ltn_gt0 (y C : nat) : (y < C)%N -> (0 < C)%N.
Proof. by apply: leq_ltn_trans. Qed.

Lemma softmax_sum C f : (0 < C)%N -> \sum_(c < C) softmax C f c = 1.
Proof.
move=> hC; rewrite /softmax /Rdiv.
rewrite -(mulr_suml _ _ _ (Rinv (sumexp C f))) -/(sumexp C f) -RmultE Rinv_r //.
exact: sumexp_neq0.
Qed.

Lemma softmax_gt0 C f c : (0 < C)%N -> rlt 0 (softmax C f c).
Proof. by move=> h; apply: Rdiv_lt_0_compat; [apply: exp_pos | apply: sumexp_gt0]. Qed.

Lemma ce_rowE C f y : (y < C)%N -> ce_row C f y = Rminus (ln (sumexp C f)) (f y).
Proof.
move=> hy; rewrite /ce_row /softmax ln_div; [|exact: exp_pos|exact: sumexp_gt0 (ltn_gt0 hy)].
by rewrite ln_exp; toR; lra.
Qed.

(* gradients along curves *)
Lemma mse_curve C y x : curve_diff C (mse_row C ^~ y) x (fun c => 2 * (x c - y c)).
Proof.
move=> u du t0 ux hu _; rewrite /mse_row.
apply: (@is_derive_sum_ord C (fun c t => (u t c - y c) * (u t c - y c)) (fun c => 2 * (x c - y c) * du c)) => c hc.
have hc' := hu c hc.
have h1 : is_derive (fun t => Rminus (u t c) (y c)) t0 (du c).
  have -> : du c = Rminus (du c) (IZR 0) by toR; lra.
  by apply: (@is_derive_minus _ R_NormedModule) => //; apply: is_derive_const.
have h2 := is_derive_mult _ _ _ _ _ h1 h1 Rmult_comm.
have -> : 2 * (x c - y c) * du c = plus (mult (du c) (Rminus (u t0 c) (y c))) (mult (Rminus (u t0 c) (y c)) (du c)).
  by rewrite ux /plus /mult /=; toR; ring.
exact: h2.
Qed.

Lemma is_derive_exp_curve (f : R -> R) t0 df : is_derive f t0 df ->
  is_derive (fun t => exp (f t)) t0 (exp (f t0) * df).
Proof.
move=> h; rewrite mulrC; apply: (is_derive_comp exp f t0 (exp (f t0)) df) => //.
exact: is_derive_exp.
Qed.

Lemma ce_curve C y x : (y < C)%N ->
  curve_diff C (ce_row C ^~ y) x (fun c => softmax C x c - (c == y)%:R).
Proof.
move=> hy u du t0 ux hu _.
have C0 := ltn_gt0 hy.
apply: (@derive_ext (fun t => Rminus (ln (sumexp C (u t))) (u t y))) => [t|].
  by rewrite ce_rowE.
have -> : \sum_(c < C) (softmax C x c - (c == y :> nat)%:R) * du c =
   Rminus (Rmult (\sum_(c < C) exp (x c) * du c) (Rinv (sumexp C x))) (du y).
  under eq_bigr => c _ do rewrite mulrBl.
  rewrite sumrB RminusE; congr (_ - _).
    rewrite RmultE mulr_suml; apply: eq_bigr => c _.
    by rewrite /softmax /Rdiv; toR; ring.
  rewrite (bigD1 (Ordinal hy)) //= eqxx mul1r big1 ?addr0 // => c /eqP hc.
  by case: eqP => [e|_]; [case: hc; apply: val_inj | rewrite mul0r].
apply: (@is_derive_minus _ R_NormedModule); last exact: hu.
apply: (is_derive_comp ln (fun t => sumexp C (u t)) t0 (Rinv (sumexp C x)) (\sum_(c < C) exp (x c) * du c)).
  by rewrite -[in Rinv _]ux; apply: is_derive_ln; apply: sumexp_gt0.
rewrite -ux; apply: (@is_derive_sum_ord C (fun c t => exp (u t c)) (fun c => exp (u t0 c) * du c)) => c hc.
by apply: is_derive_exp_curve; apply: hu.
Qed.

Lemma sigmoid_bounds t : rlt 0 (sigmoid t) /\ rlt 0 (1 - sigmoid t).
Proof.
have h := exp_pos (Ropp t); rewrite /sigmoid; split.
  by apply: Rdiv_lt_0_compat; toR; lra.
have -> : 1 - Rdiv (IZR 1) (Rplus (IZR 1) (exp (Ropp t))) = Rdiv (exp (Ropp t)) (Rplus (IZR 1) (exp (Ropp t))).
  by toR; field; lra.
by apply: Rdiv_lt_0_compat; toR; lra.
Qed.

Lemma sigmoid_derive t : is_derive sigmoid t (sigmoid t * (1 - sigmoid t)).
Proof.
have h := exp_pos (Ropp t); rewrite /sigmoid; auto_derive; first by toR; lra.
by toR; field; lra.
Qed.

Lemma bce_term_derive y t : is_derive (bce_term ^~ y) t (sigmoid t - y).
Proof.
have [s0 s1] := sigmoid_bounds t; have hs := sigmoid_derive t.
have l1 := is_derive_comp ln sigmoid t _ _ (is_derive_ln _ s0) hs.
have h2 : is_derive (fun t => Rminus (IZR 1) (sigmoid t)) t (Rminus (IZR 0) (sigmoid t * (1 - sigmoid t))).
  by apply: (@is_derive_minus _ R_NormedModule) => //; apply: is_derive_const.
have l2 := is_derive_comp ln _ t _ _ (is_derive_ln _ s1) h2.
have r := @is_derive_opp _ R_NormedModule _ _ _ (@is_derive_plus _ R_NormedModule _ _ _ _ _
   (is_derive_scal _ _ y _ l1) (is_derive_scal _ _ (1 - y) _ l2)).
move: r; rewrite /scal /= /mult /= /opp /= /plus /=.
set D := Ropp _; have -> : D = sigmoid t - y.
  rewrite /D; move: s0 s1; toR => s0 s1.
  by field; split; apply: Rgt_not_eq; [move: s1|move: s0]; rewrite /Rminus; lra.
by apply: is_derive_ext => z.
Qed.

Lemma bce_curve C y x : curve_diff C (bce_row C ^~ y) x (fun c => sigmoid (x c) - y c).
Proof.
move=> u du t0 ux hu _; rewrite /bce_row.
apply: (@is_derive_sum_ord C (fun c t => bce_term (u t c) (y c)) (fun c => (sigmoid (x c) - y c) * du c)) => c hc.
rewrite -ux mulrC.
by apply: (is_derive_comp (bce_term ^~ (y c)) (fun t => u t c)); [apply: bce_term_derive | apply: hu].
Qed.

(* partial derivatives follow from derivatives along curves *)
Lemma curve_pd n F x g i : curve_diff n F x g -> (i < n)%N -> pd i F x = g i.
Proof.
move=> h hi; rewrite /pd; apply: is_derive_unique.
have -> : g i = \sum_(c < n) g c * (c == i :> nat)%:R.
  rewrite (bigD1 (Ordinal hi)) //= eqxx mulr1 big1 ?addr0 // => c /eqP hc.
  by case: eqP => [e|_]; [case: hc; apply: val_inj | rewrite mulr0].
apply: (h (fun t => upd x i t) (fun c => (c == i)%:R)); first exact: upd_id.
  move=> c _; rewrite /upd; case: eqP => _; [exact: is_derive_id | exact: is_derive_const].
by move=> t c hc; rewrite /upd; case: eqP => // e; move: hc; rewrite e leqNgt hi.
Qed.

Lemma mse_grad C y x i : (i < C)%N -> pd i (mse_row C ^~ y) x = 2 * (x i - y i).
Proof. by move=> hi; exact: (curve_pd (@mse_curve C y x) hi). Qed.
Lemma ce_grad C y x i : (y < C)%N -> (i < C)%N -> pd i (ce_row C ^~ y) x = softmax C x i - (i == y)%:R.
Proof. by move=> hy hi; exact: (curve_pd (@ce_curve C y x hy) hi). Qed.
Lemma bce_grad C y x i : (i < C)%N -> pd i (bce_row C ^~ y) x = sigmoid (x i) - y i.
Proof. by move=> hi; exact: (curve_pd (@bce_curve C y x) hi). Qed.

(* Hessians *)
Lemma mse_hessian C y x i j : (i < C)%N ->
  pd j (pd i (mse_row C ^~ y)) x = if i == j then 2 else 0.
Proof.
move=> hi; rewrite (pd_ext _ _ (fun z => mse_grad y z hi)) pd_scal.
rewrite /pd (@Derive_ext _ (fun t => (- y i) + upd x j t i)); last by move=> t; rewrite addrC.
rewrite /upd; case: eqP => _; last by rewrite Derive_const mulr0.
have e : Derive (fun t => Rplus (- y i) t) (x j) = IZR 1 by apply: is_derive_unique; auto_derive.
rewrite (_ : Derive (fun t => - y i + t) (x j) = 1); last exact: e.
by rewrite mulr1.
Qed.

Lemma softmax_pd C x i j : (i < C)%N -> (j < C)%N ->
  pd j (fun z => softmax C z i) x = softmax C x i * ((i == j)%:R - softmax C x j).
Proof.
move=> hi hj; have C0 := ltn_gt0 hi.
have hS : is_derive (fun t => sumexp C (upd x j t)) (x j) (exp (x j)).
  have -> : exp (x j) = \sum_(c < C) (exp (upd x j (x j) c) * (c == j :> nat)%:R).
    rewrite (bigD1 (Ordinal hj)) //= eqxx mulr1 upd_id big1 ?addr0 // => c /eqP hc.
    by case: eqP => [e|_]; [case: hc; apply: val_inj | rewrite mulr0].
  apply: (@is_derive_sum_ord C (fun c t => exp (upd x j t c)) (fun c => exp (upd x j (x j) c) * (c == j)%:R)) => c _.
  apply: (@is_derive_exp_curve (fun t => upd x j t c)).
  by rewrite /upd; case: eqP => _; [exact: is_derive_id | exact: is_derive_const].
have hE : is_derive (fun t => exp (upd x j t i)) (x j) (exp (x i) * (i == j)%:R).
  have -> : exp (x i) = exp (upd x j (x j) i) by rewrite upd_id.
  apply: (@is_derive_exp_curve (fun t => upd x j t i)).
  by rewrite /upd; case: eqP => _; [exact: is_derive_id | exact: is_derive_const].
have n0 : sumexp C (upd x j (x j)) <> IZR 0 by apply: sumexp_neq0.
rewrite /pd /softmax; apply: is_derive_unique.
apply: derive_val (is_derive_div _ _ _ _ _ hE hS n0).
rewrite upd_id; move: (@sumexp_neq0 C x C0) => h.
by toR; field.
Qed.

Lemma ce_hessian C y x i j : (y < C)%N -> (i < C)%N -> (j < C)%N ->
  pd j (pd i (ce_row C ^~ y)) x = (i == j)%:R * softmax C x i - softmax C x i * softmax C x j.
Proof.
move=> hy hi hj; rewrite (pd_ext _ _ (fun z => ce_grad z hy hi)).
have -> : pd j (fun z => softmax C z i - (i == y)%:R) x = pd j (fun z => softmax C z i) x.
  rewrite /pd (@Derive_ext _ (fun t => (- (i == y)%:R) + softmax C (upd x j t) i)); last by move=> t; rewrite addrC.
  rewrite /Derive; congr real; apply: Lim_ext => h; congr Rdiv; toR; rewrite /Rminus; ring.
by rewrite softmax_pd // mulrBr mulrC.
Qed.

Lemma bce_hessian C y x i j : (i < C)%N ->
  pd j (pd i (bce_row C ^~ y)) x = if i == j then sigmoid (x i) * (1 - sigmoid (x i)) else 0.
Proof.
move=> hi; rewrite (pd_ext _ _ (fun z => bce_grad y z hi)).
rewrite /pd /upd; case: eqP => [->|_]; last by rewrite Derive_const.
apply: is_derive_unique.
have -> : sigmoid (x j) * (1 - sigmoid (x j)) = Rminus (sigmoid (x j) * (1 - sigmoid (x j))) (IZR 0).
  by toR; lra.
apply: (@is_derive_minus _ R_NormedModule); last exact: is_derive_const.
exact: sigmoid_derive.
Qed.
