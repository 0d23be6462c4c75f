(* C79: the variance of the estimators, and of averages of their samples. *)
From Coq Require Import String.
From mathcomp Require Import all_ssreflect all_algebra.
From Verif Require Import PyPrelude Tensor Spec Numpy Submatrix Inverse Estimators Props_Estimators Variance.
Set Implicit Arguments.
Unset Strict Implicit.
Unset Printing Implicit Defensive.
Import Order.Theory GRing.Theory Num.Theory.
Local Open Scope ring_scope.

Section Props.
Variable R : realFieldType.
Implicit Types (A : mv_op R) (M B : nat -> nat -> R) (E : ((nat -> R) -> R) -> R) (EE : ((nat -> nat -> R) -> R) -> R).

(* all outcomes of m independent draws of n fair bits, with equal probability *)
Definition average m n (g : {ffun 'I_m -> {ffun 'I_n -> bool}} -> R) : R := (\sum_w g w) / ((2 ^ n) ^ m)%:R.

Lemma sign_neg b : @sign R (~~ b) = - sign R b.
Proof. by rewrite !signE; case: b; rewrite ?opprK. Qed.
Lemma sign2 : fmean (fun t => sign R t * sign R t) = 1.
Proof. by rewrite (fmean_ext (@sign_sq R)) fmean_const // card_bool. Qed.
Lemma sign4 : fmean (fun t => sign R t * sign R t * (sign R t * sign R t)) = 1.
Proof.
by rewrite (@fmean_ext _ _ _ (fun=> 1)) ?fmean_const ?card_bool // => t; rewrite !sign_sq mulr1.
Qed.

Local Notation rE n := (@fin_E R [finType of bool] (@sign R) n).
Local Notation rEE n m := (@fin_EE R [finType of bool] (@sign R) n m).
Lemma bool_pos : (0 < #|[finType of bool]|)%N. Proof. by rewrite card_bool. Qed.
Lemma sign_white n : white n (rE n). Proof. exact: (fin_white bool_pos negbK sign_neg sign2). Qed.
Lemma sign_fourth n : fourth n (rE n) 1. Proof. exact: (fin_fourth bool_pos negbK sign_neg sign2 sign4). Qed.
Lemma sign_iid n m : iid m (rE n) (rEE n m). Proof. exact: (fin_iid _ bool_pos). Qed.

(* a function of the draw that only looks at the first n entries *)
Definition local n (f : (nat -> R) -> R) : Prop := forall x y, (forall i, (i < n)%N -> x i = y i) -> f x = f y.
Lemma quad_local n M : local n (quad n M).
Proof.
move=> x y h; apply: eq_bigr => i _; rewrite h //; congr (_ * _).
by apply: eq_bigr => j _; rewrite h.
Qed.

Lemma average_mean m n (f : (nat -> R) -> R) (mu : R) : local n f ->
  average (fun w : {ffun 'I_m -> {ffun 'I_n -> bool}} =>
    ((\sum_(a < m) f (draw_val (bits_draw R (w a)) "rademacher")) / m%:R - mu) ^+ 2) =
  rEE n m (fun x => ((\sum_(a < m) f (x a)) / m%:R - mu) ^+ 2).
Proof.
move=> hf; rewrite /average /fin_EE /fmean !card_ffun card_bool !card_ord; congr (_ / _).
apply: eq_bigr => w _; congr ((_ / _ - _) ^+ 2); apply: eq_bigr => a _.
rewrite valK; apply: hf => i hi; rewrite /fvec insubT.
exact: (@draw_val_bits R n (w a) (Ordinal hi)).
Qed.

Lemma rademacher_mean m n M mu : (0 < m)%N -> tr n M = mu ->
  average (fun w : {ffun 'I_m -> {ffun 'I_n -> bool}} =>
    ((\sum_(a < m) quad n M (draw_val (bits_draw R (w a)) "rademacher")) / m%:R - mu) ^+ 2) =
  (\sum_(i < n) \sum_(j < n | j != i) (M i j ^+ 2 + M i j * M j i)) / m%:R.
Proof.
move=> hm <-; rewrite average_mean; last exact: quad_local.
rewrite (mean_variance (sign_white n) hm (sign_iid n m)); last exact: (white_quadratic (sign_white n)).
congr (_ / _); rewrite (quad_variance (sign_white n) (@sign_fourth n)).
rewrite /frob2 mulr_sumr -!big_split; apply: eq_bigr => i _ /=.
rewrite -big_split /= (bigD1 i) //= -expr2 addrAC addrC.
suff -> : M i i ^+ 2 + M i i ^+ 2 + (1 - 3%:R) * M i i ^+ 2 = 0 by rewrite addr0.
by rewrite -mulr2n -mulr_natl -mulrDl addrA -mulrSr subrr mul0r.
Qed.

Lemma normal_mean m n M mu E EE : (0 < m)%N -> white n E -> fourth n E 3%:R -> iid m E EE -> tr n M = mu ->
  EE (fun x => ((\sum_(a < m) quad n M (x a)) / m%:R - mu) ^+ 2) =
  (\sum_(i < n) \sum_(j < n) (M i j ^+ 2 + M i j * M j i)) / m%:R.
Proof.
move=> hm hE h4 hEE <-; rewrite (mean_variance hE hm hEE); last exact: (white_quadratic hE).
congr (_ / _); rewrite (quad_variance hE h4) subrr mul0r addr0 /frob2 -big_split.
by apply: eq_bigr => i _; rewrite -big_split.
Qed.

(* ---- the trace estimator ---- *)
Theorem C79_trace_rademacher A n M m : (0 < m)%N ->
  mv_shape A = [:: n; n] -> vec_multiplies (mv_dot A) n n M ->
  exists2 f, forall b : {ffun 'I_n -> bool}, trace_sample A (bits_draw R b) "rademacher" = Ok (f b) &
    average (fun w : {ffun 'I_m -> _} => ((\sum_(a < m) f (w a)) / m%:R - \sum_(i < n) M i i) ^+ 2) =
    (\sum_(i < n) \sum_(j < n | j != i) (M i j ^+ 2 + M i j * M j i)) / m%:R.
Proof.
move=> hm hs hM; eexists; first by move=> b; rewrite (trace_sample_val hs hM).
exact: rademacher_mean.
Qed.

Theorem C79_trace_normal A n M m E EE : (0 < m)%N ->
  white n E -> fourth n E 3%:R -> iid m E EE ->
  mv_shape A = [:: n; n] -> vec_multiplies (mv_dot A) n n M ->
  exists2 f, forall x, trace_sample A (reals_draw x) "normal" = Ok (f x) &
    EE (fun x => ((\sum_(a < m) f (x a)) / m%:R - \sum_(i < n) M i i) ^+ 2) =
    (\sum_(i < n) \sum_(j < n) (M i j ^+ 2 + M i j * M j i)) / m%:R.
Proof.
move=> hm hE h4 hEE hs hM; eexists; first by move=> b; rewrite (trace_sample_val hs hM).
exact: (@normal_mean m n M _ E EE).
Qed.

(* ---- the diagonal estimator, entry by entry ---- *)
Definition only_row (i : nat) M : nat -> nat -> R := fun p q => if p == i then M i q else 0.
Lemma quad_row n M i x : (i < n)%N -> quad n (only_row i M) x = x i * (\sum_(j < n) M i j * x j).
Proof.
move=> hi; rewrite /quad (bigD1 (Ordinal hi)) //= /only_row eqxx [X in _ + X]big1 ?addr0 // => p ne.
by rewrite big1 ?mulr0 // => q _; rewrite [_ == _](negbTE (_ : nat_of_ord p != i)) ?mul0r.
Qed.
Lemma row_tr n M i : (i < n)%N -> tr n (only_row i M) = M i i.
Proof.
move=> hi; rewrite /tr (bigD1 (Ordinal hi)) //= /only_row eqxx big1 ?addr0 // => p ne.
by rewrite [_ == _](negbTE (_ : nat_of_ord p != i)).
Qed.

Theorem C79_diagonal_rademacher A n M m : (0 < m)%N ->
  mv_shape A = [:: n; n] -> vec_multiplies (mv_dot A) n n M ->
  exists2 f, forall b : {ffun 'I_n -> bool}, exists2 t, diag_sample A (bits_draw R b) "rademacher" = Ok t &
      tshape t = [:: n] /\ forall i, (i < n)%N -> nth 0 (tdata t) i = f i b &
    forall i, (i < n)%N ->
    average (fun w : {ffun 'I_m -> _} => ((\sum_(a < m) f i (w a)) / m%:R - M i i) ^+ 2) =
    (\sum_(j < n | j != i :> nat) M i j ^+ 2) / m%:R.
Proof.
move=> hm hs hM.
exists (fun i b => draw_val (bits_draw R b) "rademacher" i * (\sum_(j < n) M i j * draw_val (bits_draw R b) "rademacher" j)).
  move=> b; rewrite (diag_sample_val hs hM) //; eexists; first reflexivity.
  by split=> // i hi; rewrite /= nth_mkseq.
move=> i hi; have := rademacher_mean hm (row_tr M hi).
rewrite /average => e; etransitivity; last (etransitivity; first exact: e).
  congr (_ / _); apply: eq_bigr => w _; congr ((_ / _ - _) ^+ 2).
  by apply: eq_bigr => a _; rewrite quad_row.
congr (_ / _); rewrite (bigD1 (Ordinal hi)) //= [X in _ + X]big1 ?addr0 => [|p ne].
  apply: eq_bigr => j ne; rewrite /only_row eqxx [_ == i](negbTE (_ : nat_of_ord j != i)) //.
  by rewrite mulr0 addr0.
apply: big1 => j _; rewrite /only_row [_ == i](negbTE (_ : nat_of_ord p != i)) //.
by rewrite expr0n mul0r addr0.
Qed.

Theorem C79_diagonal_normal A n M m E EE : (0 < m)%N ->
  white n E -> fourth n E 3%:R -> iid m E EE ->
  mv_shape A = [:: n; n] -> vec_multiplies (mv_dot A) n n M ->
  exists2 f, forall x, exists2 t, diag_sample A (reals_draw x) "normal" = Ok t &
      tshape t = [:: n] /\ forall i, (i < n)%N -> nth 0 (tdata t) i = f i x &
    forall i, (i < n)%N ->
    EE (fun x => ((\sum_(a < m) f i (x a)) / m%:R - M i i) ^+ 2) =
    (\sum_(j < n) M i j ^+ 2 + M i i ^+ 2) / m%:R.
Proof.
move=> hm hE h4 hEE hs hM.
exists (fun i x => x i * (\sum_(j < n) M i j * x j)).
  move=> b; rewrite (diag_sample_val hs hM) //; eexists; first reflexivity.
  by split=> // i hi; rewrite /= nth_mkseq.
move=> i hi; have [e1 _ _ _ _] := hEE.
rewrite (e1 _ (fun x => ((\sum_(a < m) quad n (only_row i M) (x a)) / m%:R - M i i) ^+ 2)); last first.
  by move=> x; congr ((_ / _ - _) ^+ 2); apply: eq_bigr => a _; rewrite quad_row.
rewrite (normal_mean hm hE h4 hEE (row_tr M hi)); congr (_ / _).
rewrite (bigD1 (Ordinal hi)) //= [X in _ + X]big1 ?addr0 => [|p ne]; last first.
  apply: big1 => j _; rewrite /only_row [_ == i](negbTE (_ : nat_of_ord p != i)) //.
  by rewrite expr0n mul0r addr0.
rewrite big_split /=; congr (_ + _); first by apply: eq_bigr => j _; rewrite /only_row eqxx.
rewrite (bigD1 (Ordinal hi)) //= /only_row eqxx [X in _ + X]big1 ?addr0 ?expr2 // => j ne.
by rewrite [_ == i](negbTE (_ : nat_of_ord j != i)) ?mulr0.
Qed.

(* ---- the squared Frobenius norm: a trace estimate for M^T M ---- *)
Definition gram p M : nat -> nat -> R := fun i j => \sum_(l < p) M l i * M l j.
Lemma quad_gram p n M x :
  quad n (gram p M) x = \sum_(i < p) (\sum_(j < n) M i j * x j) * (\sum_(j < n) M i j * x j).
Proof.
rewrite /quad; transitivity (\sum_(i < n) \sum_(l < p) M l i * x i * (\sum_(j < n) M l j * x j)).
  apply: eq_bigr => i _; rewrite mulr_sumr.
  under eq_bigr => j _ do rewrite /gram mulr_suml mulr_sumr.
  rewrite exchange_big; apply: eq_bigr => l _; rewrite mulr_sumr; apply: eq_bigr => j _.
  by rewrite mulrA [x i * _]mulrC -!mulrA; congr (_ * _); rewrite mulrCA.
by rewrite exchange_big; apply: eq_bigr => l _; rewrite mulr_suml.
Qed.
Lemma gram_tr p n M : tr n (gram p M) = \sum_(i < p) \sum_(j < n) M i j ^+ 2.
Proof.
by rewrite /tr /gram exchange_big; apply: eq_bigr => l _; apply: eq_bigr => i _; rewrite expr2.
Qed.
Lemma gram_sym p M i j : gram p M i j = gram p M j i.
Proof. by apply: eq_bigr => l _; rewrite mulrC. Qed.

Theorem C79_frobenius_rademacher A p n M m : (0 < m)%N ->
  mv_shape A = [:: p; n] -> vec_multiplies (mv_dot A) p n M ->
  exists2 f, forall b : {ffun 'I_n -> bool}, frob_sample A (bits_draw R b) "rademacher" = Ok (f b) &
    average (fun w : {ffun 'I_m -> _} => ((\sum_(a < m) f (w a)) / m%:R - \sum_(i < p) \sum_(j < n) M i j ^+ 2) ^+ 2) =
    2%:R * (\sum_(i < n) \sum_(j < n | j != i) (\sum_(l < p) M l i * M l j) ^+ 2) / m%:R.
Proof.
move=> hm hs hM; exists (fun b => quad n (gram p M) (draw_val (bits_draw R b) "rademacher")).
  by move=> b; rewrite (frob_sample_val hs hM) // quad_gram.
rewrite (rademacher_mean hm (gram_tr p n M)); congr (_ / _); rewrite mulr_sumr; apply: eq_bigr => i _.
by rewrite mulr_sumr; apply: eq_bigr => j _; rewrite [gram p M j i]gram_sym -expr2 -mulr2n mulr_natl.
Qed.

Theorem C79_frobenius_normal A p n M m E EE : (0 < m)%N ->
  white n E -> fourth n E 3%:R -> iid m E EE ->
  mv_shape A = [:: p; n] -> vec_multiplies (mv_dot A) p n M ->
  exists2 f, forall x, frob_sample A (reals_draw x) "normal" = Ok (f x) &
    EE (fun x => ((\sum_(a < m) f (x a)) / m%:R - \sum_(i < p) \sum_(j < n) M i j ^+ 2) ^+ 2) =
    2%:R * (\sum_(i < n) \sum_(j < n) (\sum_(l < p) M l i * M l j) ^+ 2) / m%:R.
Proof.
move=> hm hE h4 hEE hs hM; exists (quad n (gram p M)).
  by move=> x; rewrite (frob_sample_val hs hM) // quad_gram.
rewrite (normal_mean hm hE h4 hEE (gram_tr p n M)); congr (_ / _); rewrite mulr_sumr; apply: eq_bigr => i _.
by rewrite mulr_sumr; apply: eq_bigr => j _; rewrite [gram p M j i]gram_sym -expr2 -mulr2n mulr_natl.
Qed.

(* ---- Hutch++: the averages of the next m samples, after any history ds ---- *)
(* draws s, s+1, ..., s+m-1 replaced by d *)
Definition with_draws (rng : nat -> draw R) s m (d : 'I_m -> draw R) : nat -> draw R :=
  fun j => if (s <= j)%N then (if insub (j - s)%N is Some a then d a else rng j) else rng j.

Section HutchPP.
Variables (rng : nat -> draw R) (hA : nat -> tensor R -> res (tensor R)) (qr : tensor R -> res (tensor R)).
Variables (n k : nat) (bdist : string) (M : nat -> nat -> R) (ds : seq string) (o : hpp R) (m : nat).
Hypotheses (ho : hpp_init R [:: n; n] (Some k%:Z) bdist = Ok o) (hk : (0 < k)%N) (hb : valid_dist bdist).
Hypotheses (hds : all valid_dist ds) (hM : forall c, vec_multiplies (hA c) n n M).
Hypothesis hqr : forall X, tshape X = [:: n; k] -> wf X -> exists2 q, qr X = Ok q & orthonormal_array n k q.

(* the matrix with the given entries, and I - Q Q^T *)
Local Notation mx := (\matrix_(i, j) M i j : 'M[R]_n).
Definition complement (q : tensor R) : 'M[R]_n :=
  let Q : 'M[R]_(n, k) := \matrix_(i, j) entry k (tdata q) i j in 1%:M - Q *m Q^T.
(* sample a of the average *)
Definition next_sample rng' dist a : res R :=
  (hpp_sample rng' hA qr (hpp_run rng' hA qr o (ds ++ nseq a dist)) dist).2.

Lemma next_samples : exists2 q, orthonormal_array n k q & forall (d : 'I_m -> draw R) dist (a : 'I_m), valid_dist dist ->
  next_sample (with_draws rng (k + size ds) d) dist a =
  Ok (sub_trace n k M q + quad n (mxfun (complement q *m mx *m complement q)) (draw_val (d a) dist)).
Proof.
have eo : o = fresh R n k bdist by move: ho; rewrite /hpp_init /=; case: ifP => // _; case: ifP => // _ [].
have [|q hq hq'] := @hqr (sketch rng n k bdist M) erefl.
  by rewrite /wf /= (flatten_mkseq_uniform (fun i c => \sum_(l < n) M i l * draw_val (rng c) bdist l)) /= muln1.
exists q => // d dist a hd; have [q1 q2 q3] := hq'; rewrite /next_sample eo.
set rng' := with_draws _ _ _.
have hsk : sketch rng' n k bdist M = sketch rng n k bdist M.
  rewrite /sketch; congr (Tensor _ (flatten _)); apply: eq_map => i.
  apply/eq_in_map => c; rewrite mem_iota add0n => /andP [_ hc].
  apply: eq_bigr => l _; rewrite /rng' /with_draws leqNgt (_ : (c < _)%N) //.
  exact: leq_trans hc (leq_addr _ _).
rewrite -hsk in hq; rewrite (sample_after hM hb hk hq q1) //; last first.
  by rewrite all_cat hds all_nseq hd orbT.
rewrite /= res_quadE size_cat size_nseq addnA /rng' /with_draws leq_addr addKn insubT //=.
by move=> hyp; rewrite (_ : Ordinal hyp = a) //; apply: val_inj.
Qed.

Lemma complement_trace q : orthonormal_array n k q ->
  tr n (mxfun (complement q *m mx *m complement q)) = \sum_(i < n) M i i - sub_trace n k M q.
Proof.
move=> [q1 q2 q3]; have := hpp_trace M q3.
have -> : \tr (mmx n M) = \sum_(i < n) M i i by apply: eq_bigr => i _; rewrite mxE.
move=> <-; rewrite addrC addKr; apply: eq_bigr => i _.
by rewrite mxfun_ord.
Qed.

Theorem C79_hutchpp_rademacher : (0 < m)%N ->
  exists q f, [/\ orthonormal_array n k q,
    forall (w : {ffun 'I_m -> {ffun 'I_n -> bool}}) (a : 'I_m),
      next_sample (with_draws rng (k + size ds) (fun a => bits_draw R (w a))) "rademacher" a = Ok (f (w a)) &
    let B := complement q *m mx *m complement q in
    average (fun w => ((\sum_(a < m) f (w a)) / m%:R - \sum_(i < n) M i i) ^+ 2) =
    (\sum_i \sum_(j | j != i) (B i j ^+ 2 + B i j * B j i)) / m%:R].
Proof.
move=> hm; have [q hq h] := next_samples.
exists q, (fun b => sub_trace n k M q + quad n (mxfun (complement q *m mx *m complement q)) (draw_val (bits_draw R b) "rademacher")).
split=> // [w a|]; first by rewrite h.
move=> B; have e := rademacher_mean hm (complement_trace hq); rewrite -/B in e.
transitivity ((\sum_(i < n) \sum_(j < n | j != i) (mxfun B i j ^+ 2 + mxfun B i j * mxfun B j i)) / m%:R); last first.
  by congr (_ / _); apply: eq_bigr => i _; apply: eq_bigr => j _; rewrite !mxfun_ord.
rewrite -e /average; congr (_ / _); apply: eq_bigr => w _; congr (_ ^+ 2).
rewrite big_split /= mulrDl sumr_const card_ord -[_ *+ m]mulr_natr mulfK ?pnatr_eq0 -?lt0n //.
by rewrite opprB addrCA addrA.
Qed.

Theorem C79_hutchpp_normal E EE : (0 < m)%N -> white n E -> fourth n E 3%:R -> iid m E EE ->
  exists q f, [/\ orthonormal_array n k q,
    forall (x : nat -> nat -> R) (a : 'I_m),
      next_sample (with_draws rng (k + size ds) (fun a : 'I_m => reals_draw (x a))) "normal" a = Ok (f (x a)) &
    let B := complement q *m mx *m complement q in
    EE (fun x => ((\sum_(a < m) f (x a)) / m%:R - \sum_(i < n) M i i) ^+ 2) =
    (\sum_i \sum_j (B i j ^+ 2 + B i j * B j i)) / m%:R].
Proof.
move=> hm hE h4 hEE; have [q hq h] := next_samples.
exists q, (fun x => sub_trace n k M q + quad n (mxfun (complement q *m mx *m complement q)) x).
split=> // [w a|]; first by rewrite h.
move=> B; have e := normal_mean hm hE h4 hEE (complement_trace hq); rewrite -/B in e.
transitivity ((\sum_(i < n) \sum_(j < n) (mxfun B i j ^+ 2 + mxfun B i j * mxfun B j i)) / m%:R); last first.
  by congr (_ / _); apply: eq_bigr => i _; apply: eq_bigr => j _; rewrite !mxfun_ord.
rewrite -e; have [e1 _ _ _ _] := hEE; apply: e1 => x; congr (_ ^+ 2).
rewrite big_split /= mulrDl sumr_const card_ord -[_ *+ m]mulr_natr mulfK ?pnatr_eq0 -?lt0n //.
by rewrite opprB addrCA addrA.
Qed.

(* For symmetric matrices the variance is at most that of Hutchinson's estimator
   (C79_trace_normal), whatever the basis. *)
Lemma frob_mx (B : 'M[R]_n) : \sum_i \sum_j B i j ^+ 2 = \tr (B^T *m B).
Proof.
rewrite exchange_big /mxtrace; apply: eq_bigr => j _; rewrite mxE; apply: eq_bigr => i _.
by rewrite mxE expr2.
Qed.
Lemma frob_tr (B : 'M[R]_n) : \sum_i \sum_j B^T i j ^+ 2 = \sum_i \sum_j B i j ^+ 2.
Proof. by rewrite exchange_big; apply: eq_bigr => i _; apply: eq_bigr => j _; rewrite mxE. Qed.

Lemma frob_complement q (B : 'M[R]_n) : orthonormal_array n k q ->
  \sum_i \sum_j (complement q *m B) i j ^+ 2 <= \sum_i \sum_j B i j ^+ 2.
Proof.
move=> [q1 q2 q3]; rewrite !frob_mx trmx_mul.
have -> : (complement q)^T = complement q := proj_sym n k q.
rewrite -mulmxA (mulmxA (complement q)) [complement q *m complement q](proj_idem q3).
rewrite /complement mulmxBl mul1mx mulmxBr linearB /= ler_subl_addr ler_addl.
set Q := qmx n k q; rewrite -(mulmxA Q) mulmxA -{1}[Q]trmxK -trmx_mul.
rewrite /mxtrace; apply: sumr_ge0 => i _; rewrite mxE; apply: sumr_ge0 => j _.
by rewrite mxE -expr2; apply: sqr_ge0.
Qed.

Theorem C79_hutchpp_not_worse q : orthonormal_array n k q -> (forall i j, (i < n)%N -> (j < n)%N -> M i j = M j i) ->
  forall B : 'M[R]_n, B = complement q *m mx *m complement q ->
  \sum_i \sum_j (B i j ^+ 2 + B i j * B j i) <= \sum_(i < n) \sum_(j < n) (M i j ^+ 2 + M i j * M j i).
Proof.
move=> hq hs B eB.
have symm : mx^T = mx by apply/matrixP => i j; rewrite !mxE hs.
have ct : (complement q)^T = complement q := proj_sym n k q.
have symB : B^T = B by rewrite eB !trmx_mul ct symm mulmxA.
have two (C : 'M[R]_n) : C^T = C -> \sum_i \sum_j (C i j ^+ 2 + C i j * C j i) = (\sum_i \sum_j C i j ^+ 2) *+ 2.
  move=> e; rewrite -sumrMnl; apply: eq_bigr => i _; rewrite -sumrMnl; apply: eq_bigr => j _.
  by rewrite mulr2n expr2 (_ : C j i = C i j) // -{1}e mxE.
have -> : \sum_(i < n) \sum_(j < n) (M i j ^+ 2 + M i j * M j i) = \sum_i \sum_j (mx i j ^+ 2 + mx i j * mx j i).
  by apply: eq_bigr => i _; apply: eq_bigr => j _; rewrite !mxE.
rewrite !two // ler_muln2r /=; apply: le_trans (frob_complement mx hq).
by rewrite -frob_tr eB trmx_mul ct; apply: le_trans (frob_complement _ hq) _; rewrite frob_tr.
Qed.
End HutchPP.
End Props.
Print Assumptions C79_trace_rademacher.
Print Assumptions C79_trace_normal.
Print Assumptions C79_diagonal_rademacher.
Print Assumptions C79_diagonal_normal.
Print Assumptions C79_frobenius_rademacher.
Print Assumptions C79_frobenius_normal.
Print Assumptions C79_hutchpp_rademacher.
Print Assumptions C79_hutchpp_normal.
Print Assumptions C79_hutchpp_not_worse.

(* the hypotheses on normal draws: for every dimension and number of draws there are
   expectations with the moments of independent standard normal variables up to
   order four (three points with weights 1/6, 2/3, 1/6) *)
Section Normal.
Variable R : rcfType.
Local Notation T := [finType of bool * 'I_3].
Definition three (t : T) : R := sign R t.1 * (if val t.2 == 0%N then Num.sqrt 3%:R else 0).
Definition three_neg (t : T) : T := (~~ t.1, t.2).
Lemma three_sum (f : T -> R) : (forall b i, f (b, i) = if val i == 0%N then f (true, ord0) else 0) ->
  fmean f = f (true, ord0) / 3%:R.
Proof.
move=> h; rewrite /fmean card_prod card_bool card_ord (eq_bigr (fun t => f (t.1, t.2))); last by case.
rewrite -(pair_bigA _ (fun b i => f (b, i))) /= big_bool !big_ord_recl !big_ord0.
rewrite (h true (lift _ _)) (h true (lift _ (lift _ _))) (h false ord0) (h false (lift _ _)) (h false (lift _ (lift _ _))) /= !addr0.
rewrite -mulr2n -[f _ *+ 2]mulr_natr natrM -mulrA; congr (_ * _).
by rewrite invfM mulrA mulfV ?mul1r // pnatr_eq0.
Qed.
Lemma sqrt3 : Num.sqrt 3%:R * Num.sqrt 3%:R = 3%:R :> R.
Proof. by rewrite -expr2 sqr_sqrtr // ler0n. Qed.
Lemma three_opp t : three (three_neg t) = - three t.
Proof. by rewrite /three /= sign_neg mulNr. Qed.
Lemma three_sq t : three t * three t = if val t.2 == 0%N then 3%:R else 0.
Proof. by rewrite /three mulrACA sign_sq mul1r; case: ifP => _; rewrite ?sqrt3 ?mulr0. Qed.

Example C79_normal_moments n m : exists E EE, [/\ white n E, fourth n E (3%:R : R) & iid m E EE].
Proof.
have h3 : 3%:R != 0 :> R by rewrite pnatr_eq0.
have hT : (0 < #|T|)%N by rewrite card_prod card_bool card_ord.
have hK : involutive three_neg by case=> b i; rewrite /three_neg /= negbK.
have v2 : fmean (fun t => three t * three t) = 1.
  by rewrite three_sum => [|b i]; rewrite !three_sq //= divff.
have v4 : fmean (fun t => three t * three t * (three t * three t)) = 3%:R.
  by rewrite three_sum => [|b i]; rewrite !three_sq //= ?mulfK //; case: ifP => _; rewrite ?mulr0.
exists (@fin_E R T three n), (@fin_EE R T three n m); split.
- exact: (fin_white hT hK three_opp v2).
- exact: (fin_fourth hT hK three_opp v2 v4).
- exact: fin_iid.
Qed.
End Normal.

(* for [1 2; 3 4] the samples are 10 and 0 with probability 1/2 each: variance 25 *)
Example C79_ex_samples :
  trace_sample ex_mv (bits_draw rat_realFieldType [ffun i : 'I_2 => true]) "rademacher" = Ok 10%:R /\
  trace_sample ex_mv (bits_draw rat_realFieldType [ffun i : 'I_2 => val i == 0%N]) "rademacher" = Ok 0 /\
  \sum_(i < 2) \sum_(j < 2 | j != i) (ex_mvM i j ^+ 2 + ex_mvM i j * ex_mvM j i) = 25%:R.
Proof.
split; [|split].
- by rewrite (trace_sample_val (erefl : mv_shape ex_mv = [:: 2; 2]%N) C58_ex_hyp) // !big_ord_recl !big_ord0 /draw_val /= !insubT !ffunE.
- by rewrite (trace_sample_val (erefl : mv_shape ex_mv = [:: 2; 2]%N) C58_ex_hyp) // !big_ord_recl !big_ord0 /draw_val /= !insubT !ffunE.
- by rewrite 2!big_ord_recl big_ord0 2![\sum_(j < 2 | j != _) _]big_mkcond !big_ord_recl !big_ord0.
Qed.
