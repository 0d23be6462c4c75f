(* C58-C63: stochastic estimators. *)
From Coq Require Import String.
From mathcomp Require Import all_ssreflect all_algebra.
From Verif Require Import PyPrelude Tensor Spec Numpy Submatrix Inverse Estimators.
Set Implicit Arguments.
Unset Strict Implicit.
Unset Printing Implicit Defensive.
Import Order.Theory GRing.Theory Num.Theory.
Local Open Scope ring_scope.

(* ---------------------------------------------------------------- C58 *)
(* [avg f]: average of f over all outcomes of n fair bits *)
Theorem C58_trace_unbiased_rademacher (R : realFieldType) (A : mv_op R) n M :
  mv_shape A = [:: n; n] -> vec_multiplies (mv_dot A) n n M ->
  exists2 f, forall b : {ffun 'I_n -> bool}, trace_sample A (bits_draw R b) "rademacher" = Ok (f b) &
    (\sum_b f b) / (2 ^ n)%:R = \sum_(i < n) M i i.
Proof.
move=> hs hm.
exists (fun b => \sum_(i < n) draw_val (bits_draw R b) "rademacher" i * (\sum_(j < n) M i j * draw_val (bits_draw R b) "rademacher" j)).
  by move=> b; rewrite (trace_sample_val hs hm).
rewrite -[LHS]/(avg _) -(white_quadratic (rademacher_white R n) M); apply: avg_ext => b.
apply: eq_bigr => i _; rewrite draw_val_bits valK; congr (_ * _).
by apply: eq_bigr => j _; rewrite draw_val_bits valK.
Qed.
Print Assumptions C58_trace_unbiased_rademacher.

(* any linear expectation with uncorrelated unit-variance coordinates, e.g. randn *)
Theorem C58_trace_unbiased_normal (R : realFieldType) (A : mv_op R) n M (E : ((nat -> R) -> R) -> R) :
  white n E -> mv_shape A = [:: n; n] -> vec_multiplies (mv_dot A) n n M ->
  exists2 f, forall x, trace_sample A (reals_draw x) "normal" = Ok (f x) & E f = \sum_(i < n) M i i.
Proof.
move=> hE hs hm; eexists; first by move=> x; rewrite (trace_sample_val hs hm).
exact: (white_quadratic hE M).
Qed.
Print Assumptions C58_trace_unbiased_normal.

Theorem C58_constructor_and_distribution (R : realFieldType) (A : mv_op R) :
  ((exists n, mv_shape A = [:: n; n]) -> hutch_init A = Ok A) /\
  ((~ exists n, mv_shape A = [:: n; n]) -> hutch_init A = Err ValueError) /\
  (forall d dist, dist <> "rademacher"%string -> dist <> "normal"%string -> trace_sample A d dist = Err ValueError).
Proof.
rewrite /hutch_init /not_square; split; first by case=> n ->; rewrite /= eqxx.
split.
  case: (mv_shape A) => [|a [|b [|c s]]] //= h.
  by case: eqP => //= e; case: h; exists a; rewrite e.
move=> d dist h1 h2; have [] // := @sample_bad_dist R A d dist.
by rewrite /valid_dist; case: String.eqb_spec => //; case: String.eqb_spec.
Qed.
Print Assumptions C58_constructor_and_distribution.

Definition ex_mv : mv_op rat_comRing :=
  MvOp [:: 2; 2]%N (fun x => Ok (Tensor [:: 2]%N
    [:: 1 * nth 0 (tdata x) 0 + 2%:R * nth 0 (tdata x) 1; 3%:R * nth 0 (tdata x) 0 + 4%:R * nth 0 (tdata x) 1])).
Definition ex_mvM (i j : nat) : rat := (i * 2 + j).+1%:R.
Example C58_ex_hyp : vec_multiplies (mv_dot ex_mv) 2 2 ex_mvM.
Proof.
move=> x hx hw; eexists; split; [reflexivity|by []|by []|].
by move=> [|[|i]] // _; rewrite !big_ord_recl big_ord0 /= addr0.
Qed.
Example C58_ex : trace_sample ex_mv (Draw (fun i => i == 0%N) (fun _ => 0)) "rademacher" = Ok 0 /\
  trace_sample ex_mv (Draw (fun i => true) (fun _ => 0)) "rademacher" = Ok 10%:R.
Proof. by split; vm_compute. Qed.

(* ---------------------------------------------------------------- C59 *)
Theorem C59_diagonal_unbiased_rademacher (R : realFieldType) (A : mv_op R) n M :
  mv_shape A = [:: n; n] -> vec_multiplies (mv_dot A) n n M ->
  exists2 f, forall b : {ffun 'I_n -> bool}, exists2 t, diag_sample A (bits_draw R b) "rademacher" = Ok t &
      tshape t = [:: n] /\ forall i, (i < n)%N -> nth 0 (tdata t) i = f i b &
    forall i, (i < n)%N -> (\sum_b f i b) / (2 ^ n)%:R = M i i.
Proof.
move=> hs hm.
exists (fun i b => draw_val (bits_draw R b) "rademacher" i * (\sum_(j < n) M i j * draw_val (bits_draw R b) "rademacher" j)).
  move=> b; rewrite (diag_sample_val hs hm) //; eexists; first reflexivity.
  by split=> // i hi; rewrite /= nth_mkseq.
move=> i hi; rewrite -[LHS]/(avg _) -(white_diag (rademacher_white R n) M hi); apply: avg_ext => b.
rewrite insubT (@draw_val_bits R n b (Ordinal hi)); congr (_ * _).
by apply: eq_bigr => j _; rewrite draw_val_bits valK.
Qed.
Print Assumptions C59_diagonal_unbiased_rademacher.

Theorem C59_diagonal_unbiased_normal (R : realFieldType) (A : mv_op R) n M (E : ((nat -> R) -> R) -> R) :
  white n E -> mv_shape A = [:: n; n] -> vec_multiplies (mv_dot A) n n M ->
  exists2 f, forall x, exists2 t, diag_sample A (reals_draw x) "normal" = Ok t &
      tshape t = [:: n] /\ forall i, (i < n)%N -> nth 0 (tdata t) i = f i x &
    forall i, (i < n)%N -> E (f i) = M i i.
Proof.
move=> hE hs hm.
exists (fun i x => x i * (\sum_(j < n) M i j * x j)).
  move=> x; rewrite (diag_sample_val hs hm) //; eexists; first reflexivity.
  by split=> // i hi; rewrite /= nth_mkseq.
by move=> i hi; apply: white_diag.
Qed.
Print Assumptions C59_diagonal_unbiased_normal.

(* for a diagonal matrix every Rademacher sample is exact *)
Theorem C59_diagonal_exact (R : realFieldType) (A : mv_op R) n M d :
  mv_shape A = [:: n; n] -> vec_multiplies (mv_dot A) n n M ->
  (forall i j, (i < n)%N -> (j < n)%N -> i <> j -> M i j = 0) ->
  diag_sample A d "rademacher" = Ok (Tensor [:: n] (mkseq (fun i => M i i) n)).
Proof.
move=> hs hm hd; rewrite (diag_sample_val hs hm) //; congr (Ok (Tensor _ _)).
apply/eq_in_map => i; rewrite mem_iota add0n => /andP [_ hi].
rewrite (bigD1 (Ordinal hi)) //= big1 ?addr0 => [|j ne]; last first.
  by rewrite hd ?mul0r // => e; move/eqP: ne; apply; apply: val_inj.
by rewrite mulrCA /draw_val /= sign_sq mulr1.
Qed.
Print Assumptions C59_diagonal_exact.
Example C59_ex : diag_sample ex_mv (Draw (fun i => i == 0%N) (fun _ => 0)) "rademacher" = Ok (Tensor [:: 2]%N [:: - 1; 1]).
Proof. by vm_compute. Qed.
Example C59_ex_diag : diag_sample (MvOp [:: 2; 2]%N (fun x : tensor rat => Ok (Tensor [:: 2]%N
    [:: 5%:R * nth 0 (tdata x) 0; 7%:R * nth 0 (tdata x) 1] : tensor rat_comRing)))
    (Draw (fun i => i == 0%N) (fun _ => 0)) "rademacher" = Ok (Tensor [:: 2]%N [:: 5%:R; 7%:R]).
Proof. by vm_compute. Qed.

(* ---------------------------------------------------------------- C60 *)
Theorem C60_frobenius_unbiased_rademacher (R : realFieldType) (A : mv_op R) m n M :
  mv_shape A = [:: m; n] -> vec_multiplies (mv_dot A) m n M ->
  exists2 f, forall b : {ffun 'I_n -> bool}, frob_sample A (bits_draw R b) "rademacher" = Ok (f b) &
    (\sum_b f b) / (2 ^ n)%:R = \sum_(i < m) \sum_(j < n) M i j ^+ 2.
Proof.
move=> hs hm; eexists; first by move=> b; rewrite (frob_sample_val hs hm).
rewrite -[LHS]/(avg _) -(white_frob (rademacher_white R n) m M); apply: avg_ext => b.
by apply: eq_bigr => i _; congr (_ * _); apply: eq_bigr => j _; rewrite draw_val_bits valK.
Qed.
Print Assumptions C60_frobenius_unbiased_rademacher.

Theorem C60_frobenius_unbiased_normal (R : realFieldType) (A : mv_op R) m n M (E : ((nat -> R) -> R) -> R) :
  white n E -> mv_shape A = [:: m; n] -> vec_multiplies (mv_dot A) m n M ->
  exists2 f, forall x, frob_sample A (reals_draw x) "normal" = Ok (f x) &
    E f = \sum_(i < m) \sum_(j < n) M i j ^+ 2.
Proof.
move=> hE hs hm; eexists; first by move=> b; rewrite (frob_sample_val hs hm).
exact: (white_frob hE).
Qed.
Print Assumptions C60_frobenius_unbiased_normal.
Example C60_ex : frob_sample ex_mv (Draw (fun i => i == 0%N) (fun _ => 0)) "rademacher" = Ok 2%:R.
Proof. by vm_compute. Qed.
(* white functionals exist for every dimension *)
Example white_ex n : white n (@rademacher_E rat_realFieldType n).
Proof. exact: rademacher_white. Qed.

(* ---------------------------------------------------------------- C61 *)
Section HutchPPProps.
Variable R : realFieldType.
(* the object's environment: random draws, products with A, numpy's qr *)
Implicit Types (rng : nat -> draw R) (hA : nat -> tensor R -> res (tensor R)) (qr : tensor R -> res (tensor R)).

(* q has orthonormal columns *)
Definition orthonormal_array n k (q : tensor R) : Prop :=
  [/\ tshape q = [:: n; k], wf q & forall i j, (i < k)%N -> (j < k)%N ->
   \sum_(l < n) entry k (tdata q) l i * entry k (tdata q) l j = (i == j)%:R].

(* the i-th draw replaced by given bits *)
Definition with_bits rng i n (b : {ffun 'I_n -> bool}) : nat -> draw R :=
  fun j => if j == i then bits_draw R b else rng j.
Definition with_reals rng i (x : nat -> R) : nat -> draw R :=
  fun j => if j == i then reals_draw x else rng j.

(* After any history ds of samples, over the randomness of the draw made for the
   next sample (number k + size ds), the expectation is the trace -- whatever the
   earlier draws and the basis were. *)
Theorem C61_unbiased_rademacher rng hA qr n k bdist M ds o :
  hpp_init R [:: n; n] (Some k%:Z) bdist = Ok o -> (0 < k)%N -> valid_dist bdist -> all valid_dist ds ->
  (forall c, vec_multiplies (hA c) n n M) ->
  (forall X, tshape X = [:: n; k] -> wf X -> exists2 q, qr X = Ok q & orthonormal_array n k q) ->
  exists2 f, forall b : {ffun 'I_n -> bool}, let rng' := with_bits rng (k + size ds)%N b in
      (hpp_sample rng' hA qr (hpp_run rng' hA qr o ds) "rademacher").2 = Ok (f b) &
    (\sum_b f b) / (2 ^ n)%:R = \sum_(i < n) M i i.
Proof.
move=> ho hk hb hds hA' hqr.
have eo : o = fresh R n k bdist by move: ho; rewrite /hpp_init /=; case: ifP => // _; case: ifP => // _ [].
subst o.
have [|q hq [q1 q2 q3]] := hqr (sketch rng n k bdist M) erefl _.
  by rewrite /wf /= (flatten_mkseq_uniform (fun i c => \sum_(l < n) M i l * draw_val (rng c) bdist l)) /= muln1.
pose f (b : {ffun 'I_n -> bool}) := sub_trace n k M q + res_quad n k M q (draw_val (bits_draw R b) "rademacher").
exists f => [b|].
  move=> rng'; have hsk : sketch rng' n k bdist M = sketch rng n k bdist M.
    rewrite /sketch; congr (Tensor _ (flatten _)); apply: eq_map => i.
    apply/eq_in_map => c; rewrite mem_iota add0n => /andP [_ hc].
    apply: eq_bigr => l _; rewrite /rng' /with_bits (_ : (c == _) = false) //.
    by apply/negbTE; rewrite neq_ltn (leq_trans hc (leq_addr _ _)).
  rewrite -hsk in hq; rewrite (sample_after hA' hb hk hq q1 hds) //=.
  by rewrite /rng' /with_bits eqxx.
rewrite -[LHS]/(avg f) /f avgD avg_const.
have -> : \sum_(i < n) M i i = \tr (mmx n M) by apply: eq_bigr => i _; rewrite mxE.
rewrite -(hpp_trace M q3); congr (_ + _).
have -> : \tr (proj n k q *m mmx n M *m proj n k q) =
  \sum_(i < n) mxfun (proj n k q *m mmx n M *m proj n k q) i i.
  by apply: eq_bigr => i _; rewrite mxfun_ord.
rewrite -(white_quadratic (rademacher_white R n)); apply: avg_ext => b; rewrite res_quadE.
apply: eq_bigr => i _; rewrite draw_val_bits valK; congr (_ * _).
by apply: eq_bigr => j _; rewrite draw_val_bits valK.
Qed.

Theorem C61_unbiased_normal rng hA qr n k bdist M ds o E :
  white n E ->
  hpp_init R [:: n; n] (Some k%:Z) bdist = Ok o -> (0 < k)%N -> valid_dist bdist -> all valid_dist ds ->
  (forall c, vec_multiplies (hA c) n n M) ->
  (forall X, tshape X = [:: n; k] -> wf X -> exists2 q, qr X = Ok q & orthonormal_array n k q) ->
  exists2 f, forall x, let rng' := with_reals rng (k + size ds)%N x in
      (hpp_sample rng' hA qr (hpp_run rng' hA qr o ds) "normal").2 = Ok (f x) &
    E f = \sum_(i < n) M i i.
Proof.
move=> hE ho hk hb hds hA' hqr.
have eo : o = fresh R n k bdist by move: ho; rewrite /hpp_init /=; case: ifP => // _; case: ifP => // _ [].
subst o.
have [|q hq [q1 q2 q3]] := hqr (sketch rng n k bdist M) erefl _.
  by rewrite /wf /= (flatten_mkseq_uniform (fun i c => \sum_(l < n) M i l * draw_val (rng c) bdist l)) /= muln1.
pose f (x : nat -> R) := sub_trace n k M q + res_quad n k M q x.
exists f => [b|].
  move=> rng'; have hsk : sketch rng' n k bdist M = sketch rng n k bdist M.
    rewrite /sketch; congr (Tensor _ (flatten _)); apply: eq_map => i.
    apply/eq_in_map => c; rewrite mem_iota add0n => /andP [_ hc].
    apply: eq_bigr => l _; rewrite /rng' /with_reals (_ : (c == _) = false) //.
    by apply/negbTE; rewrite neq_ltn (leq_trans hc (leq_addr _ _)).
  rewrite -hsk in hq; rewrite (sample_after hA' hb hk hq q1 hds) //=.
  by rewrite /rng' /with_reals eqxx.
have [h1 h2 h3 hone _] := hE.
rewrite /f h2 (h1 (fun _ => sub_trace n k M q) (fun _ => sub_trace n k M q * 1)); last by move=> x; rewrite mulr1.
rewrite h3 hone mulr1.
have -> : \sum_(i < n) M i i = \tr (mmx n M) by apply: eq_bigr => i _; rewrite mxE.
rewrite -(hpp_trace M q3); congr (_ + _).
have -> : \tr (proj n k q *m mmx n M *m proj n k q) =
  \sum_(i < n) mxfun (proj n k q *m mmx n M *m proj n k q) i i.
  by apply: eq_bigr => i _; rewrite mxfun_ord.
by rewrite -(white_quadratic hE); apply: h1 => x; rewrite res_quadE.
Qed.

(* If the matrix maps into the span of the basis (A = Q Q^T A), every sample is the
   exact trace, for every draw and both distributions. *)
Theorem C61_exact_on_subspace rng hA qr n k bdist M ds dist o :
  hpp_init R [:: n; n] (Some k%:Z) bdist = Ok o -> (0 < k)%N -> valid_dist bdist -> all valid_dist ds ->
  valid_dist dist -> (forall c, vec_multiplies (hA c) n n M) ->
  (forall X, tshape X = [:: n; k] -> wf X -> exists2 q, qr X = Ok q & orthonormal_array n k q /\
    forall i j, (i < n)%N -> (j < n)%N -> M i j =
     \sum_(a < k) entry k (tdata q) i a * (\sum_(l < n) entry k (tdata q) l a * M l j)) ->
  (hpp_sample rng hA qr (hpp_run rng hA qr o ds) dist).2 = Ok (\sum_(i < n) M i i).
Proof.
move=> ho hk hb hds hd hA' hqr.
have eo : o = fresh R n k bdist by move: ho; rewrite /hpp_init /=; case: ifP => // _; case: ifP => // _ [].
subst o.
have [|q hq [[q1 q2 q3] hspan]] := hqr (sketch rng n k bdist M) erefl.
  by rewrite /wf /= (flatten_mkseq_uniform (fun i c => \sum_(l < n) M i l * draw_val (rng c) bdist l)) /= muln1.
rewrite (sample_after hA' hb hk hq q1 hds) //=; congr Ok.
have hPM : proj n k q *m mmx n M = 0.
  apply/eqP; rewrite /proj mulmxBl mul1mx subr_eq0; apply/eqP/matrixP => i j.
  rewrite -mulmxA !mxE hspan //; apply: eq_bigr => a _; rewrite !mxE; congr (_ * _).
  by apply: eq_bigr => l _; rewrite !mxE.
have -> : \sum_(i < n) M i i = \tr (mmx n M) by apply: eq_bigr => i _; rewrite mxE.
rewrite -(hpp_trace M q3) hPM mul0mx linear0 res_quadE hPM mul0mx; congr (_ + _).
by rewrite big1 // => i _; rewrite big1 ?mulr0 // => j _; rewrite mxfun_ord mxE mul0r.
Qed.
End HutchPPProps.
Print Assumptions C61_unbiased_rademacher.
Print Assumptions C61_unbiased_normal.
Print Assumptions C61_exact_on_subspace.

(* qr contract: returning the first unit vectors is an orthonormal basis *)
Definition ex_qr (X : tensor rat) : res (tensor rat) := Ok (Tensor [:: 2; 1]%N [:: 1; 0]).
Example C61_ex_qr : orthonormal_array 2 1 (Tensor [:: 2; 1]%N [:: 1; 0] : tensor rat).
Proof. by split=> // -[|i] [|j] // _ _; rewrite !big_ord_recl big_ord0. Qed.
Example C61_ex :
  (let! o := hpp_init rat_comRing [:: 2; 2]%N (Some 1%:Z) "rademacher" in
   (hpp_sample (fun _ => Draw (fun i => i == 0%N) (fun _ => 0)) (fun _ => mv_dot ex_mv) ex_qr o "rademacher").2)
  = Ok 5%:R.
Proof. by vm_compute. Qed.

(* ---------------------------------------------------------------- C62 *)
(* without failures: h samples cost k + h draws and 2k + h products, i.e. the basis
   (2k products) is paid for once, and the stored basis never changes *)
Theorem C62_subspace_computed_once_partial (R : realFieldType) (rng : nat -> draw R) hA qr n k bdist M o :
  hpp_init R [:: n; n] (Some k%:Z) bdist = Ok o -> (0 < k)%N -> valid_dist bdist ->
  (forall c, vec_multiplies (hA c) n n M) ->
  (forall X, tshape X = [:: n; k] -> wf X -> exists2 q, qr X = Ok q & tshape q = [:: n; k]) ->
  exists q, forall d ds, all valid_dist (d :: ds) -> let o' := hpp_run rng hA qr o (d :: ds) in
  [/\ hp_Q o' = Some q, exists t, hp_tr o' = Some t /\
       t = \sum_(a < k) \sum_(l < n) entry k (tdata q) l a * (\sum_(m < n) M l m * entry k (tdata q) m a),
      hp_draws o' = (k + (size ds).+1)%N & hp_prods o' = (k + k + (size ds).+1)%N].
Proof.
move=> ho hk hb hA' hqr.
have eo : o = fresh R n k bdist by move: ho; rewrite /hpp_init /=; case: ifP => // _; case: ifP => // _ [].
subst o.
have [|q hq q1] := hqr (sketch rng n k bdist M) erefl.
  by rewrite /wf /= (flatten_mkseq_uniform (fun i c => \sum_(l < n) M i l * draw_val (rng c) bdist l)) /= muln1.
exists q => d ds; elim/last_ind: ds => [|ds e IH] hds o'.
  have := @sample_after R rng hA qr n k bdist M hA' hb q [::] d hk hq q1 isT.
  move: hds => /= /andP [hd _] /(_ hd) /= h.
  by rewrite /o' /= h /=; split=> //; eexists.
move: hds; rewrite -rcons_cons all_rcons => /andP [he hds].
have -> : o' = ready n k bdist M q (size ds).+2.
  by rewrite /o' /hpp_run -rcons_cons -cats1 foldl_cat /= (@sample_after R rng hA qr n k bdist M hA' hb q (d :: ds) e hk hq q1 hds he).
by rewrite size_rcons; split=> //; eexists.
Qed.
Print Assumptions C62_subspace_computed_once_partial.

(* Finding: the subspace trace is accumulated in the attribute that marks the
   subspace as computed.  If a product with A fails in that loop, the next call
   takes the partial sum for the trace and returns a wrong value without error:
   A = diag(1,1), basis the unit vectors, interrupted at its first loop product,
   then a sample returns 0 although every sample should be exactly 2. *)
Definition ex_fail_A (c : nat) (x : tensor rat) : res (tensor rat) :=
  if c == 2%N then Err (UserError 0) else Ok x.
Definition ex_qr2 (X : tensor rat) : res (tensor rat) := Ok (Tensor [:: 2; 2]%N [:: 1; 0; 0; 1]).
Theorem C62_interrupted_subspace_refuted : exists (rng : nat -> draw rat_comRing) (o : hpp rat_comRing),
  [/\ hpp_init rat_comRing [:: 2; 2]%N (Some 2%:Z) "rademacher" = Ok o,
      (forall c x, c <> 2%N -> ex_fail_A c x = Ok x),
      orthonormal_array 2 2 (Tensor [:: 2; 2]%N [:: 1; 0; 0; 1] : tensor rat),
      (hpp_sample rng ex_fail_A ex_qr2 o "rademacher").2 = Err (UserError 0) &
      (hpp_sample rng ex_fail_A ex_qr2 (hpp_run rng ex_fail_A ex_qr2 o [:: "rademacher"%string]) "rademacher").2 = Ok 0].
Proof.
exists (fun _ => Draw (fun i => i == 0%N) (fun _ => 0)); eexists; split; first reflexivity.
- by move=> c x; rewrite /ex_fail_A; case: eqP.
- by split=> // -[|[|i]] [|[|j]] // _ _; rewrite !big_ord_recl big_ord0.
- by vm_compute.
- by vm_compute.
Qed.
Print Assumptions C62_interrupted_subspace_refuted.

(* ---------------------------------------------------------------- C63 *)
Theorem C63_basis_dimension (R : comRingType) shape bd bdist :
  ((~ exists n, shape = [:: n; n]) -> hpp_init R shape bd bdist = Err ValueError) /\
  (forall n z, shape = [:: n; n] -> bd = Some z ->
     (n%:Z < z -> hpp_init R shape bd bdist = Err ValueError) /\
     (z <= n%:Z -> exists2 o, hpp_init R shape bd bdist = Ok o & hp_basis_dim o = z)) /\
  (forall n, shape = [:: n; n] -> bd = None -> (0 < n)%N ->
     exists2 o, hpp_init R shape bd bdist = Ok o &
     exists2 k : nat, hp_basis_dim o = k%:Z & [/\ (1 <= k <= 10)%N, (k <= n)%N & k = minn 10 (maxn (n %/ 100) 1)]).
Proof.
rewrite /hpp_init /not_square; split; last split.
- by case: shape => [|a [|b [|c s]]] //= h; case: eqP => //= e; case: h; exists a; rewrite e.
- move=> n z -> -> /=; rewrite eqxx /=; split=> [-> //|h]; rewrite ltNge h /=.
  by eexists; first reflexivity.
- move=> n -> -> hn /=; rewrite eqxx /= ltz_nat.
  set k := minn _ _.
  have h1 : (1 <= k <= 10)%N by rewrite /k leq_min leq_max orbT geq_minl.
  have h2 : (k <= n)%N by apply: leq_trans (geq_minr _ _) _; rewrite geq_max hn leq_div.
  by rewrite ltnNge h2 /=; eexists; first reflexivity; exists k.
Qed.
Print Assumptions C63_basis_dimension.

(* Finding: a 0 x 0 operator is square, but the default basis dimension 1 is
   rejected; and a non-positive basis_dim is accepted although every sample then
   fails *)
Theorem C63_degenerate_refuted (R : comRingType) bdist (rng : nat -> draw R) hA qr n d :
  hpp_init R [:: 0; 0]%N None bdist = Err ValueError /\
  forall z : int, z <= 0 -> exists2 o, hpp_init R [:: n; n] (Some z) bdist = Ok o & (hpp_sample rng hA qr o d).2 = Err ValueError.
Proof.
split=> // z hz; rewrite /hpp_init /not_square /= eqxx /= (_ : (n%:Z < z) = false); last first.
  by apply/negbTE; rewrite -leNgt; apply: le_trans hz _.
eexists; first reflexivity.
by case: z hz => [[|m]|m] // _.
Qed.
Print Assumptions C63_degenerate_refuted.
Example C63_ex : (let! o := hpp_init int_comRing [:: 750; 750]%N None "normal" in Ok (hp_basis_dim o)) = Ok 7%:Z.
Proof. by vm_compute. Qed.
