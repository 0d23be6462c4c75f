(* C57: what the default condition limit of the LSMR inverse means. *)
From mathcomp Require Import all_ssreflect all_algebra ring.
From Verif Require Import PyPrelude Tensor Spec Numpy Submatrix Scipy Inverse Props_Inverse.
Set Implicit Arguments.
Unset Strict Implicit.
Unset Printing Implicit Defensive.
Import GRing.Theory Num.Theory Order.TTheory.
Local Open Scope ring_scope.

Section Lsmr.
Variable R : realFieldType.
Local Notation arr := (tensor R).

(* the number m * 10^e *)
Definition dec_value (o : pyobj) : option R :=
  if o is ODec m e then Some (m%:~R * 10%:R ^ e) else None.

(* SciPy's lsmr (external, from its documentation): it computes iterates 1, 2, ... and
   after each one estimates the condition number (a quotient of a maximum and a minimum,
   so at least 1).  It returns an iterate k, and iterates before k did not exceed the limit:
   'lsmr terminates if an estimate of cond(A) exceeds conlim'. *)
Definition observes_conlim (lsmr : arr -> lsmr_dict pyobj -> res arr) (iterate : arr -> nat -> arr) : Prop :=
  exists2 cond : arr -> nat -> R, (forall x k, 1 <= cond x k) &
  forall x d conlim, dec_value (ls_conlim d) = Some conlim -> 0 < conlim ->
    exists k, [/\ (0 < k)%N, lsmr x d = Ok (iterate x k) & forall j, (0 < j < k)%N -> cond x j <= conlim].

(* with the default hyper-parameters every product stops after one iteration *)
Theorem C57_lsmr_one_iteration lsmr iterate h x :
  observes_conlim lsmr iterate -> only_products h ->
  solver_matvec set_lsmr lsmr_omitted lsmr h x = Ok (iterate x 1%N).
Proof.
move=> [cond hc hl] hh; rewrite C57_lsmr_default //.
set d := LsmrDict _ _ _ _ _ _ _.
have p10 : 0 < 10%:R ^+ 8 :> R by rewrite exprn_gt0 // ltr0n.
have ev : dec_value (ls_conlim d) = Some (10%:R ^+ 8)^-1 by rewrite /dec_value /= mul1r.
have [|k [hk -> hj]] := hl x d _ ev; first by rewrite invr_gt0.
case: k hk hj => [//|[//|k]] _ /(_ 1%N isT) h1; exfalso.
have := le_trans (hc x 1%N) h1; rewrite invf_cp1 // leNgt => /negP; apply.
by rewrite exprn_egt1 // ltr1n.
Qed.

(* the first iterate minimises |M (x - M y)| on the line through M x (definition of LSMR
   for a symmetric matrix, start at zero, no damping) *)
Definition first_iterate n (M : 'M[R]_n) (x y : 'cV[R]_n) : Prop :=
  exists2 t, y = t *: (M *m x) & forall t', 
   let r u := M *m (x - M *m (u *: (M *m x))) in ((r t)^T *m r t) 0 0 <= ((r t')^T *m r t') 0 0.
Definition diag12 : 'M[R]_2 := \matrix_(i, j) (if i == j then (i.+1)%:R else 0).
Definition ones : 'cV[R]_2 := \col_i 1.

(* For diag(1, 2) and the vector of ones the first iterate is no solution: the squared
   norm of its residual is larger than a quarter of that of the right-hand side. *)
Lemma diag12_mul (v : 'cV[R]_2) : diag12 *m v = \col_i (if i == 0 then v 0 0 else 2%:R * v 1 0).
Proof.
apply/colP => i; rewrite !mxE big_ord_recl big_ord1 !mxE.
rewrite (_ : lift ord0 ord0 = 1); last by apply: val_inj.
by case: i => [[|[|m]]] //= hi; rewrite /eq_op /= ?(mul0r, add0r, addr0, mul1r, mulr1).
Qed.
Lemma diag12E u : diag12 *m (u *: (diag12 *m ones)) = \col_i (if i == 0 then u else 4%:R * u).
Proof.
rewrite !diag12_mul; apply/colP => i; rewrite !mxE /=; case: ifP => _; rewrite ?mulr1 //.
by rewrite /=; ring.
Qed.
Lemma sq2 (v : 'cV[R]_2) : (v^T *m v) 0 0 = v 0 0 ^+ 2 + v 1 0 ^+ 2.
Proof.
rewrite !mxE big_ord_recl big_ord1 !mxE !expr2.
by rewrite (_ : lift ord0 ord0 = 1) //; apply: val_inj.
Qed.
Lemma first_iterate_residual y : first_iterate diag12 ones y ->
  let r := ones - diag12 *m y in (ones^T *m ones) 0 0 < 4%:R * (r^T *m r) 0 0.
Proof.
case=> t -> ht /=; rewrite diag12E !sq2 !mxE /=.
have ne : 65%:R != 0 :> R by rewrite pnatr_eq0.
have := ht (17%:R / 65%:R); rewrite /= !diag12E !diag12_mul !sq2 !mxE /=.
move=> h.
have et : t = 17%:R / 65%:R.
  apply/eqP; rewrite -subr_eq0 -sqrf_eq0 eq_le sqr_ge0 andbT.
  rewrite -(@pmulr_rle0 _ 65%:R) ?ltr0n //; move: h; rewrite -subr_le0; congr (_ <= _).
  by field.
rewrite et -subr_gt0 (_ : _ - _ = 802%:R / 4225%:R); first by rewrite divr_gt0 ?ltr0n.
have ne2 : 4225%:R != 0 :> R by rewrite pnatr_eq0.
by field.
Qed.

(* the vector of ones as an array *)
Definition ones_arr : arr := Tensor [:: 2%N] (1 :: 1 :: nil).
Lemma ones_arrE : vec_of 2 ones_arr = ones.
Proof. by apply/colP => i; rewrite !mxE; case: i => [[|[|m]]]. Qed.

(* Products of the default inverse operator of diag(1, 2) with (1, 1) succeed, but the squared
   residual is more than a quarter of the squared right-hand side, for every solver
   that observes the condition limit and whose first iterate is LSMR's. *)
Theorem C57_lsmr_default_refuted lsmr iterate h :
  observes_conlim lsmr iterate -> only_products h ->
  first_iterate diag12 ones (vec_of 2 (iterate ones_arr 1%N)) ->
  exists2 y, solver_matvec set_lsmr lsmr_omitted lsmr h ones_arr = Ok y &
   let r := vec_of 2 ones_arr - diag12 *m vec_of 2 y in
   ((vec_of 2 ones_arr)^T *m vec_of 2 ones_arr) 0 0 < 4%:R * (r^T *m r) 0 0.
Proof.
move=> ho hh hi; exists (iterate ones_arr 1%N); first exact: C57_lsmr_one_iteration.
by rewrite ones_arrE; apply: first_iterate_residual.
Qed.

(* such a solver exists *)
Definition iterate1 (x : arr) (k : nat) : arr := Tensor [:: 2%N] (17%:R / 65%:R :: 34%:R / 65%:R :: nil).
Example C57_ex_lsmr : observes_conlim (fun x d => Ok (iterate1 x 1%N)) iterate1 /\
  first_iterate diag12 ones (vec_of 2 (iterate1 ones_arr 1%N)).
Proof.
split; first by exists (fun _ _ => 1) => // x d c _ _; exists 1%N; split=> // -[|[|]].
exists (17%:R / 65%:R).
  apply/colP => i; rewrite diag12_mul !mxE; case: i => [[|[|m]]] //= hi; rewrite ?mulr1 //.
  by rewrite mulrAC -natrM.
have ne : 65%:R != 0 :> R by rewrite pnatr_eq0.
move=> t /=; rewrite !diag12E !diag12_mul !sq2 !mxE /= -subr_ge0.
rewrite (_ : _ - _ = 65%:R * (t - 17%:R / 65%:R) ^+ 2); first by rewrite mulr_ge0 ?sqr_ge0 ?ler0n.
by field.
Qed.
End Lsmr.
Print Assumptions C57_lsmr_one_iteration.
Print Assumptions C57_lsmr_default_refuted.
