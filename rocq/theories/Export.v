(* Exports of the self-adjoint curvature operators (SELF_ADJOINT = True) to SciPy:
   what the NumPy algorithms get when they are given such an operator. *)
From mathcomp Require Import all_ssreflect all_algebra.
From Verif Require Import PyPrelude Tensor Spec TorchBase Numpy Submatrix Scipy OpSpec.
Set Implicit Arguments.
Unset Strict Implicit.
Unset Printing Implicit Defensive.
Import GRing.Theory.
Local Open Scope ring_scope.

Section Export.
Variables (R : comRingType) (trunc : R -> R).

(* A.to_scipy() for an operator with SELF_ADJOINT = True (_torch_base.py 300-326 and
   128-134; hessian.py 42, ggn.py 45, fisher.py 108, gradient_moments.py 48, kfac.py 128,
   inverse.py 303), applied to arrays of floating type.  The adjoint of the exported
   operator is the second component of [to_scipy]; it calls the same functions. *)
Definition exported (A : linop R) : scipy_op R := (to_scipy trunc (AdjLinop A A true) DFloat).1.

Lemma exported_acts (A : linop R) S M : acts_as A S M ->
  [/\ sp_rows (exported A) = total S /\ sp_cols (exported A) = total S,
      vec_multiplies (sp_dot (exported A)) (total S) (total S) M,
      vec_multiplies (sp_matvec (exported A)) (total S) (total S) M,
      (forall K, mat_multiplies (sp_dot (exported A)) (total S) (total S) K M) &
      (forall K, mat_multiplies (sp_matmat (exported A)) (total S) (total S) K M)].
Proof.
move=> [hi ho hA].
have eE : exported A = let f := scipy_compatible trunc (op_matmul A) DFloat in ScipyOp (total S) (total S) f f.
  by rewrite /exported /to_scipy /op_shape /out_shape_flat /in_shape_flat hi ho.
have hv : vec_multiplies (scipy_compatible trunc (op_matmul A) DFloat) (total S) (total S) M.
  move=> x hx hw; have [Y [h1 h2 h3]] := hA false None (VTensor x) (conj hx hw).
  rewrite /scipy_compatible h1 /=; case: Y h1 h2 h3 => [t|||] // h1 [h2 h2'] h3.
  exists t; split=> // i hi'; have := h3 i 0%N hi' isT; rewrite /= /entry !muln1 !addn0 => ->.
  by apply: eq_bigr => j _; rewrite muln1 addn0.
have hm K : mat_multiplies (scipy_compatible trunc (op_matmul A) DFloat) (total S) (total S) K M.
  move=> x hx hw; have [Y [h1 h2 h3]] := hA false (Some K) (VTensor x) (conj hx hw).
  rewrite /scipy_compatible h1 /=; case: Y h1 h2 h3 => [t|||] // h1 [h2 h2'] h3.
  by exists t; split=> // i hi'.
rewrite eE /=; set E := ScipyOp _ _ _ _.
have hd : vec_multiplies (sp_dot E) (total S) (total S) M by exact: (@sp_dot_vec _ E).
split=> //.
- move=> x hx hw; have [y [h1 h2 h3 h4]] := hd x hx hw; exists y; split=> //.
  by move: h1; rewrite /sp_dot /ndim hx.
- move=> K; have [->|ne] := eqVneq K 1%N; first by apply: (@sp_dot_col _ E); apply: hm.
  by apply: (@sp_dot_mat _ E); [apply/eqP | apply: hm].
- move=> K X hX hw; rewrite /sp_matmat /ndim hX /= eqxx /=; exact: hm.
Qed.
End Export.
