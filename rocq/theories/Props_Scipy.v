(* C06, C07: the SciPy export. *)
From mathcomp Require Import all_ssreflect all_algebra.
From Verif Require Import PyPrelude Tensor Spec TorchBase Numpy Submatrix Scipy.
Set Implicit Arguments.
Unset Strict Implicit.
Unset Printing Implicit Defensive.
Import GRing.Theory.
Local Open Scope ring_scope.

(* C05 (general part): adjoint() multiplies with the transpose for every class that
   keeps the contract of its SELF_ADJOINT attribute.  The concrete classes are
   shown to keep it in the files on them. *)
Theorem C05_adjoint_transpose (R : ringType) (A : adj_linop R) k0 M :
  represents (al_fwd A) k0 M -> adjoint_contract A k0 M ->
  [/\ in_shape (op_adjoint A) = out_shape (al_fwd A), out_shape (op_adjoint A) = in_shape (al_fwd A) &
      multiplies k0 (matmat (op_adjoint A)) (out_shape (al_fwd A)) (in_shape (al_fwd A)) (fun i j => M j i)].
Proof. by move=> h1 /(op_adjoint_transpose h1) [[h2 h3]] [_ _ h4]; split=> //; rewrite -h2 -h3. Qed.
Print Assumptions C05_adjoint_transpose.

(* C06: F is A.to_scipy() (used through '@', matvec and matmat), G what its
   rmatvec/rmatmat/adjoint use. *)
Theorem C06_scipy_export (R : ringType) (trunc : R -> R) (A : adj_linop R) k0 M : (k0 <= 1)%N ->
  represents (al_fwd A) k0 M -> adjoint_contract A k0 M ->
  let m := total (out_shape (al_fwd A)) in let n := total (in_shape (al_fwd A)) in
  let F := (to_scipy trunc A DFloat).1 in let G := (to_scipy trunc A DFloat).2 in
  [/\ [/\ (sp_rows F, sp_cols F) = (m, n), vec_multiplies (sp_dot F) m n M, vec_multiplies (sp_matvec F) m n M,
       (forall K, (k0 <= K)%N -> mat_multiplies (sp_dot F) m n K M) &
       (forall K, (k0 <= K)%N -> mat_multiplies (sp_matmat F) m n K M)] &
      [/\ (sp_rows G, sp_cols G) = (n, m), vec_multiplies (sp_dot G) n m (fun i j => M j i),
        vec_multiplies (sp_matvec G) n m (fun i j => M j i),
       (forall K, (k0 <= K)%N -> mat_multiplies (sp_dot G) n m K (fun i j => M j i)) &
       (forall K, (k0 <= K)%N -> mat_multiplies (sp_matmat G) n m K (fun i j => M j i))]].
Proof.
by move=> hk h1 /(op_adjoint_transpose h1) [h2 h3]; apply: to_scipy_multiplies.
Qed.
Print Assumptions C06_scipy_export.

(* an operator [2,2]x[1] -> [3] with matrix M i j = i + j/2, and its adjoint *)
Definition exMq (i j : nat) : rat := i%:Q + j%:Q / 2%:Q.
Definition exS1 := [:: [:: 2; 2]; [:: 1]]%N.
Definition exS2 := [:: [:: 3]]%N.
Definition exAq : adj_linop rat_Ring :=
  @AdjLinop rat_Ring (@LinOp rat exS1 exS2 (@dense_matmat rat_Ring exMq exS1 exS2))
            (@LinOp rat exS2 exS1 (@dense_matmat rat_Ring (fun i j => exMq j i) exS2 exS1)) false.

Example C06_ex : represents (al_fwd exAq) 0 exMq /\ represents (op_adjoint exAq) 0 (fun i j => exMq j i).
Proof. by split; split=> //; apply: dense_multiplies. Qed.

Example C06_ex_contract : adjoint_contract exAq 0 exMq.
Proof. by split=> //; case: C06_ex. Qed.

(* C07 (refuted): for an integer input array the fractional parts are cut off:
   the exported operator does not multiply with A's matrix. *)
Theorem C07_integer_arrays_refuted : exists (A : adj_linop rat_Ring) M (x : tensor rat),
  [/\ represents (al_fwd A) 0 M, tshape x = [:: total (in_shape (al_fwd A))], wf x,
      all (fun a => a == (numq a)%:~R) (tdata x) &
      exists2 y, sp_dot (to_scipy (R := rat_Ring) trunc_rat A DInt).1 x = Ok y &
        nth 0 (tdata y) 0 <> \sum_(j < total (in_shape (al_fwd A))) M 0%N j * nth 0 (tdata x) j].
Proof.
exists exAq, exMq, (Tensor [:: 5]%N [:: 0; 1; 0; 0; 0]); split=> //.
- by split=> //; apply: dense_multiplies.
- by eexists; [vm_compute; reflexivity | rewrite !big_ord_recl big_ord0; apply/eqP; vm_compute].
Qed.
Print Assumptions C07_integer_arrays_refuted.

(* What does hold: the result is A times x, cast to x's dtype; the property holds
   for floating point arrays only. *)
Theorem C07_result_is_cast_product_partial (R : ringType) (trunc : R -> R) (A : linop R) k0 M dt x :
  in_shape A <> [::] -> out_shape A <> [::] ->
  (k0 <= 1)%N -> multiplies k0 (matmat A) (in_shape A) (out_shape A) M ->
  tshape x = [:: total (in_shape A)] -> wf x ->
  let f := scipy_compatible trunc (op_matmul A) dt in
  let S := ScipyOp (total (out_shape A)) (total (in_shape A)) f f in
  exists y, [/\ sp_dot S x = Ok y, tshape y = [:: total (out_shape A)], wf y &
   forall i, (i < total (out_shape A))%N -> nth 0 (tdata y) i =
     (if dt is DInt then trunc else id) (\sum_(j < total (in_shape A)) M i j * nth 0 (tdata x) j)].
Proof. exact: exported_cast. Qed.
Print Assumptions C07_result_is_cast_product_partial.
