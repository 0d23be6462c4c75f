(* Model of the SciPy export, curvlinops/_torch_base.py 300-382. *)
From mathcomp Require Import all_ssreflect all_algebra.
From Verif Require Import PyPrelude Tensor Spec TorchBase Numpy Submatrix.
Set Implicit Arguments.
Unset Strict Implicit.
Unset Printing Implicit Defensive.
Import GRing.Theory Num.Theory.
Local Open Scope ring_scope.

(* NumPy dtype of the array handed to the exported operator, as far as values
   are concerned: floating point or integer. *)
Inductive np_dtype := DFloat | DInt.

Section Model.
Variable R : ringType.
(* numpy's float-to-integer conversion (truncation towards zero) *)
Variable trunc : R -> R.
Local Notation arr := (tensor R).

(* X.astype(dtype): exact for floating types in this model *)
Definition astype (dt : np_dtype) (x : arr) : arr :=
  match dt with DFloat => x | DInt => Tensor (tshape x) [seq trunc a | a <- tdata x] end.

(* _torch_base.py 350-382 (_scipy_compatible): as_tensor converts the NumPy array
   to the operator's dtype and device (values unchanged in the model), f is
   __matmul__, the result is converted back to the *input array's* dtype. *)
Definition scipy_compatible (f : pyval R -> res (pyval R)) (dt : np_dtype) (X : arr) : res arr :=
  let! AX := f (VTensor X) in
  match AX with
  | VTensor t => Ok (astype dt t)
  | _ => Err AttributeError
  end.

(* A PyTorch operator together with the operator _adjoint() returns and the
   class attribute SELF_ADJOINT. *)
Record adj_linop := AdjLinop {
  al_fwd : linop R; al_adj : linop R; al_self_adjoint : bool }.

(* _torch_base.py 128-134 (adjoint) *)
Definition op_adjoint (A : adj_linop) : linop R :=
  if al_self_adjoint A then al_fwd A else al_adj A.

(* _torch_base.py 300-326 (to_scipy), seen through arrays of dtype dt.  The
   SciPy object built from matvec/matmat (resp. rmatvec/rmatmat) functions calls
   them in matvec/matmat (resp. in its adjoint's matvec/matmat, which is what
   rmatvec/rmatmat and .adjoint() use). *)
Definition to_scipy (A : adj_linop) (dt : np_dtype) : scipy_op R * scipy_op R :=
  let f := scipy_compatible (op_matmul (al_fwd A)) dt in
  let g := scipy_compatible (op_matmul (op_adjoint A)) dt in
  let: (m, n) := op_shape (al_fwd A) in
  (ScipyOp m n f f, ScipyOp n m g g).

Lemma scipy_compatible_vec (A : linop R) k0 M : in_shape A <> [::] -> out_shape A <> [::] ->
  (k0 <= 1)%N -> multiplies k0 (matmat A) (in_shape A) (out_shape A) M ->
  vec_multiplies (scipy_compatible (op_matmul A) DFloat) (total (out_shape A)) (total (in_shape A)) M.
Proof.
move=> hi ho hk hM x hx hw.
have [Y [h1 h2 h3]] := @matmul_product R A k0 M false None (VTensor x) hi ho hM (conj hx hw) hk.
rewrite /scipy_compatible h1 /=; case: Y h1 h2 h3 => [t|||] // h1 [h2 h2'] h3.
exists t; split=> // i hi'; have := h3 i 0%N hi' isT; rewrite /= /entry !muln1 !addn0 => ->.
by apply: eq_bigr => j _; rewrite muln1 addn0.
Qed.

Lemma scipy_compatible_mat (A : linop R) k0 M K : in_shape A <> [::] -> out_shape A <> [::] ->
  (k0 <= K)%N -> multiplies k0 (matmat A) (in_shape A) (out_shape A) M ->
  mat_multiplies (scipy_compatible (op_matmul A) DFloat) (total (out_shape A)) (total (in_shape A)) K M.
Proof.
move=> hi ho hk hM x hx hw.
have [Y [h1 h2 h3]] := @matmul_product R A k0 M false (Some K) (VTensor x) hi ho hM (conj hx hw) hk.
rewrite /scipy_compatible h1 /=; case: Y h1 h2 h3 => [t|||] // h1 [h2 h2'] h3.
by exists t; split=> // i hi'.
Qed.

(* dot on a (n,1) column goes through matvec *)
Lemma sp_dot_col (A : scipy_op R) M :
  mat_multiplies (sp_matvec_impl A) (sp_rows A) (sp_cols A) 1 M ->
  mat_multiplies (sp_dot A) (sp_rows A) (sp_cols A) 1 M.
Proof.
move=> h X hX hw; have [y [h1 h2 h3 h4]] := h X hX hw.
rewrite /sp_dot /sp_matvec /ndim hX /= eqxx andbF /= h1 /= /treshape.
have hs : numel [:: sp_rows A; 1%N] = size (tdata y) by move/eqP: h3; rewrite h2.
by rewrite hs eqxx; eexists; split; first reflexivity; rewrite // /wf /= -hs.
Qed.

Lemma exported_multiplies (A : linop R) k0 M : in_shape A <> [::] -> out_shape A <> [::] ->
  (k0 <= 1)%N -> multiplies k0 (matmat A) (in_shape A) (out_shape A) M ->
  let f := scipy_compatible (op_matmul A) DFloat in
  let S := ScipyOp (total (out_shape A)) (total (in_shape A)) f f in
  [/\ vec_multiplies (sp_dot S) (total (out_shape A)) (total (in_shape A)) M,
      vec_multiplies (sp_matvec S) (total (out_shape A)) (total (in_shape A)) M,
      (forall K, (k0 <= K)%N -> mat_multiplies (sp_dot S) (total (out_shape A)) (total (in_shape A)) K M) &
      (forall K, (k0 <= K)%N -> mat_multiplies (sp_matmat S) (total (out_shape A)) (total (in_shape A)) K M)].
Proof.
move=> hi ho hk hM f S.
have hv := scipy_compatible_vec hi ho hk hM.
have hm K (h : (k0 <= K)%N) := @scipy_compatible_mat A k0 M K hi ho h hM.
have hd : vec_multiplies (sp_dot S) (total (out_shape A)) (total (in_shape A)) M.
  exact: (@sp_dot_vec _ S).
split=> //.
- move=> x hx hw; have [y [h1 h2 h3 h4]] := hd x hx hw; exists y; split=> //.
  by move: h1; rewrite /sp_dot /ndim hx.
- move=> K hK; have [e|ne] := eqVneq K 1%N.
    by rewrite e in hK *; apply: (@sp_dot_col S); apply: hm.
  by apply: (@sp_dot_mat _ S); [apply/eqP | apply: hm].
- move=> K hK X hX hw; rewrite /sp_matmat /ndim hX /= eqxx /=; exact: hm.
Qed.

(* A @ X is the product with the matrix M, for tensors X (specification) *)
Definition represents (A : linop R) k0 M : Prop :=
  [/\ in_shape A <> [::], out_shape A <> [::] & multiplies k0 (matmat A) (in_shape A) (out_shape A) M].

Lemma to_scipy_multiplies (A : adj_linop) k0 M : (k0 <= 1)%N ->
  represents (al_fwd A) k0 M -> represents (op_adjoint A) k0 (fun i j => M j i) ->
  (in_shape (op_adjoint A), out_shape (op_adjoint A)) = (out_shape (al_fwd A), in_shape (al_fwd A)) ->
  let m := total (out_shape (al_fwd A)) in let n := total (in_shape (al_fwd A)) in
  let F := (to_scipy A DFloat).1 in let G := (to_scipy A DFloat).2 in
  [/\ [/\ (sp_rows F, sp_cols F) = (m, n), vec_multiplies (sp_dot F) m n M, vec_multiplies (sp_matvec F) m n M,
       (forall K, (k0 <= K)%N -> mat_multiplies (sp_dot F) m n K M) &
       (forall K, (k0 <= K)%N -> mat_multiplies (sp_matmat F) m n K M)] &
      [/\ (sp_rows G, sp_cols G) = (n, m), vec_multiplies (sp_dot G) n m (fun i j => M j i),
        vec_multiplies (sp_matvec G) n m (fun i j => M j i),
       (forall K, (k0 <= K)%N -> mat_multiplies (sp_dot G) n m K (fun i j => M j i)) &
       (forall K, (k0 <= K)%N -> mat_multiplies (sp_matmat G) n m K (fun i j => M j i))]].
Proof.
move=> hk [h1 h2 h3] [g1 g2 g3] [e1 e2] m n F G.
have [a1 a2 a3 a4] := exported_multiplies h1 h2 hk h3.
have [b1 b2 b3 b4] := exported_multiplies g1 g2 hk g3.
by rewrite e1 e2 in b1 b2 b3 b4; split; split.
Qed.

(* what a class must provide: a symmetric matrix if it declares itself
   self-adjoint, otherwise an _adjoint() that multiplies with the transpose *)
Definition adjoint_contract (A : adj_linop) k0 M : Prop :=
  let n := total (in_shape (al_fwd A)) in
  if al_self_adjoint A then
    out_shape (al_fwd A) = in_shape (al_fwd A) /\ forall i j, (i < n)%N -> (j < n)%N -> M i j = M j i
  else
    (in_shape (al_adj A), out_shape (al_adj A)) = (out_shape (al_fwd A), in_shape (al_fwd A)) /\
    represents (al_adj A) k0 (fun i j => M j i).

Lemma op_adjoint_transpose (A : adj_linop) k0 M :
  represents (al_fwd A) k0 M -> adjoint_contract A k0 M ->
  (in_shape (op_adjoint A), out_shape (op_adjoint A)) = (out_shape (al_fwd A), in_shape (al_fwd A)) /\
  represents (op_adjoint A) k0 (fun i j => M j i).
Proof.
rewrite /adjoint_contract /op_adjoint; case: ifP => // _ [h1 h2 hm] [hs hsym].
split; first by rewrite hs.
split=> // K X hK hX; have [Y [g1 g2 g3]] := hm K X hK hX; exists Y; split=> //.
move=> i k hi hk; rewrite g3 //; apply: eq_bigr => j _; rewrite hsym // -hs //.
Qed.

(* the general result: what comes back is the product cast to the input's dtype *)
Lemma exported_cast (A : linop R) k0 M dt x : in_shape A <> [::] -> out_shape A <> [::] ->
  (k0 <= 1)%N -> multiplies k0 (matmat A) (in_shape A) (out_shape A) M ->
  tshape x = [:: total (in_shape A)] -> wf x ->
  let f := scipy_compatible (op_matmul A) dt in
  let S := ScipyOp (total (out_shape A)) (total (in_shape A)) f f in
  exists y, [/\ sp_dot S x = Ok y, tshape y = [:: total (out_shape A)], wf y &
   forall i, (i < total (out_shape A))%N -> nth 0 (tdata y) i =
     (if dt is DInt then trunc else id) (\sum_(j < total (in_shape A)) M i j * nth 0 (tdata x) j)].
Proof.
move=> hi ho hk hM hx hw f S.
have [y [h1 h2 h3 h4]] := scipy_compatible_vec hi ho hk hM hx hw.
have hs : size (tdata y) = total (out_shape A) by move/eqP: h3; rewrite h2 /= muln1.
exists (astype dt y).
have hf : f x = Ok (astype dt y).
  by move: h1; rewrite /f /scipy_compatible; case: (op_matmul _ _) => [[]|] //= t [->].
have hz : size (tdata (astype dt y)) = total (out_shape A) by case: (dt) => //=; rewrite size_map.
have hsh : tshape (astype dt y) = [:: total (out_shape A)] by case: (dt).
have hres : sp_dot S x = Ok (astype dt y).
  rewrite /sp_dot /sp_matvec /ndim hx /= eqxx /= hf /= /treshape /= muln1 hz eqxx.
  by move: hsh; case: (astype dt y) => /= s d ->.
split=> //; first by rewrite /wf hz hsh /= muln1.
move=> i hi'; rewrite -h4 //; case: (dt) => //=.
by rewrite (nth_map 0) // hs.
Qed.

End Model.

(* truncation of a rational towards zero, as numpy's astype(int64) does *)
Definition trunc_rat (x : rat) : rat :=
  (sgz (numq x) * ((`|numq x|%N %/ `|denq x|%N)%N : int))%:~R.
