(* C09-C13: split_list, sub-matrices, outer products and projectors. *)
From mathcomp Require Import all_ssreflect all_algebra.
From Verif Require Import PyPrelude Tensor Spec Numpy Submatrix.
Set Implicit Arguments.
Unset Strict Implicit.
Unset Printing Implicit Defensive.
Import GRing.Theory.
Local Open Scope ring_scope.

(* C09 *)
Theorem C09_split_list_partitions T (x : seq T) (sizes : seq int) :
  all (fun z => 0 <= z) sizes -> foldr +%R 0 sizes = (size x)%:Z ->
  exists2 ls, split_list x sizes = Ok ls &
    [seq (size l)%:Z | l <- ls] = sizes /\ flatten ls = x.
Proof. exact: split_list_spec. Qed.
Print Assumptions C09_split_list_partitions.

Theorem C09_split_list_wrong_total T (x : seq T) (sizes : seq int) :
  foldr +%R 0 sizes <> (size x)%:Z -> split_list x sizes = Err ValueError.
Proof. exact: split_list_err. Qed.
Print Assumptions C09_split_list_wrong_total.

Example C09_ex : split_list [:: 10; 11; 12; 13; 14]%N [:: 2; 0; 3] =
   Ok [:: [:: 10; 11]; [::]; [:: 12; 13; 14]]%N.
Proof. by []. Qed.

(* C10: a sub-matrix operator multiplies vectors and matrices (with at least two
   columns) with the selected rows and columns of A. *)
Theorem C10_submatrix_products (R : ringType) (A AT : scipy_op R) rows cols o M :
  submat_init A AT rows cols = Ok o -> no_bools rows -> no_bools cols ->
  vec_multiplies (sp_dot A) (sp_rows A) (sp_cols A) M ->
  let Msub := (fun i j => M (absz (idx_val (nth PNonInt rows i))) (absz (idx_val (nth PNonInt cols j)))) in
  [/\ (sp_rows (submat_op o), sp_cols (submat_op o)) = (size rows, size cols),
      vec_multiplies (sp_dot (submat_op o)) (size rows) (size cols) Msub &
      forall K, (1 < K)%N -> mat_multiplies (sp_dot (submat_op o)) (size rows) (size cols) K Msub].
Proof. exact: submat_multiplies. Qed.
Print Assumptions C10_submatrix_products.

(* Finding: a matrix with a single column is dispatched to _matvec, which cannot
   assign it: every such product raises ValueError. *)
Theorem C10_single_column_refuted (R : ringType) (A AT : scipy_op R) rows cols o x :
  submat_init A AT rows cols = Ok o -> no_bools cols -> (1 < size cols)%N ->
  tshape x = [:: size cols; 1%N] -> sp_dot (submat_op o) x = Err ValueError.
Proof. exact: submat_column_fails. Qed.
Print Assumptions C10_single_column_refuted.

(* a concrete 3 x 3 operator for the examples *)
Definition ex_diag : scipy_op int_Ring :=
  let f := fun x => Ok (Tensor [:: 3]%N (mkseq (fun i => sumr 3 (fun j => ((i * 3 + j)%N%:Z * nth 0 (tdata x) j : int_Ring))) 3)) in
  ScipyOp 3 3 f (fun _ => Err NotImplementedError).

Example C10_ex :
  (let! o := submat_init ex_diag ex_diag [:: PInt 2; PInt 0] [:: PInt 1; PInt 2] in
   sp_dot (submat_op o) (Tensor [:: 2]%N [:: 1; 10])) = Ok (Tensor [:: 2]%N [:: 87; 21]) /\
  (let! o := submat_init ex_diag ex_diag [:: PInt 2; PInt 0] [:: PInt 1; PInt 2] in
   sp_dot (submat_op o) (Tensor [:: 2; 2]%N [:: 1; 0; 0; 1])) = Ok (Tensor [:: 2; 2]%N [:: 7; 8; 1; 2]).
Proof. by split; vm_compute. Qed.

Example C10_ex_mult : vec_multiplies (sp_dot ex_diag) 3 3 (fun i j => (i * 3 + j)%N%:Z).
Proof.
apply: (@sp_dot_vec _ ex_diag) => x hx hw; eexists; split; first reflexivity; rewrite //.
by move=> i hi; rewrite nth_mkseq // sumrE.
Qed.

(* C11: adjoint of a sub-matrix; AT stands for A.adjoint(). *)
Theorem C11_submatrix_adjoint (R : ringType) (A AT : scipy_op R) rows cols o M :
  submat_init A AT rows cols = Ok o -> no_bools rows -> no_bools cols ->
  (sp_rows AT, sp_cols AT) = (sp_cols A, sp_rows A) ->
  vec_multiplies (sp_dot AT) (sp_cols A) (sp_rows A) (fun i j => M j i) ->
  let Msub := (fun i j => M (absz (idx_val (nth PNonInt rows i))) (absz (idx_val (nth PNonInt cols j)))) in
  exists2 o', submat_adjoint o = Ok o' &
  [/\ (sp_rows (submat_op o'), sp_cols (submat_op o')) = (size cols, size rows),
      vec_multiplies (sp_dot (submat_op o')) (size cols) (size rows) (fun i j => Msub j i),
      forall K, (1 < K)%N -> mat_multiplies (sp_dot (submat_op o')) (size cols) (size rows) K (fun i j => Msub j i) &
      submat_adjoint o' = Ok o].
Proof. exact: submat_adjoint_multiplies. Qed.
Print Assumptions C11_submatrix_adjoint.

(* the transpose of ex_diag, standing for ex_diag.adjoint() *)
Definition ex_diagT : scipy_op int_Ring :=
  let f := fun x => Ok (Tensor [:: 3]%N (mkseq (fun i => sumr 3 (fun j => ((j * 3 + i)%N%:Z * nth 0 (tdata x) j : int_Ring))) 3)) in
  ScipyOp 3 3 f (fun _ => Err NotImplementedError).

Example C11_ex :
  (let! o := submat_init ex_diag ex_diagT [:: PInt 2; PInt 0] [:: PInt 1] in
   let! o' := submat_adjoint o in
   sp_dot (submat_op o') (Tensor [:: 2]%N [:: 1; 10])) = Ok (Tensor [:: 1]%N [:: 17]).
Proof. by vm_compute. Qed.

(* C12: which index lists are accepted, and that a rejected call changes nothing. *)
Theorem C12_validation_exact (R : ringType) (o : submat R) rows cols :
  let ok := valid_indices (sp_rows (sm_A o)) rows /\ valid_indices (sp_cols (sm_A o)) cols in
  (ok -> set_submatrix o rows cols = (Submat (sm_A o) (sm_AT o) rows cols (size rows, size cols), Ok tt)) /\
  (~ ok -> set_submatrix o rows cols = (o, Err ValueError)).
Proof. exact: set_submatrix_spec. Qed.
Print Assumptions C12_validation_exact.

(* Without the model's notion of validity: a list is accepted iff its elements are different
   positions within the bound, each given as an integer or (0 and 1) as a bool. *)
Definition gives_positions (bound : nat) (idxs : seq pyidx) : Prop :=
  exists pos : seq nat, [/\ size pos = size idxs, uniq pos, all (fun p => p < bound)%N pos &
    forall k, (k < size idxs)%N -> nth PNonInt idxs k = PInt (nth 0%N pos k)%:Z \/
      exists2 b : bool, nth PNonInt idxs k = PBool b & nth 0%N pos k = b].
Lemma gives_positionsP bound idxs : valid_indices bound idxs <-> gives_positions bound idxs.
Proof.
split=> [[h1 h2 h3]|[pos [s u h e]]].
  have hk k : (k < size idxs)%N -> 0 <= idx_val (nth PNonInt idxs k) < bound%:Z.
    by move=> hk; apply: (all_nthP PNonInt h3).
  exists [seq absz (idx_val i) | i <- idxs]; split; rewrite ?size_map //.
  - rewrite (map_comp absz idx_val) map_inj_in_uniq // => a b /(nthP 0)[k + <-] /(nthP 0)[l + <-].
    rewrite !size_map => ka la; rewrite !(nth_map PNonInt) // => eab.
    have /andP[k0 _] := hk _ ka; have /andP[l0 _] := hk _ la.
    by rewrite -(gez0_abs k0) -(gez0_abs l0) eab.
  - rewrite all_map; apply/(all_nthP PNonInt) => k ik; have /andP[i0 ib] := hk _ ik.
    by rewrite /= -ltz_nat gez0_abs.
  - move=> k ik; rewrite (nth_map PNonInt) //; have := (all_nthP PNonInt h1) k ik; have /andP[+ _] := hk _ ik.
    by case: (nth PNonInt idxs k) => [z|b|] //= z0 _; [left; rewrite gez0_abs | right; exists b].
have ev k : (k < size idxs)%N -> idx_val (nth PNonInt idxs k) = (nth 0%N pos k)%:Z.
  by move=> hk; case: (e _ hk) => [-> //|[b -> ->]].
split.
- by apply/(all_nthP PNonInt) => k hk; case: (e _ hk) => [->|[b -> _]].
- rewrite (_ : [seq idx_val i | i <- idxs] = [seq p%:Z | p <- pos]) ?map_inj_uniq // => [a b []//|].
  apply: (@eq_from_nth _ 0); rewrite ?size_map // => k hk.
  by rewrite (nth_map PNonInt) // (nth_map 0%N) ?s // ev.
- apply/(all_nthP PNonInt) => k hk; rewrite ev // ltz_nat (allP h) // mem_nth // s //.
Qed.
Theorem C12_accepted (R : ringType) (o : submat R) rows cols :
  (set_submatrix o rows cols).2 = Ok tt <->
  gives_positions (sp_rows (sm_A o)) rows /\ gives_positions (sp_cols (sm_A o)) cols.
Proof.
rewrite -!gives_positionsP; have [h1 h2] := set_submatrix_spec o rows cols; split=> [hok|/h1 -> //].
have dec b l : valid_indices b l \/ ~ valid_indices b l.
  rewrite /valid_indices; set b1 := all _ _; set b2 := uniq _; set b3 := all _ _.
  by case: (@and3P b1 b2 b3); [left|right].
have [hr|hr] := dec (sp_rows (sm_A o)) rows; last by move: hok; rewrite h2 => // -[].
by have [hc|hc] := dec (sp_cols (sm_A o)) cols; [|move: hok; rewrite h2 // => -[]].
Qed.
Print Assumptions C12_accepted.
Example C12_ex_positions : gives_positions 3 [:: PInt 2; PBool true; PBool false] /\ ~ gives_positions 3 [:: PInt 0; PNonInt].
Proof.
split; first by exists [:: 2; 1; 0]%N; split=> // -[|[|[|k]]] // _; [left|right; exists true|right; exists false].
by case=> pos [_ _ _ /(_ 1%N isT)] [//|[b]].
Qed.

(* After any history of set_submatrix calls on a constructed operator, it is
   configured by the last valid pair of index lists. *)
Theorem C12_last_valid_setting (R : ringType) (A AT : scipy_op R) h rows cols o :
  submat_init A AT rows cols = Ok o ->
  exists rc, [/\ rc = (rows, cols) \/ List.In rc h,
     run_sets o h = Submat A AT rc.1 rc.2 (size rc.1, size rc.2),
     valid_indices (sp_rows A) rc.1 /\ valid_indices (sp_cols A) rc.2 &
     forall h1 h2 rc', h = h1 ++ rc' :: h2 ->
        valid_indices (sp_rows A) rc'.1 /\ valid_indices (sp_cols A) rc'.2 ->
        rc = rc' \/ List.In rc h2].
Proof. exact: run_sets_spec. Qed.
Print Assumptions C12_last_valid_setting.

Example C12_ex : valid_indices 3 [:: PInt 2; PInt 0] /\ ~ valid_indices 3 [:: PInt 2; PInt 2]
  /\ ~ valid_indices 3 [:: PInt 3] /\ ~ valid_indices 3 [:: PInt (- 1)] /\ ~ valid_indices 3 [:: PNonInt].
Proof. by do !split=> //; case. Qed.

(* Finding: bools pass the integer check, but NumPy reads a list of bools as a
   mask; the accepted operator's products then fail. *)
Theorem C12_bools_are_integers_refuted : exists (A : scipy_op int_Ring) o x,
  [/\ submat_init A A [:: PBool true; PBool false] [:: PInt 0; PInt 1] = Ok o,
      vec_multiplies (sp_dot A) 2 2 (fun i j => (i == j)%:R), tshape x = [:: 2]%N &
      wf x /\ sp_dot (submat_op o) x = Err ValueError].
Proof.
exists (ScipyOp 2 2 (fun x => Ok x) (fun x => Ok x)), (Submat (ScipyOp 2 2 (fun x => Ok x) (fun x => Ok x))
  (ScipyOp 2 2 (fun x => Ok x) (fun x => Ok x)) [:: PBool true; PBool false] [:: PInt 0; PInt 1] (2%N, 2%N)).
exists (Tensor [:: 2]%N [:: 5; 7]); split=> //.
apply: (@sp_dot_vec _ (ScipyOp 2 2 _ _)) => x hx hw; exists x; split=> //.
move=> i hi; rewrite (bigD1 (Ordinal hi)) //= eqxx mul1r big1 ?addr0 // => j hj.
by rewrite (_ : (i == j) = false) ?mul0r //; apply/negbTE; rewrite eq_sym; exact: hj.
Qed.
Print Assumptions C12_bools_are_integers_refuted.

(* C13 *)
Theorem C13_outer_product (R : comRingType) (o : outer_prod R) :
  let M i k := \sum_(j < op_rank o) nth 0 (op_c o) j * entry (op_rank o) (op_A o) i j * entry (op_rank o) (op_A o) k j in
  vec_multiplies (sp_dot (outer_op o)) (op_dim o) (op_dim o) M /\
  vec_multiplies (sp_dot (outer_op (outer_adjoint o))) (op_dim o) (op_dim o) (fun i k => M k i).
Proof.
split; first exact: outer_multiplies.
move=> x hx hw; have [y [h1 h2 h3 h4]] := @outer_multiplies R o x hx hw.
exists y; split=> // i hi; rewrite h4 //; apply: eq_bigr => j _; congr (_ * _).
exact: outer_symmetric.
Qed.
Print Assumptions C13_outer_product.

Theorem C13_projector (R : comRingType) D K (A : seq R) (x : tensor R) :
  orthonormal_columns D K A -> tshape x = [:: D] -> wf x ->
  [/\ (exists2 y, sp_dot (outer_op (projector D K A)) x = Ok y &
                  sp_dot (outer_op (projector D K A)) y = Ok y),
      (forall l, (l < K)%N -> (forall i, (i < D)%N -> nth 0 (tdata x) i = entry K A i l) ->
         sp_dot (outer_op (projector D K A)) x = Ok x) &
      ((forall j, (j < K)%N -> \sum_(k < D) entry K A k j * nth 0 (tdata x) k = 0) ->
         sp_dot (outer_op (projector D K A)) x = Ok (Tensor [:: D] (nseq D 0)))].
Proof.
move=> ho hx hw; split.
- exact: projector_idempotent.
- by move=> l; apply: projector_column.
- exact: projector_orthogonal.
Qed.
Print Assumptions C13_projector.

Example C13_ex : orthonormal_columns 3 2 ([:: 0; 1; 0; 0; 1; 0] : seq int_comRing).
Proof. by move=> [|[|j]] [|[|j']] // _ _; rewrite !big_ord_recl big_ord0 /= /entry. Qed.

(* Finding: products with matrices (or (D,1) columns) are not available. *)
Theorem C13_outer_column_refuted (R : comRingType) (o : outer_prod R) (x : tensor R) :
  tshape x = [:: op_dim o; 1%N] -> sp_dot (outer_op o) x = Err ValueError.
Proof. exact: outer_column_fails. Qed.
Print Assumptions C13_outer_column_refuted.
