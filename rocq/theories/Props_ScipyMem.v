(* C08, C12: the SciPy-side operators on memory. *)
From Coq Require Import List.
From mathcomp Require Import all_ssreflect all_algebra.
From Verif Require Import PyPrelude Tensor Spec Numpy Submatrix Inverse NumpyMem ScipyMem.
Set Implicit Arguments.
Unset Strict Implicit.
Unset Printing Implicit Defensive.
Import GRing.Theory.
Local Open Scope ring_scope.

Section Statements.
Variable R : comRingType.
Local Notation arr := (tensor R).

(* 'A @ X' on memory: every array that existed keeps its entries, also if the product raises;
   it returns or raises what the product of the value-level model does.  I: what the operator
   requires of memory. *)
Definition harmless (I : memory R -> Prop) (A : mscipy R) (S : scipy_op R) : Prop :=
  [/\ mo_rows A = sp_rows S, mo_cols A = sp_cols S &
  forall h X, I h -> readable h X ->
   [/\ forall v, readable h v -> readable (mo_dot A X h).1 v /\ vget (mo_dot A X h).1 v = vget h v,
       extends h (mo_dot A X h).1 &
       match (mo_dot A X h).2, sp_dot S (vget h X) with
       | Ok w, Ok y => readable (mo_dot A X h).1 w /\ vget (mo_dot A X h).1 w = y
       | Err e, Err e' => e = e' | _, _ => False end]].
(* ... and the result shares no memory with any array that existed *)
Definition harmless_new (I : memory R -> Prop) (A : mscipy R) (S : scipy_op R) : Prop :=
  harmless I A S /\ forall h X w, I h -> readable h X -> (mo_dot A X h).2 = Ok w ->
    forall v, readable h v -> v_buf w <> v_buf v.

Lemma harmless_refines I A S : harmless I A S -> refines I (mo_dot A) (sp_dot S).
Proof. by case=> _ _ H h v t hi [hr <-]; have [_ hx] := H h v hi hr. Qed.
Lemma refines_harmless I A S : mo_rows A = sp_rows S -> mo_cols A = sp_cols S ->
  refines I (mo_dot A) (sp_dot S) -> harmless I A S.
Proof.
move=> e1 e2 H; split=> // h X hi hX; have [hx hm] := H h X (vget h X) hi (conj hX erefl).
by split=> // v hv; split; [apply: extends_readable hx hv | apply: extends_read].
Qed.
Lemma refines_harmless_new I A S : mo_rows A = sp_rows S -> mo_cols A = sp_cols S ->
  refines_new I (mo_dot A) (sp_dot S) -> harmless_new I A S.
Proof.
move=> e1 e2 H; split; first by apply: refines_harmless => //; apply: refines_new_refines.
move=> h X w hi hX ew v /and3P [hv _ _] eb; have [_] := H h X (vget h X) hi (conj hX erefl).
by rewrite ew; case: (sp_dot _ _) => // y [_]; rewrite eb leqNgt hv.
Qed.

(* C08: SubmatrixLinearOperator.  L: the caller's index lists; the wrapped operator may return
   views of its argument. *)
Theorem C08_submatrix I L (A : mscipy R) (S ST : scipy_op R) r c o : stable I -> harmless I A S ->
  msub_init L A r c = Ok o ->
  exists2 po, submat_init S ST (nth [::] L r) (nth [::] L c) = Ok po & harmless_new I (msub_op L o) (submat_op po).
Proof.
move=> hI hA; have [e1 e2 _] := hA; rewrite /msub_init /submat_init /set_submatrix /= e1 e2.
case: (check_axis _ _) => //= m; case: (check_axis _ _) => //= n [<-].
eexists; first reflexivity; apply: refines_harmless_new => //.
by apply: (@msub_refines R I hI L (MSub A r c (m, n)) S ST) => //; apply: harmless_refines.
Qed.

(* C08: OuterProductLinearOperator, on memory where its arrays hold c and A *)
Theorem C08_outer (o : mouter) (c A : seq R) :
  stable (outer_holds o c A) /\
  harmless_new (outer_holds o c A) (mouter_op R o) (outer_op (OuterProd (mu_dim o) (mu_rank o) c A)).
Proof.
have hI : stable (outer_holds o c A).
  by move=> h h' hx [r1 r2 e1 e2]; split; rewrite ?(extends_read hx) //; apply: extends_readable hx _.
by split=> //; apply: refines_harmless_new => //; apply: mouter_refines.
Qed.

(* C08: NeumannInverseLinearOperator *)
Theorem C08_neumann I (A : mscipy R) (S : scipy_op R) n K scale check_nan : stable I -> harmless I A S ->
  harmless_new I (minverse_op n (mneumann_matvec A K scale check_nan))
    (inverse_op n (neumann_exact (sp_dot S) K scale check_nan)).
Proof.
by move=> hI /harmless_refines hA; apply: refines_harmless_new => //; apply: mneumann_refines.
Qed.

(* the identity, returning its argument itself *)
Definition view_identity n : mscipy R := MScipy n n (fun x => mret x) (fun x => mret x).
Definition identity n : scipy_op R := ScipyOp n n (fun x => Ok x) (fun x => Ok x).
Example C08_ex_identity n : harmless (fun=> True) (view_identity n) (identity n).
Proof.
apply: refines_harmless => // h v t _ hs; have [_ esh] := stands_size hs.
have hi : refines (fun=> True) (fun x => mret x) (fun x : arr => Ok x) by move=> h' v' t' _ hs'; split.
rewrite /mo_dot /sp_dot /ndim esh; case: ifP => _.
  exact: (@matvec_refines R (fun=> True) false (view_identity n) (identity n)).
case: ifP => e; last by split.
by rewrite /mo_matmat /sp_matmat /ndim esh e /=; case: ifP => _; split.
Qed.
(* operators wrapped in one another: Neumann inverse of a sub-matrix of an outer product *)
Example C08_ex_nested (o : mouter) (c A : seq R) L r k po ST : msub_init L (mouter_op R o) r k = Ok po ->
  exists2 so, submat_init (outer_op (OuterProd (mu_dim o) (mu_rank o) c A)) ST (nth [::] L r) (nth [::] L k) = Ok so &
   harmless_new (outer_holds o c A) (minverse_op (ms_shape po).1 (mneumann_matvec (msub_op L po) 7 1 true))
    (inverse_op (ms_shape po).1 (neumann_exact (sp_dot (submat_op so)) 7 1 true)).
Proof.
have [hI [hO _]] := C08_outer o c A => /(C08_submatrix ST hI hO) [so e [hS _]].
by exists so => //; apply: C08_neumann.
Qed.
End Statements.
Print Assumptions C08_submatrix.
Print Assumptions C08_outer.
Print Assumptions C08_neumann.

(* C12: the operator keeps references to the caller's index lists.  If the caller overwrites
   the list of rows after the construction (here [0, 1] by [1, 1]), then products neither
   raise nor use the validated indices: the new, invalid indices are used. *)
Theorem C12_list_by_reference_refuted : exists (L L' : lists) (A : mscipy int_comRing) (S : scipy_op int_comRing) o h x,
  [/\ harmless (fun=> True) A S, msub_init L A 0 1 = Ok o, readable h x,
      (forall l, l <> 0%N -> nth [::] L' l = nth [::] L l) /\ ~ valid_indices (mo_rows A) (nth [::] L' 0) &
      [/\ vget h x = Tensor [:: 2%N] [:: 5%:Z; 7%:Z],
          (let p := mo_dot (msub_op L o) x h in if p.2 is Ok w then Ok (vget p.1 w) else Err ValueError) = Ok (Tensor [:: 2%N] [:: 5%:Z; 7%:Z]) &
          (let p := mo_dot (msub_op L' o) x h in if p.2 is Ok w then Ok (vget p.1 w) else Err ValueError) = Ok (Tensor [:: 2%N] [:: 7%:Z; 7%:Z])]].
Proof.
exists [:: [:: PInt 0; PInt 1]; [:: PInt 0; PInt 1]], [:: [:: PInt 1; PInt 1]; [:: PInt 0; PInt 1]].
exists (view_identity int_comRing 2), (identity int_comRing 2), (MSub (view_identity int_comRing 2) 0 1 (2, 2)%N).
exists [:: [:: 5%:Z; 7%:Z]], (View 0 [:: 0; 1]%N [:: 2%N]).
split; [exact: C08_ex_identity|by []|by []|by split=> [[|l] //|[]]|by split; vm_compute].
Qed.
Print Assumptions C12_list_by_reference_refuted.
