(* NumPy arrays (same row-major representation as torch tensors) and the part of
   scipy.sparse.linalg.LinearOperator (external library, file
   scipy/sparse/linalg/_interface.py) through which curvlinops' SciPy operators
   are called: [matvec], [matmat] and [dot] ('@').  dtypes are not modelled. *)
From mathcomp Require Import all_ssreflect all_algebra.
From Verif Require Import PyPrelude Tensor Spec.
Set Implicit Arguments.
Unset Strict Implicit.
Unset Printing Implicit Defensive.
Import GRing.Theory.
Local Open Scope ring_scope.

Section Numpy.
Variable R : ringType.
Local Notation arr := (tensor R).

(* A SciPy linear operator: its shape and the overridable _matvec/_matmat. *)
Record scipy_op := ScipyOp {
  sp_rows : nat;
  sp_cols : nat;
  sp_matvec_impl : arr -> res arr;
  sp_matmat_impl : arr -> res arr }.

(* LinearOperator.matvec: shape check, _matvec, reshape of the result *)
Definition sp_matvec (A : scipy_op) (x : arr) : res arr :=
  if (tshape x != [:: sp_cols A]) && (tshape x != [:: sp_cols A; 1%N])
  then Err ValueError else
  let! y := sp_matvec_impl A x in
  match treshape (if ndim x == 1%N then [:: sp_rows A] else [:: sp_rows A; 1%N]) y with
  | Ok y' => Ok y'
  | Err _ => Err ValueError      (* numpy's reshape raises ValueError *)
  end.

(* LinearOperator.matmat *)
Definition sp_matmat (A : scipy_op) (X : arr) : res arr :=
  if ndim X != 2%N then Err ValueError else
  if head 0%N (tshape X) != sp_cols A then Err ValueError else
  sp_matmat_impl A X.

(* LinearOperator.dot / __matmul__ on arrays *)
Definition sp_dot (A : scipy_op) (X : arr) : res arr :=
  if (ndim X == 1%N) || (ndim X == 2%N) && (nth 0%N (tshape X) 1 == 1%N) then sp_matvec A X
  else if ndim X == 2%N then sp_matmat A X
  else Err ValueError.

(* [col for col in X.T] for a two-dimensional array *)
Definition np_columns (X : arr) : seq arr :=
  let n := nth 0%N (tshape X) 0 in let K := nth 0%N (tshape X) 1 in
  mkseq (fun k => Tensor [:: n] (mkseq (fun i => entry K (tdata X) i k) n)) K.

(* numpy.column_stack on one-dimensional arrays: ValueError for an empty list
   or for arrays of different lengths *)
Definition np_column_stack (cols : seq arr) : res arr :=
  match cols with
  | [::] => Err ValueError
  | c0 :: _ =>
    if all (fun c => tshape c == tshape c0) cols then
      let m := head 0%N (tshape c0) in
      let K := size cols in
      Ok (Tensor [:: m; K]
            (flatten (mkseq (fun i => mkseq (fun k =>
               nth 0 (tdata (nth (Tensor [::] [::]) cols k)) i) K) m)))
    else Err ValueError
  end.

(* Specification: an array-to-array function multiplies vectors with an
   m x n matrix M. *)
Definition vec_multiplies (f : arr -> res arr) (m n : nat) (M : nat -> nat -> R) : Prop :=
  forall x, tshape x = [:: n] -> wf x ->
    exists y, [/\ f x = Ok y, tshape y = [:: m], wf y &
      forall i, (i < m)%N -> nth 0 (tdata y) i = \sum_(j < n) M i j * nth 0 (tdata x) j].

(* ... and matrices with K columns *)
Definition mat_multiplies (f : arr -> res arr) (m n K : nat) (M : nat -> nat -> R) : Prop :=
  forall X, tshape X = [:: n; K] -> wf X ->
    exists Y, [/\ f X = Ok Y, tshape Y = [:: m; K], wf Y &
      is_product M m n K (tdata X) (tdata Y)].

Lemma np_columns_spec (X : arr) n K k : tshape X = [:: n; K] -> (k < K)%N ->
  let c := nth (Tensor [::] [::]) (np_columns X) k in
  [/\ tshape c = [:: n], wf c & forall i, (i < n)%N -> nth 0 (tdata c) i = entry K (tdata X) i k].
Proof.
move=> hX hk; rewrite /np_columns hX /= nth_mkseq //=; split=> //.
- by rewrite /wf /= size_mkseq muln1.
- by move=> i hi; rewrite nth_mkseq.
Qed.

(* column-wise products give the matrix product: used by every
   [column_stack([self @ col for col in X.T])] in the code base *)
Definition columnwise (f : arr -> res arr) (X : arr) : res arr :=
  let! cols := mapM f (np_columns X) in np_column_stack cols.

Lemma columnwise_columns (f : arr -> res arr) (m n K : nat) X :
  (0 < K)%N -> tshape X = [:: n; K] ->
  (forall x, tshape x = [:: n] -> wf x -> exists y, [/\ f x = Ok y, tshape y = [:: m] & wf y]) ->
  exists Y, [/\ columnwise f X = Ok Y, tshape Y = [:: m; K], wf Y &
   forall k, (k < K)%N -> exists2 y, f (nth (Tensor [::] [::]) (np_columns X) k) = Ok y &
     tshape y = [:: m] /\ forall i, (i < m)%N -> entry K (tdata Y) i k = nth 0 (tdata y) i].
Proof.
move=> hK hX hf.
have hcs k : (k < K)%N -> exists y, [/\ f (nth (Tensor [::] [::]) (np_columns X) k) = Ok y, tshape y = [:: m] & wf y].
  by move=> hk; have [h1 h2 _] := np_columns_spec hX hk; apply: hf.
have hsz : size (np_columns X) = K by rewrite /np_columns hX size_mkseq.
have [cols hc] : exists cols, mapM f (np_columns X) = Ok cols.
  move: hcs; rewrite -hsz; elim: (np_columns X) => [|c cs IH] /= h; first by exists [::].
  have [y [-> _ _]] := h 0%N isT; have [k hk|cols ->] := IH; first by have := h k.+1 hk.
  by exists (y :: cols).
have hsc : size cols = K by rewrite (mapM_size hc).
have hn k : (k < K)%N -> f (nth (Tensor [::] [::]) (np_columns X) k) = Ok (nth (Tensor [::] [::]) cols k).
  by rewrite -hsz => hk; apply: (mapM_nth _ _ hc).
have hsh k : (k < K)%N -> tshape (nth (Tensor [::] [::]) cols k) = [:: m] /\ wf (nth (Tensor [::] [::]) cols k).
  by move=> hk; have [y []] := hcs k hk; rewrite (hn k hk) => -[->].
have hs0 : tshape (head (Tensor [::] [::]) cols) = [:: m] by rewrite -nth0; case: (hsh 0%N hK).
rewrite /columnwise hc /= /np_column_stack.
case E: cols hsc hs0 => [|c0 cs] /=; first by move=> e; rewrite -e in hK.
move=> hsc hs0; rewrite hs0 eqxx /=.
have -> : all (fun c => tshape c == [:: m]) cs.
  apply/(all_nthP (Tensor [::] [::])) => i hi.
  by have [] := hsh i.+1; [rewrite -hsc ltnS | rewrite E /= => ->].
eexists; split; first reflexivity.
- by rewrite /= hsc.
- by rewrite /wf /= (flatten_mkseq_uniform (fun i k => nth 0 (tdata (nth _ (c0 :: cs) k)) i)) /= muln1.
move=> k hk; exists (nth (Tensor [::] [::]) cols k); first exact: hn.
split; first by case: (hsh k hk).
move=> i hi; rewrite /entry /= -{1}hsc.
by rewrite (nth_mk2 _ (fun i k => nth 0 (tdata (nth _ (c0 :: cs) k)) i)) ?hsc // E.
Qed.

Lemma columnwise_multiplies f m n K M : (0 < K)%N -> vec_multiplies f m n M ->
  mat_multiplies (columnwise f) m n K M.
Proof.
move=> hK hf X hX hw.
have [|Y [h1 h2 h3 h4]] := @columnwise_columns f m n K X hK hX.
  by move=> x hx hwx; have [y [? ? ? _]] := hf x hx hwx; exists y.
exists Y; split=> // i k hi hk.
have [y hy [_ hY]] := h4 k hk; rewrite hY //.
have [c1 c2 c3] := np_columns_spec hX hk.
have [y' [hy' _ _ hp]] := hf _ c1 c2; move: hy'; rewrite hy => -[e]; subst y'.
by rewrite hp //; apply: eq_bigr => j _; rewrite c3.
Qed.

Lemma columnwise_empty f X n : tshape X = [:: n; 0%N] -> columnwise f X = Err ValueError.
Proof. by move=> hX; rewrite /columnwise /np_columns hX. Qed.

End Numpy.
