(* Model of the blocks and sub-matrices in docs/examples/basic_usage/
   example_submatrices.py 91-109 (extract_block), 156-176, 190-200 and 212-221.
   Simplification: arrays are two-dimensional (other arrays count as an error here, while
   NumPy slices the first two axes of arrays with more axes). *)
From mathcomp Require Import all_ssreflect all_algebra.
From Verif Require Import PyPrelude Tensor Spec Numpy Submatrix.
Set Implicit Arguments.
Unset Strict Implicit.
Unset Printing Implicit Defensive.
Import GRing.Theory.
Local Open Scope ring_scope.

Section Blocks.
Variable R : ringType.
Local Notation arr := (tensor R).

(* numpy.eye (example_submatrices.py 78, 135, 175, 200, 221) *)
Definition np_eye (n : nat) : arr := Tensor [:: n; n] (flatten (mkseq (fun i => mkseq (fun j => (i == j)%:R) n) n)).

(* mat[rows, :] and mat[:, cols] for positions along an axis: the part that slices and
   index lists have in common *)
Definition rows_at (mat : arr) (n : nat) (rows : seq nat) : arr :=
  Tensor [:: size rows; n] (flatten [seq mkseq (fun c => entry n (tdata mat) r c) n | r <- rows]).
Definition cols_at (mat : arr) (m n : nat) (cols : seq nat) : arr :=
  Tensor [:: m; size cols] (flatten (mkseq (fun r => [seq entry n (tdata mat) r c | c <- cols]) m)).

(* mat[a:b, :] and mat[:, a:b] (example_submatrices.py 109) *)
Definition slice_rows (mat : arr) (a b : int) : res arr :=
  if tshape mat is [:: m; n] then Ok (rows_at mat n (py_slice (iota 0 m) a b)) else Err IndexError.
Definition slice_cols (mat : arr) (a b : int) : res arr :=
  if tshape mat is [:: m; n] then Ok (cols_at mat m n (py_slice (iota 0 n) a b)) else Err IndexError.
(* mat[row_idxs, :] and mat[:, col_idxs] (example_submatrices.py 194) *)
Definition index_rows (mat : arr) (idx : seq pyidx) : res arr :=
  if tshape mat is [:: m; n] then let! pos := np_positions m (to_np_index idx) in Ok (rows_at mat n pos)
  else Err IndexError.
Definition index_cols (mat : arr) (idx : seq pyidx) : res arr :=
  if tshape mat is [:: m; n] then let! pos := np_positions n (to_np_index idx) in Ok (cols_at mat m n pos)
  else Err IndexError.

(* sum(param_dims[:i]) and sum(param_dims[: i + 1]) (example_submatrices.py 105-107,
   156-159); the number of entries of the parameters instead of the parameters *)
Definition starts (param_dims : seq nat) (i : int) : nat := sumn (py_slice param_dims 0 i).
(* example_submatrices.py 91-109 *)
Definition extract_block (mat : arr) (param_dims : seq nat) (i j : int) : res arr :=
  let! rows := slice_rows mat (starts param_dims i)%:Z (starts param_dims (i + 1))%:Z in
  slice_cols rows (starts param_dims j)%:Z (starts param_dims (j + 1))%:Z.

(* list(range(start, end)) (example_submatrices.py 161-162, 216-217) *)
Definition block_idxs (param_dims : seq nat) (i : int) : seq pyidx :=
  [seq PInt p%:Z | p <- iota (starts param_dims i) (starts param_dims (i + 1) - starts param_dims i)].
(* example_submatrices.py 156-164, 212-219: the sub-matrix operator of a block *)
Definition block_operator (H HT : scipy_op R) (param_dims : seq nat) (i j : int) : res (scipy_op R) :=
  let! o := submat_init H HT (block_idxs param_dims i) (block_idxs param_dims j) in Ok (submat_op o).

(* the product of two two-dimensional NumPy arrays (example_submatrices.py 175) *)
Definition np_mm (A B : arr) : res arr :=
  match tshape A, tshape B with
  | [:: m; n], [:: n'; k] =>
      if n == n' then Ok (Tensor [:: m; k] (flatten (mkseq (fun i => mkseq (fun j =>
        sumr n (fun l => entry n (tdata A) i l * entry k (tdata B) l j)) k) m)))
      else Err ValueError
  | _, _ => Err ValueError
  end.
End Blocks.
Arguments np_eye {R} n.

(* ---- facts ---- *)
Section Facts.
Variable R : ringType.
Local Notation arr := (tensor R).

(* the array with m rows and n columns and these entries *)
Definition has_entries (B : arr) (m n : nat) (f : nat -> nat -> R) : Prop :=
  [/\ tshape B = [:: m; n], wf B & forall r c, (r < m)%N -> (c < n)%N -> entry n (tdata B) r c = f r c].

Lemma has_entries_eq B B' m n f f' : has_entries B m n f -> has_entries B' m n f' ->
  (forall r c, (r < m)%N -> (c < n)%N -> f r c = f' r c) -> B = B'.
Proof.
move=> [s w h] [s' w' h'] e; case: B s w h => sB d /= -> /eqP w h; case: B' s' w' h' => sB' d' /= -> /eqP w' h'.
congr Tensor; apply: (@eq_from_nth _ 0) => [|k]; first by rewrite w w'.
rewrite w /numel /= muln1 => hk; case: n h h' e w w' hk => [|n] h h' e w w' hk; first by rewrite muln0 in hk.
have hc : (k %% n.+1 < n.+1)%N by rewrite ltn_mod.
have hr : (k %/ n.+1 < m)%N by rewrite ltn_divLR.
by have := h _ _ hr hc; have := h' _ _ hr hc; rewrite /entry -divn_eq e // => -> ->.
Qed.
Lemma mk2_entries m n (f : nat -> nat -> R) :
  has_entries (Tensor [:: m; n] (flatten (mkseq (fun i => mkseq (f i) n) m))) m n f.
Proof.
split=> // [|r c hr hc]; first by rewrite /wf /= flatten_mkseq_uniform /numel /= muln1.
by rewrite /entry /= nth_mk2.
Qed.
Lemma eye_entries n : has_entries (np_eye n) n n (fun i j => (i == j)%:R).
Proof. exact: mk2_entries. Qed.
Lemma map_mkseq T (s : seq nat) (g : nat -> T) : [seq g r | r <- s] = mkseq (fun i => g (nth 0%N s i)) (size s).
Proof. by rewrite -{1}(mkseq_nth 0%N s) -map_comp. Qed.
Lemma rows_entries B m n f rows : has_entries B m n f -> all (fun r => r < m)%N rows ->
  has_entries (rows_at B n rows) (size rows) n (fun r c => f (nth 0%N rows r) c).
Proof.
move=> [_ _ h] ha; rewrite /rows_at map_mkseq.
have [s w e] := mk2_entries (size rows) n (fun r c => entry n (tdata B) (nth 0%N rows r) c).
by split=> // r c hr hc; rewrite e // h // (allP ha) // mem_nth.
Qed.
Lemma cols_entries B m n f cols : has_entries B m n f -> all (fun c => c < n)%N cols ->
  has_entries (cols_at B m n cols) m (size cols) (fun r c => f r (nth 0%N cols c)).
Proof.
move=> [_ _ h] ha; rewrite /cols_at.
have -> : mkseq (fun r => [seq entry n (tdata B) r c | c <- cols]) m =
          mkseq (fun r => mkseq (fun c => entry n (tdata B) r (nth 0%N cols c)) (size cols)) m.
  by apply: eq_map => r; rewrite map_mkseq.
have [s w e] := mk2_entries m (size cols) (fun r c => entry n (tdata B) r (nth 0%N cols c)).
by split=> // r c hr hc; rewrite e // h // (allP ha) // mem_nth.
Qed.

Lemma take_iota' k a n : take k (iota a n) = iota a (minn k n).
Proof. by elim: n k a => [|n IH] [|k] a //=; rewrite ?min0n ?minn0 ?minnSS //= IH. Qed.
Lemma drop_iota' k a n : drop k (iota a n) = iota (a + k) (n - k).
Proof. by elim: k a n => [|k IH] a [|n] //=; rewrite ?addn0 // IH addSnnS. Qed.
Lemma slice_iota (m a b : nat) : (b <= m)%N -> py_slice (iota 0 m) a%:Z b%:Z = iota a (b - a).
Proof. by move=> hb; rewrite py_slice_nat ?size_iota // take_iota' (minn_idPl hb) drop_iota'. Qed.
Lemma startsE (ds : seq nat) (i : nat) : (i <= size ds)%N -> starts ds i%:Z = sumn (take i ds).
Proof. by move=> hi; rewrite /starts -[0]/(0%:Z) py_slice_nat // drop0. Qed.
Lemma starts_le ds (i : nat) : (i <= size ds)%N -> (starts ds i%:Z <= sumn ds)%N.
Proof. by move=> hi; rewrite startsE // -{2}(cat_take_drop i ds) sumn_cat leq_addr. Qed.
Lemma startsS ds (i : nat) : (i < size ds)%N -> starts ds (i%:Z + 1) = (starts ds i%:Z + nth 0%N ds i)%N.
Proof. by move=> hi; rewrite -PoszD addn1 !startsE ?(ltnW hi) // (take_nth 0%N hi) sumn_rcons. Qed.

Lemma extract_entries B ds n f (i j : nat) : has_entries B (sumn ds) (sumn ds) f -> n = size ds ->
  (i < n)%N -> (j < n)%N ->
  exists2 b, extract_block B ds i%:Z j%:Z = Ok b &
  has_entries b (nth 0%N ds i) (nth 0%N ds j) (fun r c => f (sumn (take i ds) + r)%N (sumn (take j ds) + c)%N).
Proof.
move=> hB -> hi hj.
have lt k : (k < size ds)%N -> (starts ds (k%:Z + 1)%R <= sumn ds)%N.
  by move=> hk; rewrite -PoszD addn1 starts_le.
have sz k : (k < size ds)%N -> (starts ds (k%:Z + 1)%R - starts ds k%:Z)%N = nth 0%N ds k.
  by move=> hk; rewrite startsS // addKn.
have al k : (k < size ds)%N -> all (fun r => r < sumn ds)%N (iota (starts ds k%:Z) (nth 0%N ds k)).
  move=> hk; apply/allP => r; rewrite mem_iota -startsS // => /andP[_ hr].
  exact: leq_trans hr (lt _ hk).
have nt k r : (k < size ds)%N -> (r < nth 0 ds k)%N -> nth 0%N (iota (starts ds k%:Z) (nth 0%N ds k)) r = (sumn (take k ds) + r)%N.
  by move=> hk hr; rewrite nth_iota // startsE // ltnW.
have [s w e] := hB; rewrite /extract_block /slice_rows s slice_iota ?lt // sz //=.
have hr := rows_entries hB (al i hi).
case: (hr) => sr _ _; rewrite /slice_cols /= slice_iota ?lt // sz //; eexists; first by [].
rewrite size_iota in hr *; have [s2 w2 e2] := cols_entries hr (al j hj).
split=> //; first by rewrite s2 size_iota.
rewrite size_iota in e2 => r c hr' hc'; rewrite e2 ?size_iota // !nt //.
Qed.
End Facts.

(* example_submatrices.py 171-176: the documented test of the off-diagonal block compares
   the extracted block with its own product with the identity; the operator under test is
   not used *)
Section Check.
Variables (R : realFieldType).
Definition offdiagonal_test (compare : tensor R -> tensor R -> res unit) (H_param0_param1 : scipy_op R)
    (H_functorch : tensor R) (param_dims : seq nat) (i j : int) : res unit :=
  let! block := extract_block H_functorch param_dims i j in
  let! product := np_mm block (np_eye (starts param_dims (j + 1) - starts param_dims j)) in
  compare block product.
End Check.
