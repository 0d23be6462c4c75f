(* Model of autograd's products and of the Hessian and GGN operators:
   /repo/curvlinops/hessian.py, ggn.py, _torch_base.py 404-547. *)
From Coq Require Import Reals FunctionalExtensionality.
From Coquelicot Require Import Coquelicot.
From mathcomp Require Import all_ssreflect all_algebra.
From Verif Require Import PyPrelude Tensor Spec TorchBase Submatrix RInst Calculus Curvature.
Set Implicit Arguments.
Unset Strict Implicit.
Unset Printing Implicit Defensive.
Import GRing.Theory.
Local Open Scope ring_scope.

Local Notation tens := (tensor R).

(* A parameter: its shape and the position of its first entry among the
   coordinates of the parameter vector. *)
Record param := Param { poff : nat; pshape : seq nat }.

(* parameters of the given shapes, one after the other *)
Fixpoint pack (off : nat) (S : seq (seq nat)) : seq param :=
  match S with [::] => [::] | s :: S' => Param off s :: pack (off + numel s)%N S' end.

(* torch.autograd.grad(loss, params, create_graph=True): tensors of functions of
   the parameter values *)
Definition autograd (ps : seq param) (L : point -> R) : seq (tensor (point -> R)) :=
  [seq Tensor (pshape p) (mkseq (fun k => pd (poff p + k) L) (numel (pshape p))) | p <- ps].

(* sum over all entries of the parameters ps of g(coordinate) * v(entry) *)
Definition dir_sum (g : nat -> R) (ps : seq param) (v : seq tens) : R :=
  \sum_(q <- zip ps v) \sum_(k < numel (pshape q.1)) g (poff q.1 + k)%N * nth 0 (tdata q.2) k.

(* backpack.hessianfree.rop.R_op(ys, xs, vs): Jacobian-vector product, entry by
   entry the directional derivative; RuntimeError for unfitting shapes. *)
Definition R_op (theta : point) (ys : seq (tensor (point -> R))) (ps : seq param) (v : seq tens) : res (seq tens) :=
  if [seq pshape p | p <- ps] == [seq tshape t | t <- v] then
    Ok [seq Tensor (tshape y) [seq dir_sum (fun j => pd j f theta) ps v | f <- tdata y] | y <- ys]
  else Err RuntimeError.

(* backpack.hessianfree.hvp.hessian_vector_product(loss, params, v, grad_params) *)
Definition hvp (theta : point) (ps : seq param) (g : seq (tensor (point -> R))) (v : seq tens) : res (seq tens) :=
  R_op theta g ps v.

(* backpack.hessianfree.ggnvp.ggn_vector_product_from_plist(loss, output, plist, v)
   = vjp(output, hvp(loss, output, jvp(output, v))): [out] gives the m output
   entries as functions of the parameters, [lossO] the loss as a function of the
   output entries. *)
Definition ggnvp (lossO : point -> R) (m : nat) (out : point -> point) (ps : seq param)
    (theta : point) (v : seq tens) : res (seq tens) :=
  if [seq pshape p | p <- ps] == [seq tshape t | t <- v] then
    let J o j := pd j (fun z => out z o) theta in
    let Jv o := dir_sum (J o) ps v in
    let HJv o := \sum_(o' < m) pd o' (pd o lossO) (out theta) * Jv o' in
    Ok [seq Tensor (pshape p) (mkseq (fun k => \sum_(o < m) J o (poff p + k)%N * HJv o) (numel (pshape p)))
       | p <- ps]
  else Err RuntimeError.

(* hessian.py 45-84.  [L] is loss_func(model_func(X), y) as a function of the
   parameters.  The tensors of HM_block are the tensors of HM (split_list copies
   the list, not the tensors), so the result list is the concatenation of the
   updated blocks. *)
Definition hessian_batch (ps : seq param) (block_sizes : seq int) (theta : point)
    (L : point -> R) (M : seq tens) : res (seq tens) :=
  let grad_params := autograd ps L in
  let! K := the_one [seq last 0%N (tshape m) | m <- M] in
  let HM := [seq zeros_like m | m <- M] in
  let! M_b := split_list M block_sizes in
  let! p_b := split_list ps block_sizes in
  let! g_b := split_list grad_params block_sizes in
  let! HM_b := split_list HM block_sizes in
  let! out := mapM (fun '(((m, p), g), h) => add_columns (hvp theta p g) m h (iota 0 K))
                (zip (zip (zip M_b p_b) g_b) HM_b) in
  Ok (flatten out).

(* ggn.py 47-78 *)
Definition ggn_batch (ps : seq param) (theta : point) (lossO : point -> R) (m : nat)
    (out : point -> point) (M : seq tens) : res (seq tens) :=
  column_loop (ggnvp lossO m out ps theta) M.

(* ---- facts ---- *)

Lemma pshape_pack off S : [seq pshape p | p <- pack off S] = S.
Proof. by elim: S off => //= s S IH off; rewrite IH. Qed.

Lemma size_pack off S : size (pack off S) = size S.
Proof. by rewrite -[in RHS](pshape_pack off S) size_map. Qed.

Lemma pack_cat off S1 S2 : pack off (S1 ++ S2) = pack off S1 ++ pack (off + total S1)%N S2.
Proof.
elim: S1 off => [|s S1 IH] off /=; first by rewrite addn0.
by rewrite IH /total /= addnA.
Qed.

Lemma total_cat S1 S2 : total (S1 ++ S2) = (total S1 + total S2)%N.
Proof. by rewrite /total map_cat sumn_cat. Qed.

Lemma dir_sumE g off S (v : seq tens) : [seq tshape t | t <- v] = S -> all (@wf R) v ->
  dir_sum g (pack off S) v = \sum_(j < total S) g (off + j)%N * nth 0 (flat v) j.
Proof.
rewrite /dir_sum; elim: S off v => [|s S IH] off v.
  by case: v => // _ _; rewrite /= big_nil big_ord0.
case: v => // t v [ht hv] /= /andP[/eqP hw hwv].
rewrite big_cons IH // /total /= big_split_ord /=; congr (_ + _).
  apply: eq_bigr => k _; rewrite /flat /= nth_cat hw ht ltn_ord.
  by [].
apply: eq_bigr => j _; rewrite /flat /= nth_cat hw ht ltnNge leq_addr /= addKn addnA.
by [].
Qed.

Lemma nth_flat_pack (f : nat -> R) off S i : (i < total S)%N ->
  nth 0 (flat [seq Tensor (pshape p) (mkseq (fun k => f (poff p + k)%N) (numel (pshape p))) | p <- pack off S]) i
  = f (off + i)%N.
Proof.
elim: S off i => [|s S IH] off i //; rewrite /total /= => hi.
rewrite /flat /= nth_cat size_mkseq; case: ltnP => h; first by rewrite nth_mkseq.
rewrite -/(flat _) IH; last by rewrite ltn_subLR.
by rewrite -addnA subnKC.
Qed.

Lemma pack_tensors (f : nat -> R) off S :
  let w := [seq Tensor (pshape p) (mkseq (fun k => f (poff p + k)%N) (numel (pshape p))) | p <- pack off S] in
  [seq tshape t | t <- w] = S /\ all (@wf R) w.
Proof.
split; first by rewrite -map_comp -[RHS](pshape_pack off); apply: eq_map.
by rewrite all_map; elim: (pack off S) => //= p s ->; rewrite /wf /= size_mkseq eqxx.
Qed.

Lemma hvp_product theta off S L :
  vec_product (hvp theta (pack off S) (autograd (pack off S) L)) S S
    (fun i j => pd (off + j) (pd (off + i) L) theta).
Proof.
move=> v hs hw; rewrite /hvp /R_op pshape_pack hs eqxx /autograd -map_comp.
rewrite (@eq_map _ _ _ (fun p => Tensor (pshape p) (mkseq (fun k =>
    dir_sum (fun j => pd j (pd (poff p + k) L) theta) (pack off S) v) (numel (pshape p))))); last first.
  by move=> p /=; congr Tensor; rewrite /mkseq -map_comp.
have [e1 e2] := pack_tensors (fun i => dir_sum (fun j => pd j (pd i L) theta) (pack off S) v) off S.
eexists; split; [by [] | exact: e1 | exact: e2 |].
move=> i hi.
rewrite (@nth_flat_pack (fun i => dir_sum (fun j => pd j (pd i L) theta) (pack off S) v)) //.
exact: dir_sumE.
Qed.

Lemma ggnvp_product lossO m out theta S :
  vec_product (ggnvp lossO m out (pack 0 S) theta) S S
    (fun i j => \sum_(o < m) \sum_(o' < m) pd i (fun z => out z o) theta *
       (pd o' (pd o lossO) (out theta) * pd j (fun z => out z o') theta)).
Proof.
move=> v hs hw; rewrite /ggnvp pshape_pack hs eqxx.
set F := fun i => \sum_(o < m) pd i (fun z => out z o) theta *
   \sum_(o' < m) pd o' (pd o lossO) (out theta) * dir_sum (fun j => pd j (fun z => out z o') theta) (pack 0 S) v.
have [e1 e2] := pack_tensors F 0 S.
eexists; split; [by [] | exact: e1 | exact: e2 |].
move=> i hi; rewrite (@nth_flat_pack F) // add0n /F.
under eq_bigr => o _.
  rewrite mulr_sumr.
  under eq_bigr => o' _ do rewrite (dir_sumE _ 0 hs hw) mulr_sumr mulr_sumr.
  rewrite exchange_big /=; over.
rewrite exchange_big /=; apply: eq_bigr => j _.
rewrite mulr_suml; apply: eq_bigr => o _; rewrite mulr_suml; apply: eq_bigr => o' _.
by rewrite add0n !mulrA.
Qed.

(* coordinates i and j lie in the same block when the consecutive blocks have
   ds coordinates *)
Fixpoint same_block (ds : seq nat) (i j : nat) : bool :=
  match ds with
  | [::] => false
  | d :: ds' => if (i < d)%N then (j < d)%N else (d <= j)%N && same_block ds' (i - d) (j - d)
  end.

(* number of coordinates in each block of bs consecutive parameters *)
Definition block_dims (bs : seq nat) (S : seq (seq nat)) : seq nat :=
  [seq total s | s <- reshape bs S].

Lemma valid_mat_cat S1 S2 K (X : seq tens) : valid_mat (S1 ++ S2) K X ->
  [/\ X = take (size S1) X ++ drop (size S1) X, valid_mat S1 K (take (size S1) X) &
      valid_mat S2 K (drop (size S1) X)].
Proof.
move=> [h1 h2]; rewrite cat_take_drop; split=> //; split.
- by rewrite map_take h1 map_cat take_size_cat // size_map.
- by apply/allP => t /mem_take ht; apply: (allP h2).
- by rewrite map_drop h1 map_cat drop_size_cat // size_map.
- by apply/allP => t /mem_drop ht; apply: (allP h2).
Qed.

Lemma valid_mat_catI S1 S2 K (X Y : seq tens) : valid_mat S1 K X -> valid_mat S2 K Y ->
  valid_mat (S1 ++ S2) K (X ++ Y).
Proof. by move=> [h1 h2] [h3 h4]; split; rewrite ?map_cat ?h1 ?h3 // all_cat h2. Qed.

Lemma size_flat_valid S K (X : seq tens) : valid_mat S K X -> size (flat X) = (total S * K)%N.
Proof.
move=> [h1 h2]; rewrite size_flat // (_ : [seq numel (tshape t) | t <- X] = [seq numel s | s <- [seq tshape t | t <- X]]).
  rewrite h1 -map_comp -total_mul; congr sumn; apply: eq_map => s /=.
  by rewrite numel_rcons.
by rewrite -map_comp.
Qed.

Lemma flat_cat (X Y : seq tens) : flat (X ++ Y) = flat X ++ flat Y.
Proof. by rewrite /flat map_cat flatten_cat. Qed.

Lemma entry_catl K n (a b : seq R) i k : size a = (n * K)%N -> (i < n)%N -> (k < K)%N ->
  entry K (a ++ b) i k = entry K a i k.
Proof.
move=> ha hi hk; rewrite /entry nth_cat ha ifT //.
by apply: (@leq_trans (i.+1 * K)%N); rewrite ?leq_mul2r ?hi ?orbT // mulSn addnC ltn_add2r.
Qed.

Lemma entry_catr K n (a b : seq R) i k : size a = (n * K)%N -> (n <= i)%N ->
  entry K (a ++ b) i k = entry K b (i - n) k.
Proof.
move=> ha hi; rewrite /entry nth_cat ha ifF.
  by congr nth; rewrite mulnBl addnBAC // leq_mul2r hi orbT.
by apply/negbTE; rewrite -leqNgt; apply: leq_trans (leq_addr _ _); rewrite leq_mul2r hi orbT.
Qed.

Lemma autograd_cat ps1 ps2 L : autograd (ps1 ++ ps2) L = autograd ps1 L ++ autograd ps2 L.
Proof. by rewrite /autograd map_cat. Qed.

Lemma hessian_blocks theta L K (SS : seq (seq (seq nat))) off (M H : seq tens) :
  let S := flatten SS in let bs := [seq size s | s <- SS] in
  valid_mat S K M -> valid_mat S K H ->
  exists out, [/\ mapM (fun '(((m, p), g), h) => add_columns (hvp theta p g) m h (iota 0 K))
      (zip (zip (zip (reshape bs M) (reshape bs (pack off S)))
         (reshape bs (autograd (pack off S) L))) (reshape bs H)) = Ok out,
    valid_mat S K (flatten out) &
    forall i k, (i < total S)%N -> (k < K)%N -> entry K (flat (flatten out)) i k = entry K (flat H) i k +
      \sum_(j < total S) (if same_block [seq total s | s <- SS] i j
         then pd (off + j) (pd (off + i) L) theta else 0) * entry K (flat M) j k].
Proof.
elim: SS off M H => [|S1 SS IH] off M H /= hM hH; first by exists [::].
have [eM hM1 hM2] := valid_mat_cat hM; have [eH hH1 hH2] := valid_mat_cat hH.
have eP := pack_cat off S1 (flatten SS).
have -> : take (size S1) (pack off (S1 ++ flatten SS)) = pack off S1.
  by rewrite eP take_size_cat // size_pack.
have -> : drop (size S1) (pack off (S1 ++ flatten SS)) = pack (off + total S1) (flatten SS).
  by rewrite eP drop_size_cat // size_pack.
have -> : take (size S1) (autograd (pack off (S1 ++ flatten SS)) L) = autograd (pack off S1) L.
  by rewrite eP autograd_cat take_size_cat // size_map size_pack.
have -> : drop (size S1) (autograd (pack off (S1 ++ flatten SS)) L) = autograd (pack (off + total S1) (flatten SS)) L.
  by rewrite eP autograd_cat drop_size_cat // size_map size_pack.
have [G [-> g2 g3]] /= := add_columns_valid (@hvp_product theta off S1 L) hM1 hH1.
have [out [-> o2 o3]] /= := IH (off + total S1)%N _ _ hM2 hH2.
exists (G :: out); split=> //; first exact: valid_mat_catI.
have sG := size_flat_valid g2; have sM := size_flat_valid hM1; have sH := size_flat_valid hH1.
move=> i k hi hk; rewrite /= flat_cat.
rewrite [in RHS]eM [in RHS]eH !flat_cat total_cat big_split_ord /=.
case: (ltnP i (total S1)) => his.
  rewrite (entry_catl _ sG) // (entry_catl _ sH) // g3 //; congr (_ + _).
  rewrite [X in _ = _ + X]big1 ?addr0; last first.
    by move=> j _; rewrite ltnNge leq_addr /= mul0r.
  by apply: eq_bigr => j _; rewrite ltn_ord (entry_catl _ sM).
rewrite (entry_catr _ _ sG) // (entry_catr _ _ sH) // o3 //; last first.
  by rewrite ltn_subLR // -total_cat.
congr (_ + _); rewrite [X in _ = X + _]big1 ?add0r; last first.
  by move=> j _; rewrite leqNgt ltn_ord /= mul0r.
apply: eq_bigr => j _; rewrite leq_addr /= (entry_catr _ _ sM) ?leq_addr // addKn.
by rewrite -!addnA subnKC.
Qed.

Lemma hessian_batch_multiplies theta L S (bs : seq nat) : S <> [::] -> sumn bs = size S ->
  multiplies 0 (hessian_batch (pack 0 S) [seq b%:Z | b <- bs] theta L) S S
    (fun i j => if same_block (block_dims bs S) i j then pd j (pd i L) theta else 0).
Proof.
move=> hS hb K M _ hM; rewrite /hessian_batch (the_one_valid hS hM) /=.
have sM : size M = size S by case: hM => h _; rewrite -(size_map (@tshape R)) h size_map.
rewrite !split_list_ok ?size_map ?size_pack ?hb ?sM //=.
have fS : flatten (reshape bs S) = S by apply: reshapeKr; rewrite hb.
have eb : bs = [seq size s | s <- reshape bs S].
  by rewrite -[LHS](@reshapeKl _ bs S) // hb.
have hM' : valid_mat (flatten (reshape bs S)) K M by rewrite fS.
have [out [e1 e2 e3]] := @hessian_blocks theta L K (reshape bs S) 0 M _ hM' (zeros_valid hM').
rewrite -eb fS in e1 e2 e3; rewrite e1 /=.
exists (flatten out); split=> // i k hi hk; rewrite e3 // zeros_entry add0r.
by apply: eq_bigr => j _; rewrite add0n.
Qed.

Lemma ggn_batch_multiplies theta lossO m out S : S <> [::] ->
  multiplies 0 (ggn_batch (pack 0 S) theta lossO m out) S S
    (fun i j => \sum_(o < m) \sum_(o' < m) pd i (fun z => out z o) theta *
       (pd o' (pd o lossO) (out theta) * pd j (fun z => out z o') theta)).
Proof. by move=> hS; apply: column_loop_multiplies => //; apply: ggnvp_product. Qed.
