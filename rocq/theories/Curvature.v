(* Model of CurvatureLinearOperator and of the Hessian, GGN, empirical Fisher
   and MC-Fisher operators: /repo/curvlinops/_torch_base.py 384-691,
   hessian.py, ggn.py, gradient_moments.py, fisher.py.

   Autograd: everything computed from the parameters during a forward pass is a
   function of the parameter values; a "tensor that requires grad" is a tensor of
   such functions, and torch.autograd.grad gives their partial derivatives at the
   current parameter values.  Exact real arithmetic; devices are in Determinism.v;
   the progress bar is not modelled. *)
From Coq Require Import Reals.
From Coquelicot Require Import Coquelicot.
From mathcomp Require Import all_ssreflect all_algebra.
From Verif Require Import PyPrelude Tensor Spec TorchBase Submatrix RInst Calculus.
Set Implicit Arguments.
Unset Strict Implicit.
Unset Printing Implicit Defensive.
Import GRing.Theory.
Local Open Scope ring_scope.

Section Columns.
Variable K0 : ringType.
Local Notation tens := (tensor K0).

(* (n,) = {...}: ValueError unless the set has exactly one element
   (hessian.py 68, ggn.py 67, gradient_moments.py 166, fisher.py 256). *)
Definition the_one (s : seq nat) : res nat :=
  if undup s is [:: k] then Ok k else Err ValueError.

(* zeros_like(m) *)
Definition zeros_like (m : tens) : tens := Tensor (tshape m) (nseq (size (tdata m)) 0).

(* m[..., n] for a tensor of shape [*s, K] *)
Definition col_sel (n : nat) (m : tens) : tens :=
  let s := take (size (tshape m)).-1 (tshape m) in
  Tensor s (mkseq (fun i => nth 0 (tdata m) (i * last 0%N (tshape m) + n)) (numel s)).

(* m[..., n].add_(c): in-place addition into one column; torch raises
   RuntimeError if the shapes do not fit (broadcasting is not modelled). *)
Definition col_add (n : nat) (m c : tens) : res tens :=
  if tshape c == take (size (tshape m)).-1 (tshape m) then
    Ok (Tensor (tshape m)
         (mkseq (fun e => nth 0 (tdata m) e +
            (if (e %% last 0%N (tshape m) == n)%N then nth 0 (tdata c) (e %/ last 0%N (tshape m))%N else 0))
            (size (tdata m))))
  else Err RuntimeError.

(* for m, c in zip(ms, cs): m[..., n].add_(c); zip stops at the shorter list *)
Fixpoint cols_add (n : nat) (ms cs : seq tens) : res (seq tens) :=
  match ms, cs with
  | m :: ms', c :: cs' => let! x := col_add n m c in let! xs := cols_add n ms' cs' in Ok (x :: xs)
  | _, _ => Ok ms
  end.

(* for n in range(K): col_n = f([m[..., n] for m in M]); add col_n into column n
   of the result tensors GM (hessian.py 72-82, ggn.py 70-75,
   gradient_moments.py 167-173, fisher.py 257-263, jacobian.py 227-232). *)
Definition add_columns (f : seq tens -> res (seq tens)) (M GM : seq tens) (ns : seq nat) : res (seq tens) :=
  foldM (fun G n => let! c := f [seq col_sel n m | m <- M] in cols_add n G c) GM ns.

(* the whole loop, starting from zeros_like *)
Definition column_loop (f : seq tens -> res (seq tens)) (M : seq tens) : res (seq tens) :=
  let! K := the_one [seq last 0%N (tshape m) | m <- M] in
  add_columns f M [seq zeros_like m | m <- M] (iota 0 K).

(* f multiplies list vectors with A *)
Definition vec_product (f : seq tens -> res (seq tens)) (inS outS : seq (seq nat))
    (A : nat -> nat -> K0) : Prop :=
  forall v, [seq tshape t | t <- v] = inS -> all (@wf K0) v ->
    exists w, [/\ f v = Ok w, [seq tshape t | t <- w] = outS, all (@wf K0) w &
      forall i, (i < total outS)%N ->
        nth 0 (flat w) i = \sum_(j < total inS) A i j * nth 0 (flat v) j].

Lemma take_rcons_size (s : seq nat) k : take (size (rcons s k)).-1 (rcons s k) = s.
Proof. by rewrite size_rcons -cats1 take_size_cat. Qed.

Lemma valid_mat_nil K (X : seq tens) : valid_mat [::] K X -> X = [::].
Proof. by case: X => // t X [] . Qed.

Lemma valid_mat_cons s S K (X : seq tens) : valid_mat (s :: S) K X ->
  exists t X', [/\ X = t :: X', tshape t = rcons s K, size (tdata t) = (numel s * K)%N & valid_mat S K X'].
Proof.
case: X => [[]|t X] // [] /= [ht hX] /andP[/eqP hw hall].
by exists t, X; split=> //; rewrite hw ht numel_rcons.
Qed.

Lemma valid_mat_consI s S K t (X : seq tens) : tshape t = rcons s K ->
  size (tdata t) = (numel s * K)%N -> valid_mat S K X -> valid_mat (s :: S) K (t :: X).
Proof.
by move=> ht hd [h1 h2]; split; rewrite /= ?ht ?h1 // h2 /wf hd ht numel_rcons eqxx.
Qed.

Lemma the_one_valid S K (X : seq tens) : S <> [::] -> valid_mat S K X ->
  the_one [seq last 0%N (tshape m) | m <- X] = Ok K.
Proof.
move=> hS [hs _].
have -> : [seq last 0%N (tshape m) | m <- X] = [seq K | _ <- S].
  rewrite (_ : [seq last 0%N (tshape m) | m <- X] = [seq last 0%N s | s <- [seq tshape m | m <- X]]); last by rewrite -map_comp.
  by rewrite hs -map_comp; apply: eq_map => s /=; rewrite last_rcons.
case: S hS {hs} => // s S _ /=; rewrite /the_one /=.
elim: S => //= s' S IH; case: ifP => // h; move: h.
by rewrite inE eqxx.
Qed.

Lemma col_sel_valid S K (X : seq tens) n : (n < K)%N -> valid_mat S K X ->
  [/\ [seq tshape t | t <- [seq col_sel n m | m <- X]] = S,
      all (@wf K0) [seq col_sel n m | m <- X] &
      forall i, (i < total S)%N -> nth 0 (flat [seq col_sel n m | m <- X]) i = entry K (flat X) i n].
Proof.
move=> hn; elim: S X => [|s S IH] X hX; first by rewrite (valid_mat_nil hX).
have [t [X' [-> ht hd hX']]] := valid_mat_cons hX.
have [h1 h2 h3] := IH _ hX'.
have et : col_sel n t = Tensor s (mkseq (fun i => nth 0 (tdata t) (i * K + n)) (numel s)).
  by rewrite /col_sel ht take_rcons_size last_rcons.
rewrite [map _ (_ :: _)]/= et /= h1 h2; split=> //.
  by rewrite /wf /= size_mkseq eqxx.
move=> i hi; rewrite /flat /= nth_cat size_mkseq -/(flat _) -/(flat X').
rewrite /entry nth_cat hd; case: ltnP => his.
  rewrite nth_mkseq // ifT //.
  by apply: (@leq_trans (i.+1 * K)%N); rewrite ?leq_mul2r ?his ?orbT // mulSn addnC ltn_add2r.
rewrite ifF; last by apply/negbTE; rewrite -leqNgt; apply: leq_trans (leq_addr _ _); rewrite leq_mul2r his orbT.
have -> : (i * K + n - numel s * K = (i - numel s) * K + n)%N.
  by rewrite mulnBl addnBAC // leq_mul2r his orbT.
rewrite -/(entry K (flat X') (i - numel s) n) -h3; last by rewrite ltn_subLR.
by [].
Qed.

Lemma cols_add_valid S K (G cs : seq tens) n : (n < K)%N -> valid_mat S K G ->
  [seq tshape t | t <- cs] = S -> all (@wf K0) cs ->
  exists G', [/\ cols_add n G cs = Ok G', valid_mat S K G' &
    forall i k, (i < total S)%N -> (k < K)%N ->
      entry K (flat G') i k = entry K (flat G) i k + (if k == n then nth 0 (flat cs) i else 0)].
Proof.
move=> hn; elim: S G cs => [|s S IH] G cs hG.
  by rewrite (valid_mat_nil hG); case: cs => // _ _; exists [::].
have [t [G0 [-> ht hd hG0]]] := valid_mat_cons hG.
case: cs => // c cs [hc hcs] /= /andP[hwc hwcs].
have [G' [e1 e2 e3]] := IH _ _ hG0 hcs hwcs.
rewrite /col_add hc ht take_rcons_size eqxx /= e1 /=.
eexists; split; first by [].
  by apply: valid_mat_consI => //=; rewrite size_mkseq.
move=> i k hi hk; rewrite /flat /= -!/(flat _) /entry !nth_cat size_mkseq hd.
have sc : size (tdata c) = numel s by move/eqP: hwc; rewrite hc.
have K_gt0 : (0 < K)%N by apply: leq_ltn_trans hk.
case: (ltnP i (numel s)) => his.
  have hlt : (i * K + k < numel s * K)%N.
    by apply: (@leq_trans (i.+1 * K)%N); rewrite ?leq_mul2r ?his ?orbT // mulSn addnC ltn_add2r.
  rewrite hlt nth_mkseq // last_rcons modnMDl modn_small // divnMDl // (divn_small hk) addn0 sc his.
  by [].
have hge : (i * K + k < numel s * K)%N = false.
  by apply/negbTE; rewrite -leqNgt; apply: leq_trans (leq_addr _ _); rewrite leq_mul2r his orbT.
rewrite hge.
have -> : (i * K + k - numel s * K = (i - numel s) * K + k)%N.
  by rewrite mulnBl addnBAC // leq_mul2r his orbT.
rewrite -/(entry K (flat G') (i - numel s) k) e3 ?ltn_subLR //.
by rewrite sc ltnNge his.
Qed.

Lemma add_columns_valid f inS outS A K (M G : seq tens) : vec_product f inS outS A ->
  valid_mat inS K M -> valid_mat outS K G ->
  exists G', [/\ add_columns f M G (iota 0 K) = Ok G', valid_mat outS K G' &
    forall i k, (i < total outS)%N -> (k < K)%N ->
      entry K (flat G') i k = entry K (flat G) i k + \sum_(j < total inS) A i j * entry K (flat M) j k].
Proof.
move=> hf hM hG.
suff main : forall n, (n <= K)%N -> exists G', [/\ add_columns f M G (iota 0 n) = Ok G', valid_mat outS K G' &
    forall i k, (i < total outS)%N -> (k < K)%N ->
      entry K (flat G') i k = entry K (flat G) i k +
        (if (k < n)%N then \sum_(j < total inS) A i j * entry K (flat M) j k else 0)].
  have [G' [e1 e2 e3]] := main K (leqnn K); exists G'; split=> // i k hi hk.
  by rewrite e3 // hk.
elim=> [_|n IH hn]; first by exists G; split=> // i k _ _; rewrite addr0.
have [G1 [e1 e2 e3]] := IH (ltnW hn).
rewrite -addn1 iotaD /add_columns foldM_cat -/(add_columns f M G _) e1 /=.
have [s1 s2 s3] := col_sel_valid hn hM.
have [w [-> w1 w2 w3]] /= := hf _ s1 s2.
have [G2 [-> g2 g3]] := cols_add_valid hn e2 w1 w2.
exists G2; split=> // i k hi hk; rewrite g3 // e3 // -addrA; congr (_ + _).
rewrite addn1 ltnS; case: (ltngtP k n) => h; rewrite ?addr0 ?add0r //.
by rewrite w3 // h; apply: eq_bigr => j _; rewrite s3.
Qed.

Lemma zeros_valid S K (M : seq tens) : valid_mat S K M -> valid_mat S K [seq zeros_like m | m <- M].
Proof.
move=> [h1 h2]; split; first by rewrite -map_comp.
by rewrite all_map; apply: sub_all h2 => t; rewrite /wf /= size_nseq.
Qed.

Lemma zeros_entry K (M : seq tens) i k : entry K (flat [seq zeros_like m | m <- M]) i k = 0.
Proof.
rewrite /entry; set e := (_ + _)%N; elim: M e => [|m M IH] e; first by rewrite nth_nil.
rewrite /flat /= nth_cat size_nseq; case: ifP => h; last exact: IH.
by rewrite nth_nseq h.
Qed.

Lemma column_loop_multiplies f S A : S <> [::] -> vec_product f S S A ->
  multiplies 0 (column_loop f) S S A.
Proof.
move=> hS hf K M _ hM; rewrite /column_loop (the_one_valid hS hM) /=.
have [G [e1 e2 e3]] := add_columns_valid hf hM (zeros_valid hM).
by exists G; split=> // i k hi hk; rewrite e3 // zeros_entry add0r.
Qed.

End Columns.

Section Base.
Local Notation tens := (tensor R).

(* loss_func.reduction; any other string ('none') is a KeyError in the lookups *)
Inductive reduction := RMean | RSum | ROther.

(* x / y on Python numbers *)
Definition py_div (x y : R) : res R := if y == 0 then Err ZeroDivisionError else Ok (x / y).

(* _torch_base.py 598-612: {"sum": 1.0, "mean": bs(X) / N_data}[reduction]; the
   dict is built first, so the division is evaluated for every reduction. *)
Definition normalization_factor (red : reduction) (bs N_data : nat) : res R :=
  let! q := py_div bs%:R N_data%:R in
  match red with RSum => Ok 1 | RMean => Ok q | ROther => Err KeyError end.

(* a.add_(b, alpha=c); RuntimeError for shapes that do not fit (broadcasting is
   not modelled). *)
Definition add_alpha (c : R) (a b : tens) : res tens :=
  if tshape a == tshape b then
    Ok (Tensor (tshape a) (mkseq (fun e => nth 0 (tdata a) e + c * nth 0 (tdata b) e) (size (tdata a))))
  else Err RuntimeError.

(* for a, b in zip(AM, BM): a.add_(b, alpha=c) *)
Fixpoint adds_alpha (c : R) (AM BM : seq tens) : res (seq tens) :=
  match AM, BM with
  | a :: AM', b :: BM' => let! x := add_alpha c a b in let! xs := adds_alpha c AM' BM' in Ok (x :: xs)
  | _, _ => Ok AM
  end.

Variable batch : Type.
Variable batch_size : batch -> nat.       (* batch_size_fn applied to the batch's X *)

(* _torch_base.py 526-547 and 568-596 (iteration over the loader) *)
Definition base_matmat (red : reduction) (N_data : nat) (data : seq batch)
    (matmat_batch : batch -> seq tens -> res (seq tens)) (M : seq tens) : res (seq tens) :=
  foldM (fun AM b =>
      let! nf := normalization_factor red (batch_size b) N_data in
      let! BM := matmat_batch b M in
      adds_alpha nf AM BM)
    [seq zeros_like m | m <- M] data.

(* _torch_base.py 481-490: without num_data the loader is traversed once *)
Definition infer_num_data (num_data : option nat) (data : seq batch) : nat :=
  if num_data is Some n then n else sumn [seq batch_size b | b <- data].

(* _torch_base.py 459-471: validation of block_sizes, given the class attribute
   SUPPORTS_BLOCKS and the number of parameters *)
Definition check_block_sizes (supports : bool) (nparams : nat) (bs : option (seq int)) : res (seq int) :=
  match bs with
  | None => Ok [:: nparams%:Z]
  | Some s =>
      let! _ := raise_if (~~ supports) ValueError in
      let! _ := raise_if (foldr +%R 0 s != nparams%:Z) ValueError in
      let! _ := raise_if (has (fun b => (b <= 0)%R) s) ValueError in
      Ok s
  end.

Lemma adds_alpha_valid S K (A B : seq tens) c : valid_mat S K A -> valid_mat S K B ->
  exists X, [/\ adds_alpha c A B = Ok X, valid_mat S K X &
    forall i k, (i < total S)%N -> (k < K)%N ->
      entry K (flat X) i k = entry K (flat A) i k + c * entry K (flat B) i k].
Proof.
elim: S A B => [|s S IH] A B hA hB.
  by rewrite (valid_mat_nil hA) (valid_mat_nil hB); exists [::].
have [a [A0 [-> ha hda hA0]]] := valid_mat_cons hA.
have [b [B0 [-> hb hdb hB0]]] := valid_mat_cons hB.
have [X [e1 e2 e3]] := IH _ _ hA0 hB0.
rewrite /= /add_alpha ha hb eqxx /= e1 /=; eexists; split; first by [].
  by apply: valid_mat_consI => //=; rewrite size_mkseq.
move=> i k hi hk; rewrite /flat /= -!/(flat _) /entry !nth_cat size_mkseq hda hdb.
case: (ltnP i (numel s)) => his.
  have hlt : (i * K + k < numel s * K)%N.
    by apply: (@leq_trans (i.+1 * K)%N); rewrite ?leq_mul2r ?his ?orbT // mulSn addnC ltn_add2r.
  by rewrite hlt nth_mkseq.
have hge : (i * K + k < numel s * K)%N = false.
  by apply/negbTE; rewrite -leqNgt; apply: leq_trans (leq_addr _ _); rewrite leq_mul2r his orbT.
rewrite hge.
have -> : (i * K + k - numel s * K = (i - numel s) * K + k)%N.
  by rewrite mulnBl addnBAC // leq_mul2r his orbT.
by rewrite -/(entry K (flat X) (i - numel s) k) e3 ?ltn_subLR.
Qed.

(* the value of the normalisation factor *)
Definition nfac (red : reduction) (bs N : nat) : R :=
  match red with RMean => bs%:R / N%:R | _ => 1 end.

Lemma normalization_ok red bs N : red <> ROther -> (0 < N)%N ->
  normalization_factor red bs N = Ok (nfac red bs N).
Proof.
move=> hr hN; rewrite /normalization_factor /py_div (negbTE (natr_neq0 hN)) /=.
by case: red hr => [_|_|[]].
Qed.

Lemma base_matmat_multiplies red N data mb S (A : batch -> nat -> nat -> R) :
  red <> ROther -> (0 < N)%N ->
  Forall_in (fun b => multiplies 0 (mb b) S S (A b)) data ->
  multiplies 0 (base_matmat red N data mb) S S
    (fun i j => \sum_(b <- data) nfac red (batch_size b) N * A b i j).
Proof.
move=> hr hN hb K M _ hM; rewrite /base_matmat.
have := zeros_valid hM; have := @zeros_entry _ K M.
move: [seq zeros_like m | m <- M] => Z hZ0 hZ.
suff main : forall Z, valid_mat S K Z -> exists Y, [/\ foldM (fun AM b =>
      let! nf := normalization_factor red (batch_size b) N in
      let! BM := mb b M in adds_alpha nf AM BM) Z data = Ok Y, valid_mat S K Y &
    forall i k, (i < total S)%N -> (k < K)%N -> entry K (flat Y) i k = entry K (flat Z) i k +
      \sum_(j < total S) (\sum_(b <- data) nfac red (batch_size b) N * A b i j) * entry K (flat M) j k].
  have [Y [e1 e2 e3]] := main Z hZ; exists Y; split=> // i k hi hk.
  by rewrite e3 // hZ0 add0r.
elim: data hb => [_|b data IH [hb /IH IHd]] {Z hZ0 hZ} Z hZ /=.
  exists Z; split=> // i k _ _; rewrite big1 ?addr0 // => j _.
  by rewrite big_nil mul0r.
rewrite normalization_ok //=.
have [B [-> hB1 hB2]] /= := hb K M (leq0n K) hM.
have [X [-> x2 x3]] /= := adds_alpha_valid (nfac red (batch_size b) N) hZ hB1.
have [Y [-> y2 y3]] := IHd X x2.
exists Y; split=> // i k hi hk; rewrite y3 // x3 // hB2 // -addrA; congr (_ + _).
rewrite mulr_sumr -big_split /=; apply: eq_bigr => j _.
by rewrite big_cons mulrDl mulrA.
Qed.

Lemma check_block_sizes_spec supports nparams s (r : seq int) :
  check_block_sizes supports nparams (Some s) = Ok r <->
  [/\ r = s, supports, foldr +%R 0 s = nparams%:Z & all (fun b => 0 < b)%R s].
Proof.
rewrite /check_block_sizes; case: supports => /=; last by split=> // -[].
case: eqP => hs /=; last by split=> // -[].
have -> : has (fun b : int => (b <= 0)%R) s = ~~ all (fun b : int => 0 < b)%R s.
  by rewrite -has_predC; apply: eq_has => b /=; rewrite -Order.TotalTheory.leNgt.
case: all => /=; first by split=> [[<-]|[->]]; split.
by split=> [|[]].
Qed.

End Base.
