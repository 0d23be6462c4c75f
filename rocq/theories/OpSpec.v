(* What a user observes of an operator: the matrix it multiplies with, and its
   self-adjointness, in every documented input format. *)
From mathcomp Require Import all_ssreflect all_algebra.
From Verif Require Import PyPrelude Tensor Spec TorchBase.
Set Implicit Arguments.
Unset Strict Implicit.
Unset Printing Implicit Defensive.
Import GRing.Theory.
Local Open Scope ring_scope.

Section OpSpec.
Variable R : comRingType.

Lemma op_size_flat S K (X : seq (tensor R)) : valid_mat S K X -> size (flat X) = (total S * K)%N.
Proof.
move=> [h1 h2]; rewrite size_flat // (_ : [seq numel (tshape t) | t <- X] = [seq numel s | s <- [seq tshape t | t <- X]]).
  rewrite h1 -map_comp -total_mul; congr sumn; apply: eq_map => s /=.
  by rewrite numel_rcons.
by rewrite -map_comp.
Qed.

Lemma op_list_ext (X Y : seq (tensor R)) : [seq tshape t | t <- X] = [seq tshape t | t <- Y] ->
  all (@wf R) X -> all (@wf R) Y -> flat X = flat Y -> X = Y.
Proof.
elim: X Y => [|[s d] X IH] [|[s' d'] Y] //= [<- hs] /andP[/eqP /= w1 hX] /andP[/eqP /= w2 hY].
rewrite /flat /= => /eqP; rewrite eqseq_cat ?w1 ?w2 // => /andP[/eqP <- /eqP h].
by congr cons; apply: IH.
Qed.

Lemma op_entry_ext K n (a b : seq R) : size a = (n * K)%N -> size b = (n * K)%N ->
  (forall i k, (i < n)%N -> (k < K)%N -> entry K a i k = entry K b i k) -> a = b.
Proof.
move=> ha hb h; apply: (@eq_from_nth _ 0); first by rewrite ha hb.
move=> e; rewrite ha => he; have K0 : (0 < K)%N by move: he; case: K {ha hb h} => //; rewrite muln0.
rewrite (divn_eq e K); apply: h; last by rewrite ltn_mod.
by rewrite ltn_divLR.
Qed.

(* what a user observes of an operator on the space S that multiplies with M *)
Definition acts_as (A : linop R) (S : seq (seq nat)) (M : nat -> nat -> R) : Prop :=
  [/\ in_shape A = S, out_shape A = S &
  forall l cols (V : pyval R), has_format S l cols V ->
  exists W, [/\ op_matmul A V = Ok W, has_format S l cols W &
    is_product M (total S) (total S) (ncols cols) (content V) (content W)]].

Lemma acts_as_multiplies S mm M : S <> [::] -> multiplies 0 mm S S M -> acts_as (LinOp S S mm) S M.
Proof.
move=> hS hm; split=> // l cols V hV.
exact: (@matmul_product _ (LinOp S S mm) 0 M l cols V hS hS hm hV (leq0n _)).
Qed.

Lemma acts_as_ext A S M M' : acts_as A S M ->
  (forall i j, (i < total S)%N -> (j < total S)%N -> M i j = M' i j) -> acts_as A S M'.
Proof.
move=> [h1 h2 h3] h; split=> // l cols V hV; have [W [w1 w2 w3]] := h3 l cols V hV.
exists W; split=> // i k hi hk; rewrite w3 //; by apply: eq_bigr => j _; rewrite h.
Qed.

(* two operators acting as the same matrix are indistinguishable: same result for
   every documented input *)
Definition same_products (S : seq (seq nat)) (A B : linop R) : Prop :=
  forall l cols (V : pyval R), has_format S l cols V -> op_matmul A V = op_matmul B V.

Lemma content_ext S l cols (V W : pyval R) : has_format S l cols V -> has_format S l cols W ->
  content V = content W -> V = W.
Proof.
case: V => [[s d]|ts||]; case: W => [[s' d']|ts'||]; case: l => //=.
  by move=> [-> _] [-> _] ->.
by move=> [h1 h2] [h3 h4] e; congr VList; apply: op_list_ext => //; rewrite h1 h3.
Qed.

Lemma size_content S l cols (V : pyval R) : has_format S l cols V -> size (content V) = (total S * ncols cols)%N.
Proof.
case: V => [[s d]|ts||]; case: l => //=.
  case=> -> /eqP /= ->; case: cols => [K|] /=; by rewrite /numel /= ?muln1.
case=> h1 h2; case: cols h1 => [K|] /= h1; first exact: (@op_size_flat S K ts (conj h1 h2)).
rewrite muln1 /flat -h1; elim: ts h2 {h1} => //= t ts IH /andP[/eqP ht hts].
by rewrite size_cat ht IH.
Qed.

Lemma acts_as_same A B S M : acts_as A S M -> acts_as B S M -> same_products S A B.
Proof.
move=> [_ _ hA] [_ _ hB] l cols V hV.
have [W [-> w2 w3]] := hA l cols V hV; have [Z [-> z2 z3]] := hB l cols V hV.
have sW := size_content w2; have sZ := size_content z2.
congr Ok; apply: content_ext w2 z2 _.
apply: (@op_entry_ext (ncols cols) (total S)) => //.
by move=> i k hi hk; rewrite w3 // z3.
Qed.

(* <A v, w> = <v, A w> for all vectors v, w in any of the documented formats:
   returning the operator itself from adjoint() (_torch_base.py 128-134,
   SELF_ADJOINT = True) is right *)
Definition self_adjoint_op (A : linop R) (S : seq (seq nat)) : Prop :=
  [/\ in_shape A = S, out_shape A = S &
  forall l l' (V W : pyval R), has_format S l None V -> has_format S l' None W ->
  exists AV AW, [/\ op_matmul A V = Ok AV, op_matmul A W = Ok AW &
    \sum_(i < total S) nth 0 (content AV) i * nth 0 (content W) i =
    \sum_(i < total S) nth 0 (content V) i * nth 0 (content AW) i]].

Lemma acts_as_self_adjoint A S M : acts_as A S M ->
  (forall i j, (i < total S)%N -> (j < total S)%N -> M i j = M j i) -> self_adjoint_op A S.
Proof.
move=> [h1 h2 h3] hM; split=> // l l' V W hV hW.
have [AV [a1 a2 a3]] := h3 _ _ _ hV; have [AW [b1 b2 b3]] := h3 _ _ _ hW.
exists AV, AW; split=> //.
have eV : forall i : 'I_(total S), nth 0 (content AV) i = \sum_(j < total S) M i j * nth 0 (content V) j.
  move=> i; have := a3 i 0%N (ltn_ord i) isT; rewrite /entry !muln1 addn0 => ->.
  by apply: eq_bigr => j _; rewrite !muln1 addn0.
have eW : forall i : 'I_(total S), nth 0 (content AW) i = \sum_(j < total S) M i j * nth 0 (content W) j.
  move=> i; have := b3 i 0%N (ltn_ord i) isT; rewrite /entry !muln1 addn0 => ->.
  by apply: eq_bigr => j _; rewrite !muln1 addn0.
under eq_bigr => i _ do rewrite eV mulr_suml.
under [RHS]eq_bigr => i _ do rewrite eW mulr_sumr.
rewrite exchange_big; apply: eq_bigr => j _; apply: eq_bigr => i _.
by rewrite hM // [M j i * _]mulrC -!mulrA.
Qed.

(* the matrix is determined by the operator's products *)
Lemma acts_as_unique (A : linop R) S M M' : acts_as A S M -> acts_as A S M' ->
  forall i j, (i < total S)%N -> (j < total S)%N -> M i j = M' i j.
Proof.
move=> [_ _ h1] [_ _ h2] i j hi hj; set N := total S in hi hj *.
pose I := VTensor (Tensor [:: N; N] (mkseq (fun e => (e %/ N == e %% N)%N%:R) (N * N)) : tensor R).
have hI : has_format S false (Some N) I by split=> //; rewrite /wf /= size_mkseq muln1.
have [W [w1 w2 w3]] := h1 _ _ _ hI; have [W' [w1' w2' w3']] := h2 _ _ _ hI.
have e : W' = W by move: w1'; rewrite w1 => -[].
subst W'; have := w3' i j hi hj; rewrite (w3 i j hi hj) /=.
have N0 : (0 < N)%N by apply: leq_ltn_trans hi.
have E (P : nat -> nat -> R) : \sum_(k < total S) P i k * entry N (mkseq (fun e => (e %/ N == e %% N)%N%:R) (N * N)) k j = P i j.
  rewrite (bigD1 (Ordinal hj)) //= big1 ?addr0 => [|k hk].
    rewrite /entry nth_mkseq; last by apply: leq_trans (_ : (j.+1 * N <= _)%N); rewrite ?leq_mul2r ?hj ?orbT // mulSn addnC ltn_add2r.
    by rewrite divnMDl // modnMDl divn_small // modn_small // addn0 eqxx mulr1.
  rewrite /entry nth_mkseq; last by apply: leq_trans (_ : (k.+1 * N <= _)%N); rewrite ?leq_mul2r ?(ltn_ord k) ?orbT // mulSn addnC ltn_add2r.
  rewrite divnMDl // modnMDl divn_small // modn_small // addn0 (_ : (_ == j) = false) ?mulr0 //.
  by apply/eqP => e; move/eqP: hk; apply; apply: val_inj.
by rewrite !E.
Qed.
End OpSpec.
