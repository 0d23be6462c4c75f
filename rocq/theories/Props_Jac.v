(* C05 (Jacobians), C23, C24: the Jacobian and its transpose. *)
From Coq Require Import Reals Lra.
From Coquelicot Require Import Coquelicot.
From mathcomp Require Import all_ssreflect all_algebra.
From Verif Require Import PyPrelude Tensor Spec TorchBase Submatrix Scipy RInst Calculus Curvature HessGGN Risk Jacobian.
Set Implicit Arguments.
Unset Strict Implicit.
Unset Printing Implicit Defensive.
Import GRing.Theory.
Local Open Scope ring_scope.

Section Props.
Variables (X Y : Type) (so : seq nat) (net : X -> point -> seq R).
Hypothesis net_size : forall x th, size (net x th) = numel so.
Local Notation batch := (seq (X * Y)).
Local Notation O := (numel so).
Variables (S : seq (seq nat)) (th : point).
Hypothesis S_nonempty : S <> [::].

(* derivative of output c on the n-th datum w.r.t. parameter entry j *)
Definition datum_jac (d0 : X * Y) (data : seq (X * Y)) (n c j : nat) : R :=
  pd j (fun z => nth 0 (net (nth d0 data n).1 z) c) th.

Lemma jac_entryE d0 data n c j : (n < size data)%N -> (c < O)%N ->
  jac_entry net th data (n * O + c) j = datum_jac d0 data n c j.
Proof. by move=> hn hc; apply: pd_ext => z; apply: (@row_of_predict _ _ O net net_size data z d0). Qed.

(* the number of data is inferred or right *)
Definition right_num_data (num_data : option nat) (loader : seq batch) : Prop :=
  if num_data is Some n then n = size (flatten loader) else True.

Lemma right_num_dataE num_data (loader : seq batch) : right_num_data num_data loader ->
  infer_num_data (@size (X * Y)) num_data loader = size (flatten loader).
Proof. by case: num_data => //= _; rewrite size_flatten. Qed.

(* C23 *)
Theorem C23_jacobian num_data loader : loader <> [::] -> right_num_data num_data loader ->
  let N := size (flatten loader) in
  exists2 A, jac_init so net S th Jac num_data loader = Ok A &
    op_shape A = ((N * O)%N, total S) /\
    forall l cols (V : pyval R), has_format S l cols V -> (0 < ncols cols)%N ->
    exists W, [/\ op_matmul A V = Ok W, has_format [:: N :: so] l cols W &
      forall d0 n c k, (n < N)%N -> (c < O)%N -> (k < ncols cols)%N ->
        entry (ncols cols) (content W) (n * O + c) k =
        \sum_(j < total S) datum_jac d0 (flatten loader) n c j * entry (ncols cols) (content V) j k].
Proof.
move=> hl hN N; rewrite /jac_init (right_num_dataE hN).
have -> : raise_if (nilp loader) StopIteration = Ok tt by case: loader hl {hN N}.
eexists; first by [].
split; first by rewrite /op_shape /out_shape_flat /in_shape_flat /= addn0.
move=> l cols V hV hc.
have hne : [:: N :: so] <> [::] by [].
have [W [w1 w2 w3]] := @matmul_product _ (LinOp S [:: N :: so] (jac_matmat so net S th loader)) 1 _ l cols V S_nonempty
  hne (jac_matmat_multiplies net_size th S_nonempty hl) hV hc.
exists W; split=> // d0 n c k hn hc' hk; rewrite w3 //.
  by apply: eq_bigr => j _; rewrite (jac_entryE d0).
rewrite /total /= addn0 -/N.
by apply: (@leq_trans (n.+1 * O)%N); rewrite ?leq_mul2r ?hn ?orbT // mulSn addnC ltn_add2r.
Qed.

Theorem C23_transposed_jacobian num_data loader : loader <> [::] -> right_num_data num_data loader ->
  let N := size (flatten loader) in
  exists2 A, jac_init so net S th JacT num_data loader = Ok A &
    op_shape A = (total S, (N * O)%N) /\
    forall l cols (V : pyval R), has_format [:: N :: so] l cols V ->
    exists W, [/\ op_matmul A V = Ok W, has_format S l cols W &
      forall d0 j k, (j < total S)%N -> (k < ncols cols)%N ->
        entry (ncols cols) (content W) j k =
        \sum_(n < N) \sum_(c < O) datum_jac d0 (flatten loader) n c j * entry (ncols cols) (content V) (n * O + c) k].
Proof.
move=> hl hN N; rewrite /jac_init (right_num_dataE hN).
have -> : raise_if (nilp loader) StopIteration = Ok tt by case: loader hl {hN N}.
eexists; first by [].
split; first by rewrite /op_shape /out_shape_flat /in_shape_flat /= addn0.
move=> l cols V hV.
have hne : [:: N :: so] <> [::] by [].
have [W [w1 w2 w3]] := @matmul_product _ (LinOp [:: N :: so] S (jacT_matmat so net S th loader)) 0 _ l cols V
  hne S_nonempty (jacT_matmat_multiplies net_size S th (leqnn N)) hV isT.
exists W; split=> // d0 j k hj hk; rewrite w3 //.
rewrite /total /= addn0 -/N.
under eq_bigr => i _ do rewrite ltn_ord.
rewrite (sum_rows N O (fun i => jac_entry net th (flatten loader) i j * entry (ncols cols) (content V) i k)).
by apply: eq_bigr => n _; apply: eq_bigr => c _; rewrite (jac_entryE d0).
Qed.

(* a matrix without columns cannot be multiplied (torch.stack of an empty list) *)
Theorem C23_no_columns_raises num_data (loader : seq batch) : loader <> [::] ->
  exists2 A, jac_init so net S th Jac num_data loader = Ok A &
    forall l (V : pyval R), has_format S l (Some 0%N) V -> op_matmul A V = Err RuntimeError.
Proof.
move=> hl; rewrite /jac_init.
have -> : raise_if (nilp loader) StopIteration = Ok tt by case: loader hl.
eexists; first by [].
move=> l V hV; have [Xl hc [hv hf]] := @check_input_ok _ (LinOp S [:: infer_num_data (@size (X * Y)) num_data loader :: so]
  (jac_matmat so net S th loader)) l (Some 0%N) V S_nonempty hV.
rewrite /op_matmul hc /= /jac_matmat (the_one_valid S_nonempty hv) /=.
by case: loader hl {hc hv}.
Qed.

(* a wrong num_data: the Jacobian refuses every product, the transpose refuses
   products if num_data is too small ... *)
Theorem C23_wrong_num_data_raises n (loader : seq batch) l cols (V : pyval R) : loader <> [::] ->
  n <> size (flatten loader) -> (0 < ncols cols)%N ->
  (exists A, [/\ jac_init so net S th Jac (Some n) loader = Ok A &
     has_format S l cols V -> op_matmul A V = Err ValueError]) /\
  ((n < size (flatten loader))%N ->
   exists2 A, jac_init so net S th JacT (Some n) loader = Ok A &
     has_format [:: n :: so] l cols V -> op_matmul A V = Err RuntimeError).
Proof.
move=> hl hn hK; rewrite /jac_init.
have -> : raise_if (nilp loader) StopIteration = Ok tt by case: loader hl {hn}.
split; first eexists.
  split; first by [].
  move=> hV; apply: (@matmul_bad_output _ _ l cols) => //= Xl hXl.
  have [Q [q1 [q2 _] _]] := jac_matmat_multiplies net_size th S_nonempty hl hK hXl.
  by exists Q => //; rewrite q2 => -[/esym].
move=> hlt; eexists; first by [].
move=> hV; have hne : [:: n :: so] <> [::] by [].
have [Xl hc [hv hf]] := @check_input_ok _ (LinOp [:: n :: so] S (jacT_matmat so net S th loader)) l cols V hne hV.
by rewrite /op_matmul hc /= (@jacT_matmat_short _ _ so net S th n loader (ncols cols)).
Qed.

(* ... but silently ignores the additional rows of its argument if num_data is too
   large: its shape is not that of the data's Jacobian (finding) *)
Theorem C23_large_num_data_ignored_refuted n (loader : seq batch) : loader <> [::] ->
  (size (flatten loader) < n)%N ->
  exists2 A, jac_init so net S th JacT (Some n) loader = Ok A &
    op_shape A = (total S, (n * O)%N) /\
    forall l cols (V : pyval R), has_format [:: n :: so] l cols V ->
    exists W, [/\ op_matmul A V = Ok W, has_format S l cols W &
      forall d0 j k, (j < total S)%N -> (k < ncols cols)%N ->
        entry (ncols cols) (content W) j k = \sum_(n < size (flatten loader)) \sum_(c < O)
          datum_jac d0 (flatten loader) n c j * entry (ncols cols) (content V) (n * O + c) k].
Proof.
move=> hl hn; rewrite /jac_init.
have -> : raise_if (nilp loader) StopIteration = Ok tt by case: loader hl {hn}.
eexists; first by [].
split; first by rewrite /op_shape /out_shape_flat /in_shape_flat /= addn0.
move=> l cols V hV; have hne : [:: n :: so] <> [::] by [].
have [W [w1 w2 w3]] := @matmul_product _ (LinOp [:: n :: so] S (jacT_matmat so net S th loader)) 0 _ l cols V
  hne S_nonempty (jacT_matmat_multiplies net_size S th (ltnW hn)) hV isT.
exists W; split=> // d0 j k hj hk; rewrite w3 //.
rewrite /total /= addn0; set N := size _.
have [r ->] : exists r, n = (N + r)%N by exists (n - N)%N; rewrite subnKC // ltnW.
rewrite mulnDl big_split_ord /= [X in _ + X]big1 ?addr0; last first.
  by move=> i _; rewrite ltnNge leq_addr /= mul0r.
under eq_bigr => i _ do rewrite ltn_ord.
rewrite (sum_rows N O (fun i => jac_entry net th (flatten loader) i j * entry (ncols cols) (content V) i k)).
by apply: eq_bigr => m _; apply: eq_bigr => c _; rewrite (jac_entryE d0).
Qed.

(* C24 *)
Theorem C24_adjoint_identity num_data loader : loader <> [::] -> right_num_data num_data loader ->
  let N := size (flatten loader) in
  exists J JT, [/\ jac_init so net S th Jac num_data loader = Ok J,
    jac_adjoint so net S th Jac num_data loader = Ok JT &
    forall l l' (V W : pyval R), has_format S l None V -> has_format [:: N :: so] l' None W ->
    exists JV JTW, [/\ op_matmul J V = Ok JV, op_matmul JT W = Ok JTW &
      \sum_(i < N * O) nth 0 (content JV) i * nth 0 (content W) i =
      \sum_(j < total S) nth 0 (content V) j * nth 0 (content JTW) j]].
Proof.
move=> hl hN N; rewrite /jac_adjoint /jac_init /= (right_num_dataE hN) -/N.
have -> : raise_if (nilp loader) StopIteration = Ok tt by case: loader hl {hN N}.
have hne : [:: N :: so] <> [::] by [].
do 2 eexists; split; [by []|by []|] => l l' V W hV hW.
have [JV [a1 a2 a3]] := @matmul_product _ (LinOp S [:: N :: so] (jac_matmat so net S th loader)) 1 _ l None V S_nonempty
  hne (jac_matmat_multiplies net_size th S_nonempty hl) hV isT.
have [JW [b1 b2 b3]] := @matmul_product _ (LinOp [:: N :: so] S (jacT_matmat so net S th loader)) 0 _ l' None W
  hne S_nonempty (jacT_matmat_multiplies net_size S th (leqnn N)) hW isT.
exists JV, JW; split=> //.
rewrite /total /= addn0 -/N in a3 b3 *.
have eV : forall i : 'I_(N * O), nth 0 (content JV) i =
    \sum_(j < total S) jac_entry net th (flatten loader) i j * nth 0 (content V) j.
  move=> i; have := a3 i 0%N (ltn_ord i) isT; rewrite /entry !muln1 addn0 => ->.
  by apply: eq_bigr => j _; rewrite !muln1 addn0.
have eW : forall j : 'I_(total S), nth 0 (content JW) j =
    \sum_(i < N * O) jac_entry net th (flatten loader) i j * nth 0 (content W) i.
  move=> i; have := b3 i 0%N (ltn_ord i) isT; rewrite /entry !muln1 addn0 => ->.
  by apply: eq_bigr => j _; rewrite !muln1 addn0 ltn_ord.
under eq_bigr => i _ do rewrite eV mulr_suml.
under [RHS]eq_bigr => i _ do rewrite eW mulr_sumr.
rewrite exchange_big; apply: eq_bigr => j _; apply: eq_bigr => i _.
by rewrite [_ * nth 0 (content V) j]mulrC -!mulrA.
Qed.

(* the adjoint of the adjoint is the same operator again, whatever num_data *)
Theorem C24_adjoint_involution c num_data (loader : seq batch) :
  jac_adjoint so net S th (jac_flip c) (Some (infer_num_data (@size (X * Y)) num_data loader)) loader =
  jac_init so net S th c num_data loader.
Proof. by case: c. Qed.

(* C05: the pair keeps the contract of adjoint(), so C06 (export to SciPy) applies *)
Theorem C05_jacobian_adjoint num_data loader : loader <> [::] -> right_num_data num_data loader ->
  exists J JT (M : nat -> nat -> R), [/\ jac_init so net S th Jac num_data loader = Ok J,
    jac_adjoint so net S th Jac num_data loader = Ok JT,
    (forall d0 n c j, (n < size (flatten loader))%N -> (c < O)%N -> (j < total S)%N ->
       M (n * O + c)%N j = datum_jac d0 (flatten loader) n c j),
    represents J 1 M & adjoint_contract (AdjLinop J JT false) 1 M].
Proof.
move=> hl hN; rewrite /jac_adjoint /jac_init /= (right_num_dataE hN).
have -> : raise_if (nilp loader) StopIteration = Ok tt by case: loader hl {hN}.
do 2 eexists; exists (jac_entry net th (flatten loader)); split; [by []|by []| | |].
- by move=> d0 n c j hn hc _; apply: jac_entryE.
- by split=> //; apply: jac_matmat_multiplies.
split=> //; split=> // K M hK hM.
have [Q [q1 q2 q3]] := jacT_matmat_multiplies net_size S th (leqnn (size (flatten loader))) (leq0n K) hM.
exists Q; split=> // i k hi hk; rewrite q3 //; apply: eq_bigr => j _; congr (_ * _).
by case: j => j /=; rewrite /total /= addn0 => ->.
Qed.

End Props.
Print Assumptions C23_jacobian.
Print Assumptions C23_transposed_jacobian.
Print Assumptions C23_no_columns_raises.
Print Assumptions C23_wrong_num_data_raises.
Print Assumptions C23_large_num_data_ignored_refuted.
Print Assumptions C24_adjoint_identity.
Print Assumptions C24_adjoint_involution.
Print Assumptions C05_jacobian_adjoint.

(* a network with a 2x1 output per datum, two batches of sizes 2 and 1 (one of the
   batches could be empty as well), and its Jacobian entries *)
Definition exj_net (x : R) (th : point) : seq R := [:: x * th 0%N; th 0%N * th 1%N].
Definition exj_loader : seq (seq (R * unit)) := [:: [:: (1, tt); (1 + 1, tt)]; [:: (0, tt)]].

Example C23_ex th :
  [/\ (forall x z, size (exj_net x z) = numel [:: 2; 1]%N), exj_loader <> [::],
      size (flatten exj_loader) = 3%N &
      datum_jac exj_net th (0, tt) (flatten exj_loader) 1 0 0 = 1 + 1 /\
      datum_jac exj_net th (0, tt) (flatten exj_loader) 2 1 1 = th 0%N].
Proof.
split=> //; split; rewrite /datum_jac /exj_net /pd /upd /=; apply: is_derive_unique.
  by rewrite /GRing.mul /GRing.add /GRing.one /=; auto_derive => //; ring.
by rewrite /GRing.mul /GRing.add /GRing.one /=; auto_derive => //; ring.
Qed.
