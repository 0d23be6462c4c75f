(* Model of JacobianLinearOperator and TransposedJacobianLinearOperator:
   /repo/curvlinops/jacobian.py.  Same conventions as Curvature.v: exact real
   arithmetic, autograd products are exact partial derivatives, the network
   treats the data of a batch independently. *)
From Coq Require Import Reals FunctionalExtensionality.
From Coquelicot Require Import Coquelicot.
From mathcomp Require Import all_ssreflect all_algebra.
From Verif Require Import PyPrelude Tensor Spec TorchBase Submatrix RInst Calculus Curvature HessGGN Risk.
Set Implicit Arguments.
Unset Strict Implicit.
Unset Printing Implicit Defensive.
Import GRing.Theory.
Local Open Scope ring_scope.

Local Notation tens := (tensor R).

(* torch.stack(ts, dim=-1): RuntimeError for an empty list or different shapes *)
Definition stack_last (ts : seq tens) : res tens :=
  match ts with
  | [::] => Err RuntimeError
  | t0 :: _ =>
      if all (fun t => tshape t == tshape t0) ts then
        let K := size ts in
        Ok (Tensor (rcons (tshape t0) K)
             (mkseq (fun e => nth 0 (tdata (nth t0 ts (e %% K))) (e %/ K)) (size (tdata t0) * K)))
      else Err RuntimeError
  end.

(* m[start:end]: slicing clamps to the length of the axis *)
Definition row_slice (start stop : nat) (m : tens) : tens :=
  let row := numel (behead (tshape m)) in
  Tensor ((minn stop (head 0%N (tshape m)) - start)%N :: behead (tshape m))
    (drop (start * row) (take (stop * row) (tdata m))).

(* backpack.hessianfree.lop.transposed_jacobian_vector_product(f, params, v) for a
   single output tensor f; torch.autograd.grad raises RuntimeError if v does not
   have f's shape *)
Definition vjp (theta : point) (f : tensor (point -> R)) (ps : seq param) (v : tens) : res (seq tens) :=
  if tshape f == tshape v then
    Ok [seq Tensor (pshape p) (mkseq (fun k =>
          \sum_(o < size (tdata f)) pd (poff p + k) (nth (fun _ => 0) (tdata f) o) theta * nth 0 (tdata v) o)
          (numel (pshape p))) | p <- ps]
  else Err RuntimeError.

(* (v,) = vs: ValueError unless the list has exactly one element *)
Definition single (A : Type) (s : seq A) : res A := if s is [:: a] then Ok a else Err ValueError.

Section Jac.
Variables (X Y : Type).
(* shape of the model's output for one datum *)
Variable so : seq nat.
Variable net : X -> point -> seq R.
Hypothesis net_size : forall x th, size (net x th) = numel so.
Local Notation batch := (seq (X * Y)).
Local Notation O := (numel so).
Variables (S : seq (seq nat)) (th : point).

(* model_func(X) as a tensor of functions of the parameters *)
Definition model_out (b : batch) : tensor (point -> R) :=
  Tensor (size b :: so) (mkseq (fun i z => nth 0 (predict net b z) i) (size b * O)).

(* jacobian.py 107-114: the body of the loop over the data *)
Definition jac_block (K : nat) (M : seq tens) (b : batch) : res tens :=
  let! cols := mapM (fun n =>
      let! w := R_op th [:: model_out b] (pack 0 S) [seq col_sel n m | m <- M] in
      single w) (iota 0 K) in
  stack_last cols.

(* jacobian.py 91-114 (_matmat) *)
Definition jac_matmat (loader : seq batch) (M : seq tens) : res (seq tens) :=
  let! K := the_one [seq last 0%N (tshape m) | m <- M] in
  let! JM := mapM (jac_block K M) loader in
  let! c := tcat JM in
  Ok [:: c].

(* jacobian.py 208-239 (_matmat of the transpose); the loop state is the result
   tensors and the number of processed data *)
Definition jacT_matmat (loader : seq batch) (M : seq tens) : res (seq tens) :=
  let! K := the_one [seq last 0%N (tshape m) | m <- M] in
  let JTM := [seq Tensor (rcons s K) (nseq (numel s * K) 0) | s <- S] in
  let! st := foldM (fun (st : seq tens * nat) b =>
      let '(JTM, processed) := st in
      let stop := (processed + size b)%N in
      let! JTM' := add_columns (fun vs => let! v := single vs in vjp th (model_out b) (pack 0 S) v)
          [seq row_slice processed stop m | m <- M] JTM (iota 0 K) in
      Ok (JTM', stop)) (JTM, 0%N) loader in
  Ok st.1.

(* Constructors: jacobian.py 25-89 and 142-206 with _torch_base.py 463-508
   (check_deterministic = False; see Determinism.v).  The output shape is that of
   the model on the loader's first batch, with the batch axis replaced by the
   number of data. *)
Inductive jac_class := Jac | JacT.
Definition jac_flip c := match c with Jac => JacT | JacT => Jac end.
Definition jac_init (c : jac_class) (num_data : option nat) (loader : seq batch) : res (linop R) :=
  let! _ := raise_if (nilp loader) StopIteration in
  let N := infer_num_data (@size _) num_data loader in
  Ok (match c with
      | Jac => LinOp S [:: N :: so] (jac_matmat loader)
      | JacT => LinOp [:: N :: so] S (jacT_matmat loader)
      end).

(* adjoint() of the object built by [jac_init c num_data loader]:
   jacobian.py 116-130 and 241-255 *)
Definition jac_adjoint (c : jac_class) (num_data : option nat) (loader : seq batch) : res (linop R) :=
  jac_init (jac_flip c) (Some (infer_num_data (@size _) num_data loader)) loader.

(* ---- facts ---- *)

Lemma eq_mkseq_in (T : Type) (f g : nat -> T) n : (forall i, (i < n)%N -> f i = g i) -> mkseq f n = mkseq g n.
Proof. by move=> h; apply/eq_in_map => i; rewrite mem_iota add0n => /andP[_ /h]. Qed.

(* entry (i, j) of the Jacobian of the data [ds] *)
Definition jac_entry (ds : seq (X * Y)) (i j : nat) : R :=
  pd j (fun z => nth 0 (predict net ds z) i) th.

Lemma size_predict (b : batch) z : size (predict net b z) = (size b * O)%N.
Proof. by rewrite /predict; elim: b => //= d b IH; rewrite size_cat net_size IH mulSn. Qed.

Lemma jac_entry_cat (b ds : batch) i j : jac_entry (b ++ ds) i j =
  if (i < size b * O)%N then jac_entry b i j else jac_entry ds (i - size b * O) j.
Proof.
rewrite /jac_entry; case: ifP => h; apply: pd_ext => z; rewrite /predict map_cat flatten_cat nth_cat;
  by rewrite -!/(predict net _ z) size_predict h.
Qed.

Lemma jac_batch K (M : seq tens) (b : batch) : S <> [::] -> valid_mat S K M -> (0 < K)%N ->
  exists t, [/\ jac_block K M b = Ok t,
    tshape t = rcons (size b :: so) K &
    tdata t = mkseq (fun e => \sum_(j < total S) jac_entry b (e %/ K) j * entry K (flat M) j (e %% K)) (size b * O * K)].
Proof.
move=> hS hM hK.
pose col n := Tensor (size b :: so) (mkseq (fun i => \sum_(j < total S) jac_entry b i j * entry K (flat M) j n) (size b * O)).
have hcols : mapM (fun n => let! w := R_op th [:: model_out b] (pack 0 S) [seq col_sel n m | m <- M] in single w)
    (iota 0 K) = Ok [seq col n | n <- iota 0 K].
  have : all (fun n => n < K)%N (iota 0 K) by apply/allP => n; rewrite mem_iota.
  elim: (iota 0 K) => //= n s IH /andP[hn hs].
  have [s1 s2 s3] := col_sel_valid hn hM.
  rewrite IH //= /R_op pshape_pack s1 eqxx /=; congr Ok; congr cons; congr Tensor.
  rewrite /mkseq -map_comp; apply: eq_map => i /=; rewrite (dir_sumE _ _ s1 s2).
  by apply: eq_bigr => j _; rewrite s3 ?add0n.
rewrite /jac_block hcols /=; set cs := map _ _.
have e0 : cs = col 0%N :: behead cs by rewrite /cs; case: (K) hK.
have hall : all (fun t => tshape t == tshape (col 0%N)) cs by rewrite /cs all_map; apply/allP => n _ /=.
have hsz : size cs = K by rewrite size_map size_iota.
exists (Tensor (rcons (size b :: so) K)
   (mkseq (fun e => nth 0 (tdata (nth (col 0%N) cs (e %% K))) (e %/ K)) (size b * O * K))).
split=> //.
  have hst : forall ts, all (fun t => tshape t == tshape (col 0%N)) (col 0%N :: ts) -> stack_last (col 0%N :: ts) =
    Ok (Tensor (rcons (size b :: so) (size (col 0%N :: ts))) (mkseq (fun e => nth 0 (tdata (nth (col 0%N) (col 0%N :: ts)
        (e %% size (col 0%N :: ts)))) (e %/ size (col 0%N :: ts))) (size b * O * size (col 0%N :: ts)))).
    by move=> ts h; rewrite /stack_last h size_mkseq.
  by rewrite e0 in hall hsz *; rewrite (hst _ hall) hsz.
apply: (@eq_from_nth _ 0); rewrite ?size_mkseq // => e he.
have hm : (e %% K < K)%N by rewrite ltn_mod.
rewrite nth_mkseq // [in RHS]nth_mkseq // /cs (nth_map 0%N) ?size_iota // nth_iota // add0n /col /= nth_mkseq //.
by rewrite ltn_divLR.
Qed.

Lemma jac_matmat_multiplies loader : S <> [::] -> loader <> [::] ->
  multiplies 1 (jac_matmat loader) S [:: size (flatten loader) :: so] (jac_entry (flatten loader)).
Proof.
move=> hS hl K M hK hM; rewrite /jac_matmat (the_one_valid hS hM) /=.
have [JM [-> hall hd hsz]] : exists JM, [/\ mapM (jac_block K M) loader = Ok JM,
    all (fun t => (0 < ndim t)%N && (behead (tshape t) == rcons so K)) JM,
    flatten [seq tdata t | t <- JM] = mkseq (fun e => \sum_(j < total S) jac_entry (flatten loader) (e %/ K) j *
       entry K (flat M) j (e %% K)) (size (flatten loader) * O * K) &
    [seq head 0%N (tshape t) | t <- JM] = [seq size b | b <- loader]].
  elim: loader {hl} => [|b l [JM [h1 h2 h3 h4]]]; first by exists [::]; split=> //=; rewrite mul0n.
  have [t [t1 t2 t3]] := jac_batch b hS hM hK.
  rewrite /= t1 h1 /=; exists (t :: JM); split=> //=; rewrite ?h2 ?h4 /ndim ?t2 //= ?eqxx //.
  rewrite t3 h3 size_cat !mulnDl mkseqD; congr cat; apply: eq_mkseq_in => e he; apply: eq_bigr => j _.
    by rewrite jac_entry_cat ltn_divLR // he.
  rewrite jac_entry_cat divnMDl // modnMDl ltnNge leq_addr /= addKn //.
have hJM : JM <> [::] by case: loader hl hsz {hd} => // b l _; case: JM {hall}.
have et : tcat JM = Ok (Tensor (size (flatten loader) :: rcons so K) (flatten [seq tdata t | t <- JM])).
  rewrite /tcat; case: JM hJM hall hsz {hd} => // t JM _ hall hsz.
  have h0 : behead (tshape t) = rcons so K by case/andP: hall => /andP[_ /eqP ->].
  by rewrite h0 hall hsz size_flatten.
rewrite /= et hd /=; eexists; split; first by [].
  by split; rewrite //= /wf /= size_mkseq numel_rcons mulnA eqxx.
move=> i k; rewrite /total /= addn0 => hi hk; rewrite /flat /= cats0 /entry nth_mkseq.
  rewrite divnMDl // (divn_small hk) addn0 modnMDl (modn_small hk) //.
by apply: (@leq_trans (i.+1 * K)%N); rewrite ?leq_mul2r ?hi ?orbT // mulSn addnC ltn_add2r.
Qed.

Lemma vjp_vec (b : batch) :
  vec_product (fun vs => let! v := single vs in vjp th (model_out b) (pack 0 S) v) [:: size b :: so] S
    (fun i j => jac_entry b j i).
Proof.
move=> v; case: v => [|v [|]] // [hv] /= /andP[/eqP hw _].
rewrite /vjp /= hv eqxx.
set f := fun p : param => _.
have -> : [seq f p | p <- pack 0 S] = [seq Tensor (pshape p) (mkseq (fun k =>
    (fun i => \sum_(j < size b * O) jac_entry b j i * nth 0 (tdata v) j) (poff p + k)%N) (numel (pshape p))) | p <- pack 0 S].
  apply: eq_map => p; rewrite /f size_mkseq; congr Tensor; apply: eq_mkseq => k; apply: eq_bigr => j _.
  by rewrite nth_mkseq.
have [h1 h2] := pack_tensors (fun i => \sum_(j < size b * O) jac_entry b j i * nth 0 (tdata v) j) 0 S.
eexists; split; first reflexivity; rewrite ?h1 ?h2 // => i hi.
rewrite (nth_flat_pack (fun i => \sum_(j < size b * O) jac_entry b j i * nth 0 (tdata v) j)) // add0n.
by rewrite /total /flat /= cats0 addn0.
Qed.

Lemma row_slice_valid N K (M : seq tens) start n : valid_mat [:: N :: so] K M -> (start + n <= N)%N ->
  let M' := [seq row_slice start (start + n) m | m <- M] in
  valid_mat [:: n :: so] K M' /\
  forall j k, (j < n * O)%N -> (k < K)%N -> entry K (flat M') j k = entry K (flat M) (start * O + j)%N k.
Proof.
case: M => [|m [|m' M]]; [by case=> ? | | by case=> -[? ?]] => -[[hm]] /= /andP[/eqP hw _] hN; rewrite hm /= numel_rcons mulnA in hw.
rewrite /= /row_slice hm /= (minn_idPl hN) addKn numel_rcons.
have hle : ((start + n) * (O * K) <= size (tdata m))%N by rewrite hw -mulnA leq_mul2r hN orbT.
split.
  split=> //=; rewrite andbT /wf /= size_drop size_takel // -mulnBl addKn numel_rcons //.
move=> j k hj hk; rewrite /entry /flat /= !cats0 nth_drop nth_take.
  by congr nth; rewrite mulnA mulnDl addnA.
rewrite mulnDl ltn_add2l mulnA; apply: (@leq_trans (j.+1 * K)%N); last by rewrite leq_mul2r hj orbT.
by rewrite mulSn addnC ltn_add2r.
Qed.

(* the loop of the transposed product on the data [l], [p] data having been
   processed, of an argument with at least as many rows as there are data *)
Lemma jacT_loop N K (M : seq tens) (l : seq batch) p G : valid_mat [:: N :: so] K M ->
  (p + size (flatten l) <= N)%N -> valid_mat S K G ->
  exists G', [/\ foldM (fun (st : seq tens * nat) b =>
      let '(JTM, processed) := st in
      let stop := (processed + size b)%N in
      let! JTM' := add_columns (fun vs => let! v := single vs in vjp th (model_out b) (pack 0 S) v)
          [seq row_slice processed stop m | m <- M] JTM (iota 0 K) in
      Ok (JTM', stop)) (G, p) l = Ok (G', (p + size (flatten l))%N), valid_mat S K G' &
    forall i k, (i < total S)%N -> (k < K)%N -> entry K (flat G') i k = entry K (flat G) i k +
      \sum_(j < size (flatten l) * O) jac_entry (flatten l) j i * entry K (flat M) (p * O + j)%N k].
Proof.
move=> hM; elim: l p G => [|b l IH] p G; rewrite /=.
  by rewrite addn0 => _ hG; exists G; split=> // i k _ _; rewrite mul0n big_ord0 addr0.
rewrite size_cat addnA => hN hG.
have hb : (p + size b <= N)%N by apply: leq_trans hN; apply: leq_addr.
have [v1 v2] := row_slice_valid hM hb.
have [G1 [-> g1 g2]] /= := add_columns_valid (@vjp_vec b) v1 hG.
have [G2 [-> g3 g4]] := IH _ _ hN g1.
exists G2; split=> // i k hi hk; rewrite g4 // g2 // -addrA; congr (_ + _).
rewrite [in RHS]mulnDl [in RHS]big_split_ord /=; congr (_ + _).
  rewrite /total /= addn0; apply: eq_bigr => j _.
  by rewrite v2 // jac_entry_cat ltn_ord.
apply: eq_bigr => j _; rewrite jac_entry_cat ltnNge leq_addr /= addKn.
by rewrite mulnDl addnA.
Qed.

Lemma zeros_list K : valid_mat S K [seq Tensor (rcons s K) (nseq (numel s * K) (0 : R)) | s <- S] /\
  forall i k, entry K (flat [seq Tensor (rcons s K) (nseq (numel s * K) (0 : R)) | s <- S]) i k = 0.
Proof.
split.
  by split; [rewrite -map_comp | rewrite all_map; apply/allP => s _; rewrite /wf /= size_nseq numel_rcons].
move=> i k; rewrite /entry; set e := (_ + _)%N; elim: (S) e => [|s S' IH] e; first by rewrite nth_nil.
rewrite /flat /= nth_cat size_nseq; case: ifP => h; last exact: IH.
by rewrite nth_nseq h.
Qed.

(* with [N] at least the number of data, the additional rows are ignored *)
Lemma jacT_matmat_multiplies N loader : (size (flatten loader) <= N)%N ->
  multiplies 0 (jacT_matmat loader) [:: N :: so] S
    (fun i j => if (j < size (flatten loader) * O)%N then jac_entry (flatten loader) j i else 0).
Proof.
move=> hN K M _ hM; rewrite /jacT_matmat (the_one_valid _ hM) //=.
have [z1 z2] := zeros_list K.
have [G [-> g1 g2]] := @jacT_loop N K M loader 0 _ hM hN z1.
exists G; split=> // i k hi hk; rewrite g2 // z2 add0r.
rewrite /total /= addn0.
have [r ->] : exists r, N = (size (flatten loader) + r)%N by exists (N - size (flatten loader))%N; rewrite subnKC.
rewrite mulnDl big_split_ord /= [X in _ = _ + X]big1 ?addr0.
  by apply: eq_bigr => j _; rewrite ltn_ord mul0n add0n.
by move=> j _; rewrite ltnNge leq_addr /= mul0r.
Qed.

(* with [N] smaller than the number of data the first product with a batch that
   exceeds the argument raises *)
Lemma jacT_matmat_short N loader K M : (N < size (flatten loader))%N -> (0 < K)%N ->
  valid_mat [:: N :: so] K M -> jacT_matmat loader M = Err RuntimeError.
Proof.
move=> hN hK hM; rewrite /jacT_matmat (the_one_valid _ hM) //=.
have [z1 _] := zeros_list K; move: [seq Tensor (rcons s K) (nseq (numel s * K) 0) | s <- S] z1 => G hG.
set F := fun _ _ => _.
suff -> : foldM F (G, 0%N) loader = Err RuntimeError by [].
have : (N < 0 + size (flatten loader))%N by [].
have : (0 <= N)%N by [].
elim: loader {hN} 0%N G hG => [|b l IH] p G hG hp; first by rewrite addn0 ltnNge hp.
rewrite /= size_cat addnA => hN.
case: (leqP (p + size b) N) => h.
  have [v1 v2] := row_slice_valid hM h.
  have [G1 [e1 g1 g2]] := add_columns_valid (@vjp_vec b) v1 hG.
  by rewrite {1}/F e1 /=; apply: IH.
rewrite {1}/F; case: M hM {IH F} => [|m [|m' M]]; [by case=> ? | | by case=> -[? ?]] => -[[hm] _].
case: (K) hK hm hG => // K' _ hm hG; rewrite /add_columns /= /vjp /col_sel /= hm /= size_rcons /=.
rewrite ifF //; apply/negbTE/eqP => -[e _].
by move: (h); rewrite {1}e (minn_idPr (ltnW h)) subnKC // ltnn.
Qed.
End Jac.
