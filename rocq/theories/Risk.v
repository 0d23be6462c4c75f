(* Networks, losses, data loaders and the Hessian/GGN operators over a whole
   data loader: /repo/curvlinops/_torch_base.py 404-547, 568-676, hessian.py,
   ggn.py.  The specification side (empirical risk, its Hessian and GGN) is in
   the section Spec below and does not use the operators. *)
From Coq Require Import Reals FunctionalExtensionality Permutation.
From Coquelicot Require Import Coquelicot.
From mathcomp Require Import all_ssreflect all_algebra.
From Verif Require Import PyPrelude Tensor Spec TorchBase Submatrix RInst Calculus Curvature HessGGN.
Set Implicit Arguments.
Unset Strict Implicit.
Unset Printing Implicit Defensive.
Import GRing.Theory.
Local Open Scope ring_scope.

Local Notation tens := (tensor R).

(* ---- sums and derivatives of functions that split into rows ---- *)

Lemma sum_rows N C (f : nat -> R) : \sum_(i < N * C) f i = \sum_(n < N) \sum_(c < C) f (n * C + c)%N.
Proof.
elim: N => [|N IH]; first by rewrite !big_ord0.
by rewrite big_ord_recr /= -IH mulSnr big_split_ord.
Qed.

(* row n of a vector that is the concatenation of rows of length C *)
Definition row_pt (C n : nat) (o : point) : point := fun c => o (n * C + c)%N.

Lemma row_pt_upd C n o i t : (n * C <= i)%N ->
  row_pt C n (upd o i t) = upd (row_pt C n o) (i - n * C) t.
Proof.
move=> hi; apply: functional_extensionality => c; rewrite /row_pt /upd.
by rewrite -[in LHS](subnKC hi) eqn_add2l.
Qed.

(* functions that only look at the first C coordinates *)
Definition local_fun (C : nat) (G : point -> R) : Prop :=
  forall x y, (forall c, (c < C)%N -> x c = y c) -> G x = G y.

Lemma pd_local C G c x y : local_fun C G -> (forall c, (c < C)%N -> x c = y c) -> (c < C)%N ->
  pd c G x = pd c G y.
Proof.
move=> hG hxy hc; rewrite /pd (hxy c hc); apply: Derive_ext => t.
by apply: hG => c' hc'; rewrite /upd; case: ifP => // _; apply: hxy.
Qed.

Lemma Derive_const_plus (k : R) (f : R -> R) x : Derive (fun t => k + f t) x = Derive f x.
Proof.
rewrite /Derive; congr real; apply: Lim_ext => h; congr Rdiv.
by toR; rewrite /Rminus; ring.
Qed.

Lemma row_other C n m o c t : n <> m -> (c < C)%N ->
  forall c', (c' < C)%N -> row_pt C m (upd o (n * C + c) t) c' = row_pt C m o c'.
Proof.
move=> nm hc c' hc'; rewrite /row_pt /upd; case: eqP => // e.
have C0 : (0 < C)%N by apply: leq_ltn_trans hc.
have : ((m * C + c') %/ C = (n * C + c) %/ C)%N by rewrite e.
by rewrite !divnMDl // !divn_small // !addn0 => /esym.
Qed.

Lemma pd_rows N C (G : nat -> point -> R) n c x : (forall m, local_fun C (G m)) ->
  (n < N)%N -> (c < C)%N ->
  pd (n * C + c) (fun o => \sum_(m < N) G m (row_pt C m o)) x = pd c (G n) (row_pt C n x).
Proof.
move=> hG hn hc; rewrite /pd.
rewrite (@Derive_ext _ (fun t => (\sum_(m < N | m != n :> nat) G m (row_pt C m x)) +
    G n (upd (row_pt C n x) c t))); first exact: Derive_const_plus.
move=> t; rewrite (bigD1 (Ordinal hn)) //= addrC; congr (_ + _).
  apply: eq_big => [m|m /eqP hm]; first by [].
  by apply: hG; apply: row_other => // e; apply: hm; apply: val_inj.
by rewrite row_pt_upd ?leq_addr // addKn.
Qed.

Lemma pd2_rows N C (G : nat -> point -> R) n c n' c' x : (forall m, local_fun C (G m)) ->
  (n < N)%N -> (c < C)%N -> (n' < N)%N -> (c' < C)%N ->
  pd (n' * C + c') (pd (n * C + c) (fun o => \sum_(m < N) G m (row_pt C m o))) x =
  if n == n' then pd c' (pd c (G n)) (row_pt C n x) else 0.
Proof.
move=> hG hn hc hn' hc'.
rewrite (@pd_ext _ (fun o => pd c (G n) (row_pt C n o))); last by move=> z; apply: pd_rows.
case: eqP => [<-|nn].
  rewrite /pd; apply: Derive_ext => t.
  by rewrite row_pt_upd ?leq_addr // addKn.
apply: pd_indep => t; apply: pd_local hc => //.
by apply: row_other => // e; apply: nn.
Qed.

(* bilinear forms with a row-block-diagonal matrix *)
Lemma bilin_rows N C (H : nat -> nat -> R) (Hn : nat -> nat -> nat -> R) (a b : nat -> R) :
  (forall n c n' c', (n < N)%N -> (c < C)%N -> (n' < N)%N -> (c' < C)%N ->
     H (n * C + c)%N (n' * C + c')%N = if n == n' then Hn n c c' else 0) ->
  \sum_(o < N * C) \sum_(o' < N * C) a o * (H o o' * b o') =
  \sum_(n < N) \sum_(c < C) \sum_(c' < C) a (n * C + c)%N * (Hn n c c' * b (n * C + c')%N).
Proof.
move=> h.
rewrite (sum_rows N C (fun o => \sum_(o' < N * C) a o * (H o o' * b o'))).
apply: eq_bigr => n _; apply: eq_bigr => c _.
rewrite (sum_rows N C (fun o' => a (n * C + c)%N * (H (n * C + c)%N o' * b o'))).
rewrite (bigD1 n) //= [X in _ + X]big1 ?addr0.
  by apply: eq_bigr => c' _; rewrite h // eqxx.
move=> m /eqP mn; rewrite big1 // => c' _; rewrite h //.
by case: eqP => [e|_]; [case: mn; apply: val_inj | rewrite mul0r mulr0].
Qed.

Lemma mkseqD (T : Type) (f : nat -> T) a b : mkseq f (a + b) = mkseq f a ++ mkseq (fun i => f (a + i)%N) b.
Proof. by rewrite /mkseq iotaD map_cat; congr cat; rewrite -{1}[(0 + a)%N]addn0 add0n iotaDl -map_comp. Qed.

Lemma mkseqS_front (T : Type) (f : nat -> T) n : mkseq f n.+1 = f 0%N :: mkseq (fun i => f i.+1) n.
Proof. by rewrite /mkseq /= (iotaDl 1 0) -map_comp. Qed.

Lemma reshape_mkseq n C (o : point) :
  reshape (nseq n C) (mkseq o (n * C)) = mkseq (fun m => mkseq (row_pt C m o) C) n.
Proof.
elim: n o => // n IH o; rewrite mulSn mkseqD mkseqS_front /=.
rewrite take_size_cat ?drop_size_cat ?size_mkseq // IH; congr cons.
apply: eq_mkseq => m; apply: eq_mkseq => c; rewrite /row_pt mulSn.
by congr o; rewrite addnA.
Qed.

Section Net.
Variables (X Y : Type) (O : nat).
(* the network on one datum: parameters -> O outputs (row-major) *)
Variable net : X -> point -> seq R.
Hypothesis net_size : forall x th, size (net x th) = O.
(* loss of one datum (with the loss's own reduction over the datum's terms) *)
Variable lossd : seq R -> Y -> R.
Local Notation batch := (seq (X * Y)).

(* prediction on a batch, flattened; contract: the network treats the data of a
   batch independently (no batch normalisation in training mode) *)
Definition predict (b : batch) (th : point) : seq R := flatten [seq net d.1 th | d <- b].

(* loss_func(prediction, y) of torch losses: sum or mean over the data *)
Definition reduce (red : reduction) (n : nat) (s : R) : R :=
  match red with RMean => s / n%:R | _ => s end.
Definition loss_func (red : reduction) (pred : seq R) (ys : seq Y) : R :=
  reduce red (size ys) (\sum_(p <- zip (reshape (nseq (size ys) O) pred) ys) lossd p.1 p.2).

Definition batch_loss (red : reduction) (b : batch) (th : point) : R :=
  loss_func red (predict b th) [seq d.2 | d <- b].

(* HessianLinearOperator(...)._matmat: _torch_base.py 526-547 with hessian.py
   43-84; N_data as computed by the constructor (lines 481-490). *)
Definition hessian_matmat (red : reduction) (num_data : option nat) (loader : seq batch) (S : seq (seq nat))
    (bs : seq int) (th : point) : seq tens -> res (seq tens) :=
  base_matmat (@size _) red (infer_num_data (@size _) num_data loader) loader
    (fun b => hessian_batch (pack 0 S) bs th (batch_loss red b)).

(* GGNLinearOperator(...)._matmat *)
Definition ggn_matmat (red : reduction) (num_data : option nat) (loader : seq batch) (S : seq (seq nat))
    (th : point) : seq tens -> res (seq tens) :=
  base_matmat (@size _) red (infer_num_data (@size _) num_data loader) loader
    (fun b => ggn_batch (pack 0 S) th
       (fun o => loss_func red (mkseq o (size b * O)) [seq d.2 | d <- b])
       (size b * O) (fun z i => nth 0 (predict b z) i)).

(* _torch_base.py 618-676: per batch the scaled loss and its gradient, summed *)
Definition gradient_and_loss (has_loss : bool) (red : reduction) (num_data : option nat) (loader : seq batch)
    (S : seq (seq nat)) (th : point) : res (seq tens * R) :=
  let N := infer_num_data (@size _) num_data loader in
  if ~~ has_loss then Err ValueError else
  foldM (fun (tgl : seq tens * R) b => let '(total_grad, total_loss) := tgl in
      let! nf := normalization_factor red (size b) N in
      let loss z := batch_loss red b z * nf in
      let grads := [seq Tensor (tshape g) [seq f th | f <- tdata g] | g <- autograd (pack 0 S) loss] in
      let! tg := adds_alpha 1 total_grad grads in
      Ok (tg, total_loss + loss th))
    ([seq Tensor s (nseq (numel s) 0) | s <- S], 0) loader.

Section Spec.
(* the empirical risk c * sum_n l(f(x_n), y_n) *)
Definition weight (red : reduction) (n : nat) : R := match red with RMean => n%:R^-1 | _ => 1 end.
Definition risk (c : R) (data : seq (X * Y)) (th : point) : R :=
  c * \sum_(d <- data) lossd (net d.1 th) d.2.
(* entry (i,j) of c * sum_n J_n^T H_n J_n *)
Definition ggn_entry (c : R) (data : seq (X * Y)) (th : point) (i j : nat) : R :=
  c * \sum_(d <- data) \sum_(a < O) \sum_(b < O)
    pd i (fun z => nth 0 (net d.1 z) a) th *
    (pd b (pd a (fun o => lossd (mkseq o O) d.2)) (nth 0 (net d.1 th)) *
     pd j (fun z => nth 0 (net d.1 z) b) th).
End Spec.

Lemma reshape_predict b th :
  reshape (nseq (size b) O) (predict b th) = [seq net d.1 th | d <- b].
Proof.
rewrite /predict; elim: b => //= d b IH.
by rewrite take_size_cat ?net_size // drop_size_cat ?net_size // IH.
Qed.

Lemma batch_lossE red b th :
  batch_loss red b th = reduce red (size b) (\sum_(d <- b) lossd (net d.1 th) d.2).
Proof.
rewrite /batch_loss /loss_func size_map reshape_predict; congr reduce.
elim: b => [|d b IH] /=; first by rewrite !big_nil.
by rewrite !big_cons IH.
Qed.

Lemma reduceE red n s : reduce red n s = weight red n * s.
Proof. by case: red; rewrite /reduce /weight ?mul1r // mulrC. Qed.

Lemma nfac_weight red n N : (0 < n)%N -> nfac red n N * weight red n = weight red N.
Proof.
move=> hn; case: red; rewrite /nfac /weight ?mulr1 //.
by rewrite mulrAC divff ?mul1r //; apply: natr_neq0.
Qed.

Lemma sum_flatten (T : Type) (ss : seq (seq T)) (f : T -> R) :
  \sum_(b <- ss) \sum_(d <- b) f d = \sum_(d <- flatten ss) f d.
Proof.
elim: ss => [|b ss IH] /=; first by rewrite !big_nil.
by rewrite big_cons big_cat IH.
Qed.

Definition nonempty (loader : seq batch) := all (fun b => 0 < size b)%N loader.

(* The sum over a loader of the scaled batch quantities is the scaled sum over
   the data. *)
Lemma loader_sum red N (loader : seq batch) (f : X * Y -> R) : nonempty loader ->
  \sum_(b <- loader) nfac red (size b) N * (weight red (size b) * \sum_(d <- b) f d) =
  weight red N * \sum_(d <- flatten loader) f d.
Proof.
move=> hl; rewrite -sum_flatten mulr_sumr.
elim: loader hl => [|b l IH] /=; first by rewrite !big_nil.
by case/andP=> hb hl; rewrite !big_cons IH // mulrA nfac_weight.
Qed.

Definition loader_size (loader : seq batch) := sumn [seq size b | b <- loader].

Lemma loader_sizeE loader : loader_size loader = size (flatten loader).
Proof. by rewrite size_flatten. Qed.

Lemma Forall_in_flatten (P : X * Y -> Prop) loader :
  Forall_in P (flatten loader) -> Forall_in (Forall_in P) loader.
Proof. by elim: loader => //= b l IH /Forall_in_cat[h1 /IH h2]. Qed.

Lemma multiplies_ext k0 f inS outS (M M' : nat -> nat -> R) :
  (forall i j, (i < total outS)%N -> (j < total inS)%N -> M i j = M' i j) ->
  multiplies k0 f inS outS M -> multiplies k0 f inS outS M'.
Proof.
move=> h hf K Z hK hZ; have [W [h1 h2 h3]] := hf K Z hK hZ; exists W; split=> // i k hi hk.
by rewrite h3 //; apply: eq_bigr => j _; rewrite h.
Qed.

Lemma hessian_multiplies red num_data loader S (bs : seq nat) th :
  let N := infer_num_data (@size _) num_data loader in
  S <> [::] -> sumn bs = size S -> red <> ROther -> (0 < N)%N -> nonempty loader ->
  Forall_in (fun d => twice_diff (total S) (fun z => lossd (net d.1 z) d.2) th) (flatten loader) ->
  multiplies 0 (hessian_matmat red num_data loader S [seq b%:Z | b <- bs] th) S S
    (fun i j => if same_block (block_dims bs S) i j
                then pd j (pd i (risk (weight red N) (flatten loader))) th else 0).
Proof.
move=> N hS hbs hr hN hl hd.
apply: multiplies_ext (base_matmat_multiplies (@size _) hr hN
  (A := fun b i j => if same_block (block_dims bs S) i j then pd j (pd i (batch_loss red b)) th else 0) _);
  last by apply: Forall_in_all => b; apply: hessian_batch_multiplies.
move=> i j hi hj; case: ifP => _; last by rewrite big1 // => b _; rewrite mulr0.
rewrite /risk pd2_scal (pd2_sum hi hj hd).
rewrite -(loader_sum _ _ _ hl).
clearbody N; have := Forall_in_flatten hd; elim: loader {hl hd} => [|b l IH] /=; first by rewrite !big_nil.
case=> hb hl; rewrite !big_cons; congr (_ * _ + _); last by rewrite IH.
rewrite -(pd2_sum hi hj hb) -pd2_scal; apply: pd_ext => z; apply: pd_ext => w.
by rewrite batch_lossE reduceE.
Qed.

Lemma row_of_predict b th d0 n : (n < size b)%N -> forall c, (c < O)%N ->
  nth 0 (predict b th) (n * O + c) = nth 0 (net (nth d0 b n).1 th) c.
Proof.
move=> hn c hc; rewrite /predict (@nth_flatten_uniform _ _ _ O) ?size_map //.
  by rewrite (nth_map d0).
by rewrite all_map; elim: b {hn} => //= d b ->; rewrite net_size eqxx.
Qed.

Lemma sum_nth (T : Type) (d0 : T) (s : seq T) (f : T -> R) :
  \sum_(d <- s) f d = \sum_(n < size s) f (nth d0 s n).
Proof. by rewrite (big_nth d0) big_mkord. Qed.

Lemma mkseq_local (C : nat) (G : seq R -> R) : local_fun C (fun o => G (mkseq o C)).
Proof.
by move=> x y h; congr G; apply/eq_in_map => c; rewrite mem_iota add0n => /andP[_ /h].
Qed.

Lemma loss_rowsE red (b : batch) o d0 :
  loss_func red (mkseq o (size b * O)) [seq d.2 | d <- b] =
  \sum_(n < size b) weight red (size b) * lossd (mkseq (row_pt O n o) O) (nth d0 b n).2.
Proof.
rewrite /loss_func size_map reduceE -mulr_sumr; congr (_ * _).
have -> : reshape (nseq (size b) O) (mkseq o (size b * O)) = mkseq (fun n => mkseq (row_pt O n o) O) (size b).
  exact: reshape_mkseq.
rewrite (sum_nth (([::] : seq R), d0.2)) size_zip size_mkseq size_map minnn.
apply: eq_bigr => n _; rewrite nth_zip /=; last by rewrite size_mkseq size_map.
by rewrite nth_mkseq // (nth_map d0).
Qed.

Lemma ggn_multiplies red num_data loader S th :
  let N := infer_num_data (@size _) num_data loader in
  S <> [::] -> red <> ROther -> (0 < N)%N -> nonempty loader ->
  multiplies 0 (ggn_matmat red num_data loader S th) S S
    (ggn_entry (weight red N) (flatten loader) th).
Proof.
move=> N hS hr hN hl.
apply: multiplies_ext (base_matmat_multiplies (@size _) hr hN _);
  last by apply: Forall_in_all => b; apply: ggn_batch_multiplies.
move=> i j hi hj; rewrite /ggn_entry -(loader_sum _ _ _ hl).
clearbody N; elim: loader hl => [|b l IH] /=; first by rewrite !big_nil.
case/andP=> hb hl; rewrite !big_cons; congr (_ * _ + _); last by rewrite IH.
case: b hb => // d0 b0 _; set b := d0 :: b0.
set lossO := fun o => loss_func red _ _.
set w := weight red (size b).
rewrite (@bilin_rows (size b) O (fun o o' => pd o' (pd o lossO) (fun i0 => nth 0 (predict b th) i0))
  (fun n c c' => w * pd c' (pd c (fun o => lossd (mkseq o O) (nth d0 b n).2)) (nth 0 (net (nth d0 b n).1 th)))
  (fun o => pd i (fun z => nth 0 (predict b z) o) th) (fun o => pd j (fun z => nth 0 (predict b z) o) th)).
  rewrite (sum_nth d0) mulr_sumr; apply: eq_bigr => n _.
  rewrite mulr_sumr; apply: eq_bigr => c _; rewrite mulr_sumr; apply: eq_bigr => c' _.
  rewrite (@pd_ext _ (fun z => nth 0 (net (nth d0 b n).1 z) c)); last by move=> z; apply: row_of_predict.
  rewrite (@pd_ext (fun z => nth 0 (predict b z) (n * O + c'))
     (fun z => nth 0 (net (nth d0 b n).1 z) c')); last by move=> z; apply: row_of_predict.
  by rewrite mulrCA -!mulrA [pd i _ _ * _]mulrCA.
move=> n c n' c' hn hc hn' hc'.
rewrite (@pd_ext _ (pd (n * O + c) (fun o => \sum_(m < size b)
   (fun m o => w * lossd (mkseq o O) (nth d0 b m).2) m (row_pt O m o)))); last first.
  by move=> z; apply: pd_ext => z'; rewrite /lossO (loss_rowsE _ _ _ d0).
rewrite (@pd2_rows _ _ (fun m o => w * lossd (mkseq o O) (nth d0 b m).2)) //; last first.
  by move=> m x y h; congr (_ * _); apply: (@mkseq_local O (fun s => lossd s (nth d0 b m).2)).
case: eqP => // _; rewrite pd2_scal; congr (_ * _).
rewrite (@pd_local O _ c' _ (nth 0 (net (nth d0 b n).1 th))) //.
  move=> x y h; apply: (@pd_local O) => //; exact: (@mkseq_local O (fun s => lossd s (nth d0 b n).2)).
by move=> c0 hc0; rewrite /row_pt; apply: row_of_predict.
Qed.

Lemma grads_valid (S : seq (seq nat)) (F : point -> R) th :
  let g := [seq Tensor (tshape g) [seq f th | f <- tdata g] | g <- autograd (pack 0 S) F] in
  [/\ [seq tshape t | t <- g] = S, all (@wf R) g &
      forall i, (i < total S)%N -> nth 0 (flat g) i = pd i F th].
Proof.
have e : [seq Tensor (tshape g) [seq f th | f <- tdata g] | g <- autograd (pack 0 S) F] =
   [seq Tensor (pshape p) (mkseq (fun k => pd (poff p + k) F th) (numel (pshape p))) | p <- pack 0 S].
  by rewrite /autograd -map_comp; apply: eq_map => p /=; rewrite /mkseq -map_comp.
rewrite /= e; have [h1 h2] := pack_tensors (fun i => pd i F th) 0 S; split=> // i hi.
by rewrite (@nth_flat_pack (fun i => pd i F th)).
Qed.

Lemma adds_alpha_vec S (a b : seq tens) c :
  [seq tshape t | t <- a] = S -> all (@wf R) a -> [seq tshape t | t <- b] = S -> all (@wf R) b ->
  exists x, [/\ adds_alpha c a b = Ok x, [seq tshape t | t <- x] = S, all (@wf R) x &
    forall i, (i < total S)%N -> nth 0 (flat x) i = nth 0 (flat a) i + c * nth 0 (flat b) i].
Proof.
elim: S a b => [|s S IH] [|a0 a] [|b0 b] //; first by exists [::].
move=> [ha hS] /= /andP[wa hwa] [hb hSb] /andP[wb hwb].
have [x [-> e2 e3 e4]] := IH a b hS hwa hSb hwb.
rewrite /add_alpha ha hb eqxx /=; eexists; split; [by [] | by rewrite /= e2 | |].
  by rewrite /= e3 /wf /= size_mkseq (eqP wa) ha eqxx.
move=> i hi; rewrite /flat /= !nth_cat size_mkseq (eqP wa) (eqP wb) ha hb.
case: ltnP => his; first by rewrite nth_mkseq // (eqP wa) ha.
by rewrite -!/(flat _) e4 // ltn_subLR.
Qed.

Lemma gradient_and_loss_ok red num_data loader S th :
  let N := infer_num_data (@size _) num_data loader in
  red <> ROther -> (0 < N)%N -> nonempty loader ->
  Forall_in (fun d => forall i, (i < total S)%N -> ex_pd i (fun z => lossd (net d.1 z) d.2) th) (flatten loader) ->
  exists g, [/\ gradient_and_loss true red num_data loader S th =
                   Ok (g, risk (weight red N) (flatten loader) th),
    [seq tshape t | t <- g] = S, all (@wf R) g &
    forall i, (i < total S)%N -> nth 0 (flat g) i = pd i (risk (weight red N) (flatten loader)) th].
Proof.
move=> N hr hN hl hd.
pose step := (fun (tgl : seq tens * R) b => let '(total_grad, total_loss) := tgl in
      let! nf := normalization_factor red (size b) N in
      let loss z := batch_loss red b z * nf in
      let grads := [seq Tensor (tshape g) [seq f th | f <- tdata g] | g <- autograd (pack 0 S) loss] in
      let! tg := adds_alpha 1 total_grad grads in
      Ok (tg, total_loss + loss th)).
suff main : forall l g0 (l0 : R), nonempty l ->
   Forall_in (fun d => forall i, (i < total S)%N -> ex_pd i (fun z => lossd (net d.1 z) d.2) th) (flatten l) ->
   [seq tshape t | t <- g0] = S -> all (@wf R) g0 ->
   exists g, [/\ foldM step (g0, l0) l = Ok (g, l0 + risk (weight red N) (flatten l) th),
    [seq tshape t | t <- g] = S, all (@wf R) g &
    forall i, (i < total S)%N -> nth 0 (flat g) i = nth 0 (flat g0) i + pd i (risk (weight red N) (flatten l)) th].
  have z1 : [seq tshape t | t <- [seq Tensor s (nseq (numel s) (0 : R)) | s <- S]] = S.
    by rewrite -map_comp map_id_in.
  have z2 : all (@wf R) [seq Tensor s (nseq (numel s) (0 : R)) | s <- S].
    by rewrite all_map; apply/allP => s _; rewrite /wf /= size_nseq.
  have [g [e1 e2 e3 e4]] := main loader _ 0 hl hd z1 z2.
  exists g; split=> //; first by rewrite /gradient_and_loss /= -/N -/step e1 add0r.
  move=> i hi; rewrite e4 // (_ : nth 0 (flat _) i = 0) ?add0r //.
  have := @zeros_entry _ 1 [seq Tensor s (nseq (numel s) (0 : R)) | s <- S] i 0.
  rewrite /entry muln1 addn0 -map_comp; rewrite (@eq_map _ _ _ (fun s => Tensor s (nseq (numel s) 0))) //.
  by move=> s; rewrite /= /zeros_like /= size_nseq.
clear hl hd; clearbody N.
have split_risk : forall b l z, risk (weight red N) (flatten (b :: l)) z =
    risk (weight red N) b z + risk (weight red N) (flatten l) z.
  by move=> b l z; rewrite /risk /= big_cat /= mulrDr.
elim=> [|b l IH] g0 l0 hl hd s0 w0.
  exists g0; split=> //=; first by rewrite /risk big_nil mulr0 addr0.
  move=> i hi; rewrite (@pd_ext _ (fun=> 0)) ?pd_const ?addr0 // => z.
  by rewrite /risk big_nil mulr0.
case/andP: hl => hb hl; move: hd => /Forall_in_cat [hdb hdl].
rewrite /= normalization_ok //=.
have bl : forall z, batch_loss red b z * nfac red (size b) N = risk (weight red N) b z.
  move=> z; rewrite batch_lossE reduceE /risk -(nfac_weight red N hb).
  by rewrite mulrC mulrA.
have [h1 h2 h3] := grads_valid S (fun z => batch_loss red b z * nfac red (size b) N) th.
have [x [-> x2 x3 x4]] /= := adds_alpha_vec 1 s0 w0 h1 h2.
have [g [e1 e2 e3 e4]] := IH x (l0 + batch_loss red b th * nfac red (size b) N) hl hdl x2 x3.
exists g; split=> //; first by rewrite e1 -/(flatten (b :: l)) split_risk bl addrA.
move=> i hi; rewrite e4 // x4 // h3 // mul1r -addrA; congr (_ + _).
rewrite (pd_ext (G := risk (weight red N) b)) //.
rewrite -/(flatten (b :: l)) (pd_ext _ _ (split_risk b l)) pd_plus //.
  apply: ex_pd_scal; apply: ex_pd_sum; apply: Forall_in_impl hdb => d; exact.
apply: ex_pd_scal; apply: ex_pd_sum; apply: Forall_in_impl hdl => d; exact.
Qed.

Lemma gradient_and_loss_none red num_data loader S th :
  gradient_and_loss false red num_data loader S th = Err ValueError.
Proof. by []. Qed.

(* ---- order and batching ---- *)
Lemma sum_permutation (T : Type) (s t : seq T) (f : T -> R) : Permutation s t ->
  \sum_(d <- s) f d = \sum_(d <- t) f d.
Proof.
by elim=> [//|x l l' _ IH|x y l|l l' l'' _ -> _ //]; rewrite !big_cons ?IH // addrCA.
Qed.

Lemma risk_permutation c s t : Permutation s t -> risk c s = risk c t.
Proof.
move=> h; apply: functional_extensionality => z; rewrite /risk.
by rewrite (sum_permutation _ h).
Qed.

Lemma ggn_permutation c s t : Permutation s t -> ggn_entry c s = ggn_entry c t.
Proof.
move=> h; apply: functional_extensionality => z; apply: functional_extensionality => i.
by apply: functional_extensionality => j; rewrite /ggn_entry (sum_permutation _ h).
Qed.

End Net.

Lemma tensor_list_ext (X Y : seq tens) : [seq tshape t | t <- X] = [seq tshape t | t <- Y] ->
  all (@wf R) X -> all (@wf R) Y -> flat X = flat Y -> X = Y.
Proof.
elim: X Y => [|[s d] X IH] [|[s' d'] Y] //= [<- hs] /andP[/eqP /= w1 hX] /andP[/eqP /= w2 hY].
rewrite /flat /= => /eqP; rewrite eqseq_cat ?w1 ?w2 // => /andP[/eqP <- /eqP h].
by congr cons; apply: IH.
Qed.

Lemma entry_ext K n (a b : seq R) : size a = (n * K)%N -> size b = (n * K)%N ->
  (forall i k, (i < n)%N -> (k < K)%N -> entry K a i k = entry K b i k) -> a = b.
Proof.
move=> ha hb h; apply: (@eq_from_nth _ 0); first by rewrite ha hb.
move=> e; rewrite ha => he; have K0 : (0 < K)%N by move: he; case: K {ha hb h} => //; rewrite muln0.
rewrite (divn_eq e K); apply: h; last by rewrite ltn_mod.
by rewrite ltn_divLR.
Qed.

(* two functions that multiply with the same matrix agree on all valid inputs *)
Lemma multiplies_unique k0 f g inS outS (M : nat -> nat -> R) :
  multiplies k0 f inS outS M -> multiplies k0 g inS outS M ->
  forall K X, (k0 <= K)%N -> valid_mat inS K X -> f X = g X.
Proof.
move=> hf hg K X hK hX.
have [Y [-> y2 y3]] := hf K X hK hX; have [Z [-> z2 z3]] := hg K X hK hX.
congr Ok; apply: tensor_list_ext; try by case: y2; case: z2.
  by case: y2 => -> _; case: z2 => ->.
apply: (@entry_ext K (total outS)); try exact: size_flat_valid.
by move=> i k hi hk; rewrite y3 // z3.
Qed.
