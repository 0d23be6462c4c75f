(* Model of EFLinearOperator (/repo/curvlinops/gradient_moments.py 114-175) and
   FisherMCLinearOperator (/repo/curvlinops/fisher.py 112-332). *)
From Coq Require Import Reals Lra FunctionalExtensionality Permutation.
From Coquelicot Require Import Coquelicot.
From mathcomp Require Import all_ssreflect all_algebra.
From Verif Require Import PyPrelude Tensor Spec TorchBase Submatrix RInst Calculus Curvature HessGGN Risk Losses.
Set Implicit Arguments.
Unset Strict Implicit.
Unset Printing Implicit Defensive.
Import GRing.Theory.
Local Open Scope ring_scope.

Local Notation tens := (tensor R).

(* isinstance(loss_func, ...) among the supported losses *)
Inductive loss_kind := LMSE | LCE | LBCE.
Definition is_ce (k : loss_kind) := if k is LCE then true else false.

(* gradient_moments.py 140-149, fisher.py 232-241 *)
Definition reduction_factor (k : loss_kind) (red : reduction) (rows C : nat) : res R :=
  match red with
  | RMean => Ok (if is_ce k then rows%:R else rows%:R * C%:R)
  | RSum => Ok 1
  | ROther => Err KeyError
  end.

(* k * sum_samples sum_rows (<o_row, g_row>)^2: the pseudo-losses of
   gradient_moments.py 155-162 and fisher.py 243-252 *)
Definition pseudo_loss (k : R) (samples rows C : nat) (g : nat -> nat -> R) (o : point) : R :=
  k * \sum_(m < samples) \sum_(r < rows)
    (\sum_(c < C) o (r * C + c)%N * g m (r * C + c)%N) * (\sum_(c < C) o (r * C + c)%N * g m (r * C + c)%N).

Section Rows.
Variables (X Y Y1 : Type) (T C : nat) (kind : loss_kind).
Variable net : X -> point -> seq R.
Hypothesis net_size : forall x th, size (net x th) = (T * C)%N.
Variable tgt : Y -> nat -> Y1.           (* target of the t-th loss term of a datum *)
Variable lossrow : seq R -> Y1 -> R.     (* loss of one prediction row, no reduction *)
Local Notation batch := (seq (X * Y)).

(* position of class/feature c of loss term t in a datum's output: the class axis
   comes first for cross-entropy ([batch, c, ...]) and last otherwise *)
Definition term_pos (t c : nat) : nat := if is_ce kind then (c * T + t)%N else (t * C + c)%N.

(* rearrange(output, "batch c ... -> (batch ...) c") resp. "batch ... c -> (batch ...) c":
   entry i of the 2d output is this entry of the raw output
   (gradient_moments.py 133-138, fisher.py 223-228) *)
Definition raw_idx (i : nat) : nat :=
  let c := (i %% C)%N in let r := (i %/ C)%N in
  ((r %/ T) * (T * C) + term_pos (r %% T) c)%N.
Definition out2d (b : batch) (z : point) : point := fun i => nth 0 (predict net b z) (raw_idx i).
(* rearrange(y, ...) *)
Definition ys2d (b : batch) : seq Y1 := flatten [seq mkseq (tgt d.2) T | d <- b].

(* loss_func on 2d predictions; contract of torch's losses: 'mean' divides by the
   number of rows (cross-entropy) or the number of entries (MSE, BCE) *)
Definition loss2d (red : reduction) (o : seq R) (ys : seq Y1) : R :=
  let s := \sum_(p <- zip (reshape (nseq (size ys) C) o) ys) lossrow p.1 p.2 in
  match red with
  | RMean => s / (if is_ce kind then (size ys)%:R else (size ys)%:R * C%:R)
  | _ => s
  end.

(* gradient_moments.py 114-175 *)
Definition ef_batch (red : reduction) (S : seq (seq nat)) (th : point) (b : batch) (M : seq tens) : res (seq tens) :=
  let rows := (size b * T)%N in
  let lossO o := loss2d red (mkseq o (rows * C)) (ys2d b) in
  let! rf := reduction_factor kind red rows C in
  let g i := pd i lossO (out2d b th) * rf in
  let! k := py_div (2%:R^-1) rf in
  column_loop (ggnvp (pseudo_loss k 1 rows C (fun _ => g)) (rows * C) (out2d b) (pack 0 S) th) M.

(* EFLinearOperator._matmat: _torch_base.py 526-547 with gradient_moments.py 114-175 *)
Definition ef_matmat (red : reduction) (num_data : option nat) (loader : seq batch) (S : seq (seq nat)) (th : point) :=
  base_matmat (@size _) red (infer_num_data (@size _) num_data loader) loader (ef_batch red S th).

(* fisher.py 202-265 for given would-be gradients g (sample, entry) *)
Definition mc_batch (red : reduction) (S : seq (seq nat)) (th : point) (samples : nat)
    (b : batch) (g : nat -> nat -> R) (M : seq tens) : res (seq tens) :=
  let rows := (size b * T)%N in
  let! rf := reduction_factor kind red rows C in
  let! k1 := py_div (2%:R^-1) rf in
  let! k := py_div k1 samples%:R in
  column_loop (ggnvp (pseudo_loss k samples rows C g) (rows * C) (out2d b) (pack 0 S) th) M.

Section Spec.
(* prediction row of loss term t of datum d as a function of the parameters *)
Definition term_row (d : X * Y) (t : nat) (z : point) : seq R :=
  mkseq (fun c => nth 0 (net d.1 z) (term_pos t c)) C.
(* gradient of that term's loss w.r.t. the parameters *)
Definition term_grad (d : X * Y) (t : nat) (th : point) (i : nat) : R :=
  pd i (fun z => lossrow (term_row d t z) (tgt d.2 t)) th.
(* c * sum_n sum_t g_nt g_nt^T *)
Definition ef_entry (c : R) (data : seq (X * Y)) (th : point) (i j : nat) : R :=
  c * \sum_(d <- data) \sum_(t < T) term_grad d t th i * term_grad d t th j.
(* 1 for 'sum'; 1/(number of loss terms) for cross-entropy, 1/(number of loss
   terms * C) otherwise, n data with T terms each *)
Definition term_weight (red : reduction) (n : nat) : R :=
  match red with RMean => ((if is_ce kind then n * T else n * T * C)%N)%:R^-1 | _ => 1 end.
(* J_t^T applied to a would-be gradient w of loss term t of datum d *)
Definition term_vjp (d : X * Y) (t : nat) (th : point) (w : nat -> R) (i : nat) : R :=
  \sum_(c < C) pd i (fun z => nth 0 (net d.1 z) (term_pos t c)) th * w c.
End Spec.

(* ---- facts ---- *)
Hypothesis T_gt0 : (0 < T)%N.
Hypothesis C_gt0 : (0 < C)%N.

Lemma size_ys2d b : size (ys2d b) = (size b * T)%N.
Proof.
rewrite /ys2d; elim: b => //= d b IH; rewrite size_cat size_mkseq IH mulSn //.
Qed.

Lemma nth_ys2d y0 d0 b r : (r < size b * T)%N ->
  nth y0 (ys2d b) r = tgt (nth d0 b (r %/ T)).2 (r %% T).
Proof.
move=> hr; rewrite /ys2d {1}(divn_eq r T) (@nth_flatten_uniform _ _ _ T) ?size_map ?ltn_divLR ?ltn_mod //.
  by rewrite (nth_map d0) ?ltn_divLR // nth_mkseq // ltn_mod.
by rewrite all_map; elim: b {hr} => //= d b ->; rewrite size_mkseq eqxx.
Qed.

Lemma term_pos_lt t c : (t < T)%N -> (c < C)%N -> (term_pos t c < T * C)%N.
Proof.
move=> ht hc; rewrite /term_pos; case: is_ce.
  by rewrite [(T * C)%N]mulnC; apply: (@leq_trans (c.+1 * T)%N); [rewrite mulSn addnC ltn_add2r | rewrite leq_mul2r hc orbT].
by apply: (@leq_trans (t.+1 * C)%N); [rewrite mulSn addnC ltn_add2r | rewrite leq_mul2r ht orbT].
Qed.

Lemma out2dE b z d0 r c : (r < size b * T)%N -> (c < C)%N ->
  out2d b z (r * C + c)%N = nth 0 (net (nth d0 b (r %/ T)).1 z) (term_pos (r %% T) c).
Proof.
move=> hr hc; rewrite /out2d /raw_idx modnMDl (modn_small hc) divnMDl // (divn_small hc) addn0.
rewrite (@row_of_predict _ _ (T * C)%N _ net_size b z d0) ?ltn_divLR //.
by apply: term_pos_lt => //; rewrite ltn_mod.
Qed.

Lemma loss2d_rows red b o y0 :
  loss2d red (mkseq o (size b * T * C)) (ys2d b) =
  (match red with RMean => (if is_ce kind then (size b * T)%:R else (size b * T)%:R * C%:R)^-1 | _ => 1 end) *
  \sum_(r < size b * T) lossrow (mkseq (row_pt C r o) C) (nth y0 (ys2d b) r).
Proof.
rewrite /loss2d size_ys2d reshape_mkseq.
have -> : \sum_(p <- zip (mkseq (fun m => mkseq (row_pt C m o) C) (size b * T)) (ys2d b)) lossrow p.1 p.2 =
   \sum_(r < size b * T) lossrow (mkseq (row_pt C r o) C) (nth y0 (ys2d b) r).
  rewrite (sum_nth (([::] : seq R), y0)) size_zip size_mkseq size_ys2d minnn.
  apply: eq_bigr => r _; rewrite nth_zip /=; last by rewrite size_mkseq size_ys2d.
  by rewrite nth_mkseq.
by case: red; rewrite ?mul1r // mulrC.
Qed.

(* Hessian of the pseudo-loss: block-diagonal with blocks 2k sum_m g_mr g_mr^T *)
Lemma lin_curve (w : nat -> R) x : curve_diff C (fun o => \sum_(c < C) o c * w c) x w.
Proof.
move=> u du t0 ux hu _.
apply: (@is_derive_sum_ord C (fun c t => u t c * w c) (fun c => w c * du c)) => c hc.
rewrite mulrC; apply: (derive_val (l := Rplus (Rmult (du c) (w c)) (Rmult (u t0 c) (IZR 0)))); first by toR; lra.
apply: (is_derive_mult _ _ _ _ _ (hu c hc) (is_derive_const (w c) t0)) => n m; exact: Rmult_comm.
Qed.

(* the pseudo-loss as a quadratic function of the output (gradient_moments.py
   155-162, fisher.py 243-252; used in proofs) *)
Definition quad (samples : nat) (k : R) (w : nat -> nat -> R) (o : point) : R :=
  k * \sum_(m < samples) (\sum_(c < C) o c * w m c) * (\sum_(c < C) o c * w m c).

Lemma quad_curve samples k w x : curve_diff C (quad samples k w) x
  (fun c => k * \sum_(m < samples) 2 * (\sum_(c < C) x c * w m c) * w m c).
Proof.
move=> u du t0 ux hu ho; rewrite /quad.
apply: (derive_val (l := k * \sum_(m < samples) 2 * (\sum_(c < C) x c * w m c) * (\sum_(c < C) w m c * du c))).
  under [in RHS]eq_bigr => c _ do rewrite -mulrA mulr_suml.
  rewrite -mulr_sumr; congr (_ * _); rewrite exchange_big /=; apply: eq_bigr => m _.
  by rewrite mulr_sumr; apply: eq_bigr => c _; rewrite mulrA.
apply: is_derive_scal.
apply: (@is_derive_sum_ord samples (fun m t => (\sum_(c < C) u t c * w m c) * (\sum_(c < C) u t c * w m c))
  (fun m => 2 * (\sum_(c < C) x c * w m c) * (\sum_(c < C) w m c * du c))) => m _.
have h := lin_curve (w m) ux hu ho.
apply: derive_val (is_derive_mult _ _ _ _ _ h h Rmult_comm).
by rewrite ux /plus /mult /=; toR; ring.
Qed.

Lemma quad_hessian samples k w x c c' : (c < C)%N -> (c' < C)%N ->
  pd c' (pd c (quad samples k w)) x = 2 * k * \sum_(m < samples) w m c * w m c'.
Proof.
move=> hc hc'.
rewrite (pd_ext _ _ (fun z => curve_pd (@quad_curve samples k w z) hc)).
rewrite (@pd_ext _ (fun z => \sum_(d < C) z d * (2 * k * \sum_(m < samples) w m d * w m c))); last first.
  move=> z; under [in RHS]eq_bigr => d _ do rewrite mulrA mulr_sumr.
  rewrite mulr_sumr exchange_big /=; apply: eq_bigr => m _.
  rewrite mulr_sumr mulr_suml mulr_sumr; apply: eq_bigr => d _.
  by toR; ring.
rewrite (curve_pd (@lin_curve (fun d => 2 * k * \sum_(m < samples) w m d * w m c) x) hc'); congr (_ * _); apply: eq_bigr => m _.
by rewrite mulrC.
Qed.

Lemma pseudo_lossE k samples rows g o : pseudo_loss k samples rows C g o =
  \sum_(r < rows) quad samples k (fun m c => g m (r * C + c)%N) (row_pt C r o).
Proof. by rewrite /pseudo_loss exchange_big mulr_sumr; apply: eq_bigr. Qed.

Lemma quad_local samples k w : local_fun C (quad samples k w).
Proof.
move=> x y h; congr (_ * _); apply: eq_bigr => m _.
by congr (_ * _); apply: eq_bigr => c _; rewrite h.
Qed.

(* the matrix of ggnvp with a pseudo-loss *)
Lemma pseudo_product (b : batch) (S : seq (seq nat)) th k samples g d0 : S <> [::] ->
  multiplies 0 (column_loop (ggnvp (pseudo_loss k samples (size b * T) C g) (size b * T * C) (out2d b) (pack 0 S) th)) S S
   (fun i j => 2 * k * \sum_(r < size b * T) \sum_(m < samples)
      term_vjp (nth d0 b (r %/ T)) (r %% T) th (fun c => g m (r * C + c)%N) i *
      term_vjp (nth d0 b (r %/ T)) (r %% T) th (fun c => g m (r * C + c)%N) j).
Proof.
move=> hS.
have h := (column_loop_multiplies hS
  (@ggnvp_product (pseudo_loss k samples (size b * T) C g) (size b * T * C) (out2d b) th S)).
apply: multiplies_ext h.
move=> i j _ _.
rewrite (@bilin_rows (size b * T) C
  (fun o o' => pd o' (pd o (pseudo_loss k samples (size b * T) C g)) (out2d b th))
  (fun r c c' => 2 * k * \sum_(m < samples) g m (r * C + c)%N * g m (r * C + c')%N)
  (fun o => pd i (fun z => out2d b z o) th) (fun o => pd j (fun z => out2d b z o) th)); last first.
  move=> n c n' c' hn hc hn' hc'.
  rewrite (@pd_ext _ (pd (n * C + c) (fun o => \sum_(r < size b * T)
     (fun r => quad samples k (fun m c => g m (r * C + c)%N)) r (row_pt C r o)))); last first.
    by move=> z; apply: pd_ext => z'; apply: pseudo_lossE.
  rewrite (@pd2_rows _ _ (fun r => quad samples k (fun m c => g m (r * C + c)%N))) //; last first.
    by move=> r; apply: quad_local.
  by case: eqP => // _; apply: quad_hessian.
rewrite mulr_sumr; apply: eq_bigr => r _.
rewrite /term_vjp.
transitivity (\sum_(c < C) \sum_(c' < C) \sum_(m < samples)
    2 * k * ((pd i (fun z => nth 0 (net (nth d0 b (r %/ T)).1 z) (term_pos (r %% T) c)) th * g m (r * C + c)%N) *
     (pd j (fun z => nth 0 (net (nth d0 b (r %/ T)).1 z) (term_pos (r %% T) c')) th * g m (r * C + c')%N))).
  apply: eq_bigr => c _; apply: eq_bigr => c' _.
  rewrite (@pd_ext _ (fun z => nth 0 (net (nth d0 b (r %/ T)).1 z) (term_pos (r %% T) c))); last first.
    by move=> z; apply: out2dE.
  rewrite (@pd_ext (fun z => out2d b z (r * C + c')%N) (fun z => nth 0 (net (nth d0 b (r %/ T)).1 z) (term_pos (r %% T) c'))); last first.
    by move=> z; apply: out2dE.
  rewrite mulr_sumr mulr_suml mulr_sumr; apply: eq_bigr => m _.
  by toR; ring.
under eq_bigr => c _ do rewrite exchange_big /=.
rewrite exchange_big /= mulr_sumr; apply: eq_bigr => m _.
rewrite mulr_suml mulr_sumr; apply: eq_bigr => c _.
by rewrite !mulr_sumr.
Qed.

(* what the losses must satisfy for the chain rule: the row loss is
   differentiable along curves at every prediction row that occurs, and the
   network outputs have partial derivatives *)
Definition ef_smooth (D : nat) (th : point) (d : X * Y) : Prop :=
  forall t, (t < T)%N ->
    (exists w, curve_diff C (fun o => lossrow (mkseq o C) (tgt d.2 t)) (nth 0 (term_row d t th)) w) /\
    (forall i c, (i < D)%N -> (c < C)%N -> ex_pd i (fun z => nth 0 (net d.1 z) (term_pos t c)) th).

Lemma term_chain D th d t i : ef_smooth D th d -> (t < T)%N -> (i < D)%N ->
  term_vjp d t th (fun c => pd c (fun o => lossrow (mkseq o C) (tgt d.2 t)) (nth 0 (term_row d t th))) i =
  term_grad d t th i.
Proof.
move=> hd ht hi; have [[w hw] hn] := hd t ht.
rewrite /term_grad [RHS]/pd; symmetry; apply: is_derive_unique.
apply: (derive_val (l := \sum_(c < C) w c * pd i (fun z => nth 0 (net d.1 z) (term_pos t c)) th)).
  by apply: eq_bigr => c _; rewrite mulrC; congr (_ * _); rewrite (curve_pd hw).
have := hw (fun s => nth 0 (term_row d t (upd th i s))) (fun c => pd i (fun z => nth 0 (net d.1 z) (term_pos t c)) th) (th i).
rewrite upd_id => /(_ erefl) h.
apply: (derive_ext _ (h _ _)).
- move=> s; congr lossrow; apply: (@eq_from_nth _ 0); first by rewrite !size_mkseq.
  by move=> c; rewrite size_mkseq => hc; rewrite nth_mkseq.
- move=> c hc; apply: derive_ext (Derive_correct _ _ (hn i c hi hc)) => s.
  by rewrite nth_mkseq.
by move=> s c hc; rewrite !nth_default // size_mkseq.
Qed.

(* the un-reduced gradients that ef_batch computes *)
Lemma ef_grad_output red b th d0 r c rf : red <> ROther -> (r < size b * T)%N -> (c < C)%N ->
  reduction_factor kind red (size b * T) C = Ok rf ->
  pd (r * C + c) (fun o => loss2d red (mkseq o (size b * T * C)) (ys2d b)) (out2d b th) * rf =
  pd c (fun o => lossrow (mkseq o C) (tgt (nth d0 b (r %/ T)).2 (r %% T))) (nth 0 (term_row (nth d0 b (r %/ T)) (r %% T) th)).
Proof.
move=> hr hrow hc hrf.
have y0 : Y1 := tgt d0.2 0.
set s : R := match red with RMean => (if is_ce kind then (size b * T)%:R else (size b * T)%:R * C%:R)^-1 | _ => 1 end.
rewrite (@pd_ext _ (fun o => s * \sum_(r < size b * T) (fun r o => lossrow (mkseq o C) (nth y0 (ys2d b) r)) r (row_pt C r o))); last first.
  by move=> o; rewrite (loss2d_rows _ _ _ y0).
rewrite pd_scal (@pd_rows _ _ (fun r o => lossrow (mkseq o C) (nth y0 (ys2d b) r))) //; last first.
  by move=> m; apply: (@mkseq_local C (fun s => lossrow s (nth y0 (ys2d b) m))).
have rows_gt0 : (0 < size b * T)%N by apply: leq_ltn_trans hrow.
have -> : s = rf^-1.
  rewrite /s; case: red hrf hr {s} => [[<-]|[<-]|//] _; last by rewrite invr1.
  by [].
have rf0 : rf != 0.
  case: red hrf hr {s} => [[<-]|[<-]|//] _; last exact: oner_neq0.
  by case: is_ce; rewrite ?mulf_neq0 // natr_neq0.
rewrite mulrAC mulVf // mul1r (nth_ys2d y0 d0) //.
apply: (@pd_local C) => //; first exact: (@mkseq_local C (fun s => lossrow s _)).
move=> c' hc'; rewrite /row_pt (out2dE _ d0) // /term_row nth_mkseq //.
Qed.

Lemma reduction_factor_weight red n rf : red <> ROther -> (0 < n)%N ->
  reduction_factor kind red (n * T) C = Ok rf ->
  [/\ rf != 0, py_div 2%:R^-1 rf = Ok (2%:R^-1 / rf) & 2 * (2%:R^-1 / rf) = term_weight red n].
Proof.
move=> hr hn hrf.
have nT : (0 < n * T)%N by rewrite muln_gt0 hn.
have rf0 : rf != 0.
  case: red hrf hr => [[<-]|[<-]|//] _; last exact: oner_neq0.
  by case: is_ce; rewrite ?mulf_neq0 // natr_neq0.
split=> //; first by rewrite /py_div (negbTE rf0).
rewrite mulrA (_ : 2 * 2%:R^-1 = 1 :> R) ?mul1r; last by rewrite divff // natr_neq0.
case: red hrf hr => [[<-]|[<-]|//] _; last by rewrite invr1.
by rewrite /term_weight; case: is_ce => //; rewrite -natrM.
Qed.

Lemma term_weight_nfac red n N : (0 < n)%N -> nfac red n N * term_weight red n = term_weight red N.
Proof.
move=> hn; case: red; rewrite /nfac /term_weight ?mulr1 //.
have n0 := natr_neq0 hn; have t0 := natr_neq0 T_gt0; have c0 := natr_neq0 C_gt0.
have e : forall k m : nat, (0 < k)%N -> (n%:R / m%:R) * ((n * k)%N%:R)^-1 = ((m * k)%N%:R)^-1 :> R.
  move=> k m hk; rewrite !natrM !invfM mulrACA divff //.
  by rewrite mul1r.
by case: is_ce; rewrite -?mulnA e // muln_gt0 T_gt0.
Qed.

Lemma loader_sum_terms red N (loader : seq batch) (f : X * Y -> R) : nonempty loader ->
  \sum_(b <- loader) nfac red (size b) N * (term_weight red (size b) * \sum_(d <- b) f d) =
  term_weight red N * \sum_(d <- flatten loader) f d.
Proof.
move=> hl; rewrite -sum_flatten mulr_sumr.
elim: loader hl => [|b l IH] /=; first by rewrite !big_nil.
by case/andP=> hb hl; rewrite !big_cons IH // mulrA term_weight_nfac.
Qed.

Lemma sum_terms (b : batch) d0 (f : X * Y -> nat -> R) :
  \sum_(r < size b * T) f (nth d0 b (r %/ T)) (r %% T)%N = \sum_(d <- b) \sum_(t < T) f d t.
Proof.
rewrite (sum_rows (size b) T (fun r => f (nth d0 b (r %/ T)) (r %% T)%N)) (sum_nth d0).
apply: eq_bigr => n _; apply: eq_bigr => t _.
by rewrite divnMDl // divn_small // addn0 modnMDl modn_small.
Qed.

Lemma ef_batch_multiplies red S th b d0 : S <> [::] -> red <> ROther -> (0 < size b)%N ->
  (forall n, (n < size b)%N -> ef_smooth (total S) th (nth d0 b n)) ->
  multiplies 0 (ef_batch red S th b) S S
    (fun i j => term_weight red (size b) * \sum_(d <- b) \sum_(t < T) term_grad d t th i * term_grad d t th j).
Proof.
move=> hS hr hb hd; rewrite /ef_batch.
have [rf hrf] : exists rf, reduction_factor kind red (size b * T) C = Ok rf.
  by case: red hr => // _; eexists.
have [rf0 hk hw] := reduction_factor_weight hr hb hrf.
move=> K M hK hM; rewrite hrf /= hk /=.
apply: multiplies_ext (pseudo_product b th (2%:R^-1 / rf) 1 _ d0 hS) K M hK hM => i j hi hj.
rewrite hw; congr (_ * _).
rewrite -(sum_terms b d0 (fun d t => term_grad d t th i * term_grad d t th j)).
apply: eq_bigr => r _; rewrite big_ord_recl big_ord0 addr0.
have rn : (r %/ T < size b)%N by rewrite ltn_divLR.
have rt : (r %% T < T)%N by rewrite ltn_mod.
have e : forall i, (i < total S)%N -> term_vjp (nth d0 b (r %/ T)) (r %% T) th
    (fun c => pd (r * C + c) (fun o => loss2d red (mkseq o (size b * T * C)) (ys2d b)) (out2d b th) * rf) i =
    term_grad (nth d0 b (r %/ T)) (r %% T) th i.
  move=> i' hi'; rewrite -(term_chain (hd _ rn) rt hi'); apply: eq_bigr => c _; congr (_ * _).
  exact: ef_grad_output.
by rewrite !e.
Qed.

Lemma Forall_in_nth (P : X * Y -> Prop) d0 b : Forall_in P b -> forall n, (n < size b)%N -> P (nth d0 b n).
Proof. by elim: b => //= d b IH [hd hb] [|n] //=; apply: IH. Qed.

Lemma ef_multiplies red num_data loader S th :
  let N := infer_num_data (@size _) num_data loader in
  S <> [::] -> red <> ROther -> (0 < N)%N -> nonempty loader ->
  Forall_in (ef_smooth (total S) th) (flatten loader) ->
  multiplies 0 (ef_matmat red num_data loader S th) S S
    (ef_entry (term_weight red N) (flatten loader) th).
Proof.
move=> N hS hr hN hl hd.
apply: multiplies_ext (base_matmat_multiplies (@size _) hr hN (A := fun b i j =>
   term_weight red (size b) * \sum_(d <- b) \sum_(t < T) term_grad d t th i * term_grad d t th j) _).
  by move=> i j _ _; rewrite /ef_entry -(loader_sum_terms _ _ _ hl).
clearbody N; move: (Forall_in_flatten hd) => {hd}; elim: loader hl => //= b l IH /andP[hb hl] [hdb hdl].
split; last exact: IH.
case: b hb hdb => // d0 b _ hdb.
apply: (ef_batch_multiplies (d0 := d0)) => // n hn.
exact: (Forall_in_nth d0 hdb hn).
Qed.

Lemma mc_batch_multiplies red S th samples b g d0 : S <> [::] -> red <> ROther -> (0 < size b)%N -> (0 < samples)%N ->
  multiplies 0 (mc_batch red S th samples b g) S S
    (fun i j => term_weight red (size b) * \sum_(r < size b * T) samples%:R^-1 * \sum_(m < samples)
      term_vjp (nth d0 b (r %/ T)) (r %% T) th (fun c => g m (r * C + c)%N) i *
      term_vjp (nth d0 b (r %/ T)) (r %% T) th (fun c => g m (r * C + c)%N) j).
Proof.
move=> hS hr hb hs; rewrite /mc_batch.
have [rf hrf] : exists rf, reduction_factor kind red (size b * T) C = Ok rf.
  by case: red hr => // _; eexists.
have [rf0 hk hw] := reduction_factor_weight hr hb hrf.
move=> K M hK hM; rewrite hrf /= hk /= {1}/py_div (negbTE (natr_neq0 hs)) /=.
apply: multiplies_ext (pseudo_product b th (2%:R^-1 / rf / samples%:R) samples g d0 hS) K M hK hM => i j hi hj.
by rewrite mulrA hw -mulr_sumr mulrA.
Qed.

Lemma ef_permutation c s t : Permutation s t -> ef_entry c s = ef_entry c t.
Proof.
move=> h; apply: functional_extensionality => z; apply: functional_extensionality => i.
by apply: functional_extensionality => j; rewrite /ef_entry (sum_permutation _ h).
Qed.

End Rows.
