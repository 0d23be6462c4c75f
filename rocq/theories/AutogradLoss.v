(* torch.autograd.grad on a tape, the gradient and loss computed with it, and the
   backward functions of some layers and losses. *)
From Coq Require Import Reals FunctionalExtensionality.
From Coquelicot Require Import Coquelicot.
From mathcomp Require Import all_ssreflect all_algebra.
From Verif Require Import PyPrelude Tensor RInst Calculus Losses Curvature ActHess Autograd AutogradProof.
Set Implicit Arguments.
Unset Strict Implicit.
Unset Printing Implicit Defensive.
Import GRing.Theory.
Local Open Scope ring_scope.

Local Notation vec := (seq R).

(* ---- requires_grad ---- *)
Lemma nth_tape_rg rq t j n : (j < size t)%N -> nth (Data [::]) t j = Call n ->
  all (fun a => a < size rq + j)%N (nd_args n) ->
  nth false (tape_rg rq t) (size rq + j) = has (nth false (tape_rg rq t)) (nd_args n).
Proof.
move=> hj e ha; rewrite /tape_rg -(cat_take_drop j t) scan_cat (drop_nth (Data [::]) hj) e /=.
set r := scan item_rg rq (take j t); have sr : size r = (size rq + j)%N by rewrite size_scan size_takel // ltnW.
rewrite nth_scan ?size_rcons ?sr ?ltnS // nth_rcons sr ltnn eqxx.
apply: eq_in_has => a /(allP ha) h.
by rewrite nth_scan ?size_rcons ?sr ?ltnS ?(ltnW h) // nth_rcons sr h.
Qed.
Lemma nth_rg_leaf rq t p : (p < size rq)%N -> nth false (tape_rg rq t) p = nth false rq p.
Proof. exact: nth_scan. Qed.

Lemma uses_rg L rq t out j : tape_ok L t -> size rq = size L -> uses (size L) t (tape_rg rq t) out j ->
  nth false (tape_rg rq t) j -> nth false (tape_rg rq t) out.
Proof.
move=> ok hq; elim=> [//|k n a _ IH hk e hin hr _]; apply: IH.
have hj : (k - size L < size t)%N.
  by case: (ltnP (k - size L) (size t)) => // h; move: e; rewrite nth_default.
have [ha _ _] := tape_call ok hj e; have := nth_tape_rg (rq := rq) hj e; rewrite hq subnKC // => -> //.
  by apply/hasP; exists a.
by rewrite subnKC in ha.
Qed.

(* ---- grad ---- *)
Lemma mapM_some (cot : seq (option vec)) G ps : (forall p, p \in ps -> nth None cot p = Some (G p)) ->
  mapM (fun p => match nth None cot p with Some g => Ok g | None => Err RuntimeError end) ps = Ok [seq G p | p <- ps].
Proof.
elim: ps => [//|p ps IH] h /=.
rewrite h ?inE ?eqxx //= IH // => q hq; apply: h; by rewrite inE hq orbT.
Qed.
Lemma mapM_none (cot : seq (option vec)) p ps : p \in ps -> nth None cot p = None ->
  mapM (fun p => match nth None cot p with Some g => Ok g | None => Err RuntimeError end) ps = Err RuntimeError.
Proof.
move=> + e; elim: ps => [//|q ps IH] /=; rewrite inE => /orP[/eqP <-|/IH h]; first by rewrite e.
by case: (nth None _ q) => //= g; rewrite h.
Qed.

Section Grad.
Variables (Sz : seq nat) (th : point) (rq : seq bool) (t : seq item) (out : nat) (inputs : seq nat).
Let L := leaves Sz th.
Hypothesis ok : tape_ok L t.
Hypothesis srq : size rq = size Sz.
Hypothesis hout : (out < size Sz + size t)%N.
Hypothesis sout : size (nth [::] (tape_vals L t) out) = 1%N.
Let F z := en (tape_vals (leaves Sz z) t) out 0.
Let used p := uses (size Sz) t (tape_rg rq t) out p.
Hypothesis hin : all (fun p => p < size Sz)%N inputs.

Lemma backward_used p : nth None (backward L t (tape_rg rq t) out) p <> None <-> used p.
Proof. by rewrite backward_uses // size_leaves. Qed.
Lemma backward_size p g : (p < size Sz)%N -> nth None (backward L t (tape_rg rq t) out) p = Some g -> size g = nth 0%N Sz p.
Proof.
move=> hp; have [h _ _] := run_facts (tape_rg rq t) ok (leqnn (size L)) (leqnn (size L + size t)) (init_sized sout).
by move=> /h ->; rewrite /tape_vals nth_scan ?size_leaf // size_leaves.
Qed.

Lemma grad_ok : inputs <> [::] -> (forall p, p \in inputs -> nth false rq p /\ used p) ->
  exists gs, [/\ grad L rq t out inputs = Ok gs, [seq size g | g <- gs] = [seq nth 0%N Sz p | p <- inputs] &
    forall k c, (k < size inputs)%N -> (c < nth 0 Sz (nth 0 inputs k))%N ->
      is_derive (fun s => F (upd th (offset Sz (nth 0%N inputs k) + c) s)) (th (offset Sz (nth 0%N inputs k) + c)%N)
        (en gs k c)].
Proof.
move=> hne hu; pose cot := backward L t (tape_rg rq t) out.
pose G p := odflt [::] (nth None cot p).
have hsome p : p \in inputs -> nth None cot p = Some (G p).
  by move=> /hu [_ /backward_used]; rewrite /G -/cot; case: (nth None cot p).
have hG := mapM_some hsome.
exists [seq G p | p <- inputs]; split.
- rewrite /grad -/cot hG.
  have [p hp] : exists p, p \in inputs by case: inputs hne => // p ps _; exists p; rewrite inE eqxx.
  have [hq hup] := hu _ hp; have hps := allP hin _ hp.
  have -> : nth false (tape_rg rq t) out.
    have sL : size L = size Sz by exact: size_leaves.
    by apply: (uses_rg (L := L) (j := p)) => //; rewrite ?sL // nth_rg_leaf // srq.
  by rewrite (_ : has _ _ = false) //; apply/hasPn => q /hu [-> _].
- rewrite -map_comp; apply/eq_in_map => p hp /=; apply: (@backward_size p); last exact: hsome.
  exact: allP hin _ hp.
- move=> k c hk hc; rewrite /en (nth_map 0%N) //.
  have hp := mem_nth 0%N hk; have [hq _] := hu _ hp.
  have := backward_pd ok srq hout sout hq hc; rewrite -/L -/cot hsome //.
Qed.

Lemma grad_raises : (exists2 p, p \in inputs & ~ (nth false rq p /\ used p)) -> grad L rq t out inputs = Err RuntimeError.
Proof.
case=> p hp hn; rewrite /grad; case: ifP => // _; case: ifP => // /negbT /hasPn hq.
have e : nth None (backward L t (tape_rg rq t) out) p = None.
  case ew: (nth None _ p) => [w|//]; case: hn; split; first by have := hq _ hp; rewrite negbK.
  by apply/backward_used; rewrite ew.
exact: mapM_none hp e.
Qed.
End Grad.

(* ---- the normalised loss ---- *)
Lemma scale_ok k a xs : size xs = 1%N -> size (nth [::] xs 0) = 1%N -> vjp_ok (scale_node k a) xs.
Proof.
case: xs => [//|x [|//]] _ /= sx; split=> [//|w _ /=|us du t0 [e hs hd h]]; first by rewrite sx.
exists [:: en du 0 0 * k]; split=> // [c|w hw] /=.
  rewrite ltnS leqn0 => /eqP -> /=.
  have := is_derive_scal _ _ k _ (h 0%N 0%N (ltac:(by rewrite /= sx))).
  rewrite RmultE => hh; apply: (derive_val (l := k * en du 0 0)); first by rewrite mulrC.
  by apply: derive_ext hh => s; rewrite RmultE mulrC.
rewrite /ip /= !big_ord1 /=; have -> : size (nth [::] du 0) = 1%N by rewrite (nth_map_size 0 hd) /= sx.
by rewrite big_ord1 /= mulrAC mulrA.
Qed.

Lemma uses_rcons P t rs b out j n : nd_args n = [:: out] -> nth false rs out -> nth false (rcons rs b) out ->
  size rs = (P + size t)%N -> (out < P + size t)%N ->
  uses P t rs out j -> uses P (rcons t (Call n)) (rcons rs b) (P + size t) j.
Proof.
move=> ha hr hr' srs ho; elim=> [|k m a _ IH hk e hin hra].
  apply: (uses_arg (n := n) (uses_out _ _ _ _) (leq_addr _ _)); rewrite ?ha ?inE ?eqxx //.
  by rewrite addKn nth_rcons ltnn eqxx.
have hj : (k - P < size t)%N.
  by case: (ltnP (k - P) (size t)) => // h; move: e; rewrite nth_default.
apply: (uses_arg IH hk _ hin); first by rewrite nth_rcons hj e.
rewrite nth_rcons; case: ltnP hra => // h; by rewrite nth_default.
Qed.
Lemma uses_rcons_inv P t rs b out j n : nd_args n = [:: out] -> size rs = (P + size t)%N -> (out < P + size t)%N ->
  (forall k m, (P <= k)%N -> nth (Data [::]) t (k - P) = Call m -> all (fun a => a < k)%N (nd_args m)) ->
  uses P (rcons t (Call n)) (rcons rs b) (P + size t) j -> j = (P + size t)%N \/ uses P t rs out j.
Proof.
move=> ha srs ho hlt; elim=> [|k m a _ IH hk e hin hra]; first by left.
have ra : (a < P + size t)%N -> nth false rs a by move: hra; rewrite nth_rcons srs => + h; rewrite h.
move: e; rewrite nth_rcons; case: ltnP => hj.
  case: IH => [ek|IH] e; first by move: hj; rewrite ek addKn ltnn.
  right; apply: (uses_arg IH hk e hin); apply: ra.
  apply: leq_ltn_trans (ltnW (allP (hlt _ _ hk e) _ hin)) _; by rewrite -ltn_subLR.
by case: eqP => // _ [em]; move: hin; rewrite -em ha inE => /eqP ->; right; apply: uses_out.
Qed.

Lemma tape_args_lt L t k m : tape_ok L t -> (size L <= k)%N -> nth (Data [::]) t (k - size L) = Call m ->
  all (fun a => a < k)%N (nd_args m).
Proof.
move=> ok hk e; have hj : (k - size L < size t)%N.
  by case: (ltnP (k - size L) (size t)) => // h; move: e; rewrite nth_default.
by have [ha _ _] := tape_call ok hj e; rewrite subnKC in ha.
Qed.

Section GradLossProof.
Variables (B : Type) (bsize : B -> nat) (record : B -> seq item * nat).
Variables (Sz : seq nat) (rq : seq bool) (params : seq nat) (th : point).
Hypothesis srq : size rq = size Sz.
Hypothesis hparams : all (fun p => p < size Sz)%N params.

(* the loss of a batch as a function of the parameters (specification) *)
Definition loss_of (b : B) (z : point) : R := en (tape_vals (leaves Sz z) (record b).1) (record b).2 0.
(* a forward pass and loss made of differentiable calls that ends in a scalar *)
Definition batch_ok (b : B) : Prop :=
  [/\ tape_ok (leaves Sz th) (record b).1, ((record b).2 < size Sz + size (record b).1)%N &
      size (nth [::] (tape_vals (leaves Sz th) (record b).1) (record b).2) = 1%N].
(* the loss of the batch is computed from parameter p, which is not frozen *)
Definition takes_part (b : B) (p : nat) : Prop :=
  nth false rq p /\ uses (size Sz) (record b).1 (tape_rg rq (record b).1) (record b).2 p.

Section OneBatch.
Variable b : B.
Hypothesis hb : batch_ok b.
Variable nf : R.
Let t := rcons (record b).1 (Call (scale_node nf (record b).2)).
Let out := (size Sz + size (record b).1)%N.

Lemma scaled_ok : tape_ok (leaves Sz th) t.
Proof.
have [h1 h2 h3] := hb; apply/tape_ok_rcons; split=> //=.
rewrite size_tape_vals size_leaves h2; split=> //.
exact: scale_ok.
Qed.
Lemma scaled_val z : nth [::] (tape_vals (leaves Sz z) t) out = [:: loss_of b z * nf].
Proof. by rewrite tape_valsS nth_rcons size_tape_vals size_leaves ltnn eqxx. Qed.
Lemma scaled_uses p : (p < size Sz)%N ->
  nth false rq p /\ uses (size Sz) t (tape_rg rq t) out p <-> takes_part b p.
Proof.
move=> hp; have [h1 h2 h3] := hb; rewrite /t tape_rgS; split=> -[hq hu]; split=> //.
  have srs : size (tape_rg rq (record b).1) = (size Sz + size (record b).1)%N by rewrite size_tape_rg srq.
  have hlt k m : (size Sz <= k)%N -> nth (Data [::]) (record b).1 (k - size Sz) = Call m -> all (fun a => a < k)%N (nd_args m).
    by rewrite -(size_leaves Sz th); apply: tape_args_lt.
  have [e|//] := uses_rcons_inv (erefl : nd_args (scale_node nf (record b).2) = [:: (record b).2]) srs h2 hlt hu.
  by move: hp; rewrite e -ltn_subRL subnn.
have hr : nth false (tape_rg rq (record b).1) (record b).2.
  apply: (uses_rg (L := leaves Sz th) (j := p)) => //; rewrite ?size_leaves //.
  by rewrite nth_rg_leaf // srq.
apply: uses_rcons hu; rewrite ?size_tape_rg ?srq //.
by rewrite nth_rcons size_tape_rg srq h2.
Qed.
End OneBatch.

Lemma loss_gradient_ok b red N : batch_ok b -> red <> ROther -> (0 < N)%N -> params <> [::] ->
  (forall p, p \in params -> takes_part b p) ->
  exists gs, [/\ loss_gradient bsize record red N Sz rq params th b = Ok (gs, nfac red (bsize b) N * loss_of b th),
    [seq size g | g <- gs] = [seq nth 0%N Sz p | p <- params] &
    forall k c, (k < size params)%N -> (c < nth 0 Sz (nth 0 params k))%N ->
      is_derive (fun s => nfac red (bsize b) N * loss_of b (upd th (offset Sz (nth 0%N params k) + c) s))
        (th (offset Sz (nth 0%N params k) + c)%N) (en gs k c)].
Proof.
move=> hb hr hN hne hu; rewrite /loss_gradient normalization_ok //=; set nf := nfac _ _ _.
set t := rcons _ _; set out := (size Sz + _)%N.
have ho : (out < size Sz + size t)%N by rewrite size_rcons addnS.
have so : size (nth [::] (tape_vals (leaves Sz th) t) out) = 1%N by rewrite scaled_val.
have hu' p : p \in params -> nth false rq p /\ uses (size Sz) t (tape_rg rq t) out p.
  by move=> hp; apply/(scaled_uses hb nf (allP hparams _ hp)); apply: hu.
have [gs [e1 e2 e3]] := grad_ok (scaled_ok hb nf) srq ho so hparams hne hu'.
exists gs; rewrite e1 /= scaled_val /=; split=> //; first by rewrite mulrC.
move=> k c hk hc; apply: derive_ext (e3 k c hk hc) => s.
by rewrite /en scaled_val mulrC.
Qed.
Lemma loss_gradient_raises b red N : batch_ok b -> red <> ROther -> (0 < N)%N ->
  (exists2 p, p \in params & ~ takes_part b p) ->
  loss_gradient bsize record red N Sz rq params th b = Err RuntimeError.
Proof.
move=> hb hr hN [p hp hn]; rewrite /loss_gradient normalization_ok //=; set nf := nfac _ _ _.
set t := rcons _ _; set out := (size Sz + _)%N.
have ho : (out < size Sz + size t)%N by rewrite size_rcons addnS.
have so : size (nth [::] (tape_vals (leaves Sz th) t) out) = 1%N by rewrite scaled_val.
rewrite (grad_raises (scaled_ok hb nf) so) //; exists p => // /(scaled_uses hb nf (allP hparams _ hp)).
exact: hn.
Qed.

(* ---- all batches ---- *)
Definition tape_risk (red : reduction) (N : nat) (loader : seq B) (z : point) : R :=
  \sum_(b <- loader) nfac red (bsize b) N * loss_of b z.

Lemma tape_total_ok red num_data loader : red <> ROther ->
  (0 < infer_num_data bsize num_data loader)%N -> params <> [::] ->
  Forall_in batch_ok loader -> Forall_in (fun b => forall p, p \in params -> takes_part b p) loader ->
  let risk := tape_risk red (infer_num_data bsize num_data loader) loader in
  exists gs, [/\ tape_gradient_and_loss bsize record true red num_data loader Sz rq params th = Ok (gs, risk th),
    [seq size g | g <- gs] = [seq nth 0%N Sz p | p <- params] &
    forall k c, (k < size params)%N -> (c < nth 0 Sz (nth 0 params k))%N ->
      is_derive (fun s => risk (upd th (offset Sz (nth 0%N params k) + c) s))
        (th (offset Sz (nth 0%N params k) + c)%N) (en gs k c)].
Proof.
move=> hr hN hne hb hu risk; rewrite /tape_gradient_and_loss /=.
set N := infer_num_data _ _ _ in hN risk *.
suff gen : forall ld tg l0, Forall_in batch_ok ld -> Forall_in (fun b => forall p, p \in params -> takes_part b p) ld ->
    [seq size g | g <- tg] = [seq nth 0%N Sz p | p <- params] ->
    exists gs, [/\ foldM (fun (tgl : seq vec * R) b => let '(total_grad, total_loss) := tgl in
      let! gl := loss_gradient bsize record red N Sz rq params th b in
      Ok ([seq vadd xg.1 xg.2 | xg <- zip total_grad gl.1], total_loss + gl.2)) (tg, l0) ld = Ok (gs, l0 + tape_risk red N ld th),
      [seq size g | g <- gs] = [seq nth 0%N Sz p | p <- params] &
      forall k c, (k < size params)%N -> (c < nth 0 Sz (nth 0 params k))%N ->
        is_derive (fun s => tape_risk red N ld (upd th (offset Sz (nth 0%N params k) + c) s))
          (th (offset Sz (nth 0%N params k) + c)%N) (en gs k c - en tg k c)].
  have [|gs [e1 e2 e3]] := gen loader [seq nseq (nth 0%N Sz p) 0 | p <- params] 0 hb hu.
    by rewrite -map_comp; apply: eq_map => p /=; rewrite size_nseq.
  exists gs; rewrite e1 add0r; split=> // k c hk hc.
  have z0 : en [seq nseq (nth 0%N Sz p) 0 | p <- params] k c = 0 by rewrite /en (nth_map 0%N) // nth_nseq if_same.
  by have := e3 k c hk hc; rewrite z0 subr0.
elim=> [|b ld IH] tg l0 hb' hu' htg.
  exists tg; rewrite /tape_risk big_nil addr0; split=> // k c hk hc; rewrite subrr.
  by apply: (@derive_ext (fun=> 0)) => [s|]; [rewrite big_nil | exact: is_derive_const].
have [hb1 hb2] := hb'; have [hu1 hu2] := hu'.
have [g1 [f1 f2 f3]] := loss_gradient_ok hb1 hr hN hne hu1.
rewrite /= f1 /=; set tg' := map _ _.
have sg : size tg = size g1 by have := congr1 size (etrans htg (esym f2)); rewrite !size_map.
have htg' : [seq size g | g <- tg'] = [seq nth 0%N Sz p | p <- params].
  rewrite -htg; apply: (@eq_from_nth _ 0%N); rewrite !size_map size_zip sg minnn // => k hk.
  rewrite (nth_map [::]) ?size_map ?size_zip ?sg ?minnn // (nth_map ([::], [::])) ?size_zip ?sg ?minnn //.
  by rewrite nth_zip //= size_mkseq (nth_map [::]) // sg.
have [gs [e1 e2 e3]] := IH tg' (l0 + nfac red (bsize b) N * loss_of b th) hb2 hu2 htg'.
exists gs; rewrite e1 /tape_risk big_cons addrA; split=> // k c hk hc.
have ks : (k < size tg)%N by have := congr1 size htg; rewrite !size_map => ->.
have kc : (c < size (nth [::] tg k))%N.
  by have := congr1 (fun s => nth 0%N s k) htg; rewrite (nth_map [::]) // (nth_map 0%N) // => ->.
have etg : en tg' k c = en tg k c + en g1 k c.
  by rewrite /en (nth_map ([::], [::])) ?size_zip ?sg ?minnn // -?sg // nth_zip //= nth_mkseq.
have d1 := f3 k c hk hc; have d2 := e3 k c hk hc.
have := is_derive_plus _ _ _ _ _ d1 d2; rewrite etg => dd.
apply: (derive_val (l := en g1 k c + (en gs k c - (en tg k c + en g1 k c)))).
  by move: (en g1 k c) (en gs k c) (en tg k c) => x y z; rewrite opprD [- z - x]addrC (addrA y) (addrA x) [x + (y - x)]addrC subrK.
by apply: derive_ext dd => s; rewrite big_cons.
Qed.

Lemma takes_part_dec b : batch_ok b ->
  (forall p, p \in params -> takes_part b p) \/ (exists2 p, p \in params & ~ takes_part b p).
Proof.
move=> [h1 h2 h3].
pose used p := isSome (nth None (backward (leaves Sz th) (record b).1 (tape_rg rq (record b).1) (record b).2) p).
have hu p : used p <-> uses (size Sz) (record b).1 (tape_rg rq (record b).1) (record b).2 p.
  by rewrite -(backward_used rq h1 h3) /used; case: (nth None _ p).
case e: (all (fun p => nth false rq p && used p) params); [left => p hp | right].
  by move/allP: e => /(_ _ hp) /andP[hq /hu]; split.
move/negbT: e; rewrite -has_predC => /hasP[p hp /= hn]; exists p => //.
by case=> hq /hu hup; rewrite hq hup in hn.
Qed.

Lemma tape_total_raises red num_data l1 b l2 : red <> ROther ->
  (0 < infer_num_data bsize num_data (l1 ++ b :: l2))%N -> params <> [::] ->
  Forall_in batch_ok (l1 ++ b :: l2) -> (exists2 p, p \in params & ~ takes_part b p) ->
  tape_gradient_and_loss bsize record true red num_data (l1 ++ b :: l2) Sz rq params th = Err RuntimeError.
Proof.
move=> hr hN hne hb hn; rewrite /tape_gradient_and_loss /=; move: (infer_num_data _ _ _) hN => N hN.
move: (_, 0) => s0; elim: l1 s0 hb => [|b1 l1 IH] [tg l0] [hb1 hb2] /=; first by rewrite loss_gradient_raises.
have [hu|hu] := takes_part_dec hb1; last by rewrite loss_gradient_raises.
by have [gs [-> _ _]] := loss_gradient_ok hb1 hr hN hne hu; apply: IH.
Qed.
End GradLossProof.

(* ---- backward functions of layers and losses ---- *)

(* a call whose results have the gradients dG: the backward function pairs them with
   the cotangent *)
Lemma vjp_ok_of n xs (G : nat -> seq vec -> R) (dG : nat -> nat -> nat -> R) :
  (forall ys, nd_fun n ys = mkseq (fun o => G o ys) (nd_size n)) ->
  (forall w, nd_vjp n xs w = mkseq (fun k => mkseq (fun c => \sum_(o < nd_size n) nth 0 w o * dG o k c) (size (nth [::] xs k))) (size xs)) ->
  (forall us du t0 o, moves us xs du t0 -> (o < nd_size n)%N ->
     is_derive (fun s => G o (us s)) t0 (\sum_(k < size xs) \sum_(c < size (nth [::] xs k)) dG o k c * en du k c)) ->
  vjp_ok n xs.
Proof.
move=> hf hv hd; split=> [ys _|w _|us du t0 mv].
- by rewrite hf size_mkseq.
- rewrite hv; apply: map_size_eq; rewrite ?size_mkseq // => k.
  case: (ltnP k (size xs)) => hk; first by rewrite nth_mkseq // size_mkseq.
  by rewrite !nth_default ?size_mkseq.
exists (mkseq (fun o => \sum_(k < size xs) \sum_(c < size (nth [::] xs k)) dG o k c * en du k c) (nd_size n)).
split=> [|o ho|w hw]; first by rewrite size_mkseq.
  rewrite nth_mkseq //; apply: derive_ext (hd _ _ _ _ mv ho) => s; by rewrite hf nth_mkseq.
rewrite /ip size_mkseq.
transitivity (\sum_(o < nd_size n) \sum_(k < size xs) \sum_(c < size (nth [::] xs k)) nth 0 w o * (dG o k c * en du k c)).
  by apply: eq_bigr => o _; rewrite nth_mkseq // mulr_sumr; apply: eq_bigr => k _; rewrite mulr_sumr.
rewrite exchange_big; apply: eq_bigr => k _; rewrite exchange_big hv nth_mkseq //=.
have -> : size (nth [::] du k) = size (nth [::] xs k) by case: mv => _ _ /nth_map_size ->.
apply: eq_bigr => c _; rewrite nth_mkseq // mulr_suml; apply: eq_bigr => o _; by rewrite mulrA.
Qed.

Lemma sum_over1 (f : nat -> nat -> R) (x : vec) :
  \sum_(k < size [:: x]) \sum_(c < size (nth [::] [:: x] k)) f k c = \sum_(c < size x) f 0%N c.
Proof. by rewrite big_ord1. Qed.
Lemma sum_over2 (f : nat -> nat -> R) (x y : vec) :
  \sum_(k < size [:: x; y]) \sum_(c < size (nth [::] [:: x; y] k)) f k c =
  \sum_(c < size x) f 0%N c + \sum_(c < size y) f 1%N c.
Proof. by rewrite big_ord_recl big_ord1. Qed.

(* torch.nn.functional.linear(x, W) for one input x of size I: W has O * I entries *)
Definition linear_node (w x O I : nat) : node :=
  Node [:: w; x] O
    (fun vs => mkseq (fun o => \sum_(i < I) en vs 0 (o * I + i) * en vs 1 i) O)
    (fun vs g => [:: mkseq (fun e => nth 0 g (e %/ I) * en vs 1 (e %% I)) (O * I);
                     mkseq (fun i => \sum_(o < O) nth 0 g o * en vs 0 (o * I + i)) I]).
Lemma linear_ok w x O I (W X : vec) : (0 < I)%N -> size W = (O * I)%N -> size X = I -> vjp_ok (linear_node w x O I) [:: W; X].
Proof.
move=> hI sW sX.
apply: (@vjp_ok_of _ _ (fun o vs => \sum_(i < I) en vs 0 (o * I + i) * en vs 1 i)
  (fun o k c => if k == 0%N then (c %/ I == o)%N%:R * nth 0 X (c %% I) else nth 0 W (o * I + c))) => [//|g|us du t0 o mv ho].
  rewrite /mkseq /= sW sX; congr [:: _; _]; apply/eq_in_map => e; rewrite mem_iota /= => he.
  have hd : (e %/ I < O)%N by rewrite ltn_divLR.
  rewrite (bigD1 (Ordinal hd)) //= eqxx mul1r big1 ?addr0 // => o.
  by rewrite eq_sym -(inj_eq val_inj) /= => /negbTE ->; rewrite mul0r mulr0.
rewrite (@sum_over2 (fun k c => (if k == 0%N then (c %/ I == o)%N%:R * nth 0 X (c %% I) else nth 0 W (o * I + c)) * en du k c)) /= sW sX.
case: mv => e hs _ hd.
have hidx (i : 'I_I) : (o * I + i < O * I)%N by apply: leq_trans (leq_mul ho (leqnn I)); rewrite mulSn addnC ltn_add2r.
apply: (derive_val (l := \sum_(i < I) (en du 0 (o * I + i) * nth 0 X i + nth 0 W (o * I + i) * en du 1 i))).
  rewrite big_split /=; congr (_ + _).
  rewrite -(big_mkord xpredT (fun c => (c %/ I == o)%N%:R * nth 0 X (c %% I) * en du 0 c)).
  have h0 : (0 <= o * I)%N by []. have h1 : (o * I <= o.+1 * I)%N by rewrite leq_pmul2r.
  have h2 : (o.+1 * I <= O * I)%N by rewrite leq_pmul2r.
  rewrite (big_cat_nat _ _ _ h0 (leq_trans h1 h2)) /= (big_cat_nat _ _ _ h1 h2) /=.
  have z1 : \sum_(0 <= c < o * I) (c %/ I == o)%N%:R * nth 0 X (c %% I) * en du 0 c = 0.
    rewrite big_nat_cond big1 // => c /andP[/andP[_ hc] _].
    by rewrite (_ : (c %/ I == o)%N = false) ?mul0r //; apply/negbTE; rewrite neq_ltn ltn_divLR // hc.
  have z2 : \sum_(o.+1 * I <= c < O * I) (c %/ I == o)%N%:R * nth 0 X (c %% I) * en du 0 c = 0.
    rewrite big_nat_cond big1 // => c /andP[/andP[hc _] _].
    by rewrite (_ : (c %/ I == o)%N = false) ?mul0r //; apply/negbTE; rewrite neq_ltn leq_divRL // hc orbT.
  rewrite z1 z2 add0r addr0.
  have sh (G : nat -> R) : \sum_(o * I <= c < o.+1 * I) G c = \sum_(i < I) G (i + o * I)%N.
    by rewrite -{1}[(o * I)%N]add0n big_addn mulSn addnK big_mkord.
  rewrite sh; apply: eq_bigr => i _.
  by rewrite [(i + _)%N]addnC divnMDl // divn_small // addn0 eqxx mul1r modnMDl modn_small // mulrC.
apply: (@is_derive_sum_ord I (fun i s => en (us s) 0 (o * I + i) * en (us s) 1 i)
  (fun i => en du 0 (o * I + i) * nth 0 X i + nth 0 W (o * I + i) * en du 1 i)) => i hi.
have d0 := hd 0%N (o * I + i)%N (ltac:(by rewrite /= sW (hidx (Ordinal hi)))).
have d1 := hd 1%N i (ltac:(by rewrite /= sX)).
have := is_derive_mult _ _ _ _ _ d0 d1 (fun _ _ => Rmult_comm _ _).
by rewrite e.
Qed.

(* an activation applied entrywise *)
Definition map_node (f df : R -> R) (x n : nat) : node :=
  Node [:: x] n (fun vs => mkseq (fun c => f (en vs 0 c)) n)
    (fun vs g => [:: mkseq (fun c => nth 0 g c * df (en vs 0 c)) n]).
Lemma map_ok (f df : R -> R) x n (X : vec) : size X = n -> (forall c, (c < n)%N -> is_derive f (nth 0 X c) (df (nth 0 X c))) ->
  vjp_ok (map_node f df x n) [:: X].
Proof.
move=> sX hf.
apply: (@vjp_ok_of _ _ (fun o vs => f (en vs 0 o)) (fun o _ c => (c == o)%:R * df (nth 0 X o))) => [//|g|us du t0 o mv ho].
  rewrite /mkseq /= sX; congr [:: _]; apply/eq_in_map => c; rewrite mem_iota /= => hc.
  rewrite (bigD1 (Ordinal hc)) //= eqxx mul1r big1 ?addr0 // => o.
  by rewrite eq_sym -(inj_eq val_inj) /= => /negbTE ->; rewrite mul0r mulr0.
rewrite (@sum_over1 (fun k c => (c == o)%:R * df (nth 0 X o) * en du k c)) sX (bigD1 (Ordinal ho)) //= eqxx mul1r big1 ?addr0; last first.
  by move=> c; rewrite -(inj_eq val_inj) /= => /negbTE ->; rewrite !mul0r.
case: mv => e _ _ hd; have d0 := hd 0%N o (ltac:(by rewrite /= sX)).
apply: (derive_val (l := en du 0 o * df (nth 0 X o))); first by rewrite mulrC.
by apply: is_derive_comp d0; rewrite e; apply: hf.
Qed.

(* the sum of the squared differences to a target *)
Definition sqerr_node (y : vec) (x n : nat) : node :=
  Node [:: x] 1 (fun vs => [:: \sum_(c < n) (en vs 0 c - nth 0 y c) * (en vs 0 c - nth 0 y c)])
    (fun vs g => [:: mkseq (fun c => nth 0 g 0 * (2 * (en vs 0 c - nth 0 y c))) n]).
Lemma sqerr_ok y x n (X : vec) : size X = n -> vjp_ok (sqerr_node y x n) [:: X].
Proof.
move=> sX.
apply: (@vjp_ok_of _ _ (fun _ vs => \sum_(c < n) (en vs 0 c - nth 0 y c) * (en vs 0 c - nth 0 y c))
  (fun _ _ c => 2 * (nth 0 X c - nth 0 y c))) => [//|g|us du t0 o mv ho].
  rewrite /mkseq /= sX; congr [:: _]; apply/eq_in_map => c _; by rewrite big_ord1.
rewrite (@sum_over1 (fun k c => 2 * (nth 0 X c - nth 0 y c) * en du k c)) sX.
case: mv => e _ _ hd.
apply: (@is_derive_sum_ord n (fun c s => (en (us s) 0 c - nth 0 y c) * (en (us s) 0 c - nth 0 y c))
  (fun c => 2 * (nth 0 X c - nth 0 y c) * en du 0 c)) => c hc.
have d0 := hd 0%N c (ltac:(by rewrite /= sX)).
have d1 := is_derive_minus _ _ _ _ _ d0 (is_derive_const (nth 0 y c) t0).
have := is_derive_mult _ _ _ _ _ d1 d1 (fun _ _ => Rmult_comm _ _).
rewrite /minus /plus /opp /zero /mult /= e !(RplusE, RoppE, RmultE) /en /= oppr0 addr0 => h.
apply: derive_val h; rewrite mulrC -mulrDl; congr (_ * _).
by rewrite mulr_natl mulr2n.
Qed.
