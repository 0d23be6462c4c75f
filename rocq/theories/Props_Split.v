(* C81: Hessian = generalised Gauss-Newton matrix + residual; signs of the curvature
   matrices. *)
From Coq Require Import Reals Lra.
From Coquelicot Require Import Coquelicot.
From mathcomp Require Import all_ssreflect all_algebra.
From Verif Require Import PyPrelude Tensor Spec TorchBase OpSpec RInst Calculus Curvature HessGGN Risk Losses Fisher FisherMC FisherExp CurvOps Props_Curv Props_Fisher HessSplit.
Set Implicit Arguments.
Unset Strict Implicit.
Unset Printing Implicit Defensive.
Import GRing.Theory.
Local Open Scope ring_scope.

(* <V, A V> >= 0 for every vector, in each documented format *)
Definition positive_semidefinite (A : linop R) (S : seq (seq nat)) : Prop :=
  forall l (V W : pyval R), has_format S l None V -> op_matmul A V = Ok W ->
    rle 0 (\sum_(i < total S) nth 0 (content V) i * nth 0 (content W) i).

(* quadratic forms of matrices *)
Definition form_ge0 (n : nat) (M : nat -> nat -> R) : Prop :=
  forall v : nat -> R, rle 0 (\sum_(i < n) v i * \sum_(j < n) M i j * v j).
Lemma form_ext n M M' : (forall i j, (i < n)%N -> (j < n)%N -> M i j = M' i j) -> form_ge0 n M -> form_ge0 n M'.
Proof.
move=> e h v; rewrite (eq_bigr (fun i : 'I_n => v i * \sum_(j < n) M i j * v j)); first exact: h.
by move=> i _; congr (_ * _); apply: eq_bigr => j _; rewrite e.
Qed.
Lemma form_scal n c M : rle 0 c -> form_ge0 n M -> form_ge0 n (fun i j => c * M i j).
Proof.
move=> hc h v; rewrite (eq_bigr (fun i : 'I_n => c * (v i * \sum_(j < n) M i j * v j))).
  by rewrite -mulr_sumr; apply: Rmult_le_pos.
move=> i _; rewrite mulrCA; congr (_ * _); rewrite mulr_sumr; apply: eq_bigr => j _; exact: (esym (mulrA _ _ _)).
Qed.
Lemma form_zero n : form_ge0 n (fun _ _ => 0).
Proof.
move=> v; rewrite big1; first exact: Rle_refl.
by move=> i _; rewrite big1 ?mulr0 // => j _; rewrite mul0r.
Qed.
Lemma form_add n M M' : form_ge0 n M -> form_ge0 n M' -> form_ge0 n (fun i j => M i j + M' i j).
Proof.
move=> h h' v; rewrite (eq_bigr (fun i : 'I_n => (v i * \sum_(j < n) M i j * v j) + (v i * \sum_(j < n) M' i j * v j))).
  by rewrite big_split; apply: Rplus_le_le_0_compat.
by move=> i _; rewrite -mulrDr -big_split /=; congr (_ * _); apply: eq_bigr => j _; rewrite mulrDl.
Qed.
Lemma form_sum (A : Type) (s : seq A) n (M : A -> nat -> nat -> R) :
  Forall_in (fun a => form_ge0 n (M a)) s -> form_ge0 n (fun i j => \sum_(a <- s) M a i j).
Proof.
elim: s => [_|a s IH /= [h /IH hs]].
  by apply: form_ext (form_zero n) => i j _ _; rewrite big_nil.
by apply: form_ext (form_add h hs) => i j _ _; rewrite big_cons.
Qed.
Lemma form_sum_ord m n (M : nat -> nat -> nat -> R) :
  (forall a, (a < m)%N -> form_ge0 n (M a)) -> form_ge0 n (fun i j => \sum_(a < m) M a i j).
Proof.
elim: m => [_|m IH h]; first by apply: form_ext (form_zero n) => i j _ _; rewrite big_ord0.
apply: form_ext (form_add (IH (fun a ha => h a (ltnW ha))) (h m (ltnSn m))) => i j _ _.
by rewrite big_ord_recr.
Qed.
Lemma form_outer n (g : nat -> R) : form_ge0 n (fun i j => g i * g j).
Proof.
move=> v; have -> : \sum_(i < n) v i * (\sum_(j < n) g i * g j * v j) = (\sum_(i < n) v i * g i) * (\sum_(i < n) v i * g i).
  rewrite mulr_suml; apply: eq_bigr => i _; rewrite -mulrA; congr (_ * _); rewrite mulr_sumr.
  by apply: eq_bigr => j _; rewrite -mulrA [v j * _]mulrC.
exact: Rle_0_sqr.
Qed.
(* J^T H J *)
Lemma form_congr n m (J H : nat -> nat -> R) : form_ge0 m H ->
  form_ge0 n (fun i j => \sum_(a < m) \sum_(b < m) J a i * (H a b * J b j)).
Proof.
move=> h v; have := h (fun a => \sum_(i < n) J a i * v i).
have -> // : \sum_(a < m) (\sum_(i < n) J a i * v i) * (\sum_(b < m) H a b * \sum_(j < n) J b j * v j) =
  \sum_(i < n) v i * (\sum_(j < n) (\sum_(a < m) \sum_(b < m) J a i * (H a b * J b j)) * v j).
under eq_bigr => a _ do rewrite mulr_suml.
rewrite exchange_big; apply: eq_bigr => i _.
have -> : \sum_(j < n) (\sum_(a < m) \sum_(b < m) J a i * (H a b * J b j)) * v j =
    \sum_(a < m) \sum_(j < n) (\sum_(b < m) J a i * (H a b * J b j)) * v j.
  by rewrite exchange_big; apply: eq_bigr => j _; rewrite mulr_suml.
rewrite mulr_sumr; apply: eq_bigr => a _ /=.
rewrite [J a i * v i]mulrC -mulrA; congr (_ * _).
have -> : \sum_(j < n) (\sum_(b < m) J a i * (H a b * J b j)) * v j =
    \sum_(b < m) \sum_(j < n) J a i * (H a b * J b j) * v j.
  by rewrite exchange_big; apply: eq_bigr => j _; rewrite mulr_suml.
rewrite mulr_sumr; apply: eq_bigr => b _ /=; rewrite !mulr_sumr.
by apply: eq_bigr => j _; toR; ring.
Qed.
Lemma psd_matrix A S M : acts_as A S M ->
  form_ge0 (total S) M -> positive_semidefinite A S.
Proof.
move=> [_ _ hA] h l V W hV eW; have [W' [eW' _ p]] := hA l None V hV.
move: eW'; rewrite eW => -[e]; rewrite -e {W' e} in p.
rewrite (eq_bigr (fun i : 'I__ => nth 0 (content V) i * \sum_(j < total S) M i j * nth 0 (content V) j)); first exact: h.
move=> i _; congr (_ * _); have := p i 0%N (ltn_ord i) isT; rewrite /= /entry muln1 addn0 => ->.
by apply: eq_bigr => j _; rewrite muln1 addn0.
Qed.

Lemma Rle0_nat_inv n : rle 0 ((n%:R : R)^-1).
Proof.
case: n => [|n]; first by rewrite invr0; apply: Rle_refl.
have h : rlt 0 (INR n.+1) by apply: lt_0_INR; apply/ltP.
rewrite natrE -RinvE; last exact: Rgt_not_eq.
by apply: Rlt_le; apply: Rinv_0_lt_compat.
Qed.
Lemma mean_over_ge0 X Y red num_data (loader : seq (seq (X * Y))) : rle 0 (mean_over red num_data loader).
Proof. by rewrite /mean_over; case: red => /=; first [exact: Rle0_nat_inv | toR; lra]. Qed.
Lemma terms_over_ge0 X Y T C kind red num_data (loader : seq (seq (X * Y))) : rle 0 (terms_over T C kind red num_data loader).
Proof. by rewrite /terms_over; case: red; first [case: kind; exact: Rle0_nat_inv | toR; lra]. Qed.

Section Split.
Variables (X Y : Type) (O : nat) (net : X -> point -> seq R) (lossd : seq R -> Y -> R).
Hypothesis net_size : forall x th, size (net x th) = O.
Local Notation batch := (seq (X * Y)).
Variables (red : reduction) (num_data : option nat) (loader : seq batch) (S : seq (seq nat)) (th : point).
Hypothesis S0 : S <> [::].
Hypothesis red_ok : red <> ROther.
Hypothesis loader0 : loader <> [::].
Hypothesis loader_ok : nonempty loader.
Hypothesis num_ok : (if num_data is Some n then 0 < n else true)%N.
Local Notation data := (flatten loader).

(* the outputs on the datum have second derivatives, the loss is smooth *)
Definition smooth_datum (d : X * Y) : Prop :=
  smooth2 O (fun f => lossd (mkseq f O) d.2) /\
  forall o, (o < O)%N -> twice_diff (total S) (fun z => nth 0 (net d.1 z) o) th.
(* gradient of the loss w.r.t. the outputs *)
Definition loss_gradient (d : X * Y) (o : nat) : R := pd o (fun f => lossd (mkseq f O) d.2) (nth 0 (net d.1 th)).
Definition residual (i j : nat) : R :=
  mean_over red num_data loader * \sum_(d <- data) \sum_(o < O)
    loss_gradient d o * pd j (pd i (fun z => nth 0 (net d.1 z) o)) th.

Lemma lossd_comp d z : lossd (net d.1 z) d.2 = (fun f => lossd (mkseq f O) d.2) (nth 0 (net d.1 z)).
Proof.
rewrite /=; congr (lossd _ _); apply: (@eq_from_nth _ 0); first by rewrite size_mkseq.
by move=> i; rewrite net_size => hi; rewrite nth_mkseq.
Qed.

Lemma smooth_twice : Forall_in smooth_datum data ->
  Forall_in (fun d => twice_diff (total S) (fun z => lossd (net d.1 z) d.2) th) data.
Proof.
apply: Forall_in_impl => d [h1 h2] i j hi hj.
have [c1 c2] := comp_twice_diff (net_size d.1) h1 h2 hi hj; split.
  by apply: filter_imp c1 => t; apply: ex_pd_ext => z; rewrite lossd_comp.
by apply: ex_pd_ext c2 => z; apply: pd_ext => z'; rewrite lossd_comp.
Qed.

Theorem C81_hessian_is_ggn_plus_residual : Forall_in smooth_datum data ->
  exists A B MA MB, [/\ hessian_operator O net lossd red num_data loader S None th = Ok A,
    ggn_operator O net lossd red num_data loader S None th = Ok B,
    acts_as A S MA, acts_as B S MB &
    forall i j, (i < total S)%N -> (j < total S)%N -> MA i j = MB i j + residual i j].
Proof.
move=> hd; have ht := smooth_twice hd.
have [A eA hA] := C14_hessian_of_empirical_risk net_size S0 red_ok loader0 loader_ok num_ok ht.
have [B eB hB] := C15_ggn_of_empirical_risk lossd net_size th S0 red_ok loader0 loader_ok num_ok.
exists A, B; do 2 eexists; split; [by []|by []|exact: hA|exact: hB|] => i j hi hj.
rewrite /risk_hessian pd2_scal (pd2_sum hi hj ht) /ggn_matrix /residual -mulrDr -big_split /=; congr (_ * _).
elim: data hd {hA hB ht eA eB} => [|d s IH] /=; first by rewrite !big_nil.
case=> -[h1 h2] hs; rewrite !big_cons IH //; congr (_ + _).
rewrite -(comp_pd2 (net_size d.1) h1 h2 hi hj).
by apply: pd_ext => z; apply: pd_ext => z'; rewrite lossd_comp.
Qed.

(* ... so they multiply alike if the outputs are affine in the parameters (their
   second derivatives vanish), or if the loss of every datum is stationary *)
Theorem C81_hessian_equals_ggn : Forall_in smooth_datum data ->
  Forall_in (fun d => forall o, (o < O)%N ->
    (forall i j, (i < total S)%N -> (j < total S)%N -> pd j (pd i (fun z => nth 0 (net d.1 z) o)) th = 0) \/
    loss_gradient d o = 0) data ->
  exists A B, [/\ hessian_operator O net lossd red num_data loader S None th = Ok A,
    ggn_operator O net lossd red num_data loader S None th = Ok B & same_products S A B].
Proof.
move=> hd h0; have [A [B [MA [MB [eA eB hA hB e]]]]] := C81_hessian_is_ggn_plus_residual hd.
exists A, B; split=> //; apply: acts_as_same hA _; apply: acts_as_ext hB _ => i j hi hj.
rewrite e // /residual; have -> : \sum_(d <- data) \sum_(o < O) loss_gradient d o * pd j (pd i (fun z => nth 0 (net d.1 z) o)) th = 0.
  elim: data h0 {hd} => [|d s IH] /=; first by rewrite big_nil.
  case=> h hs; rewrite big_cons IH // addr0 big1 // => o _.
  by case: (h o (ltn_ord o)) => [->|->]; rewrite ?mulr0 ?mul0r.
by rewrite mulr0 addr0.
Qed.

(* the GGN is positive semi-definite if the loss is convex in the outputs *)
Theorem C81_ggn_positive_semidefinite :
  Forall_in (fun d => form_ge0 O (loss_hessian O net lossd d th)) data ->
  exists2 B, ggn_operator O net lossd red num_data loader S None th = Ok B & positive_semidefinite B S.
Proof.
move=> h; have [B eB hB] := C15_ggn_of_empirical_risk lossd net_size th S0 red_ok loader0 loader_ok num_ok.
exists B => //; apply: (psd_matrix hB); apply: form_scal; first exact: mean_over_ge0.
apply: (@form_sum _ _ _ (fun d i j => \sum_(a < O) \sum_(b < O) jac_entry net d th a i * (loss_hessian O net lossd d th a b * jac_entry net d th b j))).
by apply: Forall_in_impl h => d hd; apply: form_congr.
Qed.
End Split.
Print Assumptions C81_hessian_is_ggn_plus_residual.
Print Assumptions C81_hessian_equals_ggn.
Print Assumptions C81_ggn_positive_semidefinite.

(* ---- the supported losses ---- *)
Lemma row_hess_form k C f : (0 < C)%N -> form_ge0 C (row_hess k C f).
Proof.
move=> C0 v.
have diag (p : nat -> R) : (forall c, (c < C)%N -> rle 0 (p c)) ->
    rle 0 (\sum_(i < C) v i * \sum_(j < C) (if i == j :> nat then p i else 0) * v j).
  move=> hp; apply: Rsum_ge0 (fun i => v i * \sum_(j < C) (if i == j :> nat then p i else 0) * v j) _ => c hc.
  rewrite (bigD1 (Ordinal hc)) //= eqxx big1 ?addr0; last first.
    by move=> i /eqP hi; case: eqP => [e|_]; [case: hi; apply: val_inj | rewrite mul0r].
  by rewrite mulrC -mulrA; apply: Rmult_le_pos; [exact: hp | exact: Rle_0_sqr].
case: k; rewrite /row_hess.
- by apply: (diag (fun=> 2)) => c _; toR; lra.
- set p := softmax C f.
  have p1 : \sum_(c < C) p c = 1 by apply: softmax_sum.
  pose m := \sum_(c < C) p c * v c.
  have -> : \sum_(i < C) v i * (\sum_(j < C) ((i == j :> nat)%:R * p i - p i * p j) * v j) =
      \sum_(c < C) p c * ((v c - m) * (v c - m)).
    have e (i : nat) : (i < C)%N -> v i * (\sum_(j < C) ((i == j)%:R * p i - p i * p j) * v j) = p i * (v i * v i) - (p i * v i) * m.
      move=> hi; rewrite (eq_bigr (fun j : 'I_C => (i == j :> nat)%:R * (p i * v j) - p i * (p j * v j))); last first.
        by move=> j _; rewrite mulrBl; congr (_ - _); exact: (esym (mulrA _ _ _)).
      rewrite sumrB -mulr_sumr (bigD1 (Ordinal hi)) //= eqxx mul1r big1 ?addr0.
        by rewrite -/m; toR; ring.
      by move=> j /eqP hj; case: eqP => [ej|_]; [case: hj; apply: val_inj | rewrite mul0r].
    rewrite (eq_bigr (fun i : 'I_C => p i * (v i * v i) - (p i * v i) * m)); last by move=> i _; apply: e.
    rewrite [RHS](eq_bigr (fun c : 'I_C => (p c * (v c * v c) - p c * v c * m) + (m * m * p c - m * (p c * v c)))); last first.
      by move=> c _; toR; ring.
    by rewrite [RHS]big_split /= [X in _ = _ + X]sumrB -[X in _ + (X - _)]mulr_sumr -[X in _ + (_ - X)]mulr_sumr p1 -/m mulr1 subrr addr0.
  apply: (@Rsum_ge0 _ (fun c => p c * ((v c - m) * (v c - m)))) => c hc.
  by apply: Rmult_le_pos; [apply: Rlt_le; apply: softmax_gt0 | exact: Rle_0_sqr].
apply: (diag (fun c => sigmoid (f c) * (1 - sigmoid (f c)))) => c _.
have [h1 h2] := sigmoid_bounds (f c); by apply: Rmult_le_pos; apply: Rlt_le.
Qed.

Section Supported.
Variables (X Y : Type) (T C : nat) (kind : loss_kind) (net : X -> point -> seq R) (tgt : Y -> nat -> target).
Hypothesis net_size : forall x th, size (net x th) = (T * C)%N.
Hypothesis T_gt0 : (0 < T)%N.
Hypothesis C_gt0 : (0 < C)%N.
Local Notation batch := (seq (X * Y)).
Variables (red : reduction) (num_data : option nat) (loader : seq batch) (S : seq (seq nat)) (th : point).
Hypothesis S0 : S <> [::].
Hypothesis red_ok : red <> ROther.
Hypothesis loader0 : loader <> [::].
Hypothesis loader_ok : nonempty loader.
Hypothesis num_ok : (if num_data is Some n then 0 < n else true)%N.
Local Notation data := (flatten loader).
Local Notation loss := (datum_loss T C kind tgt red).
Definition targets_fit : Prop := Forall_in (fun d : X * Y => forall t, (t < T)%N -> target_ok kind C (tgt d.2 t)) data.

Lemma datum_loss_form d : (forall t, (t < T)%N -> target_ok kind C (tgt d.2 t)) ->
  form_ge0 (T * C) (loss_hessian (T * C) net loss d th).
Proof.
move=> ht; apply: (@form_ext _ (dl_hess T C kind red (nth 0 (net d.1 th)))).
  by move=> a b ha hb; rewrite /loss_hessian (datum_loss_hess red ht).
apply: form_scal; first by rewrite /dl_s; case: red; first [exact: Rle0_nat_inv | toR; lra].
apply: (@form_sum_ord T _ (fun t a b => \sum_(c < C) (term_pos T C kind t c == a)%:R *
  \sum_(c' < C) (term_pos T C kind t c' == b)%:R * row_hess kind C (dl_row T C kind t (nth 0 (net d.1 th))) c c')) => t ht'.
apply: form_ext (form_congr (T * C) (fun c a => (term_pos T C kind t c == a)%:R)
  (row_hess_form kind (dl_row T C kind t (nth 0 (net d.1 th))) C_gt0)) => a b _ _.
by apply: eq_bigr => c _; rewrite mulr_sumr; apply: eq_bigr => c' _; rewrite [row_hess _ _ _ _ _ * _]mulrC.
Qed.

(* GGN, empirical and Monte-Carlo Fisher never have negative curvature *)
Theorem C81_ggn_supported_losses : targets_fit ->
  exists2 B, ggn_operator (T * C) net loss red num_data loader S None th = Ok B & positive_semidefinite B S.
Proof.
move=> ht; apply: C81_ggn_positive_semidefinite => //.
by apply: Forall_in_impl ht => d; apply: datum_loss_form.
Qed.

Theorem C81_empirical_fisher : Forall_in (datum_ok T C kind net tgt (total S) th) data ->
  exists2 A, ef_operator T C (Some kind) net tgt red num_data loader S th = Ok A & positive_semidefinite A S.
Proof.
move=> hd; have [A eA hA] := C16_empirical_fisher net_size T_gt0 C_gt0 S0 red_ok loader0 loader_ok num_ok hd.
exists A => //; apply: (psd_matrix hA); apply: form_scal; first exact: terms_over_ge0.
apply: (@form_sum _ _ _ (fun d i j => \sum_(t < T) loss_term_grad T C kind net tgt d t th i * loss_term_grad T C kind net tgt d t th j)).
apply: Forall_in_all => d.
by apply: (@form_sum_ord T _ (fun t i j => loss_term_grad T C kind net tgt d t th i * loss_term_grad T C kind net tgt d t th j)) => t _; apply: form_outer.
Qed.

(* the Hessian neither, for networks that are affine in the parameters *)
Theorem C81_hessian_of_affine_network : targets_fit ->
  Forall_in (fun d => forall o, (o < T * C)%N -> twice_diff (total S) (fun z => nth 0 (net d.1 z) o) th /\
    forall i j, (i < total S)%N -> (j < total S)%N -> pd j (pd i (fun z => nth 0 (net d.1 z) o)) th = 0) data ->
  exists A B, [/\ hessian_operator (T * C) net loss red num_data loader S None th = Ok A,
    ggn_operator (T * C) net loss red num_data loader S None th = Ok B,
    same_products S A B & positive_semidefinite A S].
Proof.
move=> ht ha.
have hs : Forall_in (smooth_datum (T * C) net loss S th) data.
  move: ht ha; rewrite /targets_fit; elim: data => //= d s IH [h1 hs] [h2 hs']; split; last exact: IH.
  by split; [apply: datum_loss_smooth2 | move=> o ho; case: (h2 o ho)].
have h0 : Forall_in (fun d => forall o, (o < T * C)%N ->
    (forall i j, (i < total S)%N -> (j < total S)%N -> pd j (pd i (fun z => nth 0 (net d.1 z) o)) th = 0) \/
    loss_gradient (T * C) net loss th d o = 0) data.
  by apply: Forall_in_impl ha => d h o ho; left; case: (h o ho).
have [A [B [eA eB e]]] := C81_hessian_equals_ggn net_size S0 red_ok loader0 loader_ok num_ok hs h0.
have [B' eB' hB'] := C81_ggn_supported_losses ht.
exists A, B; split=> // l V W hV eW; apply: (hB' l V W hV).
by move: eB'; rewrite eB => -[<-]; rewrite -(e l None V hV).
Qed.
End Supported.
Print Assumptions C81_ggn_supported_losses.
Print Assumptions C81_empirical_fisher.
Print Assumptions C81_hessian_of_affine_network.

Section MC.
Variables (G : Type).
Variable normal_o : G -> nat -> (nat -> R) * G.
Variable multinomial_o : G -> nat -> nat -> (nat -> nat -> R) -> nat -> (nat -> nat -> nat) * G.
Variable bernoulli_o : G -> nat -> (nat -> R) -> (nat -> bool) * G.
Variables (dev : Type) (dev_eq : dev -> dev -> bool) (seed_gen : dev -> G).
Hypothesis dev_eqP : forall d d', dev_eq d d' -> d = d'.
Variables (X Y : Type) (T C : nat) (kind : loss_kind) (net : X -> point -> seq R) (tgt : Y -> nat -> target).
Hypothesis net_size : forall x th, size (net x th) = (T * C)%N.
Hypothesis T_gt0 : (0 < T)%N.
Hypothesis C_gt0 : (0 < C)%N.
Variables (red : reduction) (num_data : option nat) (loader : seq (seq (X * Y))) (S : seq (seq nat)) (th : point) (samples : nat).

Theorem C81_monte_carlo_fisher (s : mc_state G dev) :
  S <> [::] -> red <> ROther -> loader <> [::] -> nonempty loader ->
  (if num_data is Some n then 0 < n else true)%N -> (0 < samples)%N -> binary_labels_ok T C kind tgt loader ->
  positive_semidefinite (mc_operator normal_o multinomial_o bernoulli_o dev_eq seed_gen T C kind net tgt red num_data loader S th samples s) S.
Proof.
move=> hS hr hl hne hn hs hb.
have hA := C17_monte_carlo_fisher normal_o multinomial_o bernoulli_o seed_gen dev_eqP net_size T_gt0 C_gt0 th s hS hr hl hne hn hs hb.
apply: (psd_matrix hA); rewrite /mc_matrix; apply: form_scal; first exact: terms_over_ge0.
set ws := mc_draws _ _ _ _ _ _ _ _ _ _ _ _.
pose term (bw : seq (X * Y) * (nat -> nat -> R)) (n t i j : nat) : R :=
  match ohead (drop n bw.1) with
  | None => 0
  | Some d => samples%:R^-1 * \sum_(m < samples)
      pulled_back T C kind net th d t (fun c => bw.2 m ((n * T + t) * C + c)%N) i *
      pulled_back T C kind net th d t (fun c => bw.2 m ((n * T + t) * C + c)%N) j
  end.
apply: (@form_sum _ _ _ (fun bw i j => \sum_(n < size bw.1) \sum_(t < T) term bw n t i j)); apply: Forall_in_all => bw.
apply: (@form_sum_ord _ _ (fun n i j => \sum_(t < T) term bw n t i j)) => n _.
apply: (@form_sum_ord _ _ (fun t i j => term bw n t i j)) => t _.
rewrite /term; case: ohead => [d|]; last exact: form_zero.
apply: form_scal; first exact: Rle0_nat_inv.
by apply: (@form_sum_ord samples _ (fun m i j => pulled_back T C kind net th d t (fun c => bw.2 m ((n * T + t) * C + c)%N) i *
      pulled_back T C kind net th d t (fun c => bw.2 m ((n * T + t) * C + c)%N) j)) => m _; apply: form_outer.
Qed.
End MC.
Print Assumptions C81_monte_carlo_fisher.

(* a classifier that is affine in its parameters meets the hypotheses of the last
   but one theorems *)
Example C81_ex_affine th : Forall_in (fun d : R * nat => forall o, (o < 1 * 2)%N ->
  twice_diff (total exc_S) (fun z => nth 0 (exc_net d.1 z) o) th /\
  forall i j, (i < total exc_S)%N -> (j < total exc_S)%N -> pd j (pd i (fun z => nth 0 (exc_net d.1 z) o)) th = 0) (flatten exc_loader) /\
  targets_fit 1 2 LCE exc_tgt exc_loader.
Proof.
split; last by rewrite /targets_fit /=; split; [|split].
apply: Forall_in_all => -[x y] o ho.
have pdE i z : (i < 2)%N -> pd i (fun z => nth 0 (exc_net x z) o) z = (if o == i then (if o == 0%N then x else 1) else 0).
  rewrite /pd; case: o ho => [|[|]] // _; case: i => [|[|]] // _; apply: is_derive_unique; rewrite /exc_net /upd; toRb; auto_derive => //; toR; ring.
split=> [i j hi hj|i j hi hj].
  split; first by apply: filter_forall => t; case: o ho {pdE} => [|[|]] // _; case: i hi => [|[|]] // _; rewrite /ex_pd /exc_net /upd; toRb; auto_derive.
  rewrite /ex_pd; apply: (ex_derive_ext (fun=> if o == i then (if o == 0%N then x else 1) else 0)) => [t|]; first by rewrite pdE.
  exact: ex_derive_const.
by rewrite (@pd_ext _ (fun=> if o == i then (if o == 0%N then x else 1) else 0)) ?pd_const // => z; rewrite pdE.
Qed.

(* a network with a product of its parameters as second output, squared error: the
   hypotheses of the decomposition hold, and the residual does not vanish *)
Definition exs_tgt (y : R) (_ : nat) : target := TVec (fun c => if c == 0%N then y else 1).
Lemma exs_pd i o x z : (i < 2)%N -> (o < 2)%N -> pd i (fun z => nth 0 (exr_net x z) o) z =
  if o == 0%N then (if i == 0%N then x else 1) else (if i == 0%N then z 1%N else z 0%N).
Proof.
by rewrite /pd; case: o => [|[|]] //; case: i => [|[|]] // _ _; apply: is_derive_unique; rewrite /exr_net /upd; toRb; auto_derive => //; toR; ring.
Qed.
Example C81_ex_smooth th : Forall_in (smooth_datum (1 * 2) exr_net (datum_loss 1 2 LMSE exs_tgt RSum) exr_S th) (flatten exr_loader).
Proof.
apply: Forall_in_all => -[x y]; split; first exact: datum_loss_smooth2.
move=> o ho i j hi hj; split.
  by apply: filter_forall => t; case: o ho => [|[|]] // _; case: i hi => [|[|]] // _; rewrite /ex_pd /exr_net /upd; toRb; auto_derive.
rewrite /ex_pd; apply: (ex_derive_ext (fun t => if o == 0%N then (if i == 0%N then x else 1) else (if i == 0%N then upd th j t 1%N else upd th j t 0%N))) => [t|].
  by rewrite exs_pd.
case: o ho => [|[|]] // _; case: i hi => [|[|]] // _; case: j hj => [|[|]] // _; rewrite /upd /=; by auto_derive.
Qed.
Example C81_ex_residual (th : point) x y : residual (1 * 2) exr_net (datum_loss 1 2 LMSE exs_tgt RSum) RSum None [:: [:: (x, y)]] th 0 1 =
  2 * (th 0%N * th 1%N - 1).
Proof.
rewrite /residual /= big_cons big_nil addr0 mul1r big_ord_recl big_ord1 /=.
have -> : pd 1 (pd 0 (fun z => nth 0 (exr_net x z) 0)) th = 0.
  by rewrite (@pd_ext _ (fun=> x)) ?pd_const // => z; rewrite exs_pd.
have -> : pd 1 (pd 0 (fun z => nth 0 (exr_net x z) 1)) th = 1.
  by rewrite (@pd_ext _ (fun z => z 1%N)) ?pd_coord // => z; rewrite exs_pd.
rewrite mulr0 add0r mulr1 /loss_gradient.
have ht t : (t < 1)%N -> target_ok LMSE 2 (exs_tgt y t) by [].
rewrite (curve_pd (@dl_curve _ _ _ _ _ RSum _ ht (nth 0 (exr_net x th)))) //.
rewrite /dl_grad /dl_s mul1r big_ord1 big_ord_recl big_ord1 /= mul0r add0r mul1r.
by [].
Qed.
