(* Networks that call a layer several times in one forward pass (or not at all).
   The hooks of /repo/curvlinops/kfac.py 406-428 are installed per module, and run
   for every call: each call adds to the factors of its module.

   KfacCov.v has the case of one call per layer. *)
From Coq Require Import Reals Lra FunctionalExtensionality Permutation.
From Coquelicot Require Import Coquelicot.
From mathcomp Require Import all_ssreflect all_algebra.
From Verif Require Import PyPrelude Tensor Spec TorchBase Submatrix RInst Calculus Curvature HessGGN Risk Losses Fisher FisherMC FisherExp LossHess Props_LossHess Conv Props_Conv Kfac KfacCov KfacCovHooks KfacCovSpec KfacCovProof Props_KfacCov.
Set Implicit Arguments.
Unset Strict Implicit.
Unset Printing Implicit Defensive.
Import GRing.Theory.
Local Open Scope ring_scope.
Local Notation update := (update [fieldType of R]).

Section Calls.
Variables (X Y : Type) (T C : nat) (kind : loss_kind).
Local Notation batch := (seq (X * Y)).
Variable net : X -> seq R.
Variable tgt : Y -> nat -> target.
(* the calls of layers during a forward pass: which module is called; input,
   output, and the network's output as a function of this call's output *)
Variable callee : nat -> nat.
Variable views : nat -> nlayer X.
Variable order : seq nat.                   (* in the order of the forward pass *)
Variable back_order : seq nat.              (* in the order autograd reaches their outputs *)
Variable S : seq (seq nat).
Variables (sep : bool) (ap : kfac_approx) (ft : fisher_type) (red : reduction) (N M nterms : nat).
Variable mp : mapping.
Variable G : Type.
Variable normal_o : G -> nat -> (nat -> R) * G.
Variable multinomial_o : G -> nat -> nat -> (nat -> nat -> R) -> nat -> (nat -> nat -> nat) * G.
Variable bernoulli_o : G -> nat -> (nat -> R) -> (nat -> bool) * G.

(* the forward pre-hook during call c: kfac.py 411-419, 667-722 *)
Definition call_input (b : batch) (c : nat) : seq (res update) :=
  if dget (callee c) mp is Some ps then
    if dmem Weight ps then
      [:: let joint := [&& ~~ sep, isSome (dget Weight ps) & isSome (dget Bias ps)] in
          let l := views c in
          let! t := input_covariance ap (nl_conv l) joint N (in_tensor l b) in
          Ok (UIn (callee c) t)]
    else [::]
  else [::].
(* the tensor hook on the output of call c: kfac.py 421-428, 599-665 *)
Definition call_grad (b : batch) (phi : point -> R) (c : nat) : seq (res update) :=
  if dget (callee c) mp is Some _ then
    [:: let l := views c in
        let! t := gradient_covariance ap (nl_conv l) red N M nterms (grad_tensor T C kind l b phi) in
        Ok (UGrad (callee c) t)]
  else [::].
Definition calls_forward (b : batch) : seq (res update) := flatten [seq call_input b c | c <- order].
Definition call_grads (b : batch) (phi : point -> R) : seq (res update) := flatten [seq call_grad b phi c | c <- back_order].
(* torch.autograd.grad(loss, self._params) (kfac.py 508-513, 519, 524): after the hooks
   have run, it rejects parameters that are not part of the graph. Parameters are used
   by calls of their modules only. *)
Definition grad_unused : bool :=
  has (fun e => has (fun q => ~~ has (fun c => if dget (callee c) mp is Some ps then q.2 \in [seq r.2 | r <- ps] else false)
                              back_order) e.2) mp.
Definition calls_backward (b : batch) (phi : point -> R) : seq (res update) :=
  call_grads b phi ++ (if grad_unused then [:: Err RuntimeError] else [::]).

(* _compute_kfac (kfac.py 399-440) on empty dictionaries *)
Definition compute_kfac_calls (loader : seq batch) (g : G) :=
  run_updates ([::], [::]) (kfac_events T C kind net tgt S ft red M mp normal_o multinomial_o bernoulli_o
    calls_forward calls_backward loader g).

(* ---- every call as a layer of its own ---- *)
Definition call_mapping : mapping := pmap (fun c => omap (pair c) (dget (callee c) mp)) order.

Definition rename (u : update) : update :=
  match u with UIn c t => UIn (callee c) t | UGrad c t => UGrad (callee c) t | USet c t => USet (callee c) t end.
Definition rrename (r : res update) : res update := let! u := r in Ok (rename u).

Lemma forward_rename b : calls_forward b = [seq rrename r | r <- forward_events views sep ap N call_mapping b].
Proof.
rewrite /calls_forward /forward_events /call_mapping; elim: order => //= c cs IH; rewrite {1}/call_input.
case: (dget (callee c) mp) => [ps|] //=; case: ifP => //= _; rewrite IH; congr cons.
by case: input_covariance.
Qed.

Lemma perm_flatten (A B : Type) (f : A -> seq B) (s s' : seq A) : Permutation s s' ->
  Permutation (flatten [seq f a | a <- s]) (flatten [seq f a | a <- s']).
Proof.
elim=> //= [x l l' _ IH|x y l|l1 l2 l3 _ h1 _ h2].
- exact: Permutation_app_head.
- by rewrite !catA; apply: Permutation_app_tail; apply: Permutation_app_comm.
exact: Permutation_trans h1 h2.
Qed.

Lemma perm_flatten_ext (A B : Type) (f f' : A -> seq B) (s : seq A) : (forall a, Permutation (f a) (f' a)) ->
  Permutation (flatten [seq f a | a <- s]) (flatten [seq f' a | a <- s]).
Proof. by move=> h; elim: s => //= a s IH; apply: Permutation_app. Qed.

Hypothesis hback : Permutation back_order order.

Lemma grads_rename b phi :
  Permutation (call_grads b phi) [seq rrename r | r <- backward_events T C kind views ap red N M nterms call_mapping b phi].
Proof.
apply: Permutation_trans (perm_flatten _ hback) _.
rewrite (_ : flatten _ = [seq rrename r | r <- backward_events T C kind views ap red N M nterms call_mapping b phi]) //.
rewrite /backward_events /call_mapping; elim: order => //= c cs IH; rewrite {1}/call_grad.
case: (dget (callee c) mp) => [ps|] //=; rewrite IH; congr cons.
by case: gradient_covariance.
Qed.

Hypothesis hused : grad_unused = false.
Lemma backward_rename b phi :
  Permutation (calls_backward b phi) [seq rrename r | r <- backward_events T C kind views ap red N M nterms call_mapping b phi].
Proof. by rewrite /calls_backward hused cats0; apply: grads_rename. Qed.

Local Notation virtual := (kfac_events T C kind net tgt S ft red M call_mapping normal_o multinomial_o bernoulli_o
  (forward_events views sep ap N call_mapping) (backward_events T C kind views ap red N M nterms call_mapping)).
Local Notation actual := (kfac_events T C kind net tgt S ft red M mp normal_o multinomial_o bernoulli_o calls_forward calls_backward).
Hypothesis hft : ft <> ForwardOnly.

Lemma events_rename loader g : Permutation (actual loader g) [seq rrename r | r <- virtual loader g].
Proof.
elim: loader g => //= b l IH g.
set bw := backward_events _ _ _ _ _ _ _ _ _ _.
have : (loss_events T C kind net tgt S ft red M mp normal_o multinomial_o bernoulli_o calls_backward b g).2 =
       (loss_events T C kind net tgt S ft red M call_mapping normal_o multinomial_o bernoulli_o bw b g).2 /\
    Permutation (loss_events T C kind net tgt S ft red M mp normal_o multinomial_o bernoulli_o calls_backward b g).1
      [seq rrename r | r <- (loss_events T C kind net tgt S ft red M call_mapping normal_o multinomial_o bernoulli_o bw b g).1].
  rewrite /loss_events; case: ft hft => // _.
  - split=> //=; case: hessian_sqrts => [s|e] //=; rewrite map_flatten -map_comp.
    by apply: perm_flatten_ext => c; apply: backward_rename.
  - case: draw_labels => ys g' /=; split=> //.
    have h : Permutation (flatten [seq calls_backward b (scaled_loss C kind red (size b * T) y) | y <- ys])
       [seq rrename r | r <- flatten [seq bw b (scaled_loss C kind red (size b * T) y) | y <- ys]].
      by rewrite map_flatten -map_comp; apply: perm_flatten_ext => c; apply: backward_rename.
    by case: red h => // _; case: ys.
  split=> //=; have h := backward_rename b (scaled_loss C kind red (size b * T) (ktargets T tgt b)).
  by rewrite /bw; case: (red) h.
case: (loss_events T C kind net tgt S ft red M mp _ _ _ _ _ _) => ev g1.
case: (loss_events T C kind net tgt S ft red M call_mapping _ _ _ _ _ _) => ev' g1' /= [<- hp].
rewrite !map_cat forward_rename; apply: Permutation_app_head.
by apply: Permutation_app.
Qed.

(* the updates of the calls: their tensors are square matrices *)
Definition good (u : update) : Prop :=
  match u with UIn c t | UGrad c t => (c \in order) /\ wf t | USet _ _ => False end.

Lemma covariance_wf (k : R) (x t : tensor R) : covariance k x = Ok t -> wf t.
Proof.
rewrite /covariance; case: (tshape x) => [|n [|d [|? ?]]] // [<-].
by rewrite /wf /= size_mkseq muln1.
Qed.

Lemma input_covariance_wf cv joint (x t : tensor R) : input_covariance ap cv joint N x = Ok t -> wf t.
Proof.
rewrite /input_covariance; case: (match cv, ap with Some _, Expand => _ | _, _ => _ end) => [x1|e] //=.
case: (match ap with Expand => rows_expand _ | Reduce => _ end) => [x2|e] //=.
by case: (if joint then _ else _) => [x3|e] //=; apply: covariance_wf.
Qed.

Lemma gradient_covariance_wf cv (x t : tensor R) : gradient_covariance ap cv red N M nterms x = Ok t -> wf t.
Proof.
rewrite /gradient_covariance; case: (if cv is Some _ then _ else _) => [x1|e] //=.
case: (match ap with Expand => rows_expand _ | Reduce => _ end) => [x2|e] //=.
by case: correction => [x3|e] //=; apply: covariance_wf.
Qed.

Lemma call_mapping_keys e : List.In e call_mapping -> e.1 \in order.
Proof.
rewrite /call_mapping; elim: order => //= c cs IH; case: (dget (callee c) mp) => [ps|] /=; last by move=> /IH h; rewrite inE h orbT.
by case=> [<-|/IH h] /=; rewrite inE ?eqxx // h orbT.
Qed.

Definition all_good (ev : seq (res update)) : Prop := forall u, List.In (Ok u) ev -> good u.
Lemma all_good_cat ev ev' : all_good ev -> all_good ev' -> all_good (ev ++ ev').
Proof. by move=> h h' u /List.in_app_iff []; [apply: h|apply: h']. Qed.
Lemma all_good_flatten (A : Type) (f : A -> seq (res update)) s : (forall a, all_good (f a)) -> all_good (flatten [seq f a | a <- s]).
Proof. by move=> h; elim: s => [|a s IH] /=; [move=> u []|apply: all_good_cat]. Qed.

Lemma forward_good (b : batch) : all_good (forward_events views sep ap N call_mapping b).
Proof.
rewrite /forward_events => u /List.in_map_iff [e [he]] /List.filter_In [/call_mapping_keys hk _]; move: he.
by case E : input_covariance => [t|x] //= [<-]; split=> //; apply: input_covariance_wf E.
Qed.

Lemma backward_good (b : batch) phi : all_good (backward_events T C kind views ap red N M nterms call_mapping b phi).
Proof.
rewrite /backward_events => u /List.in_map_iff [e [he]] /call_mapping_keys hk; move: he.
by case E : gradient_covariance => [t|x] //= [<-]; split=> //; apply: gradient_covariance_wf E.
Qed.

Lemma virtual_good loader g : all_good (virtual loader g).
Proof.
elim: loader g => [|b l IH] g /=; first by move=> u [].
have : all_good (loss_events T C kind net tgt S ft red M call_mapping normal_o multinomial_o bernoulli_o
         (backward_events T C kind views ap red N M nterms call_mapping) b g).1.
  have e1 e : all_good [:: Err e] by move=> u [].
  rewrite /loss_events; case: ft hft => // _ /=.
  - by case: hessian_sqrts => [s|e] //; apply: all_good_flatten => c; apply: backward_good.
  - case: draw_labels => ys g' /=.
    have h : all_good (flatten [seq backward_events T C kind views ap red N M nterms call_mapping b (scaled_loss C kind red (size b * T) y) | y <- ys]).
      by apply: all_good_flatten => y; apply: backward_good.
    by case: (red) h => // _; case: (ys).
  have h := @backward_good b (scaled_loss C kind red (size b * T) (ktargets T tgt b)).
  by case: (red) h.
case: (loss_events _ _ _ _ _ _ _ _ _ _ _ _ _ _ _ _) => ev g1 /= h.
by apply: all_good_cat (@forward_good b) _; apply: all_good_cat.
Qed.
End Calls.

(* ---- runs of updates ---- *)
Section Runs.
Local Notation cov := (dict nat_eqType (tensor R)).

Lemma run_all_ok (ev : seq (res update)) st st' : run_updates st ev = (st', Ok tt) -> exists us, ev = [seq Ok u | u <- us].
Proof.
elim: ev st => [|[u|e] ev IH] st //=; first by exists [::].
by case: apply_update => [st1|e] // /IH [us ->]; exists (u :: us).
Qed.

Definition keeps (d d' : cov) : Prop := forall k t, dget k d = Some t -> exists2 t', dget k d' = Some t' & tshape t' = tshape t.

Lemma accumulate_keeps k (t : tensor R) (d d' : cov) : accumulate k t d = Ok d' ->
  keeps d d' /\ exists2 t', dget k d' = Some t' & tshape t' = tshape t.
Proof.
rewrite /accumulate /keeps; case e : (dget k d) => [a|].
  rewrite /tadd; case: eqP => // sh [<-]; split; last by rewrite dget_dset eqxx; eexists; first reflexivity.
  move=> k' t'; rewrite dget_dset; case: eqP => [<-|_ ->]; last by exists t'.
  by rewrite e => -[<-]; eexists; first reflexivity.
case=> <-; split; last by rewrite dget_dset eqxx; exists t.
move=> k' t'; rewrite dget_dset; case: eqP => [<-|_ ->]; last by exists t'.
by rewrite e.
Qed.

Lemma keeps_trans d1 d2 d3 : keeps d1 d2 -> keeps d2 d3 -> keeps d1 d3.
Proof. by move=> h h' k t /h [t' /h' [t'' e <-] <-]; exists t''. Qed.

Lemma run_keeps (us : seq update) (st st' : cov * cov) : (forall k t, ~ List.In (USet k t) us) ->
  run_updates st [seq Ok u | u <- us] = (st', Ok tt) ->
  [/\ keeps st.1 st'.1, keeps st.2 st'.2,
    (forall k t, List.In (UIn k t) us -> exists2 t', dget k st'.1 = Some t' & tshape t' = tshape t) &
    (forall k t, List.In (UGrad k t) us -> exists2 t', dget k st'.2 = Some t' & tshape t' = tshape t)].
Proof.
elim: us st => [|u us IH] st /=; first by move=> _ [<-]; split=> // k t; exists t.
move=> hn; have hn' k t : ~ List.In (USet k t) us by move=> h; apply: (hn k t); right.
case: u hn => [k t|k t|k t] hn /=; last by case: (hn k t); left.
  case E : accumulate => [d|e] //= /IH; case=> // /= h1 h2 h3 h4; have [h5 [t1 h6 h7]] := accumulate_keeps E.
  split=> //; first exact: keeps_trans h5 h1.
  - move=> k' t' [[<- <-]|/h3 //]; have [t2 h8 h9] := h1 _ _ h6; exists t2 => //; by rewrite h9.
  by move=> k' t' [//|/h4].
case E : accumulate => [d|e] //= /IH; case=> // /= h1 h2 h3 h4; have [h5 [t1 h6 h7]] := accumulate_keeps E.
split=> //; first exact: keeps_trans h5 h2.
- by move=> k' t' [//|/h3].
move=> k' t' [[<- <-]|/h4 //]; have [t2 h8 h9] := h2 _ _ h6; exists t2 => //; by rewrite h9.
Qed.

Lemma sum_Permutation (A : Type) (f : A -> R) (s s' : seq A) : Permutation s s' -> \sum_(a <- s) f a = \sum_(a <- s') f a.
Proof.
elim=> //= [x l l' _ IH|x y l|l1 l2 l3 _ h1 _ h2]; rewrite ?big_cons ?IH //; last by rewrite h1.
by rewrite addrCA.
Qed.
Lemma has_Permutation (A : Type) (f : A -> bool) (s s' : seq A) : Permutation s s' -> has f s = has f s'.
Proof.
elim=> //= [x l l' _ IH|x y l|l1 l2 l3 _ h1 _ h2]; rewrite ?IH //; last by rewrite h1.
by rewrite orbCA.
Qed.
End Runs.
