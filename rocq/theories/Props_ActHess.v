(* C76: the activation Hessian multiplies with the Hessian of the loss as a function
   of the activation. *)
From Coq Require Import Reals String.
From Coquelicot Require Import Coquelicot.
From mathcomp Require Import all_ssreflect all_algebra.
From Verif Require Import PyPrelude Tensor Spec TorchBase Submatrix RInst Calculus Curvature HessGGN OpSpec
  Activation ActivationProof Props_Activation ActHess.
Set Implicit Arguments.
Unset Strict Implicit.
Unset Printing Implicit Defensive.
Import GRing.Theory.
Local Open Scope ring_scope.

Local Notation tens := (tensor R).

Section Products.
Variables (X Y : Type) (bs : X -> nat) (im : X -> bool) (paths : seq (string * nat)).
Variables (mf : X -> prog arg) (lf : arg -> Y -> prog arg) (red : reduction) (w : world).

(* A @ V for the operator A = ActivationHessianLinearOperator(..., act, data) is the
   product with the matrix H on tensors of shape s *)
Definition act_hessian_is (act : activation) (b : X * Y) (s : seq nat) (H : nat -> nat -> R) : Prop :=
  exists A, [/\ (act_init bs im paths mf w act [:: b]).2 = Ok A, ao_shape A = [:: s] &
    forall l cols (V : pyval R), has_format [:: s] l cols V ->
    exists W, [/\ (act_matmul bs paths mf lf red w A [:: b] V).2 = Ok W, has_format [:: s] l cols W &
      is_product H (numel s) (numel s) (ncols cols) (content V) (content W)]].

Lemma act_matmulE A (b : X * Y) V :
  (act_matmul bs paths mf lf red w A [:: b] V).2 =
  op_matmul (LinOp (ao_shape A) (ao_shape A)
    (base_matmat (fun b => bs b.1) red (ao_N A) [:: b] (fun b M => (act_batch paths mf lf w (ao_act A) b M).2))) V.
Proof.
rewrite /act_matmul /op_matmul /=.
rewrite -[check_input_and_preprocess (LinOp _ _ (base_matmat _ _ _ _ _)) V]/(check_input_and_preprocess (LinOp (ao_shape A) (ao_shape A) (fun M => Ok M)) V).
case: (check_input_and_preprocess _ _) => //= -[[[Xl lf'] iv] nv] /=.
rewrite /act_matmat /base_matmat /=; case: (normalization_factor _ _ _) => //= nf.
case: (act_batch _ _ _ _ _ _ _) => w' r /=; case: r => //= BM.
by case: (adds_alpha _ _ _).
Qed.

Lemma act_hessian_general act (b : X * Y) s H : im b.1 = false -> (0 < bs b.1)%N -> red <> ROther ->
  (get_out_shape paths mf w act [:: b]).2 = Ok [:: s] ->
  multiplies 0 (fun M => (act_batch paths mf lf w act b M).2) [:: s] [:: s] H ->
  act_hessian_is act b s H.
Proof.
move=> hm hb hr hs hmul; exists (ActOp act (bs b.1) [:: s]); split=> //.
  by rewrite C71_single_batch // hs.
move=> l cols V hV; rewrite act_matmulE /=.
have := @base_matmat_multiplies _ (fun b : X * Y => bs b.1) red (bs b.1) [:: b]
  (fun b M => (act_batch paths mf lf w act b M).2) [:: s] (fun _ => H) hr hb (conj hmul I).
move=> hB; have hne : [:: s] <> [::] by [].
have [_ _ hA] := acts_as_multiplies hne hB.
have [W [e1 e2 e3]] := hA l cols V hV; exists W; split=> //.
have t1 : total [:: s] = numel s by rewrite /total /= addn0.
move: e3; rewrite t1 => e3 i k hi hk; rewrite e3 //; apply: eq_bigr => j _; congr (_ * _).
rewrite big_seq1 /nfac; case: (red) => //; rewrite ?mul1r //.
by rewrite divff ?mul1r // natr_neq0.
Qed.

(* a symmetric matrix: <A V, W> = <V, A W> in all formats *)
Definition act_self_adjoint (act : activation) (b : X * Y) (s : seq nat) : Prop :=
  exists A, [/\ (act_init bs im paths mf w act [:: b]).2 = Ok A, ao_shape A = [:: s] &
    forall l l' (V V' : pyval R), has_format [:: s] l None V -> has_format [:: s] l' None V' ->
    exists W W', [/\ (act_matmul bs paths mf lf red w A [:: b] V).2 = Ok W, (act_matmul bs paths mf lf red w A [:: b] V').2 = Ok W' &
      \sum_(i < numel s) nth 0 (content W) i * nth 0 (content V') i = \sum_(i < numel s) nth 0 (content V) i * nth 0 (content W') i]].
Lemma act_symmetric act (b : X * Y) s H : act_hessian_is act b s H ->
  (forall i j, (i < numel s)%N -> (j < numel s)%N -> H i j = H j i) -> act_self_adjoint act b s.
Proof.
move=> [A [a1 a2 a3]] hH; exists A; split=> // l l' V V' hV hV'.
have [W [b1 _ b3]] := a3 _ _ _ hV; have [W' [c1 _ c3]] := a3 _ _ _ hV'; exists W, W'; split=> //.
have eV (i : 'I_(numel s)) : nth 0 (content W) i = \sum_(j < numel s) H i j * nth 0 (content V) j.
  have := b3 i 0%N (ltn_ord i) isT; rewrite /entry !muln1 addn0 => ->.
  by apply: eq_bigr => j _; rewrite !muln1 addn0.
have eV' (i : 'I_(numel s)) : nth 0 (content W') i = \sum_(j < numel s) H i j * nth 0 (content V') j.
  have := c3 i 0%N (ltn_ord i) isT; rewrite /entry !muln1 addn0 => ->.
  by apply: eq_bigr => j _; rewrite !muln1 addn0.
under eq_bigr => i _ do rewrite eV mulr_suml.
under [RHS]eq_bigr => i _ do rewrite eV' mulr_sumr.
rewrite exchange_big; apply: eq_bigr => j _; apply: eq_bigr => i _.
by rewrite hH // [H j i * _]mulrC -!mulrA.
Qed.

(* For any forward pass whose last call of the module delivers tensor a, on which the
   scalar loss l depends with derivatives: the Hessian of the loss with respect to
   that tensor, everything computed from it being recomputed. *)
Theorem C76_any_model act m (b : X * Y) t t' l out cs c a :
  only_users (w_hooks w) -> ids_below w -> List.In act.1.1 (module_names paths) ->
  act.1.2 = "input"%string \/ act.1.2 = "output"%string -> get_submodule paths act.1.1 = Ok m ->
  im b.1 = false -> (0 < bs b.1)%N -> red <> ROther ->
  let uh := users (w_hooks w) in
  outcome uh (mf b.1) [::] = (t, Ok out) -> outcome uh (lf out b.2) t = (t', Ok (ATens l)) ->
  calls uh m (mf b.1) 0 = rcons cs c -> calls uh m (lf out b.2) (size t) = [::] ->
  Forall_in (fun c => exists x, requested act.1.2 act.2 c.1 c.2 x) (rcons cs c) ->
  requested act.1.2 act.2 c.1 c.2 (ATens a) -> (a < size t)%N ->
  numel (shape_of t' l) = 1%N -> nth false (requires_grad t') l -> nth false (requires_grad t') a ->
  nth false (depends_on a t') l ->
  act_hessian_is act b (shape_of t' a) (fun i j => pd j (pd i (scalar_of t' l a)) (entries_of t' a)).
Proof.
case: act => [[name io] idx] /= hus hw hn hio hsub him hbs hr.
set uh := users _ => hm hl hc hlc hall hreq ha h1 h2 h3 h4.
have ec : calls2 uh m (mf b.1) (lf^~ b.2) = rcons cs c by rewrite /calls2 hm hlc cats0.
have eo : outcome2 uh (mf b.1) (lf^~ b.2) = (t', Ok (ATens l)) by rewrite /outcome2 hm hl.
apply: act_hessian_general => //.
  rewrite (get_out_shapeE _ _ hus (C72_accepted hn hio) hsub).
  have hok := requested_all hio hall.
  rewrite -hc in hok; have [e1 e2] := @asking_same _ m io idx uh (mf b.1) [::] hok.
  rewrite e1 hm /= e2 hc /last_item rev_rcons /=.
  have [hi _] := C72_item idx c.1 c.2 hio; have/hi := hreq; rewrite /item_of => -> /=.
  have [t2 e3] := outcome_grows uh (lf out b.2) t; rewrite hl /= in e3.
  by rewrite /shape_of e3 nth_values.
move=> K M hK hM.
have hall2 : Forall_in (fun c => exists x, requested io idx c.1 c.2 x) (calls2 uh m (mf b.1) (lf^~ b.2)) by rewrite ec.
rewrite (C72_last_call hus hn hio hsub M eo ec hall2 hreq) /tape_grad h1 h2 h3 h4 /=.
have hne : [:: shape_of t' a] <> [::] by [].
exact: (@column_loop_multiplies _ _ _ _ hne (@hvp_product (entries_of t' a) 0 [:: shape_of t' a] (scalar_of t' l a)) K M hK hM).
Qed.
End Products.
Print Assumptions C76_any_model.

(* documented formats pass the input checks *)
Lemma format_accepted s l cols (V : pyval R) : has_format [:: s] l cols V ->
  exists q, check_input_and_preprocess (LinOp [:: s] [:: s] (fun M => Ok M)) V = Ok q.
Proof.
have hne : [:: s] <> [::] by [].
have hid : multiplies 0 (fun M : seq tens => Ok M) [:: s] [:: s] (fun i j => (i == j)%:R).
  move=> K M _ hM; exists M; split=> // i k hi hk.
  rewrite (bigD1 (Ordinal hi)) //= eqxx mul1r big1 ?addr0 // => j hj.
  by rewrite (_ : (i == j) = false) ?mul0r //; apply: contraNF hj => /eqP e; apply/eqP/val_inj.
move=> hV; have [W [e _ _]] := @matmul_product _ (LinOp [:: s] [:: s] (fun M => Ok M)) 0 _ l cols V hne hne hid hV (leq0n _).
by move: e; rewrite /op_matmul; case: (check_input_and_preprocess _ _) => // q _; exists q.
Qed.

(* torch.nn.Sequential: the loss of the remaining layers as a function of the output
   of layer i, equally of the input of layer i + 1, equally of the output of the
   whole module if i is the last layer. *)
Section Sequential.
Variables (Y : Type) (ell : seq R -> Y -> R) (y : Y) (root : nat) (ls : seq layer) (x : tens) (l0 : layer).
Variables (bs : tens -> nat) (im : tens -> bool) (paths : seq (string * nat)) (red : reduction) (w : world).
Hypotheses (hus : only_users (w_hooks w)) (hw : ids_below w) (hobs : observing (users (w_hooks w))).
Hypotheses (him : im x = false) (hbs : (0 < bs x)%N) (hred : red <> ROther).
Hypothesis (hids : uniq (root :: [seq ly_id l | l <- ls])).
Local Notation layer_at i := (nth l0 ls i).

Definition names_module (name : string) (m : nat) : Prop :=
  List.In name (module_names paths) /\ get_submodule paths name = Ok m.
Definition selects (i : nat) (act : activation) : Prop :=
  [\/ act.1.2 = "output"%string /\ names_module act.1.1 (ly_id (layer_at i)),
      [/\ act.1.2 = "input"%string, (i.+1 < size ls)%N & names_module act.1.1 (ly_id (layer_at i.+1))] |
      [/\ act.1.2 = "output"%string, i.+1 = size ls & names_module act.1.1 root]].

Theorem C76_sequential i act : (i < size ls)%N -> act.2 = 0 -> selects i act ->
  act_hessian_is bs im paths (sequential root ls) (loss_prog ell) red w act (x, y) (ly_out (layer_at i))
    (fun p q => pd q (pd p (fun z => ell (through (drop i.+1 ls) (mkseq z (numel (ly_out (layer_at i))))) y))
                  (nth 0 (through (take i.+1 ls) (tdata x)))).
Proof.
move=> hi hidx hsel.
pose ls1 := take i ls; pose ls2 := drop i.+1 ls; pose l := layer_at i.
have els : ls = ls1 ++ l :: ls2 by rewrite /ls1 /l /ls2 -drop_nth // cat_take_drop.
have s1 : size ls1 = i by rewrite size_take hi.
have ea : act_node ls1 = i.+1.*2 by rewrite /act_node s1 doubleS.
have et : rcons (leaf false x :: seq_tape ls 0) (loss_op ell y (size ls).*2) = full_tape ell y x ls1 ls2 l.
  by rewrite /full_tape -els.
have el : (size ls).*2.+1 = loss_node ls1 ls2 l by rewrite /loss_node -els.
have ho1 := sequential_outcome root ls x hobs.
have ho2 : outcome (users (w_hooks w)) (loss_prog ell (ATens (size ls).*2) y) (leaf false x :: seq_tape ls 0) =
  (full_tape ell y x ls1 ls2 l, Ok (ATens (loss_node ls1 ls2 l))).
  by rewrite -et -el /= size_seq_tape.
have [hroot huniq] := andP (hids : (_ \notin _) && uniq _).
suff [m [ins [out [hio hm hc hq]]]] : exists m ins out,
   [/\ act.1.2 = "input"%string \/ act.1.2 = "output"%string, names_module act.1.1 m,
       calls (users (w_hooks w)) m (sequential root ls x) 0 = [:: (ins, out)] &
       requested act.1.2 act.2 ins out (ATens (act_node ls1))].
  have [hn hs] := hm.
  have := @C76_any_model _ _ bs im paths (sequential root ls) (loss_prog ell) red w act m (x, y) _ _ _ _ [::] _ _
    hus hw hn hio hs him hbs hred ho1 ho2 hc (erefl _).
  move=> /(_ (act_node ls1)) h; have {}h := h (conj (ex_intro _ _ hq) I) hq.
  have [|||||A [e1 e2 e3]] := h.
  - by rewrite /= size_seq_tape ea ltnS leq_double.
  - rewrite /shape_of valuesE; by have [_ ->] := nth_at ell y x ls1 ls2 l node_val no_tensor.
  - exact: loss_requires_grad.
  - exact: act_requires_grad.
  - exact: loss_depends.
  rewrite shape_of_act in e2 e3; exists A; split=> // lf cols V hV.
  have [W [f1 f2 f3]] := e3 lf cols V hV; exists W; split=> // p k hp hk.
  rewrite f3 //; apply: eq_bigr => q _; congr (_ * _).
  rewrite entries_of_act (_ : rcons ls1 l = take i.+1 ls); last by rewrite (take_nth l0).
  by apply: pd_ext => z; apply: pd_ext => z'; rewrite scalar_of_act.
have cl j : (j < size ls)%N -> calls (users (w_hooks w)) (ly_id (layer_at j)) (sequential root ls x) 0 =
    [:: ([:: ATens j.*2], OTens j.+1.*2)].
  move=> hj; rewrite sequential_calls // (seq_calls_nth _ _ huniq hj) /= !add0n ifF //.
  by apply: contraNF hroot => /eqP ->; rewrite -(nth_map l0 0%N) // mem_nth ?size_map.
rewrite ea hidx; case: hsel => [[e1 e2]|[e1 e2 e3]|[e1 e2 e3]]; rewrite e1.
- exists (ly_id (layer_at i)), [:: ATens i.*2], (OTens i.+1.*2); split=> //; [by right|exact: cl].
- exists (ly_id (layer_at i.+1)), [:: ATens i.+1.*2], (OTens i.+2.*2); split=> //; [by left|exact: cl|].
  by exists 0%N => //; split=> //; left.
- exists root, [:: ATens 0], (OTens (size ls).*2); split=> //; [by right| |].
  + by rewrite sequential_calls // seq_calls_none // eqxx.
  + by rewrite -e2.
Qed.

(* C05: the operator may return itself as its adjoint if the loss has continuous second
   derivatives in the activation *)
Theorem C05_activation_hessian_self_adjoint i act : (i < size ls)%N -> act.2 = 0 -> selects i act ->
  C2_at (numel (ly_out (layer_at i))) (fun z => ell (through (drop i.+1 ls) (mkseq z (numel (ly_out (layer_at i))))) y)
    (nth 0 (through (take i.+1 ls) (tdata x))) ->
  act_self_adjoint bs im paths (sequential root ls) (loss_prog ell) red w act (x, y) (ly_out (layer_at i)).
Proof.
move=> hi h0 hs h2; apply: act_symmetric (C76_sequential hi h0 hs) _ => p q hp hq; exact: (pd_symm hp hq h2).
Qed.

(* The network's input does not require grad: constructing the operator works, but
   every product raises. *)
Theorem C76_network_input_refuted act : (0 < size ls)%N -> act = (act.1.1, "input"%string, 0) ->
  names_module act.1.1 (ly_id (layer_at 0)) \/ names_module act.1.1 root ->
  exists A, [/\ (act_init bs im paths (sequential root ls) w act [:: (x, y)]).2 = Ok A,
    ao_shape A = [:: tshape x] &
    forall V l cols, has_format [:: tshape x] l cols V ->
    (act_matmul bs paths (sequential root ls) (loss_prog ell) red w A [:: (x, y)] V).2 = Err RuntimeError].
Proof.
case: act => [[name io] idx] hl [-> ->] hm; rewrite -[(name, _, _).1.1]/name in hm.
have hio : "input"%string = "input"%string \/ "input"%string = "output"%string by left.
have [hroot huniq] := andP (hids : (_ \notin _) && uniq _).
have [m [out [[hn hs] hc]]] : exists m out, names_module name m /\
    calls (users (w_hooks w)) m (sequential root ls x) 0 = [:: ([:: ATens 0], out)].
  case: hm => hm; [exists (ly_id (layer_at 0)), (OTens 2) | exists root, (OTens (size ls).*2)]; split=> //.
    rewrite sequential_calls // (seq_calls_nth _ _ huniq hl) /= !add0n ifF //.
    by apply: contraNF hroot => /eqP ->; rewrite -(nth_map l0 0%N) // mem_nth ?size_map.
  by rewrite sequential_calls // seq_calls_none // eqxx.
have req : requested "input" 0 [:: ATens 0] out (ATens 0) by exists 0%N => //; split=> //; left.
have hok : Forall_in (fun c => is_ok (hook_item "input" 0 c.1 c.2)) (calls (users (w_hooks w)) m (sequential root ls x) (size (@nil op))).
  by rewrite hc.
have [e1 e2] := asking_same hok.
exists (ActOp (name, "input"%string, 0) (bs x) [:: tshape x]); split; [|by []|].
  rewrite C71_single_batch // (get_out_shapeE _ _ hus (C72_accepted hn hio) hs) e1 [calls (asking _ _ _ _) _ _ _]e2 hc sequential_outcome //.
  by rewrite /= /shape_of values_input.
have eb b M : b = (x, y) -> (act_batch paths (sequential root ls) (loss_prog ell) w (name, "input"%string, 0) b M).2 = Err RuntimeError.
  move=> ->; have hc2 : calls2 (users (w_hooks w)) m (sequential root ls x) ((loss_prog ell)^~ y) = rcons [::] ([:: ATens 0], out).
    by rewrite sequential_calls2 // hc.
  have ha2 : Forall_in (fun c => exists z, requested "input" 0 c.1 c.2 z) (calls2 (users (w_hooks w)) m (sequential root ls x) ((loss_prog ell)^~ y)).
    by rewrite hc2 /=; split=> //; exists (ATens 0).
  rewrite (C72_last_call (b := (x, y)) hus hn hio hs M (sequential_outcome2 ell y root ls x hobs) hc2 ha2 req).
  rewrite /tape_grad; case: (numel _ != 1%N) => //=; case: (~~ _) => //=.
  rewrite (_ : nth false (requires_grad _) 0 = false) //.
  pose g fs o := o_diff o && (nilp (o_args o) || has (nth false fs) (o_args o)).
  rewrite -rcons_cons -[requires_grad _]/(scan g [::] _) -cat1s rcons_cat scan_cat nth_scan //.
move=> V l cols hV; rewrite act_matmulE /op_matmul.
have [q hq] := format_accepted hV.
rewrite -[check_input_and_preprocess _ V]/(check_input_and_preprocess (LinOp [:: tshape x] [:: tshape x] (fun M => Ok M)) V) hq.
case: q {hq} => [[[Xl lf] iv] nv] /=; rewrite /base_matmat /= normalization_ok //= eb //.
Qed.
End Sequential.
Print Assumptions C76_sequential.
Print Assumptions C05_activation_hessian_self_adjoint.
Print Assumptions C76_network_input_refuted.
