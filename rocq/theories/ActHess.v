(* The tape of a forward pass through torch.nn.Sequential, and the loss as a function
   of one of its activations. *)
From Coq Require Import Reals String.
From Coquelicot Require Import Coquelicot.
From mathcomp Require Import all_ssreflect all_algebra.
From Verif Require Import PyPrelude Tensor Spec TorchBase Submatrix RInst Calculus Curvature HessGGN OpSpec Activation ActivationProof.
Set Implicit Arguments.
Unset Strict Implicit.
Unset Printing Implicit Defensive.
Import GRing.Theory.
Local Open Scope ring_scope.

Local Notation tens := (tensor R).

(* ---- left-to-right scans ---- *)
Section Scan.
Variables (A B : Type) (g : seq B -> A -> B).
Definition scan (acc : seq B) (t : seq A) : seq B := foldl (fun vs o => rcons vs (g vs o)) acc t.
Lemma scan_cat acc t1 t2 : scan acc (t1 ++ t2) = scan (scan acc t1) t2.
Proof. by rewrite /scan foldl_cat. Qed.
Lemma size_scan acc t : size (scan acc t) = (size acc + size t)%N.
Proof. by elim: t acc => [|o t IH] acc /=; rewrite ?addn0 // IH size_rcons addSnnS. Qed.
Lemma nth_scan d acc t i : (i < size acc)%N -> nth d (scan acc t) i = nth d acc i.
Proof. by elim: t acc => [|o t IH] acc h //=; rewrite IH ?nth_rcons ?h // size_rcons (leq_trans h). Qed.
Lemma nth_scan_last d acc t o : nth d (scan acc (rcons t o)) (size acc + size t) = g (scan acc t) o.
Proof. by rewrite -cats1 scan_cat /= nth_rcons size_scan ltnn eqxx. Qed.
End Scan.

(* ---- the tape only grows ---- *)
Lemma outcome_grows A uh (p : prog A) t : exists t', (outcome uh p t).1 = t ++ t'.
Proof.
elim: p t => [a|e|o k IH|m ins out k IH] t /=; try by exists [::]; rewrite cats0.
  by have [t' ->] := IH (size t) (rcons t o); exists (o :: t'); rewrite cat_rcons.
exact: IH.
Qed.

Lemma valuesE t : values t = scan node_val [::] t. Proof. by []. Qed.
Lemma nth_values t1 t2 i : (i < size t1)%N -> nth no_tensor (values (t1 ++ t2)) i = nth no_tensor (values t1) i.
Proof. by move=> h; rewrite !valuesE scan_cat nth_scan // size_scan. Qed.

(* ---- torch.nn.Sequential ---- *)

(* a layer: identifier, parameter, shape of the output, and the function from the
   parameter and the input to the output *)
Record layer := Layer { ly_id : nat; ly_param : tens; ly_out : seq nat; ly_fun : seq R -> seq R -> seq R }.
Definition apply_layer (l : layer) (v : seq R) : seq R := ly_fun l (tdata (ly_param l)) v.
Definition leaf (rg : bool) (v : tens) : op := Op (tshape v) [::] rg (fun _ => tdata v).
Definition layer_op (l : layer) (x p : nat) : op :=
  Op (ly_out l) [:: x; p] true (fun vs => ly_fun l (tdata (nth no_tensor vs 1)) (tdata (nth no_tensor vs 0))).

(* Sequential.forward: for module in self: input = module(input) *)
Fixpoint seq_forward (ls : seq layer) (x : nat) (k : nat -> prog arg) : prog arg :=
  match ls with
  | [::] => k x
  | l :: ls' =>
      Compute (leaf true (ly_param l)) (fun p =>
      Compute (layer_op l x p) (fun o =>
      Leave (ly_id l) [:: ATens x] (OTens o) (fun r =>
        match r with
        | Ok (OTens o') => seq_forward ls' o' k
        | Ok _ => Throw TypeError
        | Err e => Throw e
        end)))
  end.
(* the whole module; the input does not require grad *)
Definition sequential (root : nat) (ls : seq layer) (x : tens) : prog arg :=
  Compute (leaf false x) (fun x0 =>
  seq_forward ls x0 (fun y => Leave root [:: ATens x0] (OTens y) (fun r =>
    match r with Ok (OTens y') => Ret (ATens y') | Ok _ => Throw TypeError | Err e => Throw e end))).
(* a loss function of the entries of the prediction *)
Definition loss_prog (Y : Type) (ell : seq R -> Y -> R) (out : arg) (y : Y) : prog arg :=
  match out with
  | ATens o => Compute (Op [::] [:: o] true (fun vs => [:: ell (tdata (nth no_tensor vs 0)) y])) (fun l => Ret (ATens l))
  | AOther => Throw TypeError
  end.

(* what the forward pass of such a network records on the tape (specification) *)
Fixpoint seq_tape (ls : seq layer) (x : nat) : seq op :=
  match ls with
  | [::] => [::]
  | l :: ls' => leaf true (ly_param l) :: layer_op l x x.+1 :: seq_tape ls' x.+2
  end.
Lemma size_seq_tape ls x : size (seq_tape ls x) = (size ls).*2.
Proof. by elim: ls x => //= l ls IH x; rewrite IH. Qed.
Lemma seq_tape_cat ls1 ls2 x : seq_tape (ls1 ++ ls2) x = seq_tape ls1 x ++ seq_tape ls2 (x + (size ls1).*2)%N.
Proof. by elim: ls1 x => [|l ls1 IH] x /=; rewrite ?addn0 // IH doubleS !addnS. Qed.

(* hooks that only look *)
Definition observing (uh : at_exit) : Prop := forall m ins out, uh m ins out = Ok out.

Lemma seq_forward_outcome uh ls x k t : observing uh -> size t = x.+1 ->
  outcome uh (seq_forward ls x k) t = outcome uh (k (x + (size ls).*2)%N) (t ++ seq_tape ls x).
Proof.
move=> hu; elim: ls x t => [|l ls IH] x t ht /=; first by rewrite addn0 cats0.
rewrite hu size_rcons ht IH ?size_rcons ?ht // -!cats1 -!catA /= doubleS !addnS !addSn.
by [].
Qed.

(* the calls of module m in such a forward pass (specification) *)
Fixpoint seq_calls (m : nat) (ls : seq layer) (x : nat) : seq (seq arg * outval) :=
  match ls with
  | [::] => [::]
  | l :: ls' => (if ly_id l == m then [:: ([:: ATens x], OTens x.+2)] else [::]) ++ seq_calls m ls' x.+2
  end.
Lemma seq_forward_calls uh m ls x k : observing uh ->
  calls uh m (seq_forward ls x k) x.+1 = seq_calls m ls x ++ calls uh m (k (x + (size ls).*2)%N) (x + (size ls).*2)%N.+1.
Proof.
move=> hu; elim: ls x => [|l ls IH] x /=; first by rewrite addn0.
by rewrite hu IH -catA doubleS !addnS !addSn.
Qed.

Lemma seq_calls_none m ls x : m \notin [seq ly_id l | l <- ls] -> seq_calls m ls x = [::].
Proof.
elim: ls x => //= l ls IH x; rewrite inE negb_or => /andP[h1 h2].
by rewrite eq_sym (negbTE h1) IH.
Qed.
Lemma seq_calls_nth ls x i l0 : uniq [seq ly_id l | l <- ls] -> (i < size ls)%N ->
  seq_calls (ly_id (nth l0 ls i)) ls x = [:: ([:: ATens (x + i.*2)%N], OTens (x + i.+1.*2)%N)].
Proof.
elim: ls x i => [|l ls IH] x [|i] //= /andP[hl hu] hi.
  by rewrite eqxx seq_calls_none //= addn0 !addnS addn0.
rewrite ifF; last by apply: contraNF hl => /eqP ->; rewrite -(nth_map l0 0%N) // mem_nth ?size_map.
by rewrite IH // !doubleS !addnS !addSn.
Qed.

(* ---- values on the tape ---- *)
Definition through (ls : seq layer) (v : seq R) : seq R := foldl (fun v l => apply_layer l v) v ls.

(* a scan over the tape that evaluates the nodes as usual from vs on *)
Section Eval.
Variable g : seq tens -> op -> tens.
Variable n0 : nat.
Hypothesis hg : forall vs o, (n0 <= size vs)%N -> o_diff o -> g vs o = node_val vs o.

Lemma eval_seq ls x vs : size vs = x.+1 -> (n0 <= size vs)%N ->
  tdata (nth no_tensor (scan g vs (seq_tape ls x)) (x + (size ls).*2)%N) = through ls (tdata (nth no_tensor vs x)).
Proof.
elim: ls x vs => [|l ls IH] x vs hs hn; first by rewrite /= addn0.
rewrite [seq_tape _ _]/= -cat1s -[_ :: seq_tape _ _]cat1s catA scan_cat /=.
rewrite doubleS !addnS -!addSn IH ?size_rcons ?hs //; last by rewrite (leq_trans hn) // hs leqW // leqW.
congr through.
rewrite nth_rcons size_rcons hs ltnn eqxx hg ?size_rcons //=; last by rewrite (leq_trans hn) // leqW.
rewrite nth_rcons hs ltnn eqxx hg //= nth_rcons hs ltnS leqnn.
by [].
Qed.
End Eval.

Lemma values_input x t : nth no_tensor (values (leaf false x :: t)) 0 = x.
Proof. by rewrite -cat1s nth_values //; case: x. Qed.

(* the tape of model and loss, split at the layer of interest *)
Section Tape.
Variables (Y : Type) (ell : seq R -> Y -> R) (y : Y) (x : tens) (ls1 ls2 : seq layer) (l : layer).
Local Notation ls := (ls1 ++ l :: ls2).
Definition act_node : nat := (size ls1).*2.+2.
Definition loss_node : nat := (size ls).*2.+1.
Definition loss_op (o : nat) : op := Op [::] [:: o] true (fun vs => [:: ell (tdata (nth no_tensor vs 0)) y]).
Definition full_tape : seq op := rcons (leaf false x :: seq_tape ls 0) (loss_op (size ls).*2).

(* the tape before, at and after the layer whose output is the activation
   (specification) *)
Definition before : seq op := leaf false x :: rcons (seq_tape ls1 0) (leaf true (ly_param l)).
Definition the_op : op := layer_op l (size ls1).*2 (size ls1).*2.+1.
Definition rest : seq op := rcons (seq_tape ls2 act_node) (loss_op (size ls).*2).

Lemma full_tapeE : full_tape = before ++ the_op :: rest.
Proof.
rewrite /full_tape /before /the_op /rest seq_tape_cat /= add0n rcons_cat cat_rcons.
by [].
Qed.
Lemma size_before : size before = act_node.
Proof. by rewrite /before /= size_rcons size_seq_tape. Qed.
Lemma loss_nodeE : loss_node = (act_node.+1 + (size ls2).*2)%N.
Proof. by rewrite /loss_node /act_node size_cat /= doubleD doubleS !addnS !addSn. Qed.

Lemma split_rest : before ++ the_op :: seq_tape ls2 act_node = (before ++ [:: the_op]) ++ seq_tape ls2 act_node.
Proof. by rewrite -catA. Qed.

Lemma nth_at (B : Type) (g : seq B -> op -> B) d :
  nth d (scan g [::] full_tape) act_node = g (scan g [::] before) the_op /\
  nth d (scan g [::] full_tape) loss_node = g (scan g [::] (before ++ the_op :: seq_tape ls2 act_node)) (loss_op (size ls).*2).
Proof.
split.
  rewrite full_tapeE -cat1s catA scan_cat nth_scan; last by rewrite size_scan size_cat size_before addn1.
  by rewrite cats1 -size_before -[size before]add0n (nth_scan_last g d [::]).
rewrite full_tapeE /rest -rcons_cons -rcons_cat.
have -> : loss_node = (size (@nil B) + size (before ++ the_op :: seq_tape ls2 act_node))%N.
  by rewrite add0n size_cat size_before /= size_seq_tape loss_nodeE addSnnS.
by rewrite nth_scan_last.
Qed.

Lemma loss_val vs n : nth 0 (tdata (node_val vs (loss_op n))) 0 = ell (tdata (nth no_tensor vs n)) y.
Proof. by []. Qed.

(* the loss as a function of the activation *)
Lemma scalar_of_act z : scalar_of full_tape loss_node act_node z =
  ell (through ls2 (mkseq z (numel (ly_out l)))) y.
Proof.
rewrite /scalar_of /values_at.
pose g vs o := if size vs == act_node then Tensor (o_shape o) (mkseq z (numel (o_shape o)))
  else if o_diff o then node_val vs o else nth no_tensor (values full_tape) (size vs).
rewrite -/(scan g [::] full_tape); have [_ ->] := nth_at g no_tensor.
have hg vs o : (act_node < size vs)%N -> o_diff o -> g vs o = node_val vs o.
  by move=> h1 h2; rewrite /g h2; case: eqP h1 => // ->; rewrite ltnn.
rewrite hg //; last first.
  by rewrite size_scan add0n size_cat size_before /= size_seq_tape -addSnnS leq_addr.
rewrite split_rest scan_cat loss_val.
have -> : (size ls).*2 = (act_node + (size ls2).*2)%N.
  by rewrite /act_node size_cat /= doubleD doubleS !addnS !addSn.
have sz : size (scan g [::] (before ++ [:: the_op])) = act_node.+1.
  by rewrite size_scan size_cat size_before addn1.
rewrite (@eval_seq g act_node.+1 hg) ?sz //; congr (ell (through _ _) _).
rewrite cats1 -size_before -[size before]add0n nth_scan_last {1}/g size_scan add0n size_before eqxx.
by [].
Qed.

Lemma act_value : nth no_tensor (values full_tape) act_node =
  Tensor (ly_out l) (apply_layer l (through ls1 (tdata x))).
Proof.
rewrite valuesE; have [-> _] := nth_at node_val no_tensor; rewrite /node_val /=; congr Tensor.
rewrite -cats1 scan_cat /=.
set vs := scan _ _ _.
have sv : size vs = (size ls1).*2.+1 by rewrite size_scan size_seq_tape.
rewrite !nth_rcons sv ltnn eqxx ltnSn /=.
have -> : nth no_tensor vs (size ls1).*2 = nth no_tensor vs (0 + (size ls1).*2) by [].
by rewrite (@eval_seq node_val 0%N) //= /apply_layer.
Qed.

Lemma entries_of_act : entries_of full_tape act_node = nth 0 (through (rcons ls1 l) (tdata x)).
Proof. by rewrite /entries_of act_value /= /through foldl_rcons. Qed.
Lemma shape_of_act : shape_of full_tape act_node = ly_out l.
Proof. by rewrite /shape_of act_value. Qed.

(* flags *)
Lemma flags (g : seq bool -> op -> bool) n0 :
  (forall fs o, (n0 <= size fs)%N -> o_diff o -> has (nth false fs) (o_args o) -> g fs o) ->
  forall lsx xn fs, size fs = xn.+1 -> (n0 <= size fs)%N -> nth false fs xn ->
  nth false (scan g fs (seq_tape lsx xn)) (xn + (size lsx).*2).
Proof.
move=> hg; elim=> [|l' lsx IH] xn fs hs hn hx; first by rewrite /= addn0.
rewrite /= doubleS !addnS -!addSn; apply: IH.
- by rewrite !size_rcons hs.
- by rewrite !size_rcons (leq_trans hn) // leqW.
rewrite nth_rcons size_rcons hs ltnn eqxx; apply: hg => //=.
  by rewrite size_rcons leqW.
by rewrite nth_rcons hs ltnSn hx.
Qed.

Lemma act_requires_grad : nth false (requires_grad full_tape) act_node.
Proof.
pose g fs o := o_diff o && (nilp (o_args o) || has (nth false fs) (o_args o)).
rewrite -[requires_grad _]/(scan g [::] full_tape); have [-> _] := nth_at g false.
rewrite {1}/g [o_diff _]/= andTb; apply/orP; right; rewrite [has _ _]/= orbF; apply/orP; right.
rewrite -cats1 scan_cat /=; set fs := scan _ _ _.
have sv : size fs = (size ls1).*2.+1 by rewrite size_scan /= size_seq_tape.
by rewrite nth_rcons sv ltnn eqxx.
Qed.

Lemma loss_flag (g : seq bool -> op -> bool) :
  (forall fs o, (act_node < size fs)%N -> o_diff o -> has (nth false fs) (o_args o) -> g fs o) ->
  nth false (scan g [::] full_tape) act_node -> nth false (scan g [::] full_tape) loss_node.
Proof.
move=> hg ha; have [e1 ->] := nth_at g false; move: ha; rewrite e1 => ha.
rewrite split_rest scan_cat.
move: (size_before) ha; move: before => B0 sB ha.
have sz : size (scan g [::] (B0 ++ [:: the_op])) = act_node.+1.
  by rewrite size_scan size_cat sB addn1.
have hg' := hg; apply: hg'; [|by []|].
  by rewrite size_scan sz ltn_addr.
rewrite /= orbF.
have -> : (size ls).*2 = (act_node + (size ls2).*2)%N.
  by rewrite /act_node size_cat /= doubleD doubleS !addnS !addSn.
apply: (@flags g act_node.+1 hg); rewrite ?sz //.
by rewrite cats1 -sB -[size B0]add0n nth_scan_last.
Qed.

Lemma loss_requires_grad : nth false (requires_grad full_tape) loss_node.
Proof.
apply: loss_flag act_requires_grad => fs o _ -> h /=.
by rewrite h orbT.
Qed.
Lemma loss_depends : nth false (depends_on act_node full_tape) loss_node.
Proof.
apply: loss_flag => [fs o _ -> h|] /=; first by rewrite h orbT.
set g := fun fs o => _; have [-> _] := nth_at g false.
by rewrite {1}/g size_scan add0n size_before eqxx.
Qed.

Lemma tape_grad_act : tape_grad full_tape loss_node act_node =
  Ok (autograd [:: Param 0 (ly_out l)] (scalar_of full_tape loss_node act_node)).
Proof.
rewrite /tape_grad loss_requires_grad act_requires_grad loss_depends shape_of_act.
rewrite /shape_of valuesE; have [_ ->] := nth_at node_val no_tensor.
by [].
Qed.
End Tape.

(* ---- the forward pass of a Sequential with loss ---- *)
Section Pass.
Variables (Y : Type) (ell : seq R -> Y -> R) (y : Y) (root : nat) (ls : seq layer) (x : tens) (uh : at_exit).
Hypothesis hu : observing uh.
Local Notation n2 := (size ls).*2.

Lemma sequential_outcome : outcome uh (sequential root ls x) [::] = (leaf false x :: seq_tape ls 0, Ok (ATens n2)).
Proof. by rewrite /sequential /= seq_forward_outcome //= hu. Qed.

Lemma sequential_outcome2 : outcome2 uh (sequential root ls x) (loss_prog ell^~ y) =
  (rcons (leaf false x :: seq_tape ls 0) (loss_op ell y n2), Ok (ATens n2.+1)).
Proof. by rewrite /outcome2 sequential_outcome /= size_seq_tape. Qed.

Lemma sequential_calls m : calls uh m (sequential root ls x) 0 =
  seq_calls m ls 0 ++ (if root == m then [:: ([:: ATens 0], OTens n2)] else [::]).
Proof. by rewrite /sequential /= seq_forward_calls //= hu /= cats0. Qed.

Lemma sequential_calls2 m : calls2 uh m (sequential root ls x) (loss_prog ell^~ y) = calls uh m (sequential root ls x) 0.
Proof. by rewrite /calls2 sequential_outcome /= cats0. Qed.
End Pass.
