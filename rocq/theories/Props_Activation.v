(* C70-C72, C76: the activation Hessian. *)
From Coq Require Import Reals String.
From Coquelicot Require Import Coquelicot.
From mathcomp Require Import all_ssreflect all_algebra.
From Verif Require Import PyPrelude Tensor Spec TorchBase Submatrix RInst Calculus Curvature HessGGN OpSpec Activation ActivationProof.
Set Implicit Arguments.
Unset Strict Implicit.
Unset Printing Implicit Defensive.
Import GRing.Theory.
Local Open Scope ring_scope.

(* ---------------------------------------------------------------- C70 *)
Section Hooks.
Variables (X Y : Type).

(* What a user does: construct an operator, read its shape, multiply with it; each
   time with the model, loss, data and modules as they are then.  Forward passes are
   arbitrary programs, which raise wherever they like. *)
Inductive use :=
  | Construct of (X -> nat) & (X -> bool) & seq (string * nat) & (X -> prog arg) & activation & seq (X * Y)
  | Shape of seq (string * nat) & (X -> prog arg) & activation & seq (X * Y)
  | Multiply of (X -> nat) & seq (string * nat) & (X -> prog arg) & (arg -> Y -> prog arg) & reduction &
      act_operator & seq (X * Y) & pyval R.
Definition after (u : use) (w : world) : world :=
  match u with
  | Construct bs im paths mf act data => (act_init bs im paths mf w act data).1
  | Shape paths mf act data => (get_out_shape paths mf w act data).1
  | Multiply bs paths mf lf red A data V => (act_matmul bs paths mf lf red w A data V).1
  end.

Lemma after_same u w : ids_below w -> w_hooks (after u w) = w_hooks w /\ ids_below (after u w).
Proof.
move=> hw; case: u => [bs im paths mf act data|paths mf act data|bs paths mf lf red A data V] /=.
- rewrite /act_init; case: data => [|b [|b' data]] //; case: (im b.1) => //.
  have := get_out_shape_same paths mf act [:: b] hw.
  by case: (get_out_shape _ _ _ _ _).
- exact: get_out_shape_same.
- rewrite /act_matmul; case: (check_input_and_preprocess _ _) => // q.
  have := act_loop_same bs paths mf lf red (ao_act A) (ao_N A) data q.1.1.1 [seq zeros_like m | m <- q.1.1.1] hw.
  by rewrite /act_matmat; case: (act_loop _ _ _ _ _ _ _ _ _ _ _).
Qed.

Theorem C70_hooks_restored (us : seq use) w : ids_below w ->
  w_hooks (foldl (fun w u => after u w) w us) = w_hooks w.
Proof.
elim: us w => //= u us IH w hw; have [h1 h2] := after_same u hw.
by rewrite IH.
Qed.

(* in particular nothing is left when a forward pass raises *)
Theorem C70_failing_forward (paths : seq (string * nat)) mf (lf : arg -> Y -> prog arg) w act (b : X * Y) M e : ids_below w ->
  (act_batch paths mf lf w act b M).2 = Err e ->
  w_hooks (act_batch paths mf lf w act b M).1 = w_hooks w.
Proof. by move=> hw _; have [] := act_batch_same paths mf lf act b M hw. Qed.
End Hooks.
Print Assumptions C70_hooks_restored.
Print Assumptions C70_failing_forward.

(* ---------------------------------------------------------------- C71 *)
Section Init.
Variables (X Y : Type) (batch_size : X -> nat) (is_mapping : X -> bool) (paths : seq (string * nat)) (mf : X -> prog arg).

Theorem C71_number_of_batches w act (data : seq (X * Y)) :
  (size data = 0%N -> act_init batch_size is_mapping paths mf w act data = (w, Err StopIteration)) /\
  ((1 < size data)%N -> act_init batch_size is_mapping paths mf w act data = (w, Err ValueError)).
Proof. by case: data => [|b [|b' data]]. Qed.

(* one batch is accepted as far as the number of batches goes: the outcome is that
   of the forward pass *)
Theorem C71_single_batch w act (b : X * Y) : is_mapping b.1 = false ->
  (act_init batch_size is_mapping paths mf w act [:: b]).2 =
  (let! S := (get_out_shape paths mf w act [:: b]).2 in Ok (ActOp act (batch_size b.1) S)).
Proof. by move=> h; rewrite /act_init h; case: (get_out_shape _ _ _ _ _). Qed.

(* not exactly as claimed: a single batch whose X is a mapping, which the type
   annotation allows, is rejected with a ValueError, too *)
Theorem C71_mapping_refuted w act (b : X * Y) : is_mapping b.1 ->
  act_init batch_size is_mapping paths mf w act [:: b] = (w, Err ValueError).
Proof. by move=> h; rewrite /act_init h. Qed.
End Init.
Print Assumptions C71_number_of_batches.
Print Assumptions C71_single_batch.
Print Assumptions C71_mapping_refuted.

(* ---------------------------------------------------------------- C72 *)

(* x is element i of the Python sequence s (negative: from the end) *)
Definition at_index (T : Type) (s : seq T) (i : int) (x : T) : Prop :=
  exists2 k, (k < size s)%N /\ (i = k%:Z \/ i = k%:Z - (size s)%:Z) & forall x0, nth x0 s k = x.
(* x is the requested tensor of a call with inputs ins and output out *)
Definition requested (io : string) (idx : int) (ins : seq arg) (out : outval) (x : arg) : Prop :=
  if String.eqb io "input" then at_index ins idx x
  else match out with
       | OTens n => idx = 0 /\ x = ATens n
       | OTuple s => at_index s idx x
       | OOther _ => False
       end.

Lemma drop_head (T : Type) (s : seq T) k : (k < size s)%N -> exists2 x, ohead (drop k s) = Some x & forall x0, nth x0 s k = x.
Proof.
move=> h; case: s h => [|y s] // h; exists (nth y (y :: s) k).
  by rewrite (drop_nth y).
by move=> x0; apply: set_nth_default.
Qed.

Lemma py_getP (T : Type) (s : seq T) i x : py_get s i = Ok x <-> at_index s i x.
Proof.
split.
  case: i => n /=.
    case: (ltnP n (size s)) => h; last by rewrite drop_oversize.
    have [y -> hy] := drop_head h; case=> <-; by exists n => //; split=> //; left.
  case: ltnP => // h.
  have hk : (size s - n.+1 < size s)%N by rewrite ltn_subrL; case: (size s) h.
  have [y -> hy] := drop_head hk; case=> <-; exists (size s - n.+1)%N => //; split=> //; right.
  by rewrite -subzn // NegzE addrAC subrr add0r.
case=> k [hk [->|->]] hx.
  by rewrite /=; have [y -> hy] := drop_head hk; case: (s) hk hx hy => // z s' _ hx hy; rewrite -(hx z) -(hy z).
have -> : k%:Z - (size s)%:Z = Negz (size s - k).-1.
  by rewrite NegzE prednK ?subn_gt0 // -subzn 1?ltnW // opprB.
rewrite /= prednK ?subn_gt0 // leq_subr subKn 1?ltnW //.
by have [y -> hy] := drop_head hk; case: (s) hk hx hy => // z s' _ hx hy; rewrite -(hx z) -(hy z).
Qed.

Theorem C72_item io idx ins out : io = "input"%string \/ io = "output"%string ->
  (forall x, hook_item io idx ins out = Ok x <-> requested io idx ins out x) /\
  (io = "output"%string -> (exists n, out = OTens n) -> idx != 0 -> hook_item io idx ins out = Err ValueError).
Proof.
case=> ->; rewrite /hook_item /requested /=; split=> [x|//]; first exact: py_getP.
  case: out => [n|s|e] /=; last by [].
    case: eqP => [->|ne] /=; first by split=> [[<-]|[_ ->]].
    by split=> // -[].
  exact: py_getP.
by move=> _ [n ->] /= ->.
Qed.
Print Assumptions C72_item.

(* what is rejected *)
Definition module_names (paths : seq (string * nat)) : seq string := [seq p.1 | p <- named_modules paths].
Theorem C72_rejected (T : Type) w paths name io idx d (body : world -> world * res T) :
  ~ List.In name (module_names paths) \/ (io <> "input"%string /\ io <> "output"%string) \/ nth [::] (w_lists w) d <> [::] ->
  with_store w paths name io idx d body = (w, Err ValueError).
Proof.
rewrite /with_store /store_init.
have nm : has (fun p : string * nat => String.eqb p.1 name) (named_modules paths) -> List.In name (module_names paths).
  rewrite /module_names; elim: (named_modules paths) => //= p s IH.
  by case/orP=> [/String.eqb_eq|/IH]; [left|right].
case: (has _ _) nm => //= nm; case=> [h|]; first by case: h; apply: nm.
case=> [[h1 h2]|h].
  by move/String.eqb_neq: h1 => ->; move/String.eqb_neq: h2 => ->.
case: (String.eqb io "input" || String.eqb io "output") => //=.
by case: (nth _ _ _) h.
Qed.
Print Assumptions C72_rejected.

(* known names, types and an empty destination are accepted *)
Theorem C72_accepted paths name io : List.In name (module_names paths) ->
  io = "input"%string \/ io = "output"%string -> store_init paths name io [::] = Ok tt.
Proof.
move=> h hio; rewrite /store_init.
have -> : has (fun p : string * nat => String.eqb p.1 name) (named_modules paths).
  move: h; rewrite /module_names; elim: (named_modules paths) => //= p s IH [<-|/IH ->]; last by rewrite orbT.
  by rewrite String.eqb_refl.
by case: hio => ->.
Qed.
Print Assumptions C72_accepted.

(* The accepted names, from the paths of the module tree: those that lead to a module that
   no earlier path leads to.  A second name of a shared module is rejected. *)
Lemma In_named p (ps acc : seq (string * nat)) :
  List.In p (foldl (fun acc p => if p.2 \in [seq q.2 | q <- acc] then acc else rcons acc p) acc ps) <->
  List.In p acc \/ exists s1 s2, [/\ ps = s1 ++ p :: s2, p.2 \notin [seq q.2 | q <- acc] & p.2 \notin [seq q.2 | q <- s1]].
Proof.
elim: ps acc => [|q ps IH] acc /=.
  by split=> [|[//|[[|? ?] [? []]]]]; [left | |].
rewrite IH; case: ifP => hq.
  split=> [[h|[s1 [s2 [e h1 h2]]]]|[h|[[|q' s1] [s2 [e h1 h2]]]]]; try by left.
  - right; exists (q :: s1), s2; split=> //; first by rewrite e.
    by rewrite inE negb_or h2 andbT; apply: contraNneq h1 => ->.
  - by case: e h1 => <- _; rewrite hq.
  - right; exists s1, s2; case: e => _ ->; split=> //.
    by move: h2; rewrite inE negb_or => /andP[].
have inr : List.In p (rcons acc q) <-> List.In p acc \/ q = p.
  by rewrite -cats1 List.in_app_iff /=; tauto.
rewrite inr; split=> [[[h|h]|[s1 [s2 [e h1 h2]]]]|[h|[[|q' s1] [s2 [e h1 h2]]]]].
- by left.
- by right; exists [::], ps; rewrite -h hq.
- move: h1; rewrite map_rcons mem_rcons inE negb_or => /andP[h0 h1].
  by right; exists (q :: s1), s2; rewrite e; split=> //; rewrite inE negb_or h0.
- by left; left.
- by case: e => <- _; left; right.
- case: e h2 => <- -> /=; rewrite inE negb_or => /andP[h0 h2].
  by right; exists s1, s2; split=> //; rewrite map_rcons mem_rcons inE negb_or h0.
Qed.
Theorem C72_known_names paths name io : io = "input"%string \/ io = "output"%string ->
  store_init paths name io [::] = Ok tt <->
  exists s1 m s2, paths = s1 ++ (name, m) :: s2 /\ m \notin [seq p.2 | p <- s1].
Proof.
move=> hio; have nm : List.In name (module_names paths) <-> exists s1 m s2, paths = s1 ++ (name, m) :: s2 /\ m \notin [seq p.2 | p <- s1].
  rewrite /module_names -[map _ _]/(List.map _ _) List.in_map_iff; split.
    case=> -[n m] [/= -> /In_named[//|[s1 [s2 [e _ h]]]]]; by exists s1, m, s2.
  by case=> s1 [m [s2 [e h]]]; exists (name, m); split=> //; apply/In_named; right; exists s1, s2.
rewrite -nm; split=> [h|h]; last exact: C72_accepted.
move: h; rewrite /store_init /module_names; elim: (named_modules paths) => [//|p ps IH] /=.
case e: (String.eqb p.1 name); first by move/String.eqb_eq: e; left.
by move=> h; right; apply: IH.
Qed.
Print Assumptions C72_known_names.
(* The module that is watched is the one of that path (the names of a model's modules differ). *)
Theorem C72_watched_module s1 name m s2 : ~ List.In name [seq p.1 | p <- s1] ->
  get_submodule (s1 ++ (name, m) :: s2) name = Ok m.
Proof.
rewrite /get_submodule => h; have -> : [seq p <- s1 ++ (name, m) :: s2 | String.eqb p.1 name] = (name, m) :: [seq p <- s2 | String.eqb p.1 name].
  rewrite filter_cat /= String.eqb_refl; elim: s1 h => [//|p s1 IH] /= h.
  case e: (String.eqb p.1 name); last by apply: IH => hi; apply: h; right.
  by case: h; left; apply/String.eqb_eq.
by [].
Qed.
Print Assumptions C72_watched_module.
Example C72_ex_known_names :
  let paths := [:: (""%string, 0); ("0"%string, 1); ("1"%string, 2); ("2"%string, 1)]%N in
  store_init paths "0" "input" [::] = Ok tt /\ store_init paths "2" "input" [::] = Err ValueError /\
  store_init paths "3" "input" [::] = Err ValueError /\ get_submodule paths "0" = Ok 1%N.
Proof. by []. Qed.

Section Last.
Variables (X Y : Type) (paths : seq (string * nat)) (mf : X -> prog arg) (lf : arg -> Y -> prog arg).
Variables (w : world) (name io : string) (idx : int) (m : nat) (b : X * Y).
Hypotheses (hus : only_users (w_hooks w)) (hw : ids_below w).
Hypotheses (hname : List.In name (module_names paths)) (hio : io = "input"%string \/ io = "output"%string).
Hypothesis (hsub : get_submodule paths name = Ok m).
Local Notation uh := (users (w_hooks w)).
Local Notation the_calls := (calls2 uh m (mf b.1) (lf^~ b.2)).

Lemma requested_all cs : Forall_in (fun c => exists x, requested io idx c.1 c.2 x) cs ->
  Forall_in (fun c => is_ok (hook_item io idx c.1 c.2)) cs.
Proof.
apply: Forall_in_impl => c [x hx]; have [h _] := C72_item idx c.1 c.2 hio.
by move/h: hx => ->.
Qed.

Lemma asking_same2 : Forall_in (fun c => exists x, requested io idx c.1 c.2 x) the_calls ->
  outcome2 (asking m io idx uh) (mf b.1) (lf^~ b.2) = outcome2 uh (mf b.1) (lf^~ b.2) /\
  calls2 (asking m io idx uh) m (mf b.1) (lf^~ b.2) = the_calls.
Proof.
move/requested_all; rewrite /outcome2 /calls2.
case E: (outcome uh (mf b.1) [::]) => [t r] /Forall_in_cat[h1 h2].
have [e1 e2] := @asking_same _ m io idx uh (mf b.1) [::] h1; rewrite e1 E e2.
case: r E h2 => // out E h2.
by have [-> ->] := @asking_same _ m io idx uh (lf out b.2) t h2.
Qed.

(* The tensor the Hessian refers to is the requested input or output of the last
   call of the module.  (Of the calls, all must have the requested element, not only
   the last one.) *)
Theorem C72_last_call t l cs c a M :
  outcome2 uh (mf b.1) (lf^~ b.2) = (t, Ok (ATens l)) -> the_calls = rcons cs c ->
  Forall_in (fun c => exists x, requested io idx c.1 c.2 x) the_calls -> requested io idx c.1 c.2 (ATens a) ->
  (act_batch paths mf lf w (name, io, idx) b M).2 =
    let! g := tape_grad t l a in column_loop (hvp (entries_of t a) [:: Param 0 (shape_of t a)] g) M.
Proof.
move=> ho hc hall hr; have [e1 e2] := asking_same2 hall.
rewrite (act_batchE _ _ _ hus (C72_accepted hname hio) hsub) e1 e2 ho hc /= /last_item rev_rcons.
have [h _] := C72_item idx c.1 c.2 hio; move/h: hr.
by rewrite /item_of => ->.
Qed.

(* a module that is not called has no activation *)
Theorem C72_not_called t l M :
  outcome2 uh (mf b.1) (lf^~ b.2) = (t, Ok l) -> the_calls = [::] ->
  (act_batch paths mf lf w (name, io, idx) b M).2 = Err IndexError.
Proof.
move=> ho hc; have [|e1 e2] := asking_same2; first by rewrite hc.
by rewrite (act_batchE _ _ _ hus (C72_accepted hname hio) hsub) e1 e2 ho hc.
Qed.
End Last.
Print Assumptions C72_last_call.
Print Assumptions C72_not_called.

(* a program that does not catch exceptions of its modules *)
Fixpoint propagates (A : Type) (p : prog A) : Prop :=
  match p with
  | Ret _ | Throw _ => True
  | Compute _ k => forall n, propagates (k n)
  | Leave _ _ _ k => (forall e, k (Err e) = Throw e) /\ forall r, propagates (k r)
  end.

(* index <> 0 for a module that returns single tensors: ValueError, if the module is
   called and the model itself does not raise before *)
Theorem C72_single_tensor_index (X Y : Type) paths (mf : X -> prog arg) (lf : arg -> Y -> prog arg) w name idx m (b : X * Y) M t out :
  only_users (w_hooks w) -> ids_below w -> List.In name (module_names paths) -> get_submodule paths name = Ok m ->
  propagates (mf b.1) -> outcome (users (w_hooks w)) (mf b.1) [::] = (t, Ok out) ->
  calls (users (w_hooks w)) m (mf b.1) 0 <> [::] ->
  Forall_in (fun c : seq arg * outval => exists n, c.2 = OTens n) (calls (users (w_hooks w)) m (mf b.1) 0) -> idx != 0 ->
  (act_batch paths mf lf w (name, "output"%string, idx) b M).2 = Err ValueError.
Proof.
move=> hus hw hn hsub hp ho hc hall hidx.
have hio : "output"%string = "input"%string \/ "output"%string = "output"%string by right.
rewrite (act_batchE _ _ _ hus (C72_accepted hn hio) hsub) /outcome2.
set uh := users _ in ho hc hall *.
suff [t' ->] : exists t', outcome (asking m "output" idx uh) (mf b.1) [::] = (t', Err ValueError) by [].
move: ho hc hall; rewrite -[0%N]/(size (@nil op)).
elim: (mf b.1) [::] hp => [a|e|o k IH|m' ins o k IH] t0 //= hp ho.
  by rewrite -(size_rcons t0 o); apply: IH.
case: hp => hp1 hp2 hc hall.
rewrite {2}/asking; case e: (uh m' ins o) ho hc hall => [o'|e'] /= ho; last by rewrite hp1 in ho.
case: eqP => [em|_] hc hall /=; last by apply: IH.
case: hall => -[n /= ->] _; rewrite /hook_item /= hidx /= hp1; by exists t0.
Qed.
Print Assumptions C72_single_tensor_index.
