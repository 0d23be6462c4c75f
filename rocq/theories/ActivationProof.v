(* Facts about forward passes with hooks. *)
From Coq Require Import Reals String.
From Coquelicot Require Import Coquelicot.
From mathcomp Require Import all_ssreflect all_algebra.
From Verif Require Import PyPrelude Tensor Spec TorchBase Submatrix RInst Calculus Curvature HessGGN OpSpec Activation.
Set Implicit Arguments.
Unset Strict Implicit.
Unset Printing Implicit Defensive.
Import GRing.Theory.
Local Open Scope ring_scope.

Definition ids_below (w : world) : Prop := all (fun p => p.1 < w_next w)%N (w_hooks w).

(* forward passes neither install nor remove hooks *)
Lemma run_hooks_same hs m ins out w :
  w_hooks (run_hooks hs m ins out w).1 = w_hooks w /\ w_next (run_hooks hs m ins out w).1 = w_next w.
Proof.
elim: hs out w => [|[i [m' h]] hs IH] out w //=; case: eqP => // _; case: h => [f|io idx d].
  by case: (f ins out).
by case: (hook_item _ _ _ _) => [x|e] //; case: (IH out (World (w_hooks w) (w_next w) (set_nth [::] (w_lists w) d (rcons (nth [::] (w_lists w) d) x)))).
Qed.

Lemma run_same A (p : prog A) w t :
  w_hooks (run p w t).1.1 = w_hooks w /\ w_next (run p w t).1.1 = w_next w.
Proof.
elim: p w t => [a|e|o k IH|m ins out k IH] w t //=.
have [h1 h2] := run_hooks_same (w_hooks w) m ins out w.
case: (run_hooks _ _ _ _ _) h1 h2 => w' r /= <- <-; exact: IH.
Qed.

Lemma remove_fresh (hs : seq (nat * (nat * hook))) n x : all (fun p => p.1 < n)%N hs ->
  [seq p <- rcons hs (n, x) | p.1 != n] = hs.
Proof.
move=> h; rewrite -cats1 filter_cat /= eqxx cats0; apply/all_filterP.
by apply: sub_all h => p; rewrite ltn_neqAle => /andP[].
Qed.

Lemma with_store_same T w paths name io idx d (body : world -> world * res T) :
  ids_below w ->
  (forall w, w_hooks (body w).1 = w_hooks w /\ w_next (body w).1 = w_next w) ->
  w_hooks (with_store w paths name io idx d body).1 = w_hooks w /\ ids_below (with_store w paths name io idx d body).1.
Proof.
move=> hw hb; rewrite /with_store; case: (store_init _ _ _ _) => // _; case: (get_submodule _ _) => // m.
have [h1 h2] := hb (register w m (Store io idx d)); case: (body _) h1 h2 => w' r /= h1 h2.
rewrite h1 remove_fresh //; split=> //; rewrite /ids_below /= h1 remove_fresh // h2.
by apply: sub_all hw => p /leqW.
Qed.

Section Ops.
Variables (X Y : Type) (batch_size : X -> nat) (is_mapping : X -> bool) (paths : seq (string * nat)).
Variables (model_func : X -> prog arg) (loss_func : arg -> Y -> prog arg) (red : reduction).

Lemma get_out_shape_same w act (data : seq (X * Y)) : ids_below w ->
  let w' := (get_out_shape paths model_func w act data).1 in w_hooks w' = w_hooks w /\ ids_below w'.
Proof.
move=> hw; case: data => [|b data] //=.
set body := (fun w0 => _).
have := @with_store_same _ (World (w_hooks w) (w_next w) (rcons (w_lists w) [::])) paths act.1.1 act.1.2 act.2 (size (w_lists w)) body hw.
case: (with_store _ _ _ _ _ _ _) => w2 r /=; apply=> w0; rewrite /body.
by have := run_same (model_func b.1) w0 [::]; case: (run _ _ _) => [[w' t] r'].
Qed.

Lemma act_batch_same w act (b : X * Y) M : ids_below w ->
  let w' := (act_batch paths model_func loss_func w act b M).1 in w_hooks w' = w_hooks w /\ ids_below w'.
Proof.
move=> hw; rewrite /act_batch /=; set body := (fun w0 => _).
have := @with_store_same _ (World (w_hooks w) (w_next w) (rcons (w_lists w) [::])) paths act.1.1 act.1.2 act.2 (size (w_lists w)) body hw.
case: (with_store _ _ _ _ _ _ _) => w2 r /=; apply=> w0; rewrite /body.
have := run_same (model_func b.1) w0 [::]; case: (run _ _ _) => [[w' t] [out|e]] //= [<- <-].
by have := run_same (loss_func out b.2) w' t; case: (run _ _ _) => [[w'' t'] r'].
Qed.

Lemma act_loop_same w act N (data : seq (X * Y)) M AM : ids_below w ->
  let w' := (act_loop batch_size paths model_func loss_func red w act N data M AM).1 in w_hooks w' = w_hooks w /\ ids_below w'.
Proof.
elim: data w AM => [|b data IH] w AM hw //=; case: (normalization_factor _ _ _) => // nf.
have := act_batch_same act b M hw; case: (act_batch _ _ _ _ _ _ _) => w' r /= [e1 h1].
by case: (bind r _) => // AM'; rewrite -e1; apply: IH.
Qed.
End Ops.

(* ---- what a forward pass does, without reference to torch's hook machinery ---- *)

(* the effect of all hooks at the end of a call of module m *)
Definition at_exit := nat -> seq arg -> outval -> res outval.

(* tape and outcome of a forward pass *)
Fixpoint outcome (A : Type) (uh : at_exit) (p : prog A) (t : seq op) : seq op * res A :=
  match p with
  | Ret a => (t, Ok a)
  | Throw e => (t, Err e)
  | Compute o k => outcome uh (k (size t)) (rcons t o)
  | Leave m ins out k => outcome uh (k (uh m ins out)) t
  end.
(* the completed calls of module m, in order: inputs and output *)
Fixpoint calls (A : Type) (uh : at_exit) (m : nat) (p : prog A) (n : nat) : seq (seq arg * outval) :=
  match p with
  | Ret _ | Throw _ => [::]
  | Compute o k => calls uh m (k n) n.+1
  | Leave m' ins out k =>
      (if m' == m then if uh m' ins out is Ok o then [:: (ins, o)] else [::] else [::]) ++ calls uh m (k (uh m' ins out)) n
  end.

(* model and loss in sequence *)
Definition outcome2 (A B : Type) (uh : at_exit) (p : prog A) (q : A -> prog B) : seq op * res B :=
  let '(t, r) := outcome uh p [::] in match r with Ok a => outcome uh (q a) t | Err e => (t, Err e) end.
Definition calls2 (A B : Type) (uh : at_exit) (m : nat) (p : prog A) (q : A -> prog B) : seq (seq arg * outval) :=
  let '(t, r) := outcome uh p [::] in
  calls uh m p 0 ++ (if r is Ok a then calls uh m (q a) (size t) else [::]).

(* the user's hooks of module m, one after the other, each getting the output of the
   previous one *)
Definition users (hs : seq (nat * (nat * hook))) : at_exit := fun m ins out =>
  foldM (fun o (h : nat * (nat * hook)) => if h.2.1 == m then if h.2.2 is User f then f ins o else Ok o else Ok o) out hs.
Definition only_users (hs : seq (nat * (nat * hook))) : Prop := all (fun h => if h.2.2 is User _ then true else false) hs.

(* the exit of a module when element idx of the input/output of module m is asked
   for as well *)
Definition asking (m0 : nat) (io : string) (idx : int) (uh : at_exit) : at_exit := fun m ins out =>
  let! o := uh m ins out in
  if m == m0 then let! _ := hook_item io idx ins o in Ok o else Ok o.
Definition item_of (io : string) (idx : int) (c : seq arg * outval) : arg :=
  if hook_item io idx c.1 c.2 is Ok x then x else AOther.

Section Run.
Variables (us : seq (nat * (nat * hook))) (id m0 : nat) (io : string) (idx : int) (d n : nat).
Hypothesis hus : only_users us.
Local Notation full := (rcons us (id, (m0, Store io idx d))).
Local Notation uh := (asking m0 io idx (users us)).

Lemma run_hooks_full m ins out w : w_hooks w = full -> (d < size (w_lists w))%N ->
  run_hooks full m ins out w =
    (World (w_hooks w) (w_next w)
       (set_nth [::] (w_lists w) d (nth [::] (w_lists w) d ++
          (if m == m0 then if uh m ins out is Ok o then [:: item_of io idx (ins, o)] else [::] else [::]))),
     uh m ins out).
Proof.
move=> hw hd; have keep : World (w_hooks w) (w_next w) (set_nth [::] (w_lists w) d (nth [::] (w_lists w) d)) = w.
  case: w hd {hw} => hs nx ls /= hd; congr World; apply: (@eq_from_nth _ [::]).
    by rewrite size_set_nth (maxn_idPr hd).
  by move=> i _; rewrite nth_set_nth /=; case: eqP => // ->.
have nothing : (if m == m0 then [::] else [::]) = [::] :> seq arg by case: eqP.
rewrite /asking {hw}; elim: us hus out => [_|[i [m' h]] us' IH /= /andP[hu hus']] out.
  rewrite /= eq_sym; case: eqP => [e|_]; last by rewrite cats0 keep.
  case E: (hook_item io idx ins out) => [x|x] /=; last by rewrite cats0 keep.
  by rewrite cats1 /item_of /= E.
rewrite /users /= -/(users us' m ins _).
case: ifP => e; last by rewrite IH.
case: h hu => // f _ /=; case: (f ins out) => [out'|e'] /=; last by rewrite nothing cats0 keep.
by rewrite IH.
Qed.

Lemma set_set (s : seq (seq arg)) x y : set_nth [::] (set_nth [::] s d x) d y = set_nth [::] s d y.
Proof. by rewrite set_set_nth eqxx. Qed.

Lemma run_full A (p : prog A) w t : w_hooks w = full -> (d < size (w_lists w))%N ->
  run p w t =
    (World (w_hooks w) (w_next w)
       (set_nth [::] (w_lists w) d (nth [::] (w_lists w) d ++ map (item_of io idx) (calls uh m0 p (size t)))),
     (outcome uh p t).1, (outcome uh p t).2).
Proof.
have keep w0 : (d < size (w_lists w0))%N -> World (w_hooks w0) (w_next w0) (set_nth [::] (w_lists w0) d (nth [::] (w_lists w0) d)) = w0.
  case: w0 => hs nx ls /= hd; congr World; apply: (@eq_from_nth _ [::]).
    by rewrite size_set_nth (maxn_idPr hd).
  by move=> i _; rewrite nth_set_nth /=; case: eqP => // ->.
elim: p w t => [a|e|o k IH|m ins out k IH] w t hw hd /=.
- by rewrite cats0 keep.
- by rewrite cats0 keep.
- by rewrite IH // size_rcons.
rewrite hw run_hooks_full // IH /= ?hw //; last by rewrite size_set_nth leq_max hd orbT.
rewrite set_set nth_set_nth /= eqxx map_cat -catA; congr (World _ _ (set_nth _ _ _ (_ ++ (_ ++ _))), _, _).
by case: eqP => // _; case: (uh m ins out).
Qed.
End Run.

(* ---- the operator's code in these terms ---- *)
Section Batch.
Variables (X Y : Type) (paths : seq (string * nat)).
Variables (model_func : X -> prog arg) (loss_func : arg -> Y -> prog arg).
Variables (w : world) (name io : string) (idx : int) (m : nat).
Hypothesis hus : only_users (w_hooks w).
Hypothesis hw : ids_below w.
Hypothesis hinit : store_init paths name io [::] = Ok tt.
Hypothesis hsub : get_submodule paths name = Ok m.
Local Notation uh := (asking m io idx (users (w_hooks w))).

Definition last_item (cs : seq (seq arg * outval)) : res arg :=
  if rev cs is c :: _ then Ok (item_of io idx c) else Err IndexError.

Lemma pop_items hs nx ls (cs : seq (seq arg * outval)) :
  pop (World hs nx (set_nth [::] (rcons ls [::]) (size ls) (map (item_of io idx) cs))) (size ls) = last_item cs.
Proof.
rewrite /pop /= nth_set_nth /= eqxx -map_rev /last_item.
by case: (rev cs).
Qed.

Lemma act_batchE (b : X * Y) M :
  (act_batch paths model_func loss_func w (name, io, idx) b M).2 =
  (let '(t, r) := outcome2 uh (model_func b.1) (loss_func^~ b.2) in
   let! l := r in
   let! x := last_item (calls2 uh m (model_func b.1) (loss_func^~ b.2)) in
   match l, x with
   | ATens l, ATens a =>
       let! g := tape_grad t l a in
       column_loop (hvp (entries_of t a) [:: Param 0 (shape_of t a)] g) M
   | _, _ => Err TypeError
   end).
Proof.
rewrite /act_batch /with_store /= nth_rcons ltnn eqxx hinit hsub.
set wr := register _ _ _.
have er : w_hooks wr = rcons (w_hooks w) (w_next w, (m, Store io idx (size (w_lists w)))) by [].
have sr : (size (w_lists w) < size (w_lists wr))%N by rewrite /= size_rcons.
have nr : nth [::] (w_lists wr) (size (w_lists w)) = [::] by rewrite /= nth_rcons ltnn eqxx.
rewrite (run_full hus (model_func b.1) [::] er sr) nr /= /outcome2 /calls2.
case E: (outcome uh (model_func b.1) [::]) => [t [out|e]] //=.
set w1 := World _ _ _.
have er1 : w_hooks w1 = rcons (w_hooks w) (w_next w, (m, Store io idx (size (w_lists w)))) by [].
have sr1 : (size (w_lists w) < size (w_lists w1))%N by rewrite /= size_set_nth size_rcons leq_max leqnn.
rewrite (run_full hus (loss_func out b.2) t er1 sr1) /=.
case E2: (outcome uh (loss_func out b.2) t) => [t' [l|e]] //=.
rewrite set_set nth_set_nth /= eqxx -map_cat /remove_handle /=.
by rewrite (pop_items _ _ (w_lists w)).
Qed.

Lemma get_out_shapeE (b : X * Y) data :
  (get_out_shape paths model_func w (name, io, idx) (b :: data)).2 =
  (let '(t, r) := outcome uh (model_func b.1) [::] in
   let! _ := r in
   let! x := last_item (calls uh m (model_func b.1) 0) in
   if x is ATens a then Ok [:: shape_of t a] else Err AttributeError).
Proof.
rewrite /get_out_shape /with_store /= nth_rcons ltnn eqxx hinit hsub.
set wr := register _ _ _.
have er : w_hooks wr = rcons (w_hooks w) (w_next w, (m, Store io idx (size (w_lists w)))) by [].
have sr : (size (w_lists w) < size (w_lists wr))%N by rewrite /= size_rcons.
have nr : nth [::] (w_lists wr) (size (w_lists w)) = [::] by rewrite /= nth_rcons ltnn eqxx.
rewrite (run_full hus (model_func b.1) [::] er sr) nr /=.
case E: (outcome uh (model_func b.1) [::]) => [t [out|e]] //=.
by rewrite /remove_handle /= (pop_items _ _ (w_lists w)).
Qed.
End Batch.

(* If every call delivers the requested element, asking for it changes nothing. *)
Lemma asking_same A m0 io idx uh (p : prog A) t :
  Forall_in (fun c => is_ok (hook_item io idx c.1 c.2)) (calls uh m0 p (size t)) ->
  outcome (asking m0 io idx uh) p t = outcome uh p t /\
  calls (asking m0 io idx uh) m0 p (size t) = calls uh m0 p (size t).
Proof.
elim: p t => [a|e|o k IH|m ins out k IH] t //=.
  by move=> h; have := IH (size t) (rcons t o); rewrite size_rcons => /(_ h).
move=> hc.
have e : asking m0 io idx uh m ins out = uh m ins out.
  rewrite /asking; move: hc; case: eqP => // _; case: (uh m ins out) => //= o' [].
  by case: (hook_item io idx ins o').
rewrite e.
have {}hc : Forall_in (fun c => is_ok (hook_item io idx c.1 c.2)) (calls uh m0 (k (uh m ins out)) (size t)).
  by move: hc; case: eqP => // _; case: (uh m ins out) => //= o' [].
by have [-> ->] := IH (uh m ins out) t hc.
Qed.
