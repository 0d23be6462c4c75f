(* C77, C78: moving operators between devices. *)
From mathcomp Require Import all_ssreflect.
From Verif Require Import PyPrelude Kfac Devices.
Set Implicit Arguments. Unset Strict Implicit. Unset Printing Implicit Defensive.

(* the device (or data type) can be inferred iff there is at least one parameter and
   all agree; otherwise RuntimeError *)
Theorem C77_infer (T : eqType) (s : seq T) x :
  (infer_unique s = Ok x <-> s <> [::] /\ forall y, List.In y s -> y = x) /\
  ((exists y, infer_unique s = Ok y) \/ infer_unique s = Err RuntimeError).
Proof.
have hin (y : T) (r : seq T) : List.In y r <-> y \in r.
  elim: r => [|z r IH] //=; rewrite in_cons; split=> [[->|/IH ->]|/orP[/eqP ->|/IH h]]; rewrite ?eqxx ?orbT; auto.
have mu : undup s =i s by exact: mem_undup.
have uu := undup_uniq s.
rewrite /infer_unique; case: (undup s) mu uu => [|a [|b r]] mu uu; (split; last by [right|left; exists a|right]); split=> //.
- by case=> hs _; case: s hs mu => [|z s] // _ /(_ z); rewrite in_cons eqxx.
- case=> <-; split=> [e|y /hin]; last by rewrite -mu mem_seq1 => /eqP.
  by have := mu a; rewrite e mem_seq1 eqxx.
- by case=> _ h; congr Ok; apply: h; apply/hin; rewrite -mu mem_seq1.
- case=> _ h; have ha : a = x by apply: h; apply/hin; rewrite -mu mem_head.
  have hb : b = x by apply: h; apply/hin; rewrite -mu !in_cons eqxx orbT.
  by move: uu; rewrite /= ha hb mem_head.
Qed.
Print Assumptions C77_infer.
Example C77_ex_infer : [/\ infer_unique [:: 1; 1] = Ok 1, infer_unique [:: 1; 0] = Err RuntimeError &
  @infer_unique nat_eqType [::] = Err RuntimeError].
Proof. by []. Qed.

Lemma dgetE (T : Type) (x0 : T) (s : seq T) i : lget s i = if i < size s then Ok (nth x0 s i) else Err IndexError.
Proof. by elim: s i => [|x s IH] [|i] //=; rewrite -IH. Qed.
Lemma dget_Ok (T : Type) (s : seq T) i x : lget s i = Ok x -> i < size s.
Proof. by rewrite (dgetE x); case: ifP. Qed.
Lemma dget_set (T : Type) (x0 : T) (s : seq T) i j y : i < size s -> lget (set_nth x0 s i y) j = if j == i then Ok y else lget s j.
Proof.
move=> hi; rewrite (dgetE x0) size_set_nth (maxn_idPr hi) nth_set_nth /= (dgetE x0).
by case: (j =P i) => [->|]; rewrite ?hi.
Qed.
Lemma dget_rcons (T : Type) (s : seq T) j y : lget (rcons s y) j = if j == size s then Ok y else lget s j.
Proof. by rewrite (dgetE y) size_rcons ltnS nth_rcons (dgetE y); case: (ltngtP j (size s)). Qed.
Lemma dget_take (T : Type) (s : seq T) n j : j < n -> lget (take n s) j = lget s j.
Proof.
case: s => [|x0 s] hj; first by case: n hj.
by rewrite !(dgetE x0) size_take_min leq_min hj nth_take.
Qed.

Section Moves.
Variable V : Type.
Variable v0 : V.
Variable curv : nat -> seq V -> seq nat -> V -> V.
Variable factors : nat -> seq V -> seq nat -> V.
Variable kprod : V -> V -> V.
Variable invert : V -> V.
Variable iprod : V -> V -> V.
Local Notation world := (world V).
Local Notation tens := (tens V).
Local Notation at_ := (tens_at v0).
Local Notation mul := (mul v0 curv factors kprod).
Local Notation mul_inv := (mul_inv v0 factors invert iprod).
Local Notation to_device := (to_device v0).
Local Notation construct := (construct v0 curv factors kprod).
Local Notation step := (step v0 curv factors kprod invert iprod).
Local Notation run := (run v0 curv factors kprod invert iprod).
Local Notation mul_export := (mul_export v0 curv factors kprod invert iprod).

(* ---- tensors ---- *)
Lemma tensors_to_id d h ps : (forall p, p \in ps -> t_dev (at_ h p) = d) -> tensors_to v0 d h ps = (ps, h).
Proof.
elim: ps => [|p ps IH] hp //=; rewrite /tensor_to hp ?mem_head // eqxx IH // => q hq; by apply: hp; rewrite in_cons hq orbT.
Qed.
Lemma tensors_to_keeps d h ps : size h <= size (tensors_to v0 d h ps).2 /\
  forall r, r < size h -> at_ (tensors_to v0 d h ps).2 r = at_ h r.
Proof.
elim: ps h => [|p ps IH] h //=; rewrite /tensor_to; case: eqP => _.
  by case E : (tensors_to _ _ _ _) (IH h) => [qs h2].
set h1 := rcons h _; have [a b] := IH h1; case E : (tensors_to v0 d h1 ps) a b => [qs h2] /= a b.
have hs : size h < size h1 by rewrite size_rcons.
split=> [|r hr]; first exact: leq_trans (ltnW hs) a.
by rewrite b ?(ltn_trans hr hs) // /tens_at nth_rcons hr.
Qed.
Lemma module_to_at d h refs r : r < size h ->
  at_ (module_to v0 d h refs) r = if r \in refs then Tens d (t_val (at_ h r)) else at_ h r.
Proof. by move=> hr; rewrite {1}/tens_at nth_mkseq. Qed.
Lemma module_to_size d h refs : size (module_to v0 d h refs) = size h. Proof. exact: size_mkseq. Qed.

(* ---- an operator whose tensors are where it expects them ---- *)
(* Operator i belongs to module m and differentiates some of its parameters (at the
   positions pos).  Everything is on device d; vs are the contents of the module's
   parameters and F that of the KFAC factors, computed or not. *)
Record placed (w : world) (i md : nat) (ps : seq nat) (fc : option nat) (m : model) (vs : seq V) (F : V) (d : dev) : Prop := Placed {
  pl_op : lget (w_ops w) i = Ok (Cop md d ps fc);
  pl_model : lget (w_models w) md = Ok m;
  pl_module : m_module m;
  pl_sub : all (fun p => p \in m_refs m) ps;
  pl_refs : forall r, r \in m_refs m -> r < size (w_heap w) /\ t_dev (at_ (w_heap w) r) = d;
  pl_vals : [seq t_val (at_ (w_heap w) r) | r <- m_refs m] = vs;
  pl_facs : forall l, fc = Some l -> l < size (w_facs w) /\
     (get_facs w l = None /\ F = factors i vs [seq index p (m_refs m) | p <- ps] \/ get_facs w l = Some (Tens d F)) }.

(* the content of the product of operator i with a matrix of content x *)
Definition product_content (i : nat) (ps : seq nat) (fc : option nat) (m : model) (vs : seq V) (F x : V) : V :=
  if fc is Some _ then kprod F x else curv i vs [seq index p (m_refs m) | p <- ps] x.

Lemma placed_differentiate w i md ps fc m vs F d : placed w i md ps fc m vs F d ->
  differentiate v0 w (Cop md d ps fc) = Ok (vs, [seq index p (m_refs m) | p <- ps]).
Proof.
move=> [h1 h2 h3 h4 h5 h6 h7]; rewrite /differentiate /= h2 /= h4 /= h6.
by have -> : all (fun r => t_dev (at_ (w_heap w) r) == d) (m_refs m) by apply/allP => r /h5[_ ->].
Qed.
Lemma placed_facs w w' i md ps fc m vs F d : placed w i md ps fc m vs F d ->
  w_heap w' = w_heap w -> w_models w' = w_models w -> lget (w_ops w') i = lget (w_ops w) i ->
  size (w_facs w) <= size (w_facs w') ->
  (forall l, fc = Some l -> get_facs w' l = get_facs w l \/ get_facs w' l = Some (Tens d F)) -> placed w' i md ps fc m vs F d.
Proof.
move=> [h1 h2 h3 h4 h5 h6 h7] e1 e2 e3 e4 h; split; rewrite ?e1 ?e2 ?e3 // => l hl; have [a b] := h7 _ hl.
split; [exact: leq_trans a e4|case: (h _ hl) => ->]; [exact: b|by right].
Qed.
Lemma placed_ensure w i md ps fc m vs F d l : placed w i md ps fc m vs F d -> fc = Some l ->
  exists w', [/\ ensure_factors v0 factors w i (Cop md d ps fc) l = (w', Ok (Tens d F)), placed w' i md ps fc m vs F d &
    [/\ w_heap w' = w_heap w, w_models w' = w_models w, w_ops w' = w_ops w, w_invs w' = w_invs w &
      size (w_facs w') = size (w_facs w) /\ forall k, k != l -> get_facs w' k = get_facs w k]].
Proof.
move=> hp hl; have [h1 h2 h3 h4 h5 h6 h7] := hp; have [hs hf] := h7 _ hl; rewrite /ensure_factors.
case: hf => [[-> eF]|->]; last by exists w; split.
rewrite (placed_differentiate hp) -eF; eexists; split; [reflexivity| |].
- apply: (placed_facs hp) => //= [|k]; first by rewrite size_set_nth leq_maxr.
  rewrite hl => -[<-]; by right; rewrite /get_facs /= nth_set_nth /= eqxx.
- split=> //=; split; first by rewrite size_set_nth (maxn_idPr hs).
  by move=> k hk; rewrite /get_facs /= nth_set_nth /= (negbTE hk).
Qed.

(* products with matrices on the operator's device succeed, with a result on that
   device, and raise on every other one *)
Lemma placed_mul w i md ps fc m vs F d M : placed w i md ps fc m vs F d ->
  [/\ (mul w i M).2 = (if t_dev M == d then Ok (Tens d (product_content i ps fc m vs F (t_val M))) else Err RuntimeError),
    placed (mul w i M).1 i md ps fc m vs F d &
    [/\ w_heap (mul w i M).1 = w_heap w, w_models (mul w i M).1 = w_models w, w_ops (mul w i M).1 = w_ops w,
      w_invs (mul w i M).1 = w_invs w & size (w_facs (mul w i M).1) = size (w_facs w) /\
      forall k, fc <> Some k -> get_facs (mul w i M).1 k = get_facs w k]].
Proof.
case: fc => [l|] hp; rewrite /Devices.mul (pl_op hp) /=.
  have [w' [e p' [a1 a2 a3 a4 [a5 a6]]]] := placed_ensure hp erefl; rewrite e /=.
  by split=> //; split=> //; split=> // k hk; apply: a6; apply/eqP => ek; apply: hk; rewrite ek.
by rewrite (placed_differentiate hp) /= /product_content; split.
Qed.

(* ---- what the calls leave alone ---- *)
Definition facs_of (w : world) (i : nat) : option nat := if lget (w_ops w) i is Ok o then c_facs o else None.
(* the parameters of all models exist; operators have their own dictionaries *)
Record sane (w : world) : Prop := Sane {
  sane_refs : forall k m r, lget (w_models w) k = Ok m -> r \in m_refs m -> r < size (w_heap w);
  sane_facs : forall i l, facs_of w i = Some l -> l < size (w_facs w);
  sane_uniq : forall i j l, facs_of w i = Some l -> facs_of w j = Some l -> i = j }.
Lemma sane_kept (w w' : world) : sane w -> w_models w' = w_models w -> size (w_heap w) <= size (w_heap w') ->
  size (w_facs w) <= size (w_facs w') -> (forall k l, facs_of w' k = Some l -> facs_of w k = Some l) -> sane w'.
Proof.
move=> [a b c] e1 e2 e3 e4; split.
- by move=> k m r; rewrite e1 => h hr; exact: leq_trans (a _ _ _ h hr) e2.
- by move=> i l /e4/b h; exact: leq_trans h e3.
- by move=> i j l /e4 h1 /e4 h2; exact: c h1 h2.
Qed.
(* w' differs from w only in the factors of operator j *)
Definition only_factors (j : nat) (w w' : world) : Prop :=
  [/\ w_heap w' = w_heap w, w_models w' = w_models w, w_ops w' = w_ops w,
     size (w_facs w) <= size (w_facs w') & forall k, facs_of w j <> Some k -> get_facs w' k = get_facs w k].
Lemma ensure_frame w j o l : lget (w_ops w) j = Ok o -> c_facs o = Some l ->
  only_factors j w (ensure_factors v0 factors w j o l).1 /\ w_invs (ensure_factors v0 factors w j o l).1 = w_invs w.
Proof.
move=> ho hl; rewrite /ensure_factors; case: (get_facs w l) => [f|] //=.
case: (differentiate _ _ _) => [[vs ps]|e] //=; split=> //; split=> //=; first by rewrite size_set_nth leq_maxr.
move=> k; rewrite /facs_of ho hl => hk; rewrite /get_facs /= nth_set_nth /=; case: eqP => // e; by case: hk; rewrite e.
Qed.
Lemma mul_frame w j M : only_factors j w (mul w j M).1.
Proof.
rewrite /Devices.mul; case ho : (lget _ _) => [o|e] //=; case hl : (c_facs o) => [l|] //=.
by have [h _] := ensure_frame ho hl; case: (ensure_factors _ _ _ _ _ _) h => w' [f|e].
Qed.
Lemma mul_inv_frame w j M : only_factors (if lget (w_invs w) j is Ok v then i_A v else 0) w (mul_inv w j M).1.
Proof.
rewrite /Devices.mul_inv; case: (lget (w_invs w) j) => [v|e] //=; case ho : (lget _ _) => [o|e] //=.
case hl : (c_facs o) => [l|] //=; have [h _] := ensure_frame ho hl.
by case: (ensure_factors _ _ _ _ _ _) h => w' [f|e] //=; case: (i_keep v).
Qed.
Lemma sane_only j w w' : sane w -> only_factors j w w' -> sane w'.
Proof. by move=> hs [e1 e2 e3 e4 _]; apply: (sane_kept hs) => //; rewrite ?e1 // => k l; rewrite /facs_of e3. Qed.

Lemma move_frame w j d o m : sane w -> lget (w_ops w) j = Ok o -> lget (w_models w) (c_model o) = Ok m ->
  let w' := (to_device w j d).1 in
  [/\ [/\ (to_device w j d).2 = Ok tt, w_models w' = w_models w, w_invs w' = w_invs w & w_exps w' = w_exps w],
    size (w_heap w) <= size (w_heap w'),
    forall r, r < size (w_heap w) ->
      at_ (w_heap w') r = if m_module m && (r \in m_refs m) then Tens d (t_val (at_ (w_heap w) r)) else at_ (w_heap w) r,
    exists2 ps, forall k, lget (w_ops w') k = (if k == j then Ok (Cop (c_model o) d ps (c_facs o)) else lget (w_ops w) k) &
      (m_module m -> all (fun p => p \in m_refs m) (c_params o) -> ps = c_params o) &
    size (w_facs w') = size (w_facs w) /\ (forall k, get_facs w' k = if facs_of w j == Some k
      then (if get_facs w k is Some f then Some (Tens d (t_val f)) else None) else get_facs w k)].
Proof.
move=> hs ho hm; have hj := dget_Ok ho; rewrite /Devices.to_device ho hm /=.
set h := if m_module m then _ else _.
have hh : size h = size (w_heap w) by rewrite /h; case: ifP; rewrite ?module_to_size.
have ha r : r < size (w_heap w) -> at_ h r = if m_module m && (r \in m_refs m) then Tens d (t_val (at_ (w_heap w) r)) else at_ (w_heap w) r.
  by rewrite /h; case: (m_module m) => //= hr; rewrite module_to_at.
have [k1 k2] := tensors_to_keeps d h (c_params o).
have k3 : m_module m -> all (fun p => p \in m_refs m) (c_params o) -> (tensors_to v0 d h (c_params o)).1 = c_params o.
  move=> m1 /allP m2; rewrite tensors_to_id // => p hp; have hr := m2 _ hp.
  by rewrite ha ?(sane_refs hs hm hr) // m1 hr.
case: (tensors_to _ _ _ _) k1 k2 k3 => qs h' /= k1 k2 k3; rewrite hh in k1 k2.
have hl l : c_facs o = Some l -> l < size (w_facs w) by move=> hl; apply: (@sane_facs _ hs j); rewrite /facs_of ho.
set w1 := World _ _ _ _ _ _.
set w' := match c_facs o with Some l => _ | None => _ end.
have [e1 e2 e3 e4 e5] : [/\ w_heap w' = h', w_models w' = w_models w, w_ops w' = w_ops w1, w_invs w' = w_invs w & w_exps w' = w_exps w].
  by rewrite /w'; case: (c_facs o) => [l|] //; case: (get_facs _ _).
split=> //.
- by rewrite e1.
- by move=> r hr; rewrite e1 k2 ?ha.
- by exists qs => // k; rewrite e3 /= dget_set.
- rewrite /w' /facs_of ho; case hc : (c_facs o) => [l|] //=; have hl' := hl _ hc.
  case hg : (get_facs w l) => [f|] /=; split=> //=; first by rewrite size_set_nth (maxn_idPr hl').
    move=> k; rewrite /get_facs /= nth_set_nth /=; case: (k =P l) => [->|/eqP hk]; first by rewrite eqxx -/(get_facs w l) hg.
    by case: eqP => // -[e]; rewrite e eqxx in hk.
  by move=> k; case: eqP => // -[<-]; rewrite hg.
Qed.
Lemma sane_move w j d : sane w -> sane (to_device w j d).1.
Proof.
move=> hs; case ho : (lget (w_ops w) j) => [o|e]; last by rewrite /Devices.to_device ho.
case hm : (lget (w_models w) (c_model o)) => [m|e]; last by rewrite /Devices.to_device ho hm.
have [[_ a2 _ _] a3 a4 [ps a5 _] [a6 _]] := move_frame d hs ho hm.
apply: (sane_kept hs) => // [|k l]; first by rewrite a6.
by rewrite /facs_of a5; case: eqP => // ->; rewrite ho.
Qed.

(* moving an operator of a module puts all its tensors on the device *)
Lemma move_places w i d md d0 ps fc m : sane w -> lget (w_ops w) i = Ok (Cop md d0 ps fc) -> lget (w_models w) md = Ok m ->
  m_module m -> all (fun p => p \in m_refs m) ps ->
  let vs := [seq t_val (at_ (w_heap w) r) | r <- m_refs m] in
  forall F, (forall l, fc = Some l -> F = if get_facs w l is Some f then t_val f else factors i vs [seq index p (m_refs m) | p <- ps]) ->
  placed (to_device w i d).1 i md ps fc m vs F d.
Proof.
move=> hs ho hm h3 h4 vs F hF; have [[_ a2 _ _] a3 a4 [qs a5 a6] [a7 a8]] := move_frame d hs ho hm.
have hr r : r \in m_refs m -> r < size (w_heap w) by exact: (sane_refs hs hm).
split=> //.
- by rewrite a5 eqxx /= a6.
- by rewrite a2.
- by move=> r hr'; rewrite a4 ?hr // h3 hr'; split=> //; apply: leq_trans (hr _ hr') a3.
- by apply/eq_in_map => r hr'; rewrite a4 ?hr // h3 hr'.
- move=> l hl; have e : facs_of w i = Some l by rewrite /facs_of ho.
  split; first by rewrite a7; exact: (sane_facs hs e).
  by rewrite a8 e eqxx (hF _ hl); case: (get_facs w l) => [f|]; [right|left].
Qed.

(* the history of calls after operator i is in place: any calls but load_state_dict,
   moves of operator i and of operators of other modules, and constructions of
   operators on other modules, on the same module, or without a determinism check *)
Definition clean_step (i md : nat) (m : model) (w : world) (a : action V) : Prop :=
  match a with
  | ALoad _ _ => False
  | AMove j _ => j = i \/ forall o mj, lget (w_ops w) j = Ok o -> lget (w_models w) (c_model o) = Ok mj -> m_module mj ->
      forall r, r \in m_refs mj -> r \notin m_refs m
  | ANew k ps _ check _ => [\/ check = false, (k = md /\ all (fun p => p \in m_refs m) ps) |
      forall mj, lget (w_models w) k = Ok mj -> m_module mj -> forall r, r \in m_refs mj -> r \notin m_refs m]
  | _ => True
  end.
Fixpoint clean (i md : nat) (m : model) (w : world) (acts : seq (action V)) : Prop :=
  if acts is a :: acts' then clean_step i md m w a /\ clean i md m (step w a) acts' else True.
(* the device after the moves of operator i *)
Fixpoint last_device (i : nat) (d : dev) (acts : seq (action V)) : dev :=
  match acts with
  | [::] => d
  | AMove j d' :: acts' => last_device i (if j == i then d' else d) acts'
  | _ :: acts' => last_device i d acts'
  end.

Lemma only_placed j w w' i md ps fc m vs F d : sane w -> j <> i -> only_factors j w w' ->
  placed w i md ps fc m vs F d -> placed w' i md ps fc m vs F d.
Proof.
move=> hs hj [e1 e2 e3 e4 e5] hp; have ho := pl_op hp; apply: (placed_facs hp) => //; first by rewrite e3.
by move=> l hl; left; apply: e5 => e; apply: hj; apply: (sane_uniq hs e); rewrite /facs_of ho hl.
Qed.
Lemma move_other j dj w i md ps fc m vs F d : sane w -> j <> i ->
  (forall o mj, lget (w_ops w) j = Ok o -> lget (w_models w) (c_model o) = Ok mj -> m_module mj ->
      forall r, r \in m_refs mj -> r \notin m_refs m) ->
  placed w i md ps fc m vs F d -> placed (to_device w j dj).1 i md ps fc m vs F d.
Proof.
move=> hs hj hd hp; have [h1 h2 h3 h4 h5 h6 h7] := hp.
case ho : (lget (w_ops w) j) => [o|e]; last by rewrite /Devices.to_device ho.
case hm : (lget (w_models w) (c_model o)) => [mj|e]; last by rewrite /Devices.to_device ho hm.
have [[_ a2 _ _] a3 a4 [qs a5 a6] [a7 a8]] := move_frame dj hs ho hm.
have same r : r \in m_refs m -> at_ (w_heap (to_device w j dj).1) r = at_ (w_heap w) r.
  move=> hr; have [r1 _] := h5 _ hr; rewrite a4 //; case: ifP => // /andP[m1 m2].
  by have := hd _ _ ho hm m1 _ m2; rewrite hr.
split=> //.
- by rewrite a5; case: eqP => // e; case: hj.
- by rewrite a2.
- by move=> r hr; have [r1 r2] := h5 _ hr; rewrite same //; split=> //; exact: leq_trans r1 a3.
- by rewrite -h6; apply/eq_in_map => r hr; rewrite same.
- move=> l hl; have [l1 l2] := h7 _ hl; rewrite a7 a8; split=> //; case: eqP => // e; case: hj.
  by apply: (sane_uniq hs e); rewrite /facs_of h1.
Qed.

(* the constructor *)
Definition added (w : world) (k : nat) (d : dev) (ps : seq nat) (kfac : bool) : world :=
  World (w_heap w) (w_models w) (if kfac then rcons (w_facs w) None else w_facs w)
    (rcons (w_ops w) (Cop k d ps (if kfac then Some (size (w_facs w)) else None))) (w_invs w) (w_exps w).
Lemma added_facs w k d ps kfac j : facs_of (added w k d ps kfac) j =
  if j == size (w_ops w) then (if kfac then Some (size (w_facs w)) else None) else facs_of w j.
Proof. by rewrite /facs_of dget_rcons; case: eqP. Qed.
Lemma facs_of_out w j : size (w_ops w) <= j -> facs_of w j = None.
Proof. by move=> h; rewrite /facs_of; case ho : (lget _ _) => [o|//]; have := dget_Ok ho; rewrite ltnNge h. Qed.
Lemma sane_added w k d ps kfac : sane w -> sane (added w k d ps kfac).
Proof.
move=> [a b c]; have sz : size (w_facs w) <= size (if kfac then rcons (w_facs w) None else w_facs w).
  by case: kfac; rewrite ?size_rcons.
split=> [//|j l|j j' l]; rewrite !added_facs.
  by case: eqP => [_|_ /b h]; [case: kfac {sz} => // -[<-]; rewrite size_rcons|exact: leq_trans h sz].
case: (j =P _) => [->|_]; case: (j' =P _) => [->|_] //; last exact: c.
  by case: kfac {sz} => // -[<-] /b; rewrite ltnn.
by case: kfac {sz} => // + [e]; rewrite -e => /b; rewrite ltnn.
Qed.
Lemma take_rcons_ops (w w' : world) (n : nat) : sane w -> w_models w' = w_models w -> w_heap w' = w_heap w -> w_facs w' = w_facs w ->
  w_ops w' = take n (w_ops w) -> sane w'.
Proof.
move=> hs e1 e2 e3 e4; apply: (sane_kept hs) => //; rewrite ?e2 ?e3 // => k l; rewrite /facs_of e4.
case: (ltnP k n) => hk; first by rewrite dget_take.
case ho : (lget (take n _) k) => [o|//]; have := dget_Ok ho; rewrite size_take_min leq_min => /andP[h _].
by rewrite ltnNge hk in h.
Qed.
Lemma sane_construct w k ps kfac check x : sane w -> sane (construct w k ps kfac check x).1.
Proof.
move=> hs; rewrite /Devices.construct; case: (infer_unique _) => [d|e] //=.
have h1 := sane_added k d ps kfac hs; rewrite -/(added w k d ps kfac); set w1 := added w k d ps kfac in h1 *.
case: check => //=; have h2 := sane_move (size (w_ops w)) cpu h1; set w2 := (to_device w1 _ cpu).1 in h2 *.
have h3 := sane_only h2 (mul_frame w2 (size (w_ops w)) (Tens cpu x)).
case: (mul w2 _ _) h3 => w3 r /= h3; have h4 := sane_move (size (w_ops w)) d h3.
by case: r => [y|e] //=; exact: take_rcons_ops h4 _ _ _ _.
Qed.

Lemma construct_placed w k ps' kfac check x i md ps fc m vs F d : sane w ->
  clean_step i md m w (ANew k ps' kfac check x) -> placed w i md ps fc m vs F d ->
  placed (construct w k ps' kfac check x).1 i md ps fc m vs F d.
Proof.
move=> hs hc hp; rewrite /Devices.construct; case hinf : (infer_unique _) => [d'|e] //=.
have h1 := sane_added k d' ps' kfac hs; rewrite -/(added w k d' ps' kfac); set w1 := added w k d' ps' kfac in h1 *.
set n := size (w_ops w); have hi : i < n by exact: dget_Ok (pl_op hp).
have hni : n <> i by move=> e; rewrite e ltnn in hi.
have p1 : placed w1 i md ps fc m vs F d.
  have [q1 q2 q3 q4 q5 q6 q7] := hp; apply: (placed_facs hp) => //=.
  - by rewrite dget_rcons (ltn_eqF hi).
  - by case: (kfac); rewrite ?size_rcons.
  - by move=> l /q7[hl _]; left; rewrite /get_facs /=; case: (kfac) => //; rewrite nth_rcons hl.
have on : lget (w_ops w1) n = Ok (Cop k d' ps' (if kfac then Some (size (w_facs w)) else None)) by rewrite /= dget_rcons eqxx.
case: check hc => //= hc; set w2 := (to_device w1 n cpu).1; have h2 : sane w2 := sane_move n cpu h1.
have f3 := mul_frame w2 n (Tens cpu x); case: (mul w2 n _) f3 => w3 rs /= f3; have h3 := sane_only h2 f3.
suff p4 : placed (to_device w3 n d').1 i md ps fc m vs F d.
  case: rs => [y|e] //=; have [q1 q2 q3 q4 q5 q6 q7] := p4; by split=> //=; rewrite dget_take.
case: hc => // [[e hps]|hd].
- subst k; have hm := pl_model p1.
  have [[_ a2 _ _] a3 a4 [qs a5 a6] [a7 a8]] := @move_frame w1 n cpu _ _ h1 on hm; rewrite -/w2 in a2 a3 a4 a5 a7 a8.
  have [e1 e2 e3 e4 e5] := f3; have m1 := pl_module hp.
  have hqs : qs = ps' by exact: a6.
  have on3 : lget (w_ops w3) n = Ok (Cop md cpu qs (if kfac then Some (size (w_facs w)) else None)) by rewrite e3 a5 eqxx.
  have hm3 : lget (w_models w3) md = Ok m by rewrite e2 a2.
  have [[_ b2 _ _] b3 b4 [qs' b5 b6] [b7 b8]] := @move_frame w3 n d' _ _ h3 on3 hm3.
  have dd : d' = d.
    have [[/(_ hinf)[_ hall] _] _] := C77_infer [seq t_dev (at_ (w_heap w) p) | p <- ps'] d'.
    case: (ps') hps hall hinf => [|p s] //= /andP[hpm _] hall _; rewrite -(hall _ (or_introl erefl)).
    by have [_ ->] := pl_refs hp hpm.
  have [q1 q2 q3 q4 q5 q6 q7] := p1; subst d'.
  have hsz r : r \in m_refs m -> r < size (w_heap w3) by move=> hr; rewrite e1; have [h _] := q5 _ hr; exact: leq_trans h a3.
  have same r : r \in m_refs m -> at_ (w_heap (to_device w3 n d).1) r = at_ (w_heap w1) r.
    move=> hr; have [r1 r2] := q5 _ hr; rewrite b4 ?hsz // m1 hr /= e1 a4 // m1 hr /=.
    by case: (at_ (w_heap w1) r) r2 => dd v /= ->.
  split=> //.
  + by rewrite b5; case: eqP => [e|_]; [case: hni|rewrite e3 a5; case: eqP => // e; case: hni].
  + by rewrite b2.
  + by move=> r hr; rewrite same //; have [r1 r2] := q5 _ hr; split=> //; exact: leq_trans (hsz _ hr) b3.
  + by rewrite -q6; apply/eq_in_map => r hr; rewrite same.
  + move=> l hl; have [l1 l2] := q7 _ hl; have fi : facs_of w1 i = Some l by rewrite /facs_of q1.
    have nf (u : world) : sane u -> facs_of u i = Some l -> facs_of u n <> Some l by move=> hu eu en; apply: hni; exact: (sane_uniq hu en eu).
    have fi2 : facs_of w2 i = Some l by rewrite /facs_of a5; case: eqP => [e|_]; [case: hni|exact: fi].
    have fi3 : facs_of w3 i = Some l by rewrite /facs_of e3.
    rewrite b8; case: eqP => [e|_]; first by case: (nf _ h3 fi3).
    rewrite e5; last by exact: (nf _ h2 fi2).
    rewrite a8; case: eqP => [e|_]; first by case: (nf _ h1 fi).
    by split=> //; rewrite b7; apply: leq_trans e4; rewrite a7.
- have p2 : placed w2 i md ps fc m vs F d.
    by apply: move_other h1 hni _ p1 => o mj; rewrite on => -[<-] /= hm hmod; exact: hd hm hmod.
  have p3 := only_placed h2 hni f3 p2.
  apply: move_other h3 hni _ p3 => o mj ho hm hmod; apply: hd hmod.
  have [e1 e2 e3 e4 e5] := f3; rewrite e3 in ho; rewrite e2 in hm.
  case hmk : (lget (w_models w1) k) => [mk|e].
    have [[_ a2 _ _] a3 a4 [qs a5 a6] [a7 a8]] := @move_frame w1 n cpu _ _ h1 on hmk; rewrite -/w2 in a2 a5.
    by move: ho hm; rewrite a5 eqxx a2 => -[<-] /=; rewrite hmk.
  by move: ho hm; rewrite /w2 /Devices.to_device on /= hmk /= dget_rcons eqxx => -[<-] /=; rewrite hmk.
Qed.

Lemma sane_step w a : (forall i j, a <> ALoad V i j) -> sane w -> sane (step w a).
Proof.
case: a => [k ps kfac check x|j d|j M|j keep|j M|t|k x|j j'] hl hs /=.
- exact: sane_construct.
- exact: sane_move.
- exact: sane_only hs (mul_frame w j M).
- by rewrite /new_inverse; case: (lget _ _) => [o|e] //; case: (c_facs o) => // l; case: hs => *; split.
- exact: sane_only hs (mul_inv_frame w j M).
- by rewrite /export; case: (bind _ _) => [d|e] //; case: hs => *; split.
- rewrite /Devices.mul_export; case: (lget _ _) => [ex|e] //; case: (e_target ex) => t.
    by have := sane_only hs (mul_frame w t (Tens (e_dev ex) x)); case: (mul _ _ _).
  by have := sane_only hs (mul_inv_frame w t (Tens (e_dev ex) x)); case: (mul_inv _ _ _).
- by case: (hl j j').
Qed.
Lemma mul_placed j w M i md ps fc m vs F d : sane w -> placed w i md ps fc m vs F d -> placed (mul w j M).1 i md ps fc m vs F d.
Proof.
move=> hs hp; case: (j =P i) => [->|hj]; first by have [] := placed_mul M hp.
exact: only_placed hs hj (mul_frame w j M) hp.
Qed.
Lemma mul_inv_placed j w M i md ps fc m vs F d : sane w -> placed w i md ps fc m vs F d -> placed (mul_inv w j M).1 i md ps fc m vs F d.
Proof.
move=> hs hp; have := mul_inv_frame w j M; case hv : (lget (w_invs w) j) => [v|e]; last by rewrite /Devices.mul_inv hv.
case: (i_A v =P i) => [hA|hA] h; last exact: only_placed hs hA h hp.
rewrite /Devices.mul_inv hv hA (pl_op hp) /=; case: fc hp => [l|] hp //=.
have [w' [e p' _]] := placed_ensure hp erefl; rewrite e /=; case: (i_keep v) => //=.
by have [q1 q2 q3 q4 q5 q6 q7] := p'; split.
Qed.
Lemma step_placed w a i md ps fc m vs F d : sane w -> clean_step i md m w a -> placed w i md ps fc m vs F d ->
  placed (step w a) i md ps fc m vs F (if a is AMove j d' then (if j == i then d' else d) else d).
Proof.
case: a => [k ps' kfac check x|j dj|j M|j keep|j M|t|k x|j j'] hs hc hp /=.
- exact: construct_placed.
- case: (j =P i) hc => [-> _|hj [//|hd]]; last exact: move_other.
  have [q1 q2 q3 q4 q5 q6 q7] := hp; rewrite -q6; apply: (move_places dj hs q1 q2 q3 q4) => l hl.
  by rewrite q6; have [_] := q7 _ hl; case=> [[-> ->]|->].
- exact: mul_placed.
- rewrite /new_inverse; case: (lget _ _) => [o|e] //; case: (c_facs o) => //= l.
  by have [q1 q2 q3 q4 q5 q6 q7] := hp; split.
- exact: mul_inv_placed.
- by rewrite /export; case: (bind _ _) => [d'|e] //=; have [q1 q2 q3 q4 q5 q6 q7] := hp; split.
- rewrite /Devices.mul_export; case: (lget _ _) => [ex|e] //; case: (e_target ex) => t.
    by have := mul_placed t (Tens (e_dev ex) x) hs hp; case: (mul _ _ _).
  by have := mul_inv_placed t (Tens (e_dev ex) x) hs hp; case: (mul_inv _ _ _).
- by case: hc.
Qed.
Lemma run_placed w acts i md ps fc m vs F d : sane w -> clean i md m w acts -> placed w i md ps fc m vs F d ->
  sane (run w acts) /\ placed (run w acts) i md ps fc m vs F (last_device i d acts).
Proof.
elim: acts w d => [|a acts IH] w d hs //= [hc hcs] hp.
have hl i' j' : a <> ALoad V i' j' by case: a hc {hcs} => // ? ? [].
have [h1 h2] := IH _ _ (sane_step hl hs) hcs (step_placed hs hc hp).
by split=> //; move: h2; case: (a).
Qed.

(* ---------- the theorems ---------- *)
(* at the start there are models with their parameters, and no operators *)
Definition fresh (w : world) : Prop :=
  [/\ w_ops w = [::], w_facs w = [::] & forall k m r, lget (w_models w) k = Ok m -> r \in m_refs m -> r < size (w_heap w)].
Definition loads (a : action V) : bool := if a is ALoad _ _ then true else false.
(* the states reached without load_state_dict *)
Definition reached (w : world) : Prop := exists w0 acts, [/\ fresh w0, ~~ has loads acts & w = run w0 acts].
Lemma reached_sane w : reached w -> sane w.
Proof.
move=> [w0 [acts [[f1 f2 f3] hl ->]]].
have : sane w0 by split=> [//|i l|i j l]; rewrite /facs_of f1; case: i.
elim: acts w0 hl {f1 f2 f3} => [|a acts IH] w0 //=; rewrite negb_or => /andP[h1 h2] hs.
by apply: IH => //; apply: sane_step hs => i j e; rewrite e in h1.
Qed.

(* operator i was made from a module and parameters of this module *)
Definition made_from (w : world) (i : nat) (m : model) : Prop :=
  exists2 o, lget (w_ops w) i = Ok o &
    [/\ lget (w_models w) (c_model o) = Ok m, m_module m & all (fun p => p \in m_refs m) (c_params o)].
(* its model, and its factors if they are computed, are on the device it loads the
   data to *)
Definition in_place (w : world) (i : nat) (m : model) (d : dev) : Prop :=
  exists o, [/\ lget (w_ops w) i = Ok o, c_dev o = d, (forall r, r \in m_refs m -> t_dev (at_ (w_heap w) r) = d) &
    forall l f, c_facs o = Some l -> get_facs w l = Some f -> t_dev f = d].
Definition Fof (w : world) i (m : model) (o : cop) : V :=
  if c_facs o is Some l then if get_facs w l is Some f then t_val f
     else factors i [seq t_val (at_ (w_heap w) r) | r <- m_refs m] [seq index p (m_refs m) | p <- c_params o] else v0.
Lemma place w i m d : sane w -> made_from w i m -> in_place w i m d -> exists o, lget (w_ops w) i = Ok o /\
  placed w i (c_model o) (c_params o) (c_facs o) m [seq t_val (at_ (w_heap w) r) | r <- m_refs m] (Fof w i m o) d.
Proof.
move=> hs [o ho [h1 h2 h3]] [o']; rewrite ho => -[[<-] h4 h5 h6]; exists o; split=> //; split=> //.
- by rewrite ho -h4; case: (o).
- by move=> r hr; rewrite h5 //; split=> //; exact: (sane_refs hs h1 hr).
- move=> l hl; split; first by apply: (@sane_facs _ hs i); rewrite /facs_of ho.
  rewrite /Fof hl; case hf : (get_facs w l) => [f|]; [right|by left].
  by rewrite -(h6 _ _ hl hf); case: (f).
Qed.
Lemma placed_made w i md ps fc m vs F d : placed w i md ps fc m vs F d -> made_from w i m /\ in_place w i m d.
Proof.
move=> [q1 q2 q3 q4 q5 q6 q7]; split; first by eexists; [exact: q1|split].
eexists; split; [exact: q1|by []|by move=> r /q5[]|move=> l f /= hl hf].
by have [_ [[e _]|e]] := q7 _ hl; rewrite hf in e => //; case: e => ->.
Qed.

(* to_device brings the operator in place, wherever its parts were *)
Theorem C77_to_device w i m d : reached w -> made_from w i m ->
  (to_device w i d).2 = Ok tt /\ made_from (to_device w i d).1 i m /\ in_place (to_device w i d).1 i m d.
Proof.
move=> /reached_sane hs [o ho [h1 h2 h3]]; have [[-> _ _ _] _ _ _ _] := move_frame d hs ho h1; split=> //.
have eo : lget (w_ops w) i = Ok (Cop (c_model o) (c_dev o) (c_params o) (c_facs o)) by rewrite ho; case: (o).
by apply: placed_made; apply: (move_places d hs eo h1 h2 h3 (F := Fof w i m o)) => l hl; rewrite /Fof hl.
Qed.

(* An operator in place stays in place, and its products do not change, whatever is
   called in between: moves of this operator, products, inverses, exports, and new
   operators.  Products succeed on the operator's device and nowhere else. *)
Theorem C77_products w i m d acts : reached w -> made_from w i m -> in_place w i m d ->
  (forall o, lget (w_ops w) i = Ok o -> clean i (c_model o) m w acts) ->
  let w' := run w acts in let d' := last_device i d acts in
  [/\ in_place w' i m d',
     forall x, exists y, (mul w i (Tens d x)).2 = Ok (Tens d y) /\ (mul w' i (Tens d' x)).2 = Ok (Tens d' y) &
     forall M, t_dev M <> d' -> (mul w' i M).2 = Err RuntimeError].
Proof.
move=> /reached_sane hs hm hi hc; have [o [ho hp]] := place hs hm hi.
have [hs' hp'] := run_placed hs (hc _ ho) hp; split; first by have [] := placed_made hp'.
- move=> x; have [-> _ _] := placed_mul (Tens d x) hp; have [-> _ _] := placed_mul (Tens (last_device i d acts) x) hp'.
  by rewrite /= !eqxx; eexists.
- by move=> M hM; have [-> _ _] := placed_mul M hp'; case: eqP.
Qed.

(* A new operator on a module whose parameters are together is in place; the
   determinism check moves them to the CPU and back. *)
Theorem C77_constructor w k ps kfac check x m d : reached w -> lget (w_models w) k = Ok m -> m_module m ->
  ps <> [::] -> all (fun p => p \in m_refs m) ps -> (forall r, r \in m_refs m -> t_dev (at_ (w_heap w) r) = d) ->
  let w' := (construct w k ps kfac check x).1 in let i := size (w_ops w) in
  [/\ (construct w k ps kfac check x).2 = Ok tt, made_from w' i m & in_place w' i m d].
Proof.
move=> /reached_sane hs hm hmod hps hall hd; rewrite /Devices.construct.
have -> : infer_unique [seq t_dev (at_ (w_heap w) p) | p <- ps] = Ok d.
  have [[_ h] _] := C77_infer [seq t_dev (at_ (w_heap w) p) | p <- ps] d; apply: h; split; first by case: (ps) hps.
  move=> y; elim: (ps) hall => [|p s IH] //= /andP[h1 h2] [<-|]; [exact: hd|exact: IH].
rewrite -/(added w k d ps kfac); set w1 := added w k d ps kfac; set n := size (w_ops w).
have h1 : sane w1 := sane_added k d ps kfac hs.
have on : lget (w_ops w1) n = Ok (Cop k d ps (if kfac then Some (size (w_facs w)) else None)) by rewrite /= dget_rcons eqxx.
have mk : made_from w1 n m by eexists; [exact: on|split].
have ip : in_place w1 n m d.
  eexists; split; [exact: on|by []|by []|] => l f; rewrite /get_facs /w1 /added /=; case: (kfac) => // -[<-].
  by rewrite nth_rcons ltnn eqxx.
case: check => //=; have [o [ho hp]] := place h1 mk ip; set w2 := (to_device w1 n cpu).1.
have h2 : sane w2 := sane_move n cpu h1.
have [q1 q2 q3 q4 q5 q6 q7] := hp.
have p2 := @step_placed w1 (AMove V n cpu) n _ _ _ _ _ _ _ h1 (or_introl erefl) hp; rewrite /= eqxx -/w2 in p2.
have [e3 p3 _] := placed_mul (Tens cpu x) p2; have s3 := sane_only h2 (mul_frame w2 n (Tens cpu x)).
case: (mul w2 n (Tens cpu x)) e3 p3 s3 => w3 r /= -> p3 s3 /=.
have p4 := @step_placed w3 (AMove V n d) n _ _ _ _ _ _ _ s3 (or_introl erefl) p3; rewrite /= eqxx in p4.
by have [] := placed_made p4.
Qed.

(* ---- findings ---- *)
(* Moving an operator moves the module under the other operators on it, which go on
   loading their data to the old device: all their products raise, on every device *)
Theorem C78_shared_module_refuted w i j m d d' oj : reached w -> made_from w i m -> made_from w j m ->
  lget (w_ops w) j = Ok oj -> c_dev oj = d -> i <> j -> d' <> d -> m_refs m <> [::] -> (forall l, c_facs oj = Some l -> get_facs w l = None) ->
  forall M, (mul (to_device w i d').1 j M).2 = Err RuntimeError.
Proof.
move=> /reached_sane hs [o ho [m1 m2 m3]] [oj' hoj' [n1 n2 n3]] hoj hdj hij hd hne hfc M.
have [[_ a2 _ _] a3 a4 [qs a5 a6] [a7 a8]] := move_frame d' hs ho m1.
have eo : oj' = oj by move: hoj'; rewrite hoj => -[].
have fails : differentiate v0 (to_device w i d').1 oj = Err RuntimeError.
  rewrite /differentiate a2 -eo n1 /= eo.
  have [r hr] : exists r, r \in m_refs m by case: (m_refs m) hne => [|r rs] // _; exists r; exact: mem_head.
  suff -> : all (fun r => t_dev (at_ (w_heap (to_device w i d').1) r) == c_dev oj) (m_refs m) = false by [].
  apply/negP => /allP /(_ _ hr) /eqP; rewrite a4; last exact: (sane_refs hs m1 hr).
  by rewrite m2 hr /= hdj.
rewrite /Devices.mul a5; case: eqP => [e|_]; first by case: hij.
rewrite hoj; case hl : (c_facs oj) => [l|] /=; last by rewrite fails.
rewrite /ensure_factors a8; case: eqP => [e|_].
  by case: hij; apply: (sane_uniq hs e); rewrite /facs_of hoj.
by rewrite (hfc _ hl) fails.
Qed.

(* A model that is not a module (a function) is not moved: on any device but the CPU
   the constructor's determinism check, on by default, raises *)
Theorem C78_function_check_refuted w k ps kfac x m d : reached w -> lget (w_models w) k = Ok m -> ~~ m_module m ->
  ps <> [::] -> all (fun p => p \in m_refs m) ps -> (forall r, r \in m_refs m -> t_dev (at_ (w_heap w) r) = d) -> d <> cpu ->
  (construct w k ps kfac true x).2 = Err RuntimeError /\ (construct w k ps kfac false x).2 = Ok tt.
Proof.
move=> /reached_sane hs hm hmod hps hall hd hcpu; rewrite /Devices.construct.
have -> : infer_unique [seq t_dev (at_ (w_heap w) p) | p <- ps] = Ok d.
  have [[_ h] _] := C77_infer [seq t_dev (at_ (w_heap w) p) | p <- ps] d; apply: h; split; first by case: (ps) hps.
  move=> y; elim: (ps) hall => [|p s IH] //= /andP[h1 h2] [<-|]; [exact: hd|exact: IH].
rewrite -/(added w k d ps kfac); set w1 := added w k d ps kfac; set n := size (w_ops w); split=> //.
have h1 : sane w1 := sane_added k d ps kfac hs.
have on : lget (w_ops w1) n = Ok (Cop k d ps (if kfac then Some (size (w_facs w)) else None)) by rewrite /= dget_rcons eqxx.
have [[_ a2 _ _] a3 a4 [qs a5 a6] [a7 a8]] := @move_frame w1 n cpu _ _ h1 on hm.
set w2 := (to_device w1 n cpu).1 in a2 a3 a4 a5 a7 a8 *.
have fails fc : differentiate v0 w2 (Cop k cpu qs fc) = Err RuntimeError.
  rewrite /differentiate a2 /= hm /=.
  case: (ps) hps hall => [|p s] // _ /= /andP[hp _].
  suff -> : all (fun r => t_dev (at_ (w_heap w2) r) == cpu) (m_refs m) = false by [].
  apply/negP => /allP /(_ _ hp) /eqP; rewrite a4; last exact: (sane_refs hs hm hp).
  by rewrite (negbTE hmod) /= hd.
rewrite /Devices.mul a5 eqxx /=; case: (kfac) fails a8 => fails a8 /=; last by rewrite fails.
rewrite /ensure_factors a8 /get_facs /w1 /added /=.
have -> : nth None (if kfac then rcons (w_facs w) None else w_facs w) (size (w_facs w)) = None.
  by case: (kfac); rewrite ?nth_rcons ?ltnn ?eqxx // nth_default.
by case: eqP => _; rewrite fails.
Qed.

Lemma inv_mul w j v i md ps l m vs F d M : placed w i md ps (Some l) m vs F d -> lget (w_invs w) j = Ok v -> i_A v = i ->
  (forall g, i_cache v = Some g -> i_keep v) ->
  (mul_inv w j M).2 = (let g := if i_cache v is Some g then g else Tens d (invert F) in
     if t_dev M == t_dev g then Ok (Tens (t_dev g) (iprod (t_val g) (t_val M))) else Err RuntimeError) /\
  (i_keep v -> lget (w_invs (mul_inv w j M).1) j = Ok (Inv i true (Some (if i_cache v is Some g then g else Tens d (invert F))))).
Proof.
move=> hp hv hA hc; rewrite /Devices.mul_inv hv hA (pl_op hp) /=.
have [w' [e p' [_ _ _ e4 _]]] := placed_ensure hp erefl; rewrite e /=; split=> // ->.
by rewrite /= dget_set ?eqxx // e4; exact: dget_Ok hv.
Qed.

(* what an operator's moves do to its inverse operators *)
Definition inverse_of (w : world) (j i : nat) (v : inv V) : Prop :=
  [/\ lget (w_invs w) j = Ok v, i_A v = i & exists o l, lget (w_ops w) i = Ok o /\ c_facs o = Some l].
(* An inverse KFAC operator without cache follows its operator ... *)
Theorem C78_uncached_inverse w i j m d d' v : reached w -> made_from w i m -> in_place w i m d ->
  inverse_of w j i v -> i_keep v = false -> i_cache v = None ->
  forall x, exists y, (mul_inv w j (Tens d x)).2 = Ok (Tens d y) /\
    (mul_inv (to_device w i d').1 j (Tens d' x)).2 = Ok (Tens d' y).
Proof.
move=> /reached_sane hs hm hi [hv hA [o' [l [ho' hl]]]] hk hc x.
have [o [ho hp]] := place hs hm hi; have eo : o' = o by move: ho'; rewrite ho => -[].
rewrite eo in hl; rewrite hl in hp.
have p2 := @step_placed w (AMove V i d') i _ _ _ _ _ _ _ hs (or_introl erefl) hp; rewrite /= eqxx in p2.
have hm' := pl_model hp; have [[_ _ a3 _] _ _ _ _] := @move_frame w i d' _ _ hs (pl_op hp) hm'.
have hv' : lget (w_invs (to_device w i d').1) j = Ok v by rewrite a3.
have hcc g : i_cache v = Some g -> i_keep v by rewrite hc.
have [-> _] := inv_mul (Tens d x) hp hv hA hcc; have [-> _] := inv_mul (Tens d' x) p2 hv' hA hcc.
by rewrite hc /= !eqxx; eexists.
Qed.
(* ... with the default cache it keeps using the inverses on the old device: all
   products with matrices on the operator's new device raise *)
Theorem C78_cached_inverse_refuted w i j m d d' v x0 : reached w -> made_from w i m -> in_place w i m d ->
  inverse_of w j i v -> i_keep v -> i_cache v = None -> d' <> d ->
  (exists y, (mul_inv w j (Tens d x0)).2 = Ok (Tens d y)) /\
  (forall x, (mul_inv (to_device (mul_inv w j (Tens d x0)).1 i d').1 j (Tens d' x)).2 = Err RuntimeError).
Proof.
move=> /reached_sane hs hm hi [hv hA [o' [l [ho' hl]]]] hk hc hd.
have [o [ho hp]] := place hs hm hi; have eo : o' = o by move: ho'; rewrite ho => -[].
rewrite eo in hl; rewrite hl in hp; have hcc g : i_cache v = Some g -> i_keep v by rewrite hc.
have [-> /(_ hk)] := inv_mul (Tens d x0) hp hv hA hcc; rewrite hc /= eqxx => hv1; split; first by eexists.
have s1 := sane_only hs (mul_inv_frame w j (Tens d x0)); have p1 := mul_inv_placed j (Tens d x0) hs hp.
set w1 := (mul_inv w j _).1 in hv1 s1 p1 *.
have p2 := @step_placed w1 (AMove V i d') i _ _ _ _ _ _ _ s1 (or_introl erefl) p1; rewrite /= eqxx in p2.
have [[_ _ a3 _] _ _ _ _] := @move_frame w1 i d' _ _ s1 (pl_op p1) (pl_model p1).
have hv2 : lget (w_invs (to_device w1 i d').1) j = Ok (Inv i true (Some (Tens d (invert (Fof w i m o))))) by rewrite a3.
by move=> x; have [-> _] := inv_mul (Tens d' x) p2 hv2 erefl (fun _ _ => isT) => /=; case: eqP.
Qed.

(* A SciPy operator exported from an operator in place multiplies with the same
   matrix; exporting fails iff the parameters are on different devices *)
Theorem C78_export w i m d : reached w -> made_from w i m -> in_place w i m d ->
  (forall o, lget (w_ops w) i = Ok o -> c_params o <> [::]) ->
  let w' := (export v0 w (TOp i)).1 in
  (export v0 w (TOp i)).2 = Ok tt /\
  forall x, exists y, (mul w i (Tens d x)).2 = Ok (Tens d y) /\ (mul_export w' (size (w_exps w)) x).2 = Ok y.
Proof.
move=> /reached_sane hs hm hi hne; have [o [ho hp]] := place hs hm hi; have h0 := hne _ ho.
rewrite /export /= ho /=; have hsub := pl_sub hp.
have -> : infer_unique [seq t_dev (at_ (w_heap w) p) | p <- c_params o] = Ok d.
  have [[_ h] _] := C77_infer [seq t_dev (at_ (w_heap w) p) | p <- c_params o] d; apply: h; split; first by case: (c_params o) h0.
  by move=> y; elim: (c_params o) hsub => [|p s IH] //= /andP[h1 h2] [<-|]; [have [] := pl_refs hp h1|exact: IH].
split=> // x; rewrite /Devices.mul_export /= dget_rcons eqxx /=.
set w2 := World _ _ _ _ _ _.
have p2 : placed w2 i (c_model o) (c_params o) (c_facs o) m [seq t_val (at_ (w_heap w) r) | r <- m_refs m] (Fof w i m o) d.
  by have [q1 q2 q3 q4 q5 q6 q7] := hp; split.
have [-> _ _] := placed_mul (Tens d x) hp; have [e2 _ _] := placed_mul (Tens d x) p2.
by case: (mul w2 i _) e2 => w3 r /= ->; rewrite !eqxx; eexists.
Qed.
(* it stores the device: after a move of the operator every product raises *)
Theorem C78_exported_before_move_refuted w i m d d' k : reached w -> made_from w i m -> in_place w i m d ->
  lget (w_exps w) k = Ok (Exported (TOp i) d) -> d' <> d ->
  forall x, (mul_export (to_device w i d').1 k x).2 = Err RuntimeError.
Proof.
move=> /reached_sane hs hm hi hk hd x; have [o [ho hp]] := place hs hm hi.
have p2 := @step_placed w (AMove V i d') i _ _ _ _ _ _ _ hs (or_introl erefl) hp; rewrite /= eqxx in p2.
have [[_ _ _ a4] _ _ _ _] := @move_frame w i d' _ _ hs (pl_op hp) (pl_model hp).
rewrite /Devices.mul_export a4 hk /=; have [e _ _] := placed_mul (Tens d x) p2.
by case: (mul _ _ _) e => w3 r /= ->; case: eqP => // e; case: hd.
Qed.

(* load_state_dict takes the factors over where they are: a state of an operator on
   another device makes all products of the loading operator on its device raise *)
Theorem C78_loaded_state_refuted w i j oi oj mi mj l l' f d : lget (w_ops w) i = Ok oi -> lget (w_ops w) j = Ok oj ->
  lget (w_models w) (c_model oi) = Ok mi -> lget (w_models w) (c_model oj) = Ok mj -> size (m_refs mi) = size (m_refs mj) ->
  c_dev oi = d -> c_facs oi = Some l -> c_facs oj = Some l' -> get_facs w l' = Some f -> t_dev f <> d ->
  (load_from v0 w i j).2 = Ok tt /\ forall x, (mul (load_from v0 w i j).1 i (Tens d x)).2 = Err RuntimeError.
Proof.
move=> hi hj hmi hmj hsz hdv hl hl' hf hd; rewrite /load_from hi hj /= hmi hmj /= hl hl' hsz eqxx /=; split=> // x.
rewrite /Devices.mul /= dget_set ?eqxx //=; last exact: dget_Ok hi.
by rewrite /ensure_factors /get_facs /= -/(get_facs w l') hf /=; case: eqP => // e; case: hd.
Qed.
End Moves.
Print Assumptions C77_to_device.
Print Assumptions C77_products.
Print Assumptions C77_constructor.
Print Assumptions C78_shared_module_refuted.
Print Assumptions C78_function_check_refuted.
Print Assumptions C78_uncached_inverse.
Print Assumptions C78_cached_inverse_refuted.
Print Assumptions C78_export.
Print Assumptions C78_exported_before_move_refuted.
Print Assumptions C78_loaded_state_refuted.

(* ---- cases: two modules and a function on device 1, contents are numbers ---- *)
Section Cases.
Let curv (i : nat) (vs : seq nat) (ps : seq nat) (x : nat) := (nth 0 vs (head 0 ps)) * x + sumn vs.
Let factors (i : nat) (vs : seq nat) (ps : seq nat) := sumn vs + head 0 ps.
Let kprod (f x : nat) := f * x.
Let invert (f : nat) := f.+1.
Let iprod (g x : nat) := g * x.
Local Notation run := (run 0 curv factors kprod invert iprod).
Local Notation mul := (mul 0 curv factors kprod).
Local Notation mul_inv := (mul_inv 0 factors invert iprod).
Let w0 : world nat := World [:: Tens 1 2; Tens 1 3; Tens 1 4; Tens 1 5] [:: Model true [:: 0; 1]; Model true [:: 2]; Model false [:: 3]]
  [::] [::] [::] [::].
(* operator 0: curvature of module 0; 1: KFAC of module 0; 2: KFAC of module 1, on
   the CPU; inverse 0 of operator 2 with cache, inverse 1 without; an export of 0 *)
Let acts0 : seq (action nat) := [:: ANew 0 [:: 1] false true 7; ANew 0 [:: 1; 0] true false 7; ANew 1 [:: 2] true false 7;
  AMove _ 2 0; AInv _ 2 true; AInv _ 2 false; AExport _ (TOp 0)].
Let w : world nat := Eval vm_compute in run w0 acts0.
Lemma w0_fresh : fresh w0.
Proof.
split=> // k m r; case: k => [|[|[|k]]] //= [<-] /=; rewrite !inE; by [case/orP => /eqP ->|move/eqP ->].
Qed.
Lemma w_reached : reached 0 curv factors kprod invert iprod w.
Proof. by exists w0, acts0; split; [exact: w0_fresh|by []|by vm_compute]. Qed.

Example C77_ex_op : made_from w 0 (Model true [:: 0; 1]) /\ in_place 0 w 0 (Model true [:: 0; 1]) 1.
Proof.
split; first by eexists; [reflexivity|split].
eexists; split; [reflexivity|by []|by move=> r; rewrite !inE => /orP[] /eqP ->|by []].
Qed.
(* a history with moves of operators 0 and 2, a product with operator 1 and a new
   operator on the same module *)
Let acts : seq (action nat) := [:: AMul 1 (Tens 1 9); AMove _ 0 0; AMove _ 2 5; ANew 0 [:: 0] false true 3; AMove _ 0 4; AMulInv 0 (Tens 5 2)].
Example C77_ex_history : clean 0 curv factors kprod invert iprod 0 0 (Model true [:: 0; 1]) w acts /\ last_device 0 1 acts = 4.
Proof.
split; last by [].
split; first by [].
split; first by left.
split.
  right=> o mj; rewrite (_ : lget (w_ops _) 2 = Ok (Cop 1 0 [:: 2] (Some 1))); last by vm_compute.
  case=> <-; rewrite (_ : lget (w_models _) _ = Ok (Model true [:: 2])); last by vm_compute.
  by case=> <- _ r; rewrite inE => /eqP ->.
split; first by apply: Or32.
split; first by left.
by split.
Qed.
Example C77_ex_products : (mul w 0 (Tens 1 10)).2 = Ok (Tens 1 35) /\ (mul (run w acts) 0 (Tens 4 10)).2 = Ok (Tens 4 35).
Proof. by vm_compute. Qed.
(* operator 1 shares the module of operator 0: its product raises after a move of 0 *)
Example C78_ex_shared : (mul w 1 (Tens 1 10)).2 = Ok (Tens 1 60) /\
  (mul (to_device 0 w 0 0).1 1 (Tens 0 10)).2 = Err RuntimeError /\ (mul (to_device 0 w 0 0).1 1 (Tens 1 10)).2 = Err RuntimeError.
Proof. by vm_compute. Qed.
Example C78_ex_shared_hyps : made_from w 1 (Model true [:: 0; 1]) /\
  exists oj, [/\ lget (w_ops w) 1 = Ok oj, c_dev oj = 1 & forall l, c_facs oj = Some l -> get_facs w l = None].
Proof.
split; first by eexists; [reflexivity|split].
by eexists; split; [reflexivity|by []|] => l [<-].
Qed.
Example C78_ex_function : (construct 0 curv factors kprod w 2 [:: 3] false true 7).2 = Err RuntimeError /\
  (construct 0 curv factors kprod w 2 [:: 3] false false 7).2 = Ok tt.
Proof. by vm_compute. Qed.
Example C78_ex_inverse : (exists v, inverse_of w 0 2 v /\ i_keep v /\ i_cache v = None) /\
  (exists v, inverse_of w 1 2 v /\ i_keep v = false /\ i_cache v = None) /\ in_place 0 w 2 (Model true [:: 2]) 0.
Proof.
split; last split.
- by exists (Inv 2 true None); split=> //; split=> //; do 2 eexists; split; reflexivity.
- by exists (Inv 2 false None); split=> //; split=> //; do 2 eexists; split; reflexivity.
- eexists; split; [reflexivity|by []|by move=> r; rewrite inE => /eqP ->|by move=> l f [<-]].
Qed.
Example C78_ex_inverse_run : (mul_inv w 0 (Tens 0 10)).2 = Ok (Tens 0 50) /\
  (mul_inv (to_device 0 (mul_inv w 0 (Tens 0 10)).1 2 1).1 0 (Tens 1 10)).2 = Err RuntimeError /\
  (mul_inv (to_device 0 (mul_inv w 1 (Tens 0 10)).1 2 1).1 1 (Tens 1 10)).2 = Ok (Tens 1 50).
Proof. by vm_compute. Qed.
Example C78_ex_export : lget (w_exps w) 0 = Ok (Exported (TOp 0) 1) /\
  (mul_export 0 curv factors kprod invert iprod w 0 10).2 = Ok 35 /\
  (mul_export 0 curv factors kprod invert iprod (to_device 0 w 0 0).1 0 10).2 = Err RuntimeError.
Proof. by vm_compute. Qed.
(* operator 1, moved to the CPU, loads the state of operator 0 *)
Let wl : world nat := run w0 [:: ANew 0 [:: 0] true true 7; ANew 0 [:: 1] true true 7; AMul 0 (Tens 1 3); AMove _ 1 0].
Example C78_ex_load : (load_from 0 wl 1 0).2 = Ok tt /\ (mul wl 1 (Tens 0 10)).2 = Ok (Tens 0 60) /\
  (mul (load_from 0 wl 1 0).1 1 (Tens 0 10)).2 = Err RuntimeError.
Proof. by vm_compute. Qed.
End Cases.
