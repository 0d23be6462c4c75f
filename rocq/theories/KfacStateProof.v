(* The invariant of KFAC operators that share models and dictionaries. *)
From Coq Require Import Reals String ZArith.
From Coquelicot Require Import Coquelicot.
From mathcomp Require Import all_ssreflect all_algebra.
From Verif Require Import PyPrelude Tensor Spec RInst ROrd Calculus Curvature HessGGN Risk Losses Fisher Kfac KfacScalar Conv KfacCov KfacState.
Set Implicit Arguments.
Unset Strict Implicit.
Unset Printing Implicit Defensive.
Import GRing.Theory.
Local Open Scope ring_scope.
Local Notation tens := (tensor R).
Local Notation cov := (dict nat_eqType tens).

Lemma lgetE (T : Type) (x0 : T) (s : seq T) i : lget s i = if (i < size s)%N then Ok (nth x0 s i) else Err IndexError.
Proof. by elim: s i => [|x s IH] [|i] //=; rewrite -IH. Qed.
Lemma lget_Ok (T : Type) (s : seq T) i x : lget s i = Ok x -> forall x0, (i < size s)%N /\ nth x0 s i = x.
Proof. by move=> h x0; move: h; rewrite (lgetE x0); case: ifP => // hi [<-]. Qed.
Lemma lget_set (T : Type) (x0 : T) (s : seq T) i j y : (i < size s)%N -> lget (set_nth x0 s i y) j = if j == i then Ok y else lget s j.
Proof.
move=> hi; rewrite (lgetE x0) size_set_nth (maxn_idPr hi) nth_set_nth /= (lgetE x0).
by case: (j =P i) => [->|]; rewrite ?hi.
Qed.
Lemma lget_rcons (T : Type) (s : seq T) j y : lget (rcons s y) j = if j == size s then Ok y else lget s j.
Proof.
rewrite (lgetE y) size_rcons ltnS nth_rcons (lgetE y); case: (ltngtP j (size s)) => //.
Qed.
Lemma set_nth_same (T : Type) (x0 : T) (s : seq T) i : (i < size s)%N -> set_nth x0 s i (nth x0 s i) = s.
Proof. by elim: s i => [|x s IH] [|i] //= h; rewrite IH. Qed.

Lemma set_nth_back (T : Type) (x0 d1 d2 : T) (s : seq T) i a m : (i < size s)%N -> nth x0 s i = m ->
  set_nth d1 (set_nth d2 s i a) i m = s.
Proof. by move=> hi <-; elim: s i hi => [|x s IH] [|i] //= h; rewrite IH. Qed.

(* ---- the loop that keeps partial values agrees with the one that does not ---- *)
Section Run.
Variables (T : Type) (op : T -> T -> T) (sep : bool) (inC grC : cov).
Variables (vj vw : tens -> tens -> res T) (vb : tens -> res T).
Let fname k G acc (p : pname * nat) : res T :=
  if p.1 == Weight then let! A := dgetE k inC in let! v := vw G A in Ok (op acc v) else let! v := vb G in Ok (op acc v).
Lemma names_run_fname k G acc ps v : names_run op inC vw vb k G acc ps = (v, Ok tt) <-> foldM (fname k G) acc ps = Ok v.
Proof.
elim: ps acc => [|p ps IH] acc; first by split=> -[->].
rewrite [names_run _ _ _ _ _ _ _ _]/=.
have -> : foldM (fname k G) acc (p :: ps) = let! a := fname k G acc p in foldM (fname k G) a ps by [].
have -> : fname k G acc p = let! v := (if p.1 == Weight then let! A := dgetE k inC in vw G A else vb G) in Ok (op acc v).
  by rewrite /fname; case: ifP => _ //; case: (dgetE k inC).
by case: (if p.1 == Weight then _ else _) => [x|e] /=; [exact: IH|split].
Qed.
Let flayer acc (e : nat * dict pname_eqType nat) : res T :=
    let! G := dgetE e.1 grC in
    match sep, dget Weight e.2, dget Bias e.2 with
    | false, Some _, Some _ => let! A := dgetE e.1 inC in let! v := vj G A in Ok (op acc v)
    | _, _, _ => foldM (fname e.1 G) acc e.2
    end.
Lemma scalar_run_ok acc m v :
  scalar_run op sep inC grC vj vw vb acc m = (v, Ok tt) <->
  foldM (fun acc e =>
    let! G := dgetE e.1 grC in
    match sep, dget Weight e.2, dget Bias e.2 with
    | false, Some _, Some _ => let! A := dgetE e.1 inC in let! v := vj G A in Ok (op acc v)
    | _, _, _ =>
        foldM (fun acc p =>
          if p.1 == Weight then let! A := dgetE e.1 inC in let! v := vw G A in Ok (op acc v)
          else let! v := vb G in Ok (op acc v)) acc e.2
    end) acc m = Ok v.
Proof.
rewrite -/fname -/flayer; elim: m acc => [|e m IH] acc; first by split=> -[->].
rewrite [foldM _ _ _]/= -/(foldM flayer) [scalar_run _ _ _ _ _ _ _ _ _]/=.
set r := (match dgetE e.1 grC with Ok _ => _ | Err _ => _ end).
have hr x : r = (x, Ok tt) <-> flayer acc e = Ok x.
  rewrite /r /flayer; case: (dgetE e.1 grC) => [G|y] /=; last by split.
  have h := names_run_fname e.1 G acc e.2 x.
  case: sep => //; case: (dget Weight e.2) => // w; case: (dget Bias e.2) => // b.
  case: (dgetE e.1 inC) => [A|y] /=; last by split.
  by case: (vj G A) => [y|y] /=; split=> // -[->].
case: r hr => x [[]|y] hr; first by rewrite ((hr x).1 erefl) /=; exact: IH.
split=> //; case E : (flayer acc e) => [z|//] /=; by have := (hr z).2 E.
Qed.
End Run.

(* what KfacScalar says about a property *)
Definition prop_value (p : prop) (sep : bool) (inC grC : cov) (m : mapping) : res R :=
  match p with
  | Trace => kfac_trace (F := [fieldType of R]) sep inC grC m
  | Det => kfac_det (F := [fieldType of R]) sep inC grC m
  | Logdet => kfac_logdet sep inC grC m
  | Frob => kfac_frobenius_norm (F := R_rcfType) sep inC grC m
  end.
Lemma prop_run_value p sep inC grC m v : prop_run p sep inC grC m = (v, Ok tt) <-> prop_value p sep inC grC m = Ok v.
Proof.
case: p => /=; try exact: scalar_run_ok.
rewrite /kfac_frobenius_norm /kfac_frob2 /scalar_loop.
set r := scalar_run _ _ _ _ _ _ _ _ _; have h : forall x, r = (x, Ok tt) <-> _ := fun x => scalar_run_ok _ _ _ _ _ _ _ _ _ x.
move: h; case: r => x [[]|e] h.
  rewrite ((h x).1 erefl) /=; case: ifP => // _; split=> -[->] //.
split=> //; case E : foldM => [y|//] /=; by have := (h y).2 E.
Qed.

Section Inv.
Variables (Theta : Type) (arch : Theta -> nat) (partial_load : Theta -> Theta -> Theta).
Variables (passes : kop -> Theta -> nat -> seq (res firing)) (mconv : nat -> nat -> option conv).
Local Notation world := (world Theta).
Local Notation compute := (compute passes mconv).
Local Notation ensure := (ensure passes mconv).
Local Notation step := (step arch partial_load passes mconv).

Definition computed (d : cov * cov) : bool := ~~ (nilp d.1 && nilp d.2).

(* cached values belong to the factors; there are none before the factors *)
Definition coherent (w : world) (loc : nat) (s : settings) (c : cache) (m : mapping) : Prop :=
  [/\ (loc < size (w_dicts w))%N, mc_ok s &
   forall p v, c p = Some v -> prop_run p (s_sep s) (get_dicts w loc).1 (get_dicts w loc).2 m = (v, Ok tt) /\
     (m <> [::] -> computed (get_dicts w loc))].
Definition op_coherent (w : world) (o : kop) : Prop := coherent w (o_dicts o) (o_set o) (o_cache o) (o_mapping o).
Definition sd_coherent (w : world) (s : saved) : Prop := coherent w (sd_dicts s) (sd_set s) (sd_cache s) (sd_origin s).
Definition inv (w : world) : Prop :=
  [/\ (forall i o, lget (w_ops w) i = Ok o -> op_coherent w o),
      (forall j s, lget (w_saved w) j = Ok s -> sd_coherent w s) &
      (forall m ms, lget (w_models w) m = Ok ms -> m_hooks ms = [::])].

(* factors, once there, stay *)
Definition kept (w w' : world) : Prop :=
  (size (w_dicts w) <= size (w_dicts w'))%N /\
  forall l, (l < size (w_dicts w))%N -> computed (get_dicts w l) -> get_dicts w' l = get_dicts w l.
(* ... and nothing but one pair of dictionaries that were empty changes *)
Definition filled (loc : nat) (w w' : world) : Prop :=
  size (w_dicts w') = size (w_dicts w) /\ forall l, l <> loc -> get_dicts w' l = get_dicts w l.

Lemma kept_refl w : kept w w.
Proof. by []. Qed.
Lemma kept_trans w1 w2 w3 : kept w1 w2 -> kept w2 w3 -> kept w1 w3.
Proof.
move=> [a1 a2] [b1 b2]; split; first exact: leq_trans a1 b1.
by move=> l hl hc; rewrite b2 ?a2 //; exact: leq_trans hl a1.
Qed.

Lemma coherent_kept (w w' : world) loc s c m : kept w w' -> coherent w loc s c m -> coherent w' loc s c m.
Proof.
move=> [k1 k2] [h1 h2 h3]; split=> //; first exact: leq_trans h1 k1.
move=> p v hv; have [a b] := h3 p v hv; case: (boolP (nilp m)) => [/nilP e|/nilP e].
  by subst m; move: a; clear; case: p.
by rewrite k2 //; exact: b.
Qed.

(* same objects except the dictionaries *)
Definition same_objects (w w' : world) : Prop :=
  [/\ w_models w' = w_models w, w_ops w' = w_ops w, w_saved w' = w_saved w & w_tick w' = w_tick w].

Lemma run_passes_frame (w : world) i o fs : lget (w_ops w) i = Ok o -> (o_dicts o < size (w_dicts w))%N ->
  let w' := (run_passes mconv w (o_dicts o) [:: i] fs).1 in same_objects w w' /\ filled (o_dicts o) w w'.
Proof.
elim: fs w => [|f fs IH] w ho hl /=; first by split; split.
case: f => [f|e] /=; last by split; split.
have wr d : let w1 := set_dicts w (o_dicts o) d in [/\ same_objects w w1, filled (o_dicts o) w w1 &
   lget (w_ops w1) i = Ok o /\ (o_dicts o < size (w_dicts w1))%N].
  have hs : size (set_nth ([::], [::]) (w_dicts w) (o_dicts o) d) = size (w_dicts w).
    by rewrite size_set_nth (maxn_idPr hl).
  split; [by split|split=> //|by rewrite /= hs].
  by move=> l hl'; rewrite /get_dicts /= nth_set_nth /=; case: eqP.
have next d : let w' := (run_passes mconv (set_dicts w (o_dicts o) d) (o_dicts o) [:: i] fs).1 in
   same_objects w w' /\ filled (o_dicts o) w w'.
  have [[a1 a2 a3 a4] [b1 b2] [c1 c2]] := wr d; have [[d1 d2 d3 d4] [e1 e2]] := IH _ c1 c2.
  by split; [split; rewrite ?d1 ?d2 ?d3 ?d4|split; [rewrite e1|move=> l hl'; rewrite e2 ?b2]].
have hooked : let w' := (match run_hooks mconv w f [:: i] with (w', Ok _) => run_passes mconv w' (o_dicts o) [:: i] fs
    | (w', Err e) => (w', Err e) end).1 in same_objects w w' /\ filled (o_dicts o) w w'.
  rewrite /= /run_hook /getn ho /=; case: (hook mconv o f) => [[u|e]|] //=; [|exact: IH].
  by case: (apply_update (get_dicts w (o_dicts o)) u) => [d|e] /=; [exact: next|split; split].
by case: f hooked.
Qed.

Lemma compute_frame (w w' : world) i o m : lget (w_ops w) i = Ok o -> lget (w_models w) (o_model o) = Ok m ->
  m_hooks m = [::] -> (o_dicts o < size (w_dicts w))%N -> compute w i = (w', Ok tt) ->
  [/\ w_models w' = w_models w, w_ops w' = set_nth (reset o) (w_ops w) i (reset o), w_saved w' = w_saved w &
      filled (o_dicts o) w w'].
Proof.
move=> ho hm hh hl; rewrite /KfacState.compute /getn ho hm hh /=.
set w3 := World _ _ _ _ _; have hi : (i < size (w_ops w))%N by have [] := lget_Ok ho o.
have ho3 : lget (w_ops w3) i = Ok (reset o) by rewrite /= lget_set // eqxx.
have := @run_passes_frame w3 i (reset o) (passes o (m_theta m) (w_tick w)) ho3 hl.
case: run_passes => w4 [u|e] //= [[a1 a2 a3 a4] [b1 b2]] [<-]; split=> /=; rewrite ?a2 ?a3 //.
have [hk e0] := lget_Ok hm (MState (m_theta m) [::]).
rewrite a1 /= -hh; have -> : MState (m_theta m) (m_hooks m) = m by case: (m).
exact: set_nth_back e0.
Qed.

Lemma inv_kept (w w' : world) : inv w -> kept w w' ->
  (forall i o, lget (w_ops w') i = Ok o -> (exists i', lget (w_ops w) i' = Ok o) \/ op_coherent w' o) ->
  (forall j s, lget (w_saved w') j = Ok s -> (exists j', lget (w_saved w) j' = Ok s) \/ sd_coherent w' s) ->
  (forall m ms, lget (w_models w') m = Ok ms -> m_hooks ms = [::]) -> inv w'.
Proof.
move=> [i1 i2 i3] k h1 h2 h3; split=> //.
- by move=> i o /h1[[i' /i1 h]|//]; exact: coherent_kept k h.
- by move=> j s /h2[[j' /i2 h]|//]; exact: coherent_kept k h.
Qed.

Lemma filled_kept loc (w w' : world) : filled loc w w' -> ~~ computed (get_dicts w loc) -> kept w w'.
Proof.
move=> [f1 f2] hn; split; first by rewrite f1.
by move=> l hl hc; apply: f2 => e; subst l; rewrite hc in hn.
Qed.

(* ensuring that the factors exist *)
Lemma ensure_inv (w w' : world) i : inv w -> ensure w i = (w', Ok tt) ->
  [/\ inv w', kept w w', w_models w' = w_models w, w_saved w' = w_saved w &
   exists o, [/\ lget (w_ops w) i = Ok o, lget (w_ops w') i = Ok (if computed (get_dicts w (o_dicts o)) then o else reset o) &
     forall j, j <> i -> lget (w_ops w') j = lget (w_ops w) j]].
Proof.
move=> hw; have [i1 i2 i3] := hw; rewrite /KfacState.ensure /getn; case ho : (lget _ _) => [o|e] //.
rewrite -[_ && _]negbK -/(computed _); case hc : (computed _) => /=.
  by move=> [<-]; split=> //; exists o; rewrite hc.
move=> he; have [h1 h2 h3] := i1 _ _ ho.
have [m hm] : exists m, lget (w_models w) (o_model o) = Ok m.
  by move: he; rewrite /KfacState.compute /getn ho; case: (lget (w_models w) _) => // m; exists m.
have hi : (i < size (w_ops w))%N by have [] := lget_Ok ho o.
have [a1 a2 a3 a4] := compute_frame ho hm (i3 _ _ hm) h1 he.
have k : kept w w' by apply: filled_kept a4 _; rewrite hc.
have ops j : lget (w_ops w') j = if j == i then Ok (reset o) else lget (w_ops w) j by rewrite a2 lget_set.
split=> //; last by exists o; rewrite hc ops eqxx; split=> // j /eqP /negbTE; rewrite ops => ->.
apply: (inv_kept hw k).
- move=> j o'; rewrite ops; case: eqP => [_ [<-]|_ h]; last by left; exists j.
  by right; split=> //=; rewrite a4.1.
- by move=> j s; rewrite a3 => h; left; exists j.
- by move=> j ms; rewrite a1; exact: i3.
Qed.

(* The operations that must not fail: computing factors and reading.  A load may be
   rejected, except for the check of the operator's own keys, which comes after its
   settings were overwritten (C40's counter-examples).  A state that is accepted was
   made by an operator for the same parameters. *)
Definition clean_step (w : world) (a : action Theta) : Prop :=
  match a with
  | AMatmat i _ => (ensure w i).2 = Ok tt
  | ARead _ _ => (step w a).2 = Ok tt
  | ALoad i j => forall o s, lget (w_ops w) i = Ok o -> lget (w_saved w) j = Ok s ->
      own_keys_ok (get_dicts w (o_dicts o)) (o_mapping o) /\ ((step w a).2 = Ok tt -> sd_origin s = o_mapping o)
  | AFrom j m ids mods => forall s, lget (w_saved w) j = Ok s -> (step w a).2 = Ok tt ->
      compute_parameter_mapping ids mods = Ok (sd_origin s)
  | _ => True
  end.
Fixpoint clean (w : world) (acts : seq (action Theta)) : Prop :=
  match acts with [::] => True | a :: acts' => clean_step w a /\ clean (step w a).1 acts' end.

Lemma read_inv (w w' : world) i p v : inv w -> read passes mconv w i p = (w', Ok v) ->
  [/\ inv w', kept w w', w_models w' = w_models w, w_saved w' = w_saved w &
   exists o, [/\ lget (w_ops w') i = Ok o, (exists2 o0, lget (w_ops w) i = Ok o0 & (o0 = with_cache o (o_cache o0))),
     o_cache o p = Some v & forall j, j <> i -> lget (w_ops w') j = lget (w_ops w) j]].
Proof.
move=> hw; rewrite /read /getn; case ho : (lget _ _) => [o|e] //.
case hc : (o_cache o p) => [v'|].
  by move=> [<- <-]; split=> //; exists o; split=> //; exists o => //; case: (o).
case he : (KfacState.ensure _ _ _ _) => [w1 [[]|e]] //.
have [j1 k1 m1 s1 [o0 [e0 e1 e2]]] := ensure_inv hw he.
move: e0 e1; rewrite ho => -[<-] e1; rewrite e1; set o1 := if _ then _ else _.
case hp : (prop_run _ _ _ _ _) => [x [[]|e]] // [<- <-].
have hi1 : (i < size (w_ops w1))%N by have [] := lget_Ok e1 o1.
set o2 := with_cache _ _.
have ops j : lget (w_ops (upd_op w1 i o2)) j = if j == i then Ok o2 else lget (w_ops w1) j by rewrite /= lget_set.
have [i1 i2 i3] := j1; have [h1 h2 h3] := i1 _ _ e1.
have k2 : kept w1 (upd_op w1 i o2) by [].
split=> //.
- apply: (inv_kept j1 k2) => // [j o'|j s h]; last by left; exists j.
  rewrite ops; case: eqP => [_ [<-]|_ h]; last by left; exists j.
  right; split=> // q u; rewrite /o2 /= /cset; case hq : (prop_eqb p q); last by move=> /h3.
  have -> : q = p by move: hq; clear; case: p; case: q.
  move=> [<-]; split=> // hm.
  (* the dictionaries were filled: the loop found a factor for the first layer *)
  rewrite /computed; apply/negP => /andP[/nilP z1 /nilP z2]; move: hp; change (o_dicts o2) with (o_dicts o1) in z2.
  change (o_dicts o2) with (o_dicts o1) in z1; rewrite /get_dicts /= in z1 z2; rewrite /get_dicts /= z1 z2.
  by move: hm; change (o_mapping o2) with (o_mapping o1); case: (o_mapping o1) => // l ls _; clear; case: (p).
exists o2; rewrite ops eqxx; split=> //.
- exists o => //; rewrite /o2 /o1; by case: ifP; case: (o).
- by rewrite /o2 /= /cset; case: (p).
- by move=> j /eqP hj; rewrite ops (negbTE hj); apply: e2; apply/eqP.
Qed.

Lemma lget_set_model (w : world) k m m' : lget (w_models w) k = Ok m ->
  forall j ms, lget (w_models (upd_model w k m')) j = Ok ms -> ms = m' \/ lget (w_models w) j = Ok ms.
Proof.
move=> hm j ms; have [hk _] := lget_Ok hm m; rewrite /= lget_set //; case: eqP => [_ [<-]|_]; auto.
Qed.

Lemma load_inv (w w' : world) i s : inv w -> sd_coherent w s ->
  (forall o, lget (w_ops w) i = Ok o -> sd_origin s = o_mapping o) ->
  load arch partial_load w i s = (w', Ok tt) ->
  [/\ inv w', kept w w', w_saved w' = w_saved w &
   exists o, [/\ lget (w_ops w) i = Ok o,
     lget (w_ops w') i = Ok (Op (o_model o) (o_loss o) (o_mapping o) (sd_set s) (sd_dicts s) (sd_cache s)) &
     forall j, j <> i -> lget (w_ops w') j = lget (w_ops w) j]].
Proof.
move=> hw hs horig; have [i1 i2 i3] := hw; rewrite /load /getn.
case ho : (lget (w_ops w) i) => [o|e] //; case hm : (lget (w_models w) (o_model o)) => [m|e] //.
case hms : (lget (w_models w) (sd_model s)) => [ms|e] //; case: ifP => // _; case: ifP => // _; case: ifP => // _.
case: ifP => // _ [<-]; have hi : (i < size (w_ops w))%N by have [] := lget_Ok ho o.
set o2 := Op (o_model o) (o_loss o) (o_mapping o) (sd_set s) (sd_dicts s) (sd_cache s).
have ops j : lget (w_ops (upd_op (upd_op (upd_model w (o_model o) (MState (m_theta ms) (m_hooks m))) i
    (Op (o_model o) (o_loss o) (o_mapping o) (sd_set s) (o_dicts o) (o_cache o))) i o2)) j = if j == i then Ok o2 else lget (w_ops w) j.
  by rewrite /= lget_set ?lget_set ?size_set_nth ?(maxn_idPr hi) //; case: eqP.
split=> //; last by exists o; rewrite ops eqxx; split=> // j /eqP hj; rewrite ops (negbTE hj).
apply: (inv_kept hw) => //.
- move=> j o'; rewrite ops; case: eqP => [_ [<-]|_ h]; last by left; exists j.
  by right; rewrite /op_coherent /= -(horig _ ho).
- by move=> j s' h; left; exists j.
move=> j ms' hj; have [->|] := @lget_set_model w _ _ (MState (m_theta ms) (m_hooks m)) hm j ms' hj; last exact: i3.
exact: i3 hm.
Qed.

(* a rejected load changes the model's parameters at most *)
Lemma load_rejected (w w' : world) i s e :
  (forall o, lget (w_ops w) i = Ok o -> own_keys_ok (get_dicts w (o_dicts o)) (o_mapping o)) ->
  load arch partial_load w i s = (w', Err e) ->
  [/\ w_ops w' = w_ops w, w_dicts w' = w_dicts w, w_saved w' = w_saved w &
      forall m ms, lget (w_models w') m = Ok ms -> exists m' ms', lget (w_models w) m' = Ok ms' /\ m_hooks ms = m_hooks ms'].
Proof.
move=> hk; rewrite /load /getn; have same : forall m ms, lget (w_models w) m = Ok ms ->
    exists m' ms', lget (w_models w) m' = Ok ms' /\ m_hooks ms = m_hooks ms' by move=> m ms h; exists m, ms.
case ho : (lget (w_ops w) i) => [o|x]; last by case=> <-.
case hm : (lget (w_models w) (o_model o)) => [m|x]; last by case=> <-.
case hms : (lget (w_models w) (sd_model s)) => [ms|x]; last by case=> <-.
have upd th : forall j mj, lget (w_models (upd_model w (o_model o) (MState th (m_hooks m)))) j = Ok mj ->
    exists m' ms', lget (w_models w) m' = Ok ms' /\ m_hooks mj = m_hooks ms'.
  move=> j mj hj; have [->|h] := @lget_set_model w _ _ (MState th (m_hooks m)) hm j mj hj; last by exists j, mj.
  by exists (o_model o), m.
case: ifP => _; first by case=> <- _; split=> //; exact: upd.
do 2 (case: ifP => _; first by case=> <- _; split=> //; exact: upd).
by case: ifP => //; rewrite (hk _ ho).
Qed.
Lemma rejected_inv (w w' : world) i s e : inv w ->
  (forall o, lget (w_ops w) i = Ok o -> own_keys_ok (get_dicts w (o_dicts o)) (o_mapping o)) ->
  load arch partial_load w i s = (w', Err e) -> inv w' /\ kept w w'.
Proof.
move=> hw hk /(load_rejected hk)[e1 e2 e3 e4]; have k : kept w w' by rewrite /kept /get_dicts e2.
split=> //; apply: (inv_kept hw k) => [j o|j s'|m ms /e4[m' [ms' [h ->]]]].
- by rewrite e1 => h; left; exists j.
- by rewrite e3 => h; left; exists j.
by case: hw => _ _; apply; exact: h.
Qed.

Lemma construct_inv (w w' : world) m lo ids mods s r : inv w -> construct w m lo ids mods s = (w', r) ->
  [/\ inv w', kept w w', w_models w' = w_models w, w_saved w' = w_saved w &
   (r = Ok tt -> exists mp, [/\ compute_parameter_mapping ids mods = Ok mp, mc_ok s,
      w_ops w' = rcons (w_ops w) (Op m lo mp s (size (w_dicts w)) no_cache) &
      w_dicts w' = rcons (w_dicts w) ([::], [::])])].
Proof.
move=> hw; have [i1 i2 i3] := hw; rewrite /construct; case: ifP => [_ [<- <-] //|/negbFE hmc].
case hmp : (compute_parameter_mapping ids mods) => [mp|e]; last by case=> <- <-.
case: (nilp ids) => [[<- <-] //|[<- <-]].
have k : kept w (World (w_models w) (rcons (w_dicts w) ([::], [::])) (rcons (w_ops w) (Op m lo mp s (size (w_dicts w)) no_cache)) (w_saved w) (w_tick w)).
  split=> /=; first by rewrite size_rcons.
  by move=> l hl _; rewrite /get_dicts /= nth_rcons hl.
split=> //; last by exists mp.
apply: (inv_kept hw k) => // [j o|j s' h]; last by left; exists j.
rewrite lget_rcons; case: eqP => [_ [<-]|_ h]; last by left; exists j.
by right; split=> //=; rewrite size_rcons.
Qed.

Lemma step_inv (w : world) a : inv w -> clean_step w a -> inv (step w a).1 /\ kept w (step w a).1.
Proof.
move=> hw; have [i1 i2 i3] := hw; case: a => [m lo ids mods s|i M|i p|i|i j|j m ids mods|j|m th] /=.
- by case E : (construct _ _ _ _ _ _) => [w' r] _; have [] := construct_inv hw E.
- rewrite /matmat; case E : (KfacState.ensure _ _ _ _) => [w' r] /= e; subst r.
  by have [h1 h2 _ _ _] := ensure_inv hw E.
- case E : (read _ _ _ _ _) => [w' [v|e]] //= _; by have [h1 h2 _ _ _] := read_inv hw E.
- move=> _; rewrite /getn; case ho : (lget _ _) => [o|e] //=; rewrite /state_dict; case: (l_exact _) => //=.
  set w' := World _ _ _ _ _; have k : kept w w' by [].
  split=> //; apply: (inv_kept hw k) => //= [i' o' h|j s]; first by left; exists i'.
  rewrite lget_rcons; case: eqP => [_ [<-]|_ h]; last by left; exists j.
  by right; exact: (i1 _ _ ho).
- rewrite /getn; case hs : (lget (w_saved w) j) => [s|e] //= hc.
  have hk o : lget (w_ops w) i = Ok o -> own_keys_ok (get_dicts w (o_dicts o)) (o_mapping o) by move=> ho; have [] := hc _ _ ho erefl.
  case E : (load _ _ _ _ _) hc => [w' [[]|e]] /= hc; last exact: rejected_inv E.
  by have [|h1 h2 _ _] := load_inv hw (i2 _ _ hs) _ E; first by move=> o ho; have [_ ->] := hc _ _ ho erefl.
- rewrite /getn; case hs : (lget (w_saved w) j) => [s|e] //= /(_ _ erefl).
  rewrite /from_state_dict; case E : (construct _ _ _ _ _ _) => [w1 [[]|e]] /=; have [c1 c2 c3 c4 c5] := construct_inv hw E; last by [].
  have [mp [c6 c7 c8 c9]] := c5 erefl.
  case E2 : (load _ _ _ _ _) => [w2 [[]|e]] /=; last first.
    move=> _; have [|h1 h2] := rejected_inv c1 _ E2; last by split=> //; exact: kept_trans c2 h2.
    by move=> o; rewrite c8 lget_rcons eqxx => -[<-] /=; rewrite /get_dicts c9 nth_rcons ltnn eqxx.
  move=> /(_ erefl) horig; have [||h1 h2 _ _] := load_inv c1 _ _ E2.
  + exact: coherent_kept c2 (i2 _ _ hs).
  + by move=> o; rewrite c8 lget_rcons eqxx => -[<-] /=; move: horig; rewrite c6 => -[->].
  by split=> //; exact: kept_trans c2 h2.
- move=> _; rewrite /getn; case hs : (lget (w_saved w) j) => [s|e] //=; rewrite /copy_saved /getn.
  case hm : (lget (w_models w) (sd_model s)) => [m|e] //=.
  set w' := World _ _ _ _ _; have k : kept w w'.
    split=> /=; first by rewrite size_rcons.
    by move=> l hl _; rewrite /get_dicts /= nth_rcons hl.
  split=> //; apply: (inv_kept hw k) => [i o h|j' s'|m' ms]; first by left; exists i.
  - rewrite /= lget_rcons; case: eqP => [_ [<-]|_ h]; last by left; exists j'.
    right; have [h1 h2 h3] := i2 _ _ hs; split=> //=; first by rewrite size_rcons.
    by move=> p v /h3; rewrite /get_dicts /= nth_rcons ltnn eqxx.
  rewrite /= lget_rcons; case: eqP => [_ [<-] //|_]; exact: i3.
move=> _; rewrite /getn; case hm : (lget (w_models w) m) => [ms|e] //=; split=> //.
apply: (inv_kept hw) => //= [i o h|j s h|j ms' hj]; [by left; exists i|by left; exists j|].
by have [->|] := @lget_set_model w _ _ (MState th (m_hooks ms)) hm j ms' hj; [exact: i3 hm|exact: i3].
Qed.

Lemma run_inv (w : world) acts : inv w -> clean w acts ->
  inv (run arch partial_load passes mconv w acts) /\ kept w (run arch partial_load passes mconv w acts).
Proof.
elim: acts w => [|a acts IH] w hw /=; first by [].
move=> [h1 h2]; have [a1 a2] := step_inv hw h1; have [b1 b2] := IH _ a1 h2.
by split=> //; exact: kept_trans a2 b2.
Qed.
End Inv.
