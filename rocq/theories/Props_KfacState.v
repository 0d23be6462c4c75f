(* KFAC operators as objects: C38 (coherence), C39-C41 (saving and loading), C42
   (failing computations), C43 (constructor). *)
From Coq Require Import Reals Lra String ZArith FunctionalExtensionality.
From Coquelicot Require Import Coquelicot.
From mathcomp Require Import all_ssreflect all_algebra.
From Verif Require Import PyPrelude Tensor Spec TorchBase OpSpec RInst ROrd Calculus Curvature HessGGN Risk Losses Fisher Kfac KfacSpec KfacProof KfacMap KfacScalar Conv KfacCov Props_Kfac KfacState KfacStateProof.
Set Implicit Arguments.
Unset Strict Implicit.
Unset Printing Implicit Defensive.
Import GRing.Theory.
Local Open Scope ring_scope.
Local Notation tens := (tensor R).
Local Notation cov := (dict nat_eqType tens).

(* ---------- C43: the constructor's argument checks ---------- *)
(* the documented values *)
Definition documented_fisher : seq string := [:: "type-2"; "mc"; "empirical"; "forward-only"]%string.
Definition documented_approx : seq string := [:: "expand"; "reduce"]%string.

Lemma fisher_of_str s : (exists f, fisher_of (PyStr s) = Some f) <-> List.In s documented_fisher.
Proof.
split; last by case=> [<-|[<-|[<-|[<-|//]]]]; eexists.
case=> f; rewrite /fisher_of; case: (String.eqb_spec s "type-2") => [->|_]; first by left.
case: (String.eqb_spec s "mc") => [->|_]; first by right; left.
case: (String.eqb_spec s "empirical") => [->|_]; first by do 2 right; left.
by case: (String.eqb_spec s "forward-only") => [->|_] //; do 3 right; left.
Qed.
Lemma approx_of_str s : (exists f, approx_of (PyStr s) = Some f) <-> List.In s documented_approx.
Proof.
split; last by case=> [<-|[<-|//]]; eexists.
case=> f; rewrite /approx_of; case: (String.eqb_spec s "expand") => [->|_]; first by left.
by case: (String.eqb_spec s "reduce") => [->|_] //; right; left.
Qed.
Lemma fisher_of_mc a : fisher_of a = Some MC <-> a = PyStr "mc".
Proof.
split=> [|-> //]; case: a => // s; rewrite /fisher_of; case: (String.eqb s "type-2") => //.
case: (String.eqb_spec s "mc") => [-> //|_].
by case: (String.eqb s "empirical") => //; case: (String.eqb s "forward-only").
Qed.

(* the arguments are accepted iff the loss is supported, the two names are among
   the documented ones, and more than one sample is only asked for with 'mc' *)
Theorem C43_accepted_iff l ft mc ap :
  (exists r, ctor_checks l ft mc ap = Ok r) <->
  [/\ l <> Unsupported, (exists2 s, ft = PyStr s & List.In s documented_fisher),
      (exists2 s, ap = PyStr s & List.In s documented_approx) & (ft = PyStr "mc" \/ mc = Z.one)].
Proof.
split.
  case=> r; rewrite /ctor_checks; case: l => [lo|//]; case hf : (fisher_of ft) => [f|//].
  case hm : (if f is MC then false else ~~ Z.eqb mc 1) => //; case ha : (approx_of ap) => [a|//] _; split=> //.
  - case: ft hf => // s hf; exists s => //; apply/fisher_of_str; by exists f.
  - case: ap ha => // s ha; exists s => //; apply/approx_of_str; by exists a.
  - case: f hf hm => hf hm; try by right; apply/Z.eqb_eq; apply: negbFE.
    by left; apply/fisher_of_mc.
case=> h1 [s e1 /fisher_of_str[f hf]] [t e2 /approx_of_str[a ha]] h2; rewrite /ctor_checks e1 e2 hf ha.
case: l h1 => // lo _; exists (lo, f, a); case: ifP => // hm; move: hm; case: h2 => [e|->].
  by have : fisher_of ft = Some MC by [apply/fisher_of_mc]; rewrite e1 hf => -[->].
by case: (f).
Qed.
Print Assumptions C43_accepted_iff.

(* every other combination is a ValueError *)
Theorem C43_rejected l ft mc ap : (forall r, ctor_checks l ft mc ap <> Ok r) -> ctor_checks l ft mc ap = Err ValueError.
Proof.
rewrite /ctor_checks; case: l => [lo|//]; case: (fisher_of ft) => [f|//]; case: ifP => // _.
by case: (approx_of ap) => [a|//] /(_ (lo, f, a)).
Qed.
Print Assumptions C43_rejected.

Example C43_ex : ctor_checks (Supported (LossObj LMSE true RMean)) (PyStr "mc") 4 (PyStr "reduce") =
    Ok (LossObj LMSE true RMean, MC, Reduce) /\
  ctor_checks (Supported (LossObj LMSE true RMean)) (PyStr "type-2") 4 (PyStr "reduce") = Err ValueError /\
  ctor_checks (Supported (LossObj LMSE true RMean)) (PyStr "type2") 1 (PyStr "reduce") = Err ValueError.
Proof. by []. Qed.

Section World.
Variables (Theta : Type) (arch : Theta -> nat) (partial_load : Theta -> Theta -> Theta).
Variables (passes : kop -> Theta -> nat -> seq (res firing)) (mconv : nat -> nat -> option conv).
Local Notation world := (world Theta).
Local Notation run := (run arch partial_load passes mconv).
Local Notation step := (step arch partial_load passes mconv).
Local Notation clean := (clean arch partial_load passes mconv).
Local Notation read := (read passes mconv).
Local Notation matmat := (matmat passes mconv).

(* at the start there are models, but no operators, saved states or hooks *)
Definition fresh (w : world) : Prop :=
  [/\ w_ops w = [::], w_saved w = [::] & forall m ms, lget (w_models w) m = Ok ms -> m_hooks ms = [::]].
Lemma fresh_inv w : fresh w -> inv w.
Proof. by move=> [h1 h2 h3]; split=> //; rewrite ?h1 ?h2. Qed.

Lemma ensure_computed (w : world) i o : lget (w_ops w) i = Ok o -> computed (get_dicts w (o_dicts o)) ->
  ensure passes mconv w i = (w, Ok tt).
Proof. by move=> ho hc; rewrite /ensure /getn ho -[_ && _]negbK -/(computed _) hc. Qed.
Lemma matmat_computed (w : world) i o M : lget (w_ops w) i = Ok o -> computed (get_dicts w (o_dicts o)) ->
  matmat w i M = (w, kfac_matmat (F := [fieldType of R]) (s_sep (o_set o)) (get_dicts w (o_dicts o)).1 (get_dicts w (o_dicts o)).2 (o_mapping o) M).
Proof. by move=> ho hc; rewrite /KfacState.matmat (ensure_computed ho hc) /getn ho. Qed.

(* ---------- C38 ---------- *)
Lemma coherent_read (w0 w' : world) acts i p v : fresh w0 -> clean w0 acts ->
  read (run w0 acts) i p = (w', Ok v) ->
  exists o, [/\ lget (w_ops w') i = Ok o,
    prop_value p (s_sep (o_set o)) (get_dicts w' (o_dicts o)).1 (get_dicts w' (o_dicts o)).2 (o_mapping o) = Ok v &
    (o_mapping o <> [::] -> forall M, matmat w' i M =
       (w', kfac_matmat (F := [fieldType of R]) (s_sep (o_set o)) (get_dicts w' (o_dicts o)).1 (get_dicts w' (o_dicts o)).2 (o_mapping o) M))].
Proof.
move=> /fresh_inv hw hc; have [h1 h2] := run_inv hw hc => hr.
have [j1 _ _ _ [o [o1 _ o3 _]]] := read_inv h1 hr; case: j1 => j1 _ _.
have [_ _ /(_ _ _ o3)[e1 e2]] := j1 _ _ o1; exists o; split=> //; first exact/prop_run_value.
by move=> hm M; apply: matmat_computed => //; exact: e2.
Qed.

(* what each property is of a matrix; logdet where all factors have a positive
   determinant *)
Definition is_property (p : prop) (S : seq (seq nat)) (inC grC : cov) (K : nat -> nat -> R) (v : R) : Prop :=
  match p with
  | Trace => v = \sum_(i < total S) K i i
  | Det => v = \det (\matrix_(i < total S, j < total S) K i j)
  | Logdet => (forall k t d, (dget k inC = Some t \/ dget k grC = Some t) -> mdet t = Ok d -> Rlt 0 d) ->
              v = ln (\det (\matrix_(i < total S, j < total S) K i j))
  | Frob => (forall k t, (dget k inC = Some t \/ dget k grC = Some t) -> wf t) ->
            Rle 0 v /\ v ^+ 2 = \sum_(i < total S) \sum_(j < total S) K i j ^+ 2
  end.

Lemma value_property p sep S ids mods inC grC mp K v :
  kfac_net (F := [fieldType of R]) sep S ids mods inC grC -> S <> [::] -> compute_parameter_mapping ids mods = Ok mp ->
  acts_as (LinOp S S (kfac_matmat (F := [fieldType of R]) sep inC grC mp)) S K ->
  prop_value p sep inC grC mp = Ok v -> is_property p S inC grC K v.
Proof.
move=> hnet hS hmp hK; case: p => /=.
- by rewrite (C34_trace hnet hS hmp hK) => -[].
- by rewrite (C35_det hnet hS hmp hK) => -[].
- by move=> + hpos; have [_ ->] := C36_logdet hnet hS hmp hK hpos => -[].
- move=> + hwf; have [f [-> h1 h2]] := @C37_frobenius_norm R_rcfType _ _ _ _ _ _ _ _ hnet hS hmp hK hwf => -[<-].
  by split=> //; exact/leRE.
Qed.

(* In every state reached by calls that did not fail (on any number of operators
   sharing models and states), what a property returns is that property of the
   matrix `op @` multiplies with at that moment. *)
Theorem C38_properties_match_product (w0 w' : world) acts i p v o S ids mods K :
  fresh w0 -> clean w0 acts -> read (run w0 acts) i p = (w', Ok v) ->
  lget (w_ops w') i = Ok o ->
  compute_parameter_mapping ids mods = Ok (o_mapping o) -> S <> [::] ->
  kfac_net (F := [fieldType of R]) (s_sep (o_set o)) S ids mods (get_dicts w' (o_dicts o)).1 (get_dicts w' (o_dicts o)).2 ->
  acts_as (LinOp S S (fun M => (matmat w' i M).2)) S K ->
  is_property p S (get_dicts w' (o_dicts o)).1 (get_dicts w' (o_dicts o)).2 K v.
Proof.
move=> h1 h2 h3 ho hmp hS hnet; have [o' [e1 e2 e3]] := coherent_read h1 h2 h3.
move: e1 e2 e3; rewrite ho => -[<-] e2 e3.
have hm : o_mapping o <> [::].
  move=> e; case: (hnet) => hw hsz _ _; have pos0 : (0 < size ids)%N by rewrite -hsz; case: (S) hS.
  by have [name [n [d [d1 _]]]] := C29_every_position hw hmp pos0; move: d1; rewrite e.
rewrite (functional_extensionality (fun M => (matmat w' i M).2) _ (fun M => f_equal snd (e3 hm M))) /= => hK.
exact: value_property hnet hS hmp hK e2.
Qed.

(* a second read returns the same value *)
Theorem C38_reads_agree (w0 w1 : world) acts i p v : fresh w0 -> clean w0 acts ->
  read (run w0 acts) i p = (w1, Ok v) -> read w1 i p = (w1, Ok v).
Proof.
move=> /fresh_inv hw hc; have [h1 h2] := run_inv hw hc => hr.
have [_ _ _ _ [o [o1 _ o3 _]]] := read_inv h1 hr.
by rewrite /KfacState.read /getn o1 o3.
Qed.

(* ---------- any step, failing or not ---------- *)
Lemma run_hooks_objects f hs (w : world) : same_objects w (run_hooks mconv w f hs).1.
Proof.
elim: hs w => [|i hs IH] w //=; rewrite /run_hook; case: (getn (w_ops w) i) => [o|e] //=.
case: (hook mconv o f) => [[u|e]|] /=; [|by []|exact: IH].
by case: (apply_update _ u) => [d|e] //=; exact: IH (set_dicts w (o_dicts o) d).
Qed.
Lemma run_passes_objects loc hs fs (w : world) : same_objects w (run_passes mconv w loc hs fs).1.
Proof.
elim: fs w => [|[f|e] fs IH] w //=.
have h : same_objects w (let (w', r) := run_hooks mconv w f hs in
   match r with Ok _ => run_passes mconv w' loc hs fs | Err e => (w', Err e) end).1.
  have := run_hooks_objects f hs w; case: run_hooks => w' [u|e] //= [a1 a2 a3 a4].
  by have [b1 b2 b3 b4] := IH w'; split; congruence.
case: f h => // k t _.
exact: IH (set_dicts w loc ((get_dicts w loc).1, dset k t (get_dicts w loc).2)).
Qed.

(* dictionaries are never deallocated *)
Lemma size_set_dicts (w : world) l d : (size (w_dicts w) <= size (w_dicts (set_dicts w l d)))%N.
Proof. by rewrite /= size_set_nth leq_maxr. Qed.
Lemma run_hooks_size f hs (w : world) : (size (w_dicts w) <= size (w_dicts (run_hooks mconv w f hs).1))%N.
Proof.
elim: hs w => [|i hs IH] w //=; rewrite /run_hook; case: (getn (w_ops w) i) => [o|e] //=.
case: (hook mconv o f) => [[u|e]|] /=; [|by []|exact: IH].
case: (apply_update _ u) => [d|e] //=; apply: leq_trans (IH _); exact: size_set_dicts.
Qed.
Lemma run_passes_size loc hs fs (w : world) : (size (w_dicts w) <= size (w_dicts (run_passes mconv w loc hs fs).1))%N.
Proof.
elim: fs w => [|[f|e] fs IH] w //=.
have h : (size (w_dicts w) <= size (w_dicts (let (w', r) := run_hooks mconv w f hs in
   match r with Ok _ => run_passes mconv w' loc hs fs | Err e => (w', Err e) end).1))%N.
  by have := run_hooks_size f hs w; case: run_hooks => w' [u|e] //= h; apply: leq_trans h (IH _).
case: f h => // k t _; apply: leq_trans (IH _); exact: size_set_dicts.
Qed.
Lemma ensure_size (w : world) i : (size (w_dicts w) <= size (w_dicts (ensure passes mconv w i).1))%N.
Proof.
rewrite /ensure; case: (getn _ _) => [o|e] //=; case: ifP => // _; rewrite /compute.
case: (getn _ _) => [o'|e] //=; case: (getn _ _) => [m|e] //=.
set w3 := World _ _ _ _ _; have := run_passes_size (o_dicts o') (rcons (m_hooks m) i) (passes o' (m_theta m) (w_tick w)) w3.
by case: run_passes => w4 [u|e].
Qed.

(* what a step does to the objects: the operators keep their classes *)
Lemma compute_objects (w : world) i : w_saved (compute passes mconv w i).1 = w_saved w /\
  forall j o, lget (w_ops (compute passes mconv w i).1) j = Ok o ->
    exists2 o', lget (w_ops w) j = Ok o' & (o = o' \/ o = reset o').
Proof.
rewrite /compute /getn; case ho : (lget (w_ops w) i) => [o|e] /=; last by split=> // j o h; exists o; auto.
case hm : (lget (w_models w) (o_model o)) => [m|e] /=; last by split=> // j o' h; exists o'; auto.
set w3 := World _ _ _ _ _; have [a1 a2 a3 a4] := run_passes_objects (o_dicts o) (rcons (m_hooks m) i) (passes o (m_theta m) (w_tick w)) w3.
have hi : (i < size (w_ops w))%N by have [] := lget_Ok ho o.
have main j o' : lget (w_ops w3) j = Ok o' -> exists2 o1, lget (w_ops w) j = Ok o1 & (o' = o1 \/ o' = reset o1).
  by rewrite /= lget_set //; case: (j =P i) => [-> [<-]|_ h]; [exists o; auto|exists o'; auto].
by case: run_passes a1 a2 a3 a4 => w4 [u|e] /= a1 a2 a3 a4; rewrite a3 a2.
Qed.
Lemma ensure_objects (w : world) i : w_saved (ensure passes mconv w i).1 = w_saved w /\
  forall j o, lget (w_ops (ensure passes mconv w i).1) j = Ok o ->
    exists2 o', lget (w_ops w) j = Ok o' & (o = o' \/ o = reset o').
Proof.
rewrite /ensure; case: (getn _ _) => [o|e] /=; last by split=> // j o h; exists o; auto.
case: ifP => _; first exact: compute_objects.
by split=> // j o' h; exists o'; auto.
Qed.

Lemma load_objects (w : world) i s : w_saved (load arch partial_load w i s).1 = w_saved w /\
  forall j o, lget (w_ops (load arch partial_load w i s).1) j = Ok o ->
    exists2 o', lget (w_ops w) j = Ok o' &
      (o = o' \/ o_set o = sd_set s /\ (o_dicts o = o_dicts o' \/ o_dicts o = sd_dicts s)).
Proof.
have id (w' : world) : w_ops w' = w_ops w -> w_saved w' = w_saved w -> w_saved w' = w_saved w /\
  forall j o, lget (w_ops w') j = Ok o -> exists2 o', lget (w_ops w) j = Ok o' &
      (o = o' \/ o_set o = sd_set s /\ (o_dicts o = o_dicts o' \/ o_dicts o = sd_dicts s)).
  by move=> e1 e2; split=> // j o; rewrite e1 => h; exists o; auto.
rewrite /load /getn; case ho : (lget (w_ops w) i) => [o|e]; last exact: id.
case: (lget (w_models w) (o_model o)) => [m|e]; last exact: id.
case: (lget (w_models w) (sd_model s)) => [ms|e]; last exact: id.
have hi : (i < size (w_ops w))%N by have [] := lget_Ok ho o.
do 3 (case: ifP => _; first exact: id).
case: ifP => _ /=; split=> // j o'; rewrite lget_set ?size_set_nth ?(maxn_idPr hi) //.
  by case: (j =P i) => [-> [<-]|_ h]; [exists o; auto|exists o'; auto].
case: (j =P i) => [-> [<-]|ne]; first by exists o; auto.
by rewrite lget_set // (introF eqP ne) => h; exists o'; auto.
Qed.

(* saved states are not replaced *)
Lemma step_saved (w : world) a j s : lget (w_saved w) j = Ok s -> lget (w_saved (step w a).1) j = Ok s.
Proof.
move=> hs; have hj : (j < size (w_saved w))%N by have [] := lget_Ok hs s.
have grow s' : lget (rcons (w_saved w) s') j = Ok s by rewrite lget_rcons (ltn_eqF hj).
case: a => [m lo ids mods s'|i M|i p|i|i k|k m ids mods|k|m th] /=.
- by rewrite /construct; case: ifP => _ //; case: (compute_parameter_mapping _ _) => [mp|e] //; case: (nilp ids).
- rewrite /KfacState.matmat; have [e _] := ensure_objects w i.
  by case: ensure e => w' [u|e] /= ->.
- rewrite /KfacState.read; case: (getn _ _) => [o|e] //; case: (o_cache o p) => // /=.
  have [e _] := ensure_objects w i; case: ensure e => w' [u|e] /= e'; rewrite ?e' //.
  by case: (getn _ _) => [o'|x] /=; rewrite ?e' //; case: (prop_run _ _ _ _ _) => v [u'|x] /=; rewrite e'.
- by case: (bind _ _).
- by case: (getn (w_saved w) k) => [s'|e] //; have [-> _] := load_objects w i s'.
- case: (getn (w_saved w) k) => [s'|e] //; rewrite /from_state_dict /construct; case: ifP => _ //.
  case: (compute_parameter_mapping _ _) => [mp|e] //; case: (nilp ids) => //; set w' := World _ _ _ _ _.
  by have [-> _] := load_objects w' (size (w_ops w)) s'.
- by case: (getn (w_saved w) k) => [s'|e] //; rewrite /copy_saved; case: (getn _ _) => [m|e] //; exact: grow.
- by case: (getn _ _).
Qed.
Lemma run_saved (w : world) acts j s : lget (w_saved w) j = Ok s -> lget (w_saved (run w acts)) j = Ok s.
Proof. by elim: acts w => [|a acts IH] w // h; apply: IH; exact: step_saved. Qed.

(* the settings of every operator and saved state passed the constructor's check,
   and their dictionaries exist *)
Definition checked (w : world) : Prop :=
  (forall i o, lget (w_ops w) i = Ok o -> mc_ok (o_set o) /\ (o_dicts o < size (w_dicts w))%N) /\
  (forall j s, lget (w_saved w) j = Ok s -> mc_ok (sd_set s) /\ (sd_dicts s < size (w_dicts w))%N).
Lemma step_checked (w : world) a : checked w -> checked (step w a).1.
Proof.
move=> [h1 h2].
have okops (w' : world) : (size (w_dicts w) <= size (w_dicts w'))%N -> w_saved w' = w_saved w ->
  (forall j o, lget (w_ops w') j = Ok o -> exists2 o', lget (w_ops w) j = Ok o' & (o = o' \/ o = reset o')) -> checked w'.
  move=> hs e h; split=> [j o /h[o' /h1[m1 m2] ho]|j s]; last by rewrite e => /h2[m1 m2]; split=> //; exact: leq_trans m2 hs.
  by have m3 := leq_trans m2 hs; case: ho => ->.
case: a => [m lo ids mods s'|i M|i p|i|i k|k m ids mods|k|m th] /=.
- rewrite /construct; case: ifP => [//|/negbFE hm]; case: (compute_parameter_mapping _ _) => [mp|e] //=; case: (nilp ids) => //=; split=> /=.
    move=> i o /=; rewrite lget_rcons; case: eqP => [_ [<-]|_ /h1[m1 m2]] /=; rewrite size_rcons //.
    by split=> //; exact: ltnW.
  by move=> j s /h2[m1 m2]; rewrite size_rcons; split=> //; exact: ltnW.
- rewrite /KfacState.matmat; have [e h] := ensure_objects w i; have hs := ensure_size w i.
  by case: ensure e h hs => w' [u|e] /= e' h hs; exact: okops.
- rewrite /KfacState.read; case: (getn _ _) => [o|e] //; case: (o_cache o p) => // /=.
  have [e h] := ensure_objects w i; have hs := ensure_size w i.
  case: ensure e h hs => w' [u|e] /= e' h hs; last exact: okops.
  rewrite /getn; case ho : (lget _ _) => [o'|x] /=; last exact: okops.
  have hi : (i < size (w_ops w'))%N by have [] := lget_Ok ho o'.
  have [c1 c2] := okops _ hs e' h.
  suff hc : forall c, checked (upd_op w' i (with_cache o' c)) by case: (prop_run _ _ _ _ _) => v [u'|x]; exact: hc.
  move=> c; split=> //= j o''; rewrite lget_set //; case: eqP => [_ [<-]|_ /c1 //] /=; exact: c1 ho.
- rewrite /getn; case ho : (lget _ _) => [o|e] //=; rewrite /state_dict; case: (l_exact _) => //=; split=> //.
  by move=> j s /=; rewrite lget_rcons; case: eqP => [_ [<-]|_ /h2 //]; exact: h1 ho.
- rewrite /getn; case hs : (lget (w_saved w) k) => [s'|e] //; have [e h] := load_objects w i s'.
  have hd : w_dicts (load arch partial_load w i s').1 = w_dicts w.
    rewrite /load /getn; case: (lget _ _) => [o|x] //; case: (lget _ _) => [o1|x] //; case: (lget _ _) => [o2|x] //.
    by do 4 (case: ifP => _ //).
  split; last by rewrite e hd.
  by move=> j o /h[o' /h1[m1 m2] hor]; rewrite hd; have [m3 m4] := h2 _ _ hs; case: hor => [->|[-> [->|->]]].
- rewrite /getn; case hs : (lget (w_saved w) k) => [s'|e] //; rewrite /from_state_dict /construct; case: ifP => [_ //|/negbFE hm].
  case: (compute_parameter_mapping _ _) => [mp|e] //; case: (nilp ids) => //; set w' := World _ _ _ _ _.
  have [e h] := load_objects w' (size (w_ops w)) s'; have [m3 m4] := h2 _ _ hs.
  have hd : w_dicts (load arch partial_load w' (size (w_ops w)) s').1 = rcons (w_dicts w) ([::], [::]).
    rewrite /load /getn; case: (lget _ _) => [o|x] //; case: (lget _ _) => [o1|x] //; case: (lget _ _) => [o2|x] //.
    by do 4 (case: ifP => _ //).
  rewrite -/w'; split; last by move=> j s; rewrite e hd size_rcons => /h2[m1 m2]; split=> //; exact: ltnW.
  move=> j o /h[o' ho' hor]; rewrite hd size_rcons; have [m5 m6] : mc_ok (o_set o') /\ (o_dicts o' < (size (w_dicts w)).+1)%N.
    by move: ho'; rewrite /= lget_rcons; case: eqP => [_ [<-]|_ /h1[m1 m2]] //; split=> //; exact: ltnW.
  by have m7 := ltnW m4; case: hor => [->|[-> [->|->]]].
- rewrite /getn; case hs : (lget (w_saved w) k) => [s'|e] //; rewrite /copy_saved; case: (getn _ _) => [m|e] //; split=> /=.
    by move=> i o /h1[m1 m2]; rewrite size_rcons; split=> //; exact: ltnW.
  have [m3 m4] := h2 _ _ hs; move=> j s; rewrite lget_rcons size_rcons; case: eqP => [_ [<-] //|_ /h2[m1 m2]].
  by split=> //; exact: ltnW.
- by case: (getn _ _).
Qed.
Lemma run_checked (w : world) acts : fresh w -> checked (run w acts).
Proof.
move=> [h1 h2 _]; have : checked w by split=> [i o|j s]; rewrite ?h1 ?h2.
by elim: acts w {h1 h2} => [|a acts IH] w // h; apply: IH; exact: step_checked.
Qed.

(* ---------- C41 ---------- *)
(* Once the factors were computed, a saved state keeps its settings, factors and
   cached values through every history of calls that did not fail -- of all
   operators, also those restored from it.  Missing: states saved before the
   factors were computed (C41_live_dictionaries_refuted), the parameters
   (C41_live_parameters_refuted), and failing calls. *)
Theorem C41_snapshot_partial (w0 : world) acts acts' j s : fresh w0 -> clean w0 acts ->
  let w := run w0 acts in lget (w_saved w) j = Ok s -> computed (get_dicts w (sd_dicts s)) -> clean w acts' ->
  lget (w_saved (run w acts')) j = Ok s /\ get_dicts (run w acts') (sd_dicts s) = get_dicts w (sd_dicts s).
Proof.
move=> /fresh_inv hw hc w hs hd hc'; have [h1 h2] := run_inv hw hc; have [h3 [h4 h5]] := run_inv h1 hc'.
split; first exact: run_saved.
by apply: h5 => //; case: h1 => _ /(_ _ _ hs)[].
Qed.

(* With computed factors, operators restored from one state do not influence each
   other: whatever is done (without failing), and as long as operator i itself is
   not loaded again, operator i keeps multiplying with the same factors. *)
Definition loads (i : nat) (a : action Theta) : bool := if a is ALoad k _ then k == i else false.
Lemma step_other (w : world) a i o : inv w -> clean_step arch partial_load passes mconv w a -> ~~ loads i a ->
  lget (w_ops w) i = Ok o -> computed (get_dicts w (o_dicts o)) ->
  exists2 o', lget (w_ops (step w a).1) i = Ok o' & o = with_cache o' (o_cache o).
Proof.
move=> hw hc hl ho hd; have same : exists2 o', lget (w_ops w) i = Ok o' & o = with_cache o' (o_cache o).
  by exists o => //; case: (o).
have hi : (i < size (w_ops w))%N by have [] := lget_Ok ho o.
case: a hc hl => [m lo ids mods s'|k M|k p|k|k j|j m ids mods|j|m th] /=.
- move=> _ _; rewrite /construct; case: ifP => _ //; case: (compute_parameter_mapping _ _) => [mp|e] //=; case: (nilp ids) => //=.
  by rewrite lget_rcons (ltn_eqF hi).
- rewrite /KfacState.matmat; case E : (ensure _ _ _ _) => [w' r] /= e _; subst r.
  have [_ _ _ _ [o1 [e1 e2 e3]]] := ensure_inv hw E; case: (i =P k) => [ek|/e3 -> //]; subst k.
  by move: e1 e2; rewrite ho => -[<-]; rewrite hd => ->; exists o => //; case: (o).
- case E : (KfacState.read _ _ _ _ _) => [w' [v|e]] //= _ _.
  have [_ _ _ _ [o1 [e1 [o0 e2 e4] _ e3]]] := read_inv hw E; case: (i =P k) => [ek|/e3 -> //]; subst k.
  by move: e2 e4; rewrite ho => -[<-] e4; exists o1.
- by move=> _ _; case: (bind _ _).
- move=> _ hk; rewrite /getn; case: (lget (w_saved w) j) => [s'|e] //=.
  rewrite /load /getn; case hk' : (lget (w_ops w) k) => [o1|e] //.
  have hks : (k < size (w_ops w))%N by have [] := lget_Ok hk' o.
  case: (lget (w_models w) (o_model o1)) => [m|e] //; case: (lget (w_models w) (sd_model s')) => [ms|e] //.
  do 4 (case: ifP => [_ //|_]) => /=; rewrite !lget_set ?size_set_nth ?(maxn_idPr hks) //.
    by rewrite eq_sym (negbTE hk).
  by rewrite eq_sym (negbTE hk).
- move=> _ _; rewrite /getn; case: (lget (w_saved w) j) => [s'|e] //=.
  rewrite /from_state_dict /construct; case: ifP => _ //; case: (compute_parameter_mapping _ _) => [mp|e] //; case: (nilp ids) => //.
  have old : lget (rcons (w_ops w) (Op m (LossObj (sd_kind s') true (sd_red s')) mp (sd_set s') (size (w_dicts w)) no_cache)) i = lget (w_ops w) i.
    by rewrite lget_rcons (ltn_eqF hi).
  rewrite /load /getn /= lget_rcons eqxx /=; case: (lget (w_models w) m) => [ms1|e] //=; last by rewrite old.
  case: (lget (w_models w) (sd_model s')) => [ms|e] //=; last by rewrite old.
  case: ifP => [_|_] /=; first by rewrite old.
  do 2 (case: ifP => [_|_] /=; first by rewrite old).
  case: ifP => [_|_] /=; rewrite !lget_set ?size_set_nth ?size_rcons ?maxnn // (ltn_eqF hi) old //.
- by move=> _ _; rewrite /getn; case: (lget (w_saved w) j) => [s'|e] //; rewrite /copy_saved; case: (getn _ _).
- by move=> _ _; case: (getn _ _).
Qed.
Theorem C41_independent_partial (w0 : world) acts acts' i o M : fresh w0 -> clean w0 acts ->
  let w := run w0 acts in lget (w_ops w) i = Ok o -> computed (get_dicts w (o_dicts o)) -> clean w acts' ->
  ~~ has (loads i) acts' -> (matmat (run w acts') i M).2 = (matmat w i M).2.
Proof.
move=> /fresh_inv hw hc w ho hd hc' hl; have [h1 h2] := run_inv hw hc; move: h1 ho hd hc' hl; rewrite -/w => {hw hc h2}.
have main : forall acts' (w : world) o, inv w -> lget (w_ops w) i = Ok o -> computed (get_dicts w (o_dicts o)) -> clean w acts' ->
  ~~ has (loads i) acts' -> exists o', [/\ lget (w_ops (run w acts')) i = Ok o', o = with_cache o' (o_cache o) &
    get_dicts (run w acts') (o_dicts o) = get_dicts w (o_dicts o)].
  move=> {w o}; elim=> [|a as_ IH] w o hw ho hd /=; first by exists o; split=> //; case: (o).
  move=> [c1 c2]; rewrite negb_or => /andP[l1 l2].
  have [s1 [s2 s3]] := step_inv hw c1; have [o1 e1 e2] := step_other hw c1 l1 ho hd.
  have hdl : (o_dicts o < size (w_dicts w))%N by case: hw => /(_ _ _ ho)[].
  have hd1 : get_dicts (step w a).1 (o_dicts o1) = get_dicts w (o_dicts o).
    by rewrite -(s3 _ hdl hd); congr get_dicts; rewrite e2.
  have [|o2 [f1 f2 f3]] := IH _ _ s1 e1 _ c2 l2; first by rewrite hd1.
  exists o2; split=> //; first by rewrite e2 f2.
  by rewrite -hd1 -f3; congr get_dicts; rewrite e2.
move=> h1 ho hd hc' hl; have [o' [f1 f2 f3]] := main _ _ _ h1 ho hd hc' hl.
have eo : o_dicts o' = o_dicts o by rewrite f2.
by rewrite (matmat_computed M ho hd) (matmat_computed (o := o') M) // eo f3 //= f2.
Qed.

(* ---------- C37 ---------- *)
(* every operator has parameters: the constructor rejects an empty list *)
Lemma mapping_nil mods : compute_parameter_mapping [::] mods = Ok [::].
Proof.
have e st a : map_module [::] st a = st.
  rewrite /map_module; have h : has (fun p : pname * nat => p.2 \in [::]) (m_params a) = false by elim: (m_params a).
  by rewrite h andbF.
by rewrite /compute_parameter_mapping; elim: mods => [|a mods IH] //=; rewrite e.
Qed.
Lemma dset_neq0 (K : eqType) V (k : K) (v : V) d : dset k v d <> [::].
Proof. by case: d => [|x d] //=; case: ifP. Qed.
(* the parameters of an operator, as positions in its list *)
Definition all_params (mp : mapping) : seq (pname * nat) := flatten [seq e.2 | e <- mp].
Lemma all_params_dset k v (mp : mapping) : v <> [::] -> all_params (dset k v mp) <> [::].
Proof.
move=> hv; elim: mp => [|[k' v'] mp IH] /=; first by rewrite /all_params /= cats0.
by case: ifP => _; rewrite /all_params /= => /(congr1 size); rewrite size_cat => /eqP; rewrite addn_eq0 => /andP[/nilP h1 /nilP h2].
Qed.
Lemma map_params_neq0 ids ps pr : has (fun p : pname * nat => p.2 \in ids) ps -> (map_params ids ps pr).1 <> [::].
Proof.
have keep : forall qs (st : dict pname_eqType nat * seq nat), st.1 <> [::] -> (foldl (fun st p =>
    if p.2 \in ids then (dset p.1 (index p.2 ids) st.1, undup (p.2 :: st.2)) else st) st qs).1 <> [::].
  elim=> [|q qs IH] st h //=; apply: IH; case: ifP => _ //=; exact: dset_neq0.
rewrite /map_params; move: (pair _ _); elim: ps => [|p ps IH] st //=; case/orP => h; last exact: IH.
by apply: keep; rewrite h /=; exact: dset_neq0.
Qed.
Lemma mapping_neq0 ids mods mp : compute_parameter_mapping ids mods = Ok mp -> ids <> [::] -> all_params mp <> [::].
Proof.
have gen : forall st : mapping * seq nat, (all_params st.1 = [::] -> st.2 = [::]) ->
    all_params (foldl (map_module ids) st mods).1 = [::] -> (foldl (map_module ids) st mods).2 = [::].
  elim: mods => [|m mods IH] st h //=; apply: IH; rewrite /map_module.
  case: ifP => //= /andP[_ hm] e; by case: (all_params_dset (@map_params_neq0 _ _ st.2 hm) e).
rewrite /compute_parameter_mapping => + hi; have h := gen ([::], [::]) (fun=> erefl).
case: eqP => //= e [<-] /h h0; apply: hi; apply: size0nil; by rewrite -e h0.
Qed.
Definition mapped (w : world) := forall i o, lget (w_ops w) i = Ok o -> all_params (o_mapping o) <> [::].
Lemma load_mapped (w : world) i s : mapped w -> mapped (load arch partial_load w i s).1.
Proof.
move=> hw; rewrite /load /getn; case ho : (lget (w_ops w) i) => [o|e] //.
case: (lget (w_models w) (o_model o)) => [m|e] //; case: (lget (w_models w) (sd_model s)) => [ms|e] //.
have hi : (i < size (w_ops w))%N by have [] := lget_Ok ho o.
do 3 (case: ifP => _ //).
case: ifP => _ /= j o' /=; rewrite lget_set ?size_set_nth ?(maxn_idPr hi) //.
  by case: (j =P i) => [_ [<-]|_ h]; [exact: hw ho|exact: hw h].
case: (j =P i) => [_ [<-]|ne]; first exact: hw ho.
by rewrite lget_set // (introF eqP ne) => h; exact: hw h.
Qed.
Lemma construct_mapped (w w' : world) m lo ids mods s r : mapped w -> construct w m lo ids mods s = (w', r) -> mapped w'.
Proof.
move=> hw; rewrite /construct; case: ifP => _; first by case=> <-.
case hmp : (compute_parameter_mapping ids mods) => [mp|e]; last by case=> <-.
case hi : (nilp ids); case=> <- _ //= i o; rewrite lget_rcons; case: eqP => [_ [<-] /=|_ /hw //].
by apply: (mapping_neq0 hmp) => e; rewrite e in hi.
Qed.
Lemma step_mapped (w : world) a : mapped w -> mapped (step w a).1.
Proof.
move=> hw; have okops (w' : world) :
  (forall j o, lget (w_ops w') j = Ok o -> exists2 o', lget (w_ops w) j = Ok o' & (o = o' \/ o = reset o')) -> mapped w'.
  by move=> h j o /h[o' /hw ho [->|->]].
case: a => [m lo ids mods s'|i M|i p|i|i k|k m ids mods|k|m th] /=.
- case E : (construct _ _ _ _ _ _) => [w' r]; exact: construct_mapped hw E.
- rewrite /KfacState.matmat; have [_ h] := ensure_objects w i.
  by case: ensure h => w' [u|e] /= h; exact: okops.
- rewrite /KfacState.read; case: (getn _ _) => [o|e] //; case: (o_cache o p) => // /=.
  have [_ h] := ensure_objects w i; case: ensure h => w' [u|e] /= h; last exact: okops.
  rewrite /getn; case ho : (lget _ _) => [o'|x] /=; last exact: okops.
  have hi : (i < size (w_ops w'))%N by have [] := lget_Ok ho o'.
  suff hc : forall c, mapped (upd_op w' i (with_cache o' c)) by case: (prop_run _ _ _ _ _) => v [u'|x]; exact: hc.
  by move=> c j o''; rewrite lget_set //; case: eqP => [_ [<-]|_ /(okops _ h) //] /=; exact: okops h _ _ ho.
- by case: (bind _ _).
- by case: (getn (w_saved w) k) => [s'|e] //; exact: load_mapped.
- case: (getn (w_saved w) k) => [s'|e] //; rewrite /from_state_dict; case E : (construct _ _ _ _ _ _) => [w' [u|e]] /=; last exact: construct_mapped hw E.
  by apply: load_mapped; exact: construct_mapped hw E.
- by case: (getn (w_saved w) k) => [s'|e] //; rewrite /copy_saved; case: (getn _ _).
- by case: (getn _ _).
Qed.
Lemma reachable_mapped (w0 : world) acts : fresh w0 -> mapped (run w0 acts).
Proof.
move=> [h0 _ _]; have : mapped w0 by rewrite /mapped h0; case.
elim: acts w0 {h0} => [|a acts IH] w0 h; first exact: h.
exact: IH (step_mapped h).
Qed.
(* frobenius_norm needs at least one parameter: the constructor rejects an empty
   list, so in every reachable state every operator has one *)
Theorem C37_operators_have_parameters (w0 : world) acts : fresh w0 ->
  (forall i o, lget (w_ops (run w0 acts)) i = Ok o -> exists p, List.In p (flatten [seq e.2 | e <- o_mapping o])) /\
  (forall m lo mods s, mc_ok s -> construct (run w0 acts) m lo [::] mods s = (run w0 acts, Err RuntimeError)).
Proof.
move=> hf; split=> [i o /(reachable_mapped hf)|m lo mods s hs]; last by rewrite /construct hs mapping_nil.
by rewrite /all_params; case: flatten => [|p ps] // _; exists p; left.
Qed.

(* ---------- C39 ---------- *)
(* what a restored operator o' shares with the saved one o: settings, loss,
   factors and cached properties *)
Definition restored (w : world) (o : kop) (w' : world) (o' : kop) : Prop :=
  [/\ o_set o' = o_set o, o_mapping o' = o_mapping o, get_dicts w' (o_dicts o') = get_dicts w (o_dicts o), o_cache o' = o_cache o &
      l_kind (o_loss o') = l_kind (o_loss o) /\ l_red (o_loss o') = l_red (o_loss o)].

Lemma kind_eqb_refl k : kind_eqb k k. Proof. by case: k. Qed.
Lemma red_eqb_refl k : red_eqb k k. Proof. by case: k. Qed.

(* from_state_dict of a state just saved succeeds in every reachable state, also
   after failed calls: for every operator with an exact loss class and every model
   of the same architecture *)
Theorem C39_from_state_dict (w0 : world) acts i o s m ids mods ms ms1 : fresh w0 ->
  let w := run w0 acts in
  lget (w_ops w) i = Ok o -> state_dict o = Ok s ->
  compute_parameter_mapping ids mods = Ok (o_mapping o) ->
  lget (w_models w) m = Ok ms1 -> lget (w_models w) (o_model o) = Ok ms -> arch (m_theta ms) = arch (m_theta ms1) ->
  exists w' o' ms', [/\ from_state_dict arch partial_load w s m ids mods = (w', Ok tt),
    lget (w_ops w') (size (w_ops w)) = Ok o', restored w o w' o', o_model o' = m &
    lget (w_models w') m = Ok ms' /\ m_theta ms' = m_theta ms].
Proof.
move=> hf w ho; rewrite /state_dict; case: (l_exact _) => // -[<-] hmp hm hom harch.
have [/(_ _ _ ho)[hmc hd] _] := run_checked acts hf.
have hids : nilp ids = false.
  by apply/negP => /nilP e; move: hmp (reachable_mapped hf ho); rewrite e mapping_nil => -[<-].
rewrite /from_state_dict /construct /= hmc /= hmp hids /load /getn /= lget_rcons eqxx /= hm hom harch eqxx /=.
rewrite kind_eqb_refl red_eqb_refl /= /get_dicts /= nth_rcons ltnn eqxx /=.
have hmk : (m < size (w_models w))%N by have [] := lget_Ok hm ms.
do 3 eexists; split; [reflexivity|by rewrite /= lget_set ?size_set_nth ?size_rcons ?maxnn // eqxx| |by []|].
- by split=> //; rewrite /get_dicts /= nth_rcons hd.
- by rewrite /= lget_set // eqxx.
Qed.

(* so does load_state_dict by another operator of the same kind whose own factors
   are not computed yet, or computed for all its layers *)
Definition keys_complete (d : cov * cov) (mp : mapping) : Prop :=
  (d.1 = [::] /\ d.2 = [::]) \/ (dkeys d.1 =i dkeys mp /\ dkeys d.2 =i dkeys mp).
Lemma complete_ok d mp : keys_complete d mp -> own_keys_ok d mp.
Proof.
rewrite /own_keys_ok; case=> [[-> ->] //|[h1 h2]]; case: ifP => // _.
have e (c : cov) : dkeys c =i dkeys mp -> same_keys (dkeys c) (dkeys mp).
  by move=> h; apply/andP; split; apply/allP => x; rewrite /= ?h // -h.
by rewrite (e _ h1) (e _ h2) /= !andbF.
Qed.
Theorem C39_load_state_dict (w : world) i o s k o2 ms ms2 :
  lget (w_ops w) i = Ok o -> state_dict o = Ok s ->
  lget (w_ops w) k = Ok o2 -> o_mapping o2 = o_mapping o ->
  l_kind (o_loss o2) = l_kind (o_loss o) -> l_red (o_loss o2) = l_red (o_loss o) ->
  lget (w_models w) (o_model o) = Ok ms -> lget (w_models w) (o_model o2) = Ok ms2 -> arch (m_theta ms) = arch (m_theta ms2) ->
  keys_complete (get_dicts w (o_dicts o2)) (o_mapping o2) ->
  exists w' o' ms', [/\ load arch partial_load w k s = (w', Ok tt), lget (w_ops w') k = Ok o', restored w o w' o',
    o_model o' = o_model o2 & lget (w_models w') (o_model o2) = Ok ms' /\ m_theta ms' = m_theta ms].
Proof.
move=> ho; rewrite /state_dict; case: (l_exact _) => // -[<-] ho2 hmp hk hr hom hm harch hkeys.
rewrite /load /getn /= ho2 hm hom harch eqxx /= hk hr kind_eqb_refl red_eqb_refl /=.
rewrite (_ : own_keys_ok _ _) /=; last exact: complete_ok.
have hks : (k < size (w_ops w))%N by have [] := lget_Ok ho2 o.
have hmk : (o_model o2 < size (w_models w))%N by have [] := lget_Ok hm ms.
do 3 eexists; split; [reflexivity|by rewrite /= lget_set ?size_set_nth ?(maxn_idPr hks) // eqxx| |by []|].
- by split.
- by rewrite /= lget_set // eqxx.
Qed.

(* products and properties of the restored operator *)
Theorem C39_same_behaviour (w w' : world) i o i' o' M p : lget (w_ops w) i = Ok o -> lget (w_ops w') i' = Ok o' ->
  restored w o w' o' -> computed (get_dicts w (o_dicts o)) ->
  (matmat w' i' M).2 = (matmat w i M).2 /\ (read w' i' p).2 = (read w i p).2.
Proof.
move=> ho ho' [h1 h2 h3 h4 _] hc; have hc' : computed (get_dicts w' (o_dicts o')) by rewrite h3.
split; first by rewrite (matmat_computed M ho hc) (matmat_computed M ho' hc') h1 h2 h3.
rewrite /KfacState.read /getn ho ho' h4; case: (o_cache o p) => //.
rewrite (ensure_computed ho hc) (ensure_computed ho' hc') /getn ho ho' h1 h2 h3.
by case: (prop_run _ _ _ _ _) => v [].
Qed.

(* ---------- C40 ---------- *)
(* If the loss or its reduction does not match, load_state_dict raises and the
   operator's settings, factors and cached values are unchanged.  Missing: the
   model's parameters are overwritten (C40_model_overwritten_refuted), and a
   mismatch found later leaves the settings of the rejected state
   (C40_settings_overwritten_refuted). *)
Theorem C40_loss_mismatch_partial (w : world) i o s : lget (w_ops w) i = Ok o ->
  (exists m, lget (w_models w) (o_model o) = Ok m) -> (exists m, lget (w_models w) (sd_model s) = Ok m) ->
  sd_kind s <> l_kind (o_loss o) \/ sd_red s <> l_red (o_loss o) ->
  exists w' e, [/\ load arch partial_load w i s = (w', Err e), w_ops w' = w_ops w, w_dicts w' = w_dicts w & w_saved w' = w_saved w].
Proof.
move=> ho [m hm] [ms hms] hne; rewrite /load /getn ho hm hms.
case: ifP => _; first by do 2 eexists; split.
case: ifP => [_|/negbFE hk]; first by do 2 eexists; split.
case: ifP => [_|/negbFE hr]; first by do 2 eexists; split.
by case: hne => h; exfalso; apply: h; [move: hk|move: hr]; [case: (sd_kind s); case: (l_kind _)|case: (sd_red s); case: (l_red _)].
Qed.

(* ---------- C42 ---------- *)
(* A computation that raises is reported by the property read or product that
   started it, and caches no property.  Missing: everything else, see the
   C42_..._refuted theorems. *)
Theorem C42_reported_partial (w w' : world) i e : ensure passes mconv w i = (w', Err e) ->
  (forall M, matmat w i M = (w', Err e)) /\
  (forall o p, lget (w_ops w) i = Ok o -> o_cache o p = None -> read w i p = (w', Err e)) /\
  (forall o m, lget (w_ops w) i = Ok o -> lget (w_models w) (o_model o) = Ok m ->
     exists2 o', lget (w_ops w') i = Ok o' & forall p, o_cache o' p = None).
Proof.
move=> he; split; first by move=> M; rewrite /KfacState.matmat he.
split; first by move=> o p ho hp; rewrite /KfacState.read /getn ho hp he.
move=> o m ho hm; move: he; rewrite /ensure /getn ho; case: ifP => // _.
rewrite /compute /getn ho hm; set w3 := World _ _ _ _ _.
have [_ e2 _ _] := run_passes_objects (o_dicts o) (rcons (m_hooks m) i) (passes o (m_theta m) (w_tick w)) w3.
have hi : (i < size (w_ops w))%N by have [] := lget_Ok ho o.
case: run_passes e2 => w4 [u|x] //= e2 [<- _]; rewrite e2 lget_set // eqxx; by eexists.
Qed.

(* A computation that succeeds leaves no trace on the models: a product or a
   property read that returns a value leaves parameters and hooks of all models, the
   saved states and the other operators as they were. *)
Lemma ensure_models (w w' : world) i : ensure passes mconv w i = (w', Ok tt) ->
  [/\ w_models w' = w_models w, w_saved w' = w_saved w & forall j, j != i -> lget (w_ops w') j = lget (w_ops w) j].
Proof.
rewrite /ensure /getn; case ho : (lget (w_ops w) i) => [o|e] //; case: ifP => _; last by case=> <-.
rewrite /compute /getn ho; case hm : (lget (w_models w) (o_model o)) => [m|e] //.
set w3 := World _ _ _ _ _; have [a1 a2 a3 a4] := run_passes_objects (o_dicts o) (rcons (m_hooks m) i) (passes o (m_theta m) (w_tick w)) w3.
have hi : (i < size (w_ops w))%N by have [] := lget_Ok ho o.
case: run_passes a1 a2 a3 a4 => w4 [u|e] //= a1 a2 a3 a4 [<-] /=; split=> //; last first.
  by move=> j hj; rewrite a2 lget_set // (negbTE hj).
have [hk e0] := lget_Ok hm (MState (m_theta m) (rcons (m_hooks m) i)).
rewrite a1; have -> : MState (m_theta m) (m_hooks m) = m by case: (m).
exact: set_nth_back e0.
Qed.
Theorem C42_success_leaves_no_trace (w w' : world) i :
  ((exists M r, matmat w i M = (w', Ok r)) \/ (exists p v, read w i p = (w', Ok v))) ->
  [/\ w_models w' = w_models w, w_saved w' = w_saved w & forall j, j != i -> lget (w_ops w') j = lget (w_ops w) j].
Proof.
case=> [[M [r]]|[p [v]]].
  rewrite /KfacState.matmat; case he : (ensure passes mconv w i) => [w1 [[]|e]] //.
  by case=> <- _; exact: ensure_models he.
rewrite /KfacState.read /getn; case ho : (lget (w_ops w) i) => [o|e] //; case hc : (o_cache o p) => [x|].
  by case=> <- _; split.
case he : (ensure passes mconv w i) => [w1 [[]|e]] //; have [e1 e2 e3] := ensure_models he.
case ho1 : (lget (w_ops w1) i) => [o1|e] //; case: (prop_run _ _ _ _ _) => x [u|e] // [<- _] /=.
split=> // j hj; rewrite lget_set ?(negbTE hj) ?e3 //.
by have [] := lget_Ok ho1 o1.
Qed.
End World.
Print Assumptions C38_properties_match_product.
Print Assumptions C38_reads_agree.
Print Assumptions C41_snapshot_partial.
Print Assumptions C41_independent_partial.
Print Assumptions C39_from_state_dict.
Print Assumptions C39_load_state_dict.
Print Assumptions C39_same_behaviour.
Print Assumptions C40_loss_mismatch_partial.
Print Assumptions C42_reported_partial.
Print Assumptions C42_success_leaves_no_trace.
Print Assumptions C37_operators_have_parameters.
