(* C87: the determinism check of KFAC's constructor and of from_state_dict, and
   when the Kronecker factors are computed. *)
From Coq Require Import Reals Lra String ZArith.
From Coquelicot Require Import Coquelicot.
From mathcomp Require Import all_ssreflect all_algebra.
From Verif Require Import PyPrelude Tensor Spec RInst ROrd Calculus Curvature HessGGN Risk Losses Fisher Kfac KfacScalar Conv KfacCov KfacState KfacStateProof Determinism Props_Det Props_KfacState KfacChecked.
Set Implicit Arguments.
Unset Strict Implicit.
Unset Printing Implicit Defensive.
Import GRing.Theory Num.Theory.
Local Open Scope ring_scope.
Local Notation tens := (tensor R).

(* a product that returns something has used a gradient factor *)
Lemma matmat_uses sep (inC : dict nat_eqType tens) (mp : mapping) M KM Y :
  foldM (kfac_layer (F := [fieldType of R]) sep inC [::] M) KM mp = Ok Y -> all_params mp = [::].
Proof.
elim: mp KM => [|[k ps] mp IH] KM //=; case hl : (kfac_layer _ _ _ _ _ _) => [KM1|e] //= /IH h.
rewrite /all_params /= -/(all_params mp) h cats0.
have joint w b KM2 : kfac_joint (F := [fieldType of R]) inC [::] M k KM w b <> Ok KM2.
  by rewrite /kfac_joint; do 6 (case: (X in bind X _) => [?|?] //=).
have single p : exists e, kfac_single (F := [fieldType of R]) inC [::] M k KM p = Err e.
  rewrite /kfac_single; case: (lget M p.2) => [m|e] /=; last by exists e.
  by case: (X in bind X _) => [x|e] /=; eexists.
have many KM2 : foldM (kfac_single (F := [fieldType of R]) inC [::] M k) KM ps = Ok KM2 -> ps = [::].
  by case: (ps) => //= p qs; have [e ->] := single p.
move: hl; rewrite /kfac_layer /=; set ws := (X in bind X _); case: ws => [ws|e] //=.
set body := (X in bind X _) => hb; have [KM2 e2] : exists KM2, body = Ok KM2.
  by move: hb; case: body => [KM2|e] //; exists KM2.
move: e2; rewrite /body; case: (sep); first exact: many.
by case: (dget Weight ps) => [w|]; [case: (dget Bias ps) => [b /joint //|]|]; exact: many.
Qed.

Section Checked.
Variables (Theta : Type) (arch : Theta -> nat) (partial_load : Theta -> Theta -> Theta).
Variables (passes : kop -> Theta -> nat -> seq (res firing)) (mconv : nat -> nat -> option conv).
Variable shapes : kop -> seq (seq nat).
Variables pass1 pass2 : kop -> Theta -> nat -> seq (res (item R_realFieldType)).
Variable fired : kop -> Theta -> nat -> seq firing.
Variable vec : kop -> nat -> seq tens.
Local Notation world := (world Theta).
Local Notation run := (run arch partial_load passes mconv).
Local Notation clean := (clean arch partial_load passes mconv).
Local Notation read := (read passes mconv).
Local Notation matmat := (matmat passes mconv).
Local Notation ensure := (ensure passes mconv).
Local Notation check := (check passes mconv shapes pass1 pass2 fired vec).
Local Notation construct_checked := (construct_checked passes mconv shapes pass1 pass2 fired vec).
Local Notation from_checked := (from_checked arch partial_load passes mconv shapes pass1 pass2 fired vec).

(* the comparison of the two loops over the data, for operator o in state w *)
Definition data_verdict (w : world) (o : kop) (th : Theta) : res unit :=
  check_passes true false (shapes o) (pass1 o th (w_tick w)) (pass2 o th (w_tick w)).

Lemma run_check_nil (w : world) fs : run_check mconv w [::] fs = (w, Ok tt).
Proof. by elim: fs => //= f fs ->. Qed.

Lemma column_close (Y : seq tens) : expect_close (column Y) (column Y) = Ok tt :> res unit.
Proof.
have ss : same_shape (column Y : tensor (option R_realFieldType)) (column Y) by apply/and3P; split=> //; rewrite /wf /= size_map muln1.
rewrite (@expect_close_same R_realFieldType) //; case: (@t_closeP R_realFieldType _ _ ss) => // h; exfalso; apply: h.
split=> //=; try by rewrite /nan_free /=; elim: (flat Y).
move=> e _; rewrite /close_to subrr normr0; apply: addr_ge0.
  by apply: divr_ge0; [exact: ler01|apply/exprn_ge0/ler0n].
by apply: mulr_ge0; [apply: divr_ge0; [exact: ler0n|apply/exprn_ge0/ler0n]|exact: normr_ge0].
Qed.

(* a product that returned left the factors behind: repeating it changes nothing *)
Lemma matmat_again (w w' : world) i o v Y : lget (w_ops w) i = Ok o -> all_params (o_mapping o) <> [::] ->
  matmat w i v = (w', Ok Y) ->
  [/\ ensure w i = (w', Ok tt), ensure w' i = (w', Ok tt) &
      exists o', [/\ lget (w_ops w') i = Ok o', computed (get_dicts w' (o_dicts o')) & o' = o \/ o' = reset o]].
Proof.
move=> ho hp; rewrite /KfacState.matmat; have [_ hobj] := ensure_objects passes mconv w i.
case E : (KfacState.ensure _ _ _ _) hobj => [w1 [[]|e]] //= hobj [<- hY]; split=> //; last first.
  move: hY; rewrite /getn; case ho' : (lget (w_ops w1) i) => [o'|e] //= hY; exists o'; split=> //.
    apply/negP => /andP[_ /nilP hd]; move: hY; rewrite hd /kfac_matmat.
    case hf : (foldM _ _ _) => [KM|e] //= _; have := matmat_uses hf.
    by have [o1 h1 h2] := hobj _ _ ho'; move: h1; rewrite ho => -[e1]; subst o1; case: h2 => ->.
  by have [o1] := hobj _ _ ho'; rewrite ho => -[<-].
move: hY; rewrite /getn; case ho' : (lget (w_ops w1) i) => [o'|e] //= hY.
apply: (@ensure_computed _ _ _ w1 i o') => //.
apply/negP => /andP[_ /nilP hd]; move: hY; rewrite hd /kfac_matmat.
case hf : (foldM _ _ _) => [KM|e] //= _; have := matmat_uses hf.
by have [o1 h1 h2] := hobj _ _ ho'; move: h1; rewrite ho => -[e1]; subst o1; case: h2 => ->.
Qed.

Lemma checkE (w : world) i o ms : lget (w_ops w) i = Ok o -> all_params (o_mapping o) <> [::] ->
  lget (w_models w) (o_model o) = Ok ms -> m_hooks ms = [::] ->
  check w i = match data_verdict w o (m_theta ms) with
              | Err e => (w, Err e)
              | Ok _ => let r := matmat w i (vec o (w_tick w)) in (r.1, let! _ := r.2 in Ok tt)
              end.
Proof.
move=> ho hp hm hh; rewrite /KfacChecked.check /getn ho hm hh run_check_nil -/(data_verdict w o (m_theta ms)).
case: (data_verdict _ _ _) => [_|e] //; rewrite /probe.
case hY : (KfacState.matmat _ _ w i _) => [w' [Y|e]] //=.
have [h1 h2 [o' [h3 h4 _]]] := matmat_again ho hp hY.
have hY' : matmat w' i (vec o (w_tick w)) = (w', Ok Y).
  by move: hY; rewrite /KfacState.matmat h1 h2 => -[->].
by rewrite hY' column_close.
Qed.

Lemma constructed (w wc : world) m lo ids mods s : construct w m lo ids mods s = (wc, Ok tt) ->
  w_models wc = w_models w /\
  exists2 o, lget (w_ops wc) (size (w_ops w)) = Ok o & [/\ o_model o = m, all_params (o_mapping o) <> [::] & o_cache o = no_cache].
Proof.
rewrite /construct; case: ifP => // _; case hmp : (compute_parameter_mapping ids mods) => [mp|e] //.
case hi : (nilp ids) => // -[<-] /=; split=> //; exists (Op m lo mp s (size (w_dicts w)) no_cache).
  by rewrite lget_rcons eqxx.
by split=> //=; apply: mapping_neq0 hmp _ => e; rewrite e in hi.
Qed.

(* ---- the constructor ---- *)
Section Construct.
Variables (w wc : world) (m : nat) (lo : loss_obj) (ids : seq nat) (mods : seq module) (s : settings) (ms : mstate Theta).
Hypothesis hm : lget (w_models w) m = Ok ms.
Hypothesis no_hooks : m_hooks ms = [::].
Hypothesis hc : construct w m lo ids mods s = (wc, Ok tt).
Let i := size (w_ops w).

(* The check rejects what the two loops over the data reject, with their
   exception; nothing was computed then. *)
Theorem C87_data_rejected o e : lget (w_ops wc) i = Ok o -> data_verdict wc o (m_theta ms) = Err e ->
  construct_checked true w m lo ids mods s = (wc, Err e).
Proof.
move=> ho he; have [hms [o1 ho1 [h1 h2 h3]]] := constructed hc; move: ho1; rewrite ho => -[e1]; subst o1.
by rewrite /KfacChecked.construct_checked hc (checkE (ms := ms) ho) ?hms ?h1 // he.
Qed.

(* It accepts everything else for which one product returns.  The comparison of the
   two products never rejects: both use the factors that the first one computed. *)
Theorem C87_probe_never_rejects o w' Y : lget (w_ops wc) i = Ok o -> data_verdict wc o (m_theta ms) = Ok tt ->
  matmat wc i (vec o (w_tick wc)) = (w', Ok Y) ->
  construct_checked true w m lo ids mods s = (w', Ok tt).
Proof.
move=> ho he hY; have [hms [o1 ho1 [h1 h2 h3]]] := constructed hc; move: ho1; rewrite ho => -[e1]; subst o1.
by rewrite /KfacChecked.construct_checked hc (checkE (ms := ms) ho) ?hms ?h1 // he hY.
Qed.

Lemma accepted w' : construct_checked true w m lo ids mods s = (w', Ok tt) ->
  exists o v Y o', [/\ lget (w_ops wc) i = Ok o, o_cache o = no_cache, matmat wc i v = (w', Ok Y) &
    [/\ ensure wc i = (w', Ok tt), ensure w' i = (w', Ok tt), lget (w_ops w') i = Ok o',
        computed (get_dicts w' (o_dicts o')) & o' = o \/ o' = reset o]].
Proof.
have [hms [o ho [h1 h2 h3]]] := constructed hc.
rewrite /KfacChecked.construct_checked hc (checkE (ms := ms) ho) ?hms ?h1 //.
case: (data_verdict _ _ _) => //= _; case hY : (KfacState.matmat _ _ wc i _) => [w1 [Y|e]] //= [<-].
have [e1 e2 [o' [e3 e4 e5]]] := matmat_again ho h2 hY.
by exists o, (vec o (w_tick wc)), Y, o'.
Qed.

(* A checked construction that succeeds is an unchecked one followed by a product:
   every product and property afterwards is what the unchecked operator would
   give at this moment, including the state left behind. *)
Theorem C87_same_as_unchecked w' : construct_checked true w m lo ids mods s = (w', Ok tt) ->
  [/\ (exists v, w' = run w [:: ANew Theta m lo ids mods s; AMatmat Theta i v]),
      (exists2 o', lget (w_ops w') i = Ok o' & computed (get_dicts w' (o_dicts o'))),
      (forall M, matmat w' i M = matmat wc i M) & (forall p, read w' i p = read wc i p)].
Proof.
move=> /accepted [o [v [Y [o' [ho h3 hY [e1 e2 e3 e4 e5]]]]]]; split=> [||M|p].
- by exists v; rewrite /= hc /= hY.
- by exists o'.
- by rewrite /KfacState.matmat e1 e2.
have hp : o_cache o' p = None by case: e5 => -> //=; rewrite h3.
have hp0 : o_cache o p = None by rewrite h3.
by rewrite /KfacState.read /getn e3 hp e2 ho hp0 e1 e3.
Qed.
End Construct.

(* A checked operator is frozen: whatever is done afterwards (training included),
   as long as nothing fails and no state is loaded into it, its products are those
   of the parameters at construction. *)
Lemma clean_cat (w : world) a b : clean w (a ++ b) <-> clean w a /\ clean (run w a) b.
Proof.
elim: a w => [|x a IH] w /=; first by split=> [h|[]].
by split=> [[h1 /IH[h2 h3]]|[[h1 h2] h3]]; [split|split=> //; apply/IH].
Qed.
Theorem C87_frozen (w0 wc w' : world) acts m lo ids mods s ms acts' M : fresh w0 -> clean w0 acts ->
  let w := run w0 acts in lget (w_models w) m = Ok ms ->
  construct w m lo ids mods s = (wc, Ok tt) -> construct_checked true w m lo ids mods s = (w', Ok tt) ->
  clean w' acts' -> ~~ has (loads (size (w_ops w))) acts' ->
  (matmat (run w' acts') (size (w_ops w)) M).2 = (matmat wc (size (w_ops w)) M).2.
Proof.
move=> hf hcl w hms hc hk hcl' hl.
have hh : m_hooks ms = [::] by have [[_ _ h] _] := run_inv (fresh_inv hf) hcl; exact: h hms.
have [_ _ hM _] := C87_same_as_unchecked hms hh hc hk.
have [o [v [Y [o' [ho h3 hY [e1 e2 e3 e4 e5]]]]]] := accepted hms hh hc hk.
pose acts2 := acts ++ [:: ANew Theta m lo ids mods s; AMatmat Theta (size (w_ops w)) v].
have er : run w0 acts2 = w' by rewrite /acts2 /KfacState.run foldl_cat /= -/(run w0 acts) -/w hc /= hY.
have hcl2 : clean w0 acts2.
  by apply/clean_cat; split=> //; rewrite -/w /= hc /= e1.
have := @C41_independent_partial Theta arch partial_load passes mconv w0 acts2 acts' (size (w_ops w)) o' M hf hcl2.
by rewrite er => /(_ e3 e4 hcl' hl) ->; rewrite hM.
Qed.

(* ---- from_state_dict ---- *)
Lemma loaded (w w1 : world) s m ids mods ms0 : lget (w_models w) m = Ok ms0 ->
  from_state_dict arch partial_load w s m ids mods = (w1, Ok tt) ->
  exists o ms, [/\ lget (w_ops w1) (size (w_ops w)) = Ok o, all_params (o_mapping o) <> [::],
    [/\ o_model o = m, o_set o = sd_set s, o_dicts o = sd_dicts s & o_cache o = sd_cache s],
    lget (w_models w1) m = Ok ms /\ m_hooks ms = m_hooks ms0 &
    w_dicts w1 = rcons (w_dicts w) ([::], [::]) /\ forall j, (j < size (w_ops w))%N -> lget (w_ops w1) j = lget (w_ops w) j].
Proof.
move=> hm; rewrite /from_state_dict; case hc : (construct _ _ _ _ _ _) => [wc [[]|e]] //.
have [hms [o ho [h1 h2 h3]]] := constructed hc; rewrite /load /getn ho h1 hms hm.
case hms1 : (lget (w_models w) (sd_model s)) => [ms1|e] //; case: ifP => // _; case: ifP => // _; case: ifP => // _.
case: ifP => // _ [<-] /=.
have hi : (size (w_ops w) < size (w_ops wc))%N by have [] := lget_Ok ho o.
have hmk : (m < size (w_models w))%N by have [] := lget_Ok hm ms0.
do 2 eexists; split.
- by rewrite lget_set ?size_set_nth ?(maxn_idPr hi) // eqxx.
- exact: h2.
- by split.
- by rewrite hms lget_set // eqxx; split.
move: hc; rewrite /construct; case: ifP => // _; case: (compute_parameter_mapping _ _) => [mp|e] //; case: (nilp ids) => // -[<-] /=.
split=> // j hj; rewrite !lget_set ?size_set_nth ?size_rcons ?maxnn // (ltn_eqF hj) lget_rcons (ltn_eqF hj) //.
Qed.

(* With factors in the saved state the check computes none, whatever the new data
   are: the restored operator is the one that from_state_dict returns without the
   check.  The data are compared with themselves, not with the factors. *)
Theorem C87_restore_computed (w w1 : world) s m ids mods ms0 : lget (w_models w) m = Ok ms0 -> m_hooks ms0 = [::] ->
  (sd_dicts s < size (w_dicts w))%N -> computed (get_dicts w (sd_dicts s)) ->
  from_state_dict arch partial_load w s m ids mods = (w1, Ok tt) ->
  exists o ms, [/\ lget (w_ops w1) (size (w_ops w)) = Ok o, lget (w_models w1) m = Ok ms,
    (from_checked true w s m ids mods).1 = w1,
    (forall e, data_verdict w1 o (m_theta ms) = Err e -> (from_checked true w s m ids mods).2 = Err e) &
    (data_verdict w1 o (m_theta ms) = Ok tt ->
     (from_checked true w s m ids mods).2 = let! _ := (matmat w1 (size (w_ops w)) (vec o (w_tick w1))).2 in Ok tt)].
Proof.
move=> hm hh hl hd hf; have [o [ms [ho hp [e1 e2 e3 e4] [f1 f2] [f3 f4]]]] := loaded hm hf.
exists o, ms; rewrite /KfacChecked.from_checked hf (checkE (ms := ms) ho) ?e1 // ?f2 //.
have hd1 : computed (get_dicts w1 (o_dicts o)) by rewrite e3 /get_dicts f3 nth_rcons hl.
split=> //; last by move=> ->.
  by case: (data_verdict _ _ _) => //= _; rewrite (matmat_computed passes mconv _ ho hd1).
by move=> e ->.
Qed.

(* Without factors in the saved state the check computes them, and they appear in
   the saved state and in every operator that shares its dictionaries, in
   particular in the operator that was saved. *)
Theorem C87_restore_empty (w w' : world) s m ids mods ms0 : lget (w_models w) m = Ok ms0 -> m_hooks ms0 = [::] ->
  from_checked true w s m ids mods = (w', Ok tt) ->
  computed (get_dicts w' (sd_dicts s)) /\
  forall j o M, lget (w_ops w) j = Ok o -> o_dicts o = sd_dicts s ->
    (matmat w' j M) = (w', kfac_matmat (F := [fieldType of R]) (s_sep (o_set o)) (get_dicts w' (sd_dicts s)).1
                                (get_dicts w' (sd_dicts s)).2 (o_mapping o) M).
Proof.
move=> hm hh; rewrite /KfacChecked.from_checked; case hf : (from_state_dict _ _ _ _ _ _ _) => [w1 [[]|e]] //.
have [o [ms [ho hp [e1 e2 e3 e4] [f1 f2] [f3 f4]]]] := loaded hm hf.
rewrite (checkE (ms := ms) ho) ?e1 // ?f2 //; case: (data_verdict _ _ _) => //= _.
case hY : (KfacState.matmat _ _ w1 _ _) => [w2 [Y|e]] //= [<-].
have [g1 g2 [o' [g3 g4 g5]]] := matmat_again ho hp hY.
have ed : o_dicts o' = sd_dicts s by case: g5 => ->.
split; first by rewrite -ed.
move=> j oj M hj hdj; have [_ _ hother] := ensure_models g1.
have hjs : (j < size (w_ops w))%N by have [] := lget_Ok hj oj.
have hj2 : lget (w_ops w2) j = Ok oj by rewrite hother ?f4 // neq_ltn hjs.
by rewrite (matmat_computed passes mconv M hj2) hdj -?ed.
Qed.
End Checked.
Print Assumptions C87_data_rejected.
Print Assumptions C87_probe_never_rejects.
Print Assumptions C87_same_as_unchecked.
Print Assumptions C87_frozen.
Print Assumptions C87_restore_computed.
Print Assumptions C87_restore_empty.
