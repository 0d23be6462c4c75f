(* Lemmas: the loops of trace, det, logdet and frobenius_norm run over the blocks. *)
From Coq Require Import Reals.
From Coquelicot Require Import Coquelicot.
From mathcomp Require Import all_ssreflect all_algebra.
From Verif Require Import PyPrelude Tensor Spec KfacSpec Kfac KfacProof KfacBlocks KfacScalar RInst.
Set Implicit Arguments.
Unset Strict Implicit.
Unset Printing Implicit Defensive.
Import GRing.Theory.
Local Open Scope ring_scope.

Section Generic.
Variables (F : comRingType) (T : Type) (idx : T) (op : Monoid.com_law idx).
Local Notation tens := (tensor F).
Variables (vj vw : tens -> tens -> res T) (vb : tens -> res T).
Variable bval : nat -> nat -> (nat -> nat -> F) -> (nat -> nat -> F) -> T.
Hypothesis bext : forall o n B A B' A',
  (forall i j, (i < o)%N -> (j < o)%N -> B i j = B' i j) -> (forall i j, (i < n)%N -> (j < n)%N -> A i j = A' i j) ->
  bval o n B A = bval o n B' A'.
(* [good G n]: any further condition on the stored factors (none for most) *)
Variable good : tens -> Prop.
Hypothesis hj : forall G A o n, tshape G = [:: o; o] -> tshape A = [:: n; n] -> good G -> good A ->
  vj G A = Ok (bval o n (fun i j => entry o (tdata G) i j) (fun i j => entry n (tdata A) i j)).
Hypothesis hw : forall G A o n, tshape G = [:: o; o] -> tshape A = [:: n; n] -> good G -> good A ->
  vw G A = Ok (bval o n (fun i j => entry o (tdata G) i j) (fun i j => entry n (tdata A) i j)).
Hypothesis hb : forall G o, tshape G = [:: o; o] -> good G ->
  vb G = Ok (bval o 1 (fun i j => entry o (tdata G) i j) (fun _ _ => 1)).

Definition goods (C : dict nat_eqType tens) : Prop := forall k t, dget k C = Some t -> good t.

Lemma scalar_step sep S inC grC e (l : layer F) acc : goods inC -> goods grC -> describes sep S inC grC e l ->
  (let! G := dgetE e.1 grC in
    match sep, dget Weight e.2, dget Bias e.2 with
    | false, Some _, Some _ => let! A := dgetE e.1 inC in let! v := vj G A in Ok (op acc v)
    | _, _, _ =>
        foldM (fun acc p =>
          if p.1 == Weight then let! A := dgetE e.1 inC in let! v := vw G A in Ok (op acc v)
          else let! v := vb G in Ok (op acc v)) acc e.2
    end) =
  Ok (op acc (\big[op/idx]_(b <- layer_blocks sep S l) bval (b_o b) (b_n b) (b_B b) (b_A b))).
Proof.
move=> gi gg [hk hn hlw hlb [m [G [hG hGs hB hA hbs]]]].
case: e hk hn hlw hlb hG hA => name d /= hk hn hlw hlb hG hA.
rewrite /dgetE hG /=; have gG := gg _ _ hG.
have vB n A A' : (forall i j, (i < n)%N -> (j < n)%N -> A i j = A' i j) ->
    bval m n (fun i j => entry m (tdata G) i j) A = bval m n (l_B l) A'.
  by move=> hh; apply: bext => // i j hi hj'; rewrite hB.
have [hd|[[w hd]|[[b hd]|[[w [b hd]]|[w [b hd]]]]]] := dict_forms hk hn; rewrite hd /dget /= in hlw hlb *; rewrite -/(dget name inC).
- rewrite /layer_blocks -hlw -hlb big_nil Monoid.mulm1; by case: (sep).
- have hjn : joint sep l = false by rewrite /joint -hlb /= !andbF.
  have [rest [hs]] := hA w (esym hlw); rewrite hjn addn0 => -[A [a1 a2 a3 _]].
  rewrite /layer_blocks -hlw -hlb big_seq1 /= /l_out -hlw hs /ncol hs /=.
  have := hw hGs a2 gG (gi _ _ a1); rewrite (vB _ _ (l_A l)); last by move=> i j hi hj'; rewrite a3.
  by rewrite a1 /= => ->; case: (sep).
- rewrite /layer_blocks -hlw -hlb big_seq1 /= /l_out -hlw -hlb (hbs b) //=.
  by rewrite (hb hGs gG) (vB _ _ (fun _ _ => 1)) //=; case: (sep).
- have [rest [hs [A [a1 a2 a3 _]]]] := hA w (esym hlw).
  rewrite a1 /=; have gA := gi _ _ a1.
  have lo : l_out S l = m by rewrite /l_out -hlw hs.
  rewrite /layer_blocks -hlw -hlb; have es : joint sep l = ~~ sep by rewrite /joint -hlw -hlb /= !andbT.
  move: a2 a3; rewrite es; case: (sep) => /=; rewrite ?addn0 ?addn1 => a2 a3.
    rewrite (hw hGs a2 gG gA) (vB _ _ (l_A l)) /=; last by move=> i j hi hj'; rewrite a3.
    rewrite (hb hGs gG) (vB _ _ (fun _ _ => 1)) //= big_cons big_seq1 /= lo /ncol hs /=.
    by rewrite Monoid.mulmA.
  rewrite (hj hGs a2 gG gA) (vB _ _ (l_A l)) /=; last by move=> i j hi hj'; rewrite a3.
  by rewrite big_seq1 /= lo /ncol hs.
have [rest [hs [A [a1 a2 a3 _]]]] := hA w (esym hlw).
rewrite a1 /=; have gA := gi _ _ a1.
have lo : l_out S l = m by rewrite /l_out -hlw hs.
rewrite /layer_blocks -hlw -hlb; have es : joint sep l = ~~ sep by rewrite /joint -hlw -hlb /= !andbT.
move: a2 a3; rewrite es; case: (sep) => /=; rewrite ?addn0 ?addn1 => a2 a3.
  rewrite (hb hGs gG) (vB _ _ (fun _ _ => 1)) //=.
  rewrite (hw hGs a2 gG gA) (vB _ _ (l_A l)) /=; last by move=> i j hi hj'; rewrite a3.
  rewrite big_cons big_seq1 /= lo /ncol hs /=.
  by rewrite -Monoid.mulmA [X in op acc X]Monoid.mulmC.
rewrite (hj hGs a2 gG gA) (vB _ _ (l_A l)) /=; last by move=> i j hi hj'; rewrite a3.
by rewrite big_seq1 /= lo /ncol hs.
Qed.

Lemma scalar_loop_ok sep S inC grC m (ls : seq (layer F)) : goods inC -> goods grC -> describes_all sep S inC grC m ls ->
  scalar_loop op idx sep inC grC vj vw vb m =
  Ok (\big[op/idx]_(b <- flatten (map (layer_blocks sep S) ls)) bval (b_o b) (b_n b) (b_B b) (b_A b)).
Proof.
move=> gi gg hd; rewrite /scalar_loop.
suff H acc : foldM (fun acc e =>
    let! G := dgetE e.1 grC in
    match sep, dget Weight e.2, dget Bias e.2 with
    | false, Some _, Some _ => let! A := dgetE e.1 inC in let! v := vj G A in Ok (op acc v)
    | _, _, _ =>
        foldM (fun acc p =>
          if p.1 == Weight then let! A := dgetE e.1 inC in let! v := vw G A in Ok (op acc v)
          else let! v := vb G in Ok (op acc v)) acc e.2
    end) acc m = Ok (op acc (\big[op/idx]_(b <- flatten (map (layer_blocks sep S) ls)) bval (b_o b) (b_n b) (b_B b) (b_A b))).
  by rewrite H Monoid.mul1m.
elim: hd acc => {m ls} [|e l m ls h hs IH] acc /=; first by rewrite big_nil Monoid.mulm1.
by rewrite (scalar_step acc gi gg h) /= IH big_cat /= Monoid.mulmA.
Qed.
End Generic.

Lemma describes_shaped (F : comRingType) sep S inC grC e (l : layer F) : describes sep S inC grC e l -> shaped S l.
Proof.
move=> [_ _ _ _ [m [G [_ _ _ hA hbs]]]].
have lo : (l_w l != None) || (l_b l != None) -> l_out S l = m.
  rewrite /l_out; case ew : (l_w l) => [w|] /=; first by have [rest [-> _]] := hA w ew.
  by case eb : (l_b l) => [b|] //= _; rewrite (hbs b eb).
split=> [w hw|b hb].
  by have [rest [e1 _]] := hA w hw; exists rest; rewrite lo // hw.
by rewrite (hbs b hb) lo // hb orbT.
Qed.

Lemma describes_all_shaped (F : comRingType) sep S inC grC m (ls : seq (layer F)) : describes_all sep S inC grC m ls ->
  forall l, List.In l ls -> shaped S l.
Proof.
elim=> {m ls} [|e l m ls h hs IH] l' //= [<-|hin]; first exact: describes_shaped h.
exact: IH.
Qed.

Section Values.
Variable F : comRingType.
Local Notation tens := (tensor F).
Variables (sep : bool) (S : seq (seq nat)) (inC grC : dict nat_eqType tens) (m : mapping) (ls : seq (layer F)).
Hypothesis hun : unshared S ls.
Hypothesis hd : describes_all sep S inC grC m ls.
Let hblk := kfac_blocked sep hun (describes_all_shaped hd).

Lemma mtraceE (G : tens) o : tshape G = [:: o; o] -> mtrace G = Ok (\sum_(i < o) entry o (tdata G) i i).
Proof. by rewrite /mtrace => ->; rewrite minnn sumrE. Qed.
Lemma mdetE (G : tens) o : tshape G = [:: o; o] -> mdet G = Ok (detn o (fun i j => entry o (tdata G) i j)).
Proof. by rewrite /mdet => ->; rewrite eqxx. Qed.
Lemma mrowsE (G : tens) o : tshape G = [:: o; o] -> mrows G = Ok o.
Proof. by rewrite /mrows => ->. Qed.

Lemma kfac_trace_ok : kfac_trace sep inC grC m = Ok (\sum_(i < total S) kfac_matrix sep S ls i i).
Proof.
rewrite (blocked_trace hblk) /kfac_trace.
apply: (@scalar_loop_ok F F 0 [com_law of +%R] _ _ _ (fun o n B A => (\sum_(i < o) B i i) * (\sum_(j < n) A j j)) _ (fun _ => True)) => //.
- by move=> o n B A B' A' h1 h2; congr (_ * _); apply: eq_bigr => i _; rewrite ?h1 ?h2.
- by move=> G A o n hG hA _ _; rewrite (mtraceE hG) (mtraceE hA) /= mulrC.
- by move=> G A o n hG hA _ _; rewrite (mtraceE hG) (mtraceE hA).
by move=> G o hG _; rewrite (mtraceE hG) /= big_ord1.
Qed.

Lemma kfac_det_ok : kfac_det sep inC grC m = Ok (\det (\matrix_(i < total S, j < total S) kfac_matrix sep S ls i j)).
Proof.
rewrite -/(detn _ _) (blocked_det hblk) /kfac_det.
apply: (@scalar_loop_ok F F 1 [com_law of *%R] _ _ _ (fun o n B A => detn o B ^+ n * detn n A ^+ o) _ (fun _ => True)) => //.
- by move=> o n B A B' A' h1 h2; rewrite (detn_ext h1) (detn_ext h2).
- by move=> G A o n hG hA _ _; rewrite (mrowsE hG) (mdetE hG) (mrowsE hA) (mdetE hA) /= mulrC.
- by move=> G A o n hG hA _ _; rewrite (mrowsE hG) (mdetE hG) (mrowsE hA) (mdetE hA).
move=> G o hG _; rewrite (mrowsE hG) (mdetE hG) /=; congr (Ok (_ * _)).
by rewrite /detn det_mx11 mxE expr1n.
Qed.

(* the data of stored factors have as many entries as their shape says *)
Hypothesis hwf : forall k t, (dget k inC = Some t \/ dget k grC = Some t) -> wf t.

Lemma msquare_sumE (G : tens) o : wf G -> tshape G = [:: o; o] ->
  msquare_sum G = \sum_(i < o) \sum_(j < o) entry o (tdata G) i j ^+ 2.
Proof.
move=> /eqP hw hs; have {}hw : size (tdata G) = (o * o)%N by rewrite hw hs /= muln1.
have -> : msquare_sum G = \sum_(i < o * o) nth 0 (tdata G) i ^+ 2.
  rewrite -hw /msquare_sum; elim: (tdata G) => [|x d IH] /=; first by rewrite big_ord0.
  by rewrite big_ord_recl /= IH.
rewrite -(sum_divmod o o (fun i j => entry o (tdata G) i j ^+ 2)); apply: eq_bigr => i _.
by rewrite /entry -divn_eq.
Qed.

Lemma kfac_frob2_ok : kfac_frob2 sep inC grC m = Ok (\sum_(i < total S) \sum_(j < total S) kfac_matrix sep S ls i j ^+ 2).
Proof.
rewrite (blocked_frob hblk) /kfac_frob2.
apply: (@scalar_loop_ok F F 0 [com_law of +%R] _ _ _ (fun o n B A =>
   (\sum_(i < o) \sum_(j < o) B i j ^+ 2) * (\sum_(i < n) \sum_(j < n) A i j ^+ 2)) _ (fun t => wf t)) => //.
- by move=> o n B A B' A' h1 h2; congr (_ * _); apply: eq_bigr => i _; apply: eq_bigr => j _; rewrite ?h1 ?h2.
- by move=> G A o n hG hA wG wA; rewrite (msquare_sumE wG hG) (msquare_sumE wA hA) mulrC.
- by move=> G A o n hG hA wG wA; rewrite (msquare_sumE wG hG) (msquare_sumE wA hA).
- by move=> G o hG wG; rewrite (msquare_sumE wG hG) !big_ord1 expr1n.
- by move=> k t h; apply: (hwf (k := k)); left.
by move=> k t h; apply: (hwf (k := k)); right.
Qed.
End Values.

Section LogDet.
Variables (sep : bool) (S : seq (seq nat)) (inC grC : dict nat_eqType (tensor R)) (m : mapping) (ls : seq (layer [comRingType of R])).
Hypothesis hun : unshared S ls.
Hypothesis hd : describes_all sep S inC grC m ls.
Let hblk := kfac_blocked sep hun (describes_all_shaped hd).
Hypothesis hpos : forall k t d, (dget k inC = Some t \/ dget k grC = Some t) -> mdet t = Ok d -> Rlt 0 d.

Lemma exprR_pos (x : R) n : Rlt 0 x -> Rlt 0 (x ^+ n).
Proof.
move=> hx; elim: n => [|n IH]; first by rewrite expr0; exact: Rlt_0_1.
by rewrite exprS; exact: Rmult_lt_0_compat.
Qed.
Lemma ln_mulR (x y : R) : Rlt 0 x -> Rlt 0 y -> ln (x * y) = ln x + ln y.
Proof. by move=> hx hy; exact: ln_mult. Qed.
Lemma ln_expr (x : R) n : Rlt 0 x -> ln (x ^+ n) = n%:R * ln x.
Proof.
move=> hx; elim: n => [|n IH]; first by rewrite expr0 mul0r; exact: ln_1.
by rewrite exprS ln_mulR ?IH //; [rewrite mulrS mulrDl mul1r|exact: exprR_pos].
Qed.

Let good (t : tensor R) : Prop := forall o, tshape t = [:: o; o] -> Rlt 0 (detn o (fun i j => entry o (tdata t) i j)).

Lemma blocks_pos b : List.In b (flatten (map (layer_blocks sep S) ls)) ->
  Rlt 0 (detn (b_o b) (b_B b)) /\ Rlt 0 (detn (b_n b) (b_A b)).
Proof.
move=> hb; have [l hl hb'] : exists2 l, List.In l ls & List.In b (layer_blocks sep S l).
  elim: (ls) hb => //= l ls' IH /List.in_app_iff [h|/IH[l2 h1 h2]]; first by exists l => //; left.
  by exists l2 => //; right.
have [e [_ _ _ _ [o [G [hG hGs hB hA hbs]]]]] : exists e, describes sep S inC grC e l.
  elim: hd hl => //= e l' m' ls' h hs IH [<-|/IH //]; by exists e.
have gG : Rlt 0 (detn o (l_B l)).
  rewrite (detn_ext hB); apply: (hpos (k := e.1) (t := G)); first by right.
  by rewrite (mdetE hGs).
have one : Rlt 0 (detn 1 (fun _ _ => 1 : R)) by rewrite /detn det_mx11 mxE; exact: Rlt_0_1.
have gA w rest : l_w l = Some w -> pshape S w = o :: rest ->
    Rlt 0 (detn (numel rest + joint sep l) (l_A l)).
  move=> hw hs; have [rest' [e1 [A [a1 a2 a3 _]]]] := hA w hw.
  have er : rest' = rest by move: e1; rewrite hs => -[].
  rewrite er in a2 a3; rewrite (detn_ext a3); apply: (hpos (k := e.1) (t := A)); first by left.
  by rewrite (mdetE a2).
move: hb'; rewrite /layer_blocks; case ew : (l_w l) => [w|]; case eb : (l_b l) => [c|] //=.
- have [rest [e1 _]] := hA w ew; have lo : l_out S l = o by rewrite /l_out ew e1.
  have := gA w rest ew e1; rewrite /joint ew eb /= andbT.
  case es : sep => /=; rewrite ?addn0 ?addn1 => h; last by case=> // <- /=; rewrite lo /ncol e1.
  by case=> [<-|[<-|//]] /=; rewrite lo /ncol ?e1.
- have [rest [e1 _]] := hA w ew; have lo : l_out S l = o by rewrite /l_out ew e1.
  have := gA w rest ew e1; rewrite /joint ew eb /= andbF addn0 => h.
  by case=> // <- /=; rewrite lo /ncol e1.
have lo : l_out S l = o by rewrite /l_out ew eb (hbs c eb).
by case=> // <- /=; rewrite lo.
Qed.

Lemma ln_prod (T : Type) (bs : seq T) (f : T -> R) : (forall b, List.In b bs -> Rlt 0 (f b)) ->
  Rlt 0 (\prod_(b <- bs) f b) /\ ln (\prod_(b <- bs) f b) = \sum_(b <- bs) ln (f b).
Proof.
elim: bs => [|b bs IH] h; first by rewrite !big_nil; split; [exact: Rlt_0_1|exact: ln_1].
have [h1 h2] := IH (fun b' hb' => h b' (or_intror hb')); have h3 := h b (or_introl erefl).
by rewrite !big_cons; split; [exact: Rmult_lt_0_compat|rewrite ln_mulR // h2].
Qed.

Lemma kfac_logdet_ok : let D := \det (\matrix_(i < total S, j < total S) kfac_matrix sep S ls i j) in
  Rlt 0 D /\ kfac_logdet sep inC grC m = Ok (ln D).
Proof.
move=> D; have hD : D = detn (total S) (kfac_matrix sep S ls) by [].
have [|p1 p2] := @ln_prod _ (flatten (map (layer_blocks sep S) ls))
  (fun b => detn (b_o b) (b_B b) ^+ b_n b * detn (b_n b) (b_A b) ^+ b_o b).
  by move=> b /blocks_pos[h1 h2]; apply: Rmult_lt_0_compat; exact: exprR_pos.
rewrite hD (blocked_det hblk); split=> //; rewrite p2.
have -> : \sum_(b <- flatten (map (layer_blocks sep S) ls)) ln (detn (b_o b) (b_B b) ^+ b_n b * detn (b_n b) (b_A b) ^+ b_o b) =
  \sum_(b <- flatten (map (layer_blocks sep S) ls))
    ((b_n b)%:R * ln (detn (b_o b) (b_B b)) + (b_o b)%:R * ln (detn (b_n b) (b_A b))).
  apply: eq_big_In => b /blocks_pos[h1 h2]; rewrite ln_mulR ?ln_expr //; exact: exprR_pos.
rewrite /kfac_logdet.
apply: (@scalar_loop_ok [comRingType of R] R 0 [com_law of +%R] _ _ _ (fun o n B A => n%:R * ln (detn o B) + o%:R * ln (detn n A)) _ (fun _ => True)) => //.
- by move=> o n B A B' A' h1 h2; rewrite (detn_ext h1) (detn_ext h2).
- by move=> G A o n hG hA _ _; rewrite (mrowsE hG) (mdetE hG) (mrowsE hA) (mdetE hA) /= addrC.
- by move=> G A o n hG hA _ _; rewrite (mrowsE hG) (mdetE hG) (mrowsE hA) (mdetE hA).
move=> G o hG _; rewrite (mrowsE hG) (mdetE hG) /=; congr (Ok (_ + _)).
by rewrite /detn det_mx11 mxE ln_1 mulr0.
Qed.
End LogDet.
