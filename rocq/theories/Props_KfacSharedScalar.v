(* det, logdet and frobenius_norm of KFAC with parameters that belong to several layers (C31):
   what the properties return, layer by layer. *)
From Coq Require Import Reals Lra.
From Coquelicot Require Import Coquelicot.
From mathcomp Require Import all_ssreflect all_algebra.
From Verif Require Import PyPrelude Tensor Spec OpSpec RInst Calculus KfacSpec Kfac KfacProof KfacBlocks KfacScalar KfacScalarProof KfacMap Props_Kfac Props_KfacShared.
Set Implicit Arguments.
Unset Strict Implicit.
Unset Printing Implicit Defensive.
Import GRing.Theory.
Local Open Scope ring_scope.

Section Layer.
Variable F : comRingType.
Variables (sep : bool) (S : seq (seq nat)) (l : layer F).
Hypothesis hs : shaped S l.
Hypothesis hall : all (fun p => p < size S)%N (l_pos l).
Hypothesis hu : uniq (l_pos l).
(* every parameter has an axis *)
Hypothesis haxes : forall p, (p < size S)%N -> pshape S p <> [::].
(* the layer's block as a function of pairs of coordinates *)
Definition lmat (i j : nat) : F := layer_entry sep S l (param_of S i) (within S i) (param_of S j) (within S j).

(* the layer among layers for the other parameters *)
Let others := [seq p <- iota 0 (size S) | p \notin l_pos l].
Let single p : layer F := Layer (Some p) None (fun _ _ => 0) (fun _ _ => 0).
Let ls := l :: [seq single p | p <- others].

Let ls_unshared : unshared S ls.
Proof.
rewrite /unshared /= -map_comp (_ : flatten _ = others); last by elim: others => //= p s ->.
apply: uniq_perm; rewrite ?iota_uniq //.
  rewrite cat_uniq hu filter_uniq ?iota_uniq // andbT.
  by apply/hasPn => p; rewrite mem_filter => /andP[].
move=> p; rewrite mem_cat mem_filter; case: (boolP (p \in l_pos l)) => //= hp.
by rewrite mem_iota add0n (allP hall).
Qed.
Let ls_shaped l' : List.In l' ls -> shaped S l'.
Proof.
case=> [<- //|/List.in_map_iff[p [<- hp]]]; split=> // w /= [<-].
have : p \in others by apply/In_mem.
rewrite mem_filter mem_iota add0n => /andP[_ hlt]; rewrite /l_out /=.
by case: (pshape S p) (haxes hlt) => // a rest _; exists rest.
Qed.
Let lin : List.In l ls. Proof. by left. Qed.

Lemma lmatE a b : a \in pos_coords S (l_pos l) -> b \in pos_coords S (l_pos l) -> kfac_matrix sep S ls a b = lmat a b.
Proof.
move=> /(param_of_coords hall)[p [r [hp hp' hr ->]]] /(param_of_coords hall)[q [s [hq hq' hs' ->]]].
rewrite (M_layer sep ls_unshared lin) // /lmat.
by have [-> ->] := locate_off hp' hr; have [-> ->] := locate_off hq' hs'.
Qed.

Lemma lmat_crosses : crosses (map (@coords F) (layer_blocks sep S l)) lmat.
Proof.
move=> i j hij hj a b ha hb; have [h1 h2] := layer_inner ls_unshared ls_shaped lin hij hj ha hb.
have fl k x : (k < size (map (@coords F) (layer_blocks sep S l)))%N -> x \in nth [::] (map (@coords F) (layer_blocks sep S l)) k -> x \in pos_coords S (l_pos l).
  move=> hk hx; rewrite -(perm_mem (layer_coords sep hs)); apply/flattenP; eexists; last exact: hx.
  by apply: mem_nth.
have hA := fl i a (ltn_trans hij hj) ha; have hB := fl j b hj hb.
by rewrite -!lmatE.
Qed.

Lemma lmat_entries b : List.In b (layer_blocks sep S l) -> forall r s, (r < b_o b * b_n b)%N -> (s < b_o b * b_n b)%N ->
  lmat (b_at b r) (b_at b s) = kron (b_n b) (b_B b) (b_A b) r s.
Proof.
move=> hb r s hr hs'; rewrite -(block_entries ls_unshared ls_shaped lin hb hr hs').
have fl k : (k < b_o b * b_n b)%N -> b_at b k \in pos_coords S (l_pos l).
  move=> hk; rewrite -(perm_mem (layer_coords sep hs)); apply/flattenP; exists (coords b).
    by elim: (layer_blocks sep S l) hb => //= b' bs IH [->|/IH h]; rewrite inE ?eqxx ?h ?orbT.
  by apply/mapP; exists k => //; rewrite mem_iota.
by rewrite lmatE ?fl.
Qed.

Lemma layer_det : \prod_(b <- layer_blocks sep S l) (detn (b_o b) (b_B b) ^+ b_n b * detn (b_n b) (b_A b) ^+ b_o b) =
  detL (pos_coords S (l_pos l)) lmat.
Proof.
rewrite -(detL_perm _ (layer_coords sep hs)) detL_flatten.
  rewrite big_map; apply: eq_prod_In => b hb; rewrite detL_map -det_kron -detL_iota.
  by apply: detL_ext => r s; rewrite !mem_iota !add0n /= => hr hs'; rewrite lmat_entries.
by move=> i j hij hj a b ha hb; case: (lmat_crosses hij hj ha hb).
Qed.

Lemma layer_frob : \sum_(b <- layer_blocks sep S l) (\sum_(i < b_o b) \sum_(j < b_o b) b_B b i j ^+ 2) * (\sum_(i < b_n b) \sum_(j < b_n b) b_A b i j ^+ 2) =
  \sum_(i <- pos_coords S (l_pos l)) \sum_(j <- pos_coords S (l_pos l)) lmat i j ^+ 2.
Proof.
rewrite -(perm_big _ (layer_coords sep hs)) /=.
under [RHS]eq_bigr => i _ do rewrite -(perm_big _ (layer_coords sep hs)) /=.
rewrite (sum_flatten2 (g := fun i j => lmat i j ^+ 2)); last by apply: crosses_imp lmat_crosses _ => a b ->; rewrite expr0n.
rewrite big_map; apply: eq_big_In => b hb.
transitivity (\sum_(r < b_o b * b_n b) \sum_(s < b_o b * b_n b)
   (b_B b (r %/ b_n b)%N (s %/ b_n b)%N ^+ 2 * b_A b (r %% b_n b)%N (s %% b_n b)%N ^+ 2)); last first.
  rewrite /coords big_map [RHS]big_seq (sum_iota _ (fun r => \sum_(s < b_o b * b_n b) (b_B b (r %/ b_n b)%N (s %/ b_n b)%N ^+ 2 * b_A b (r %% b_n b)%N (s %% b_n b)%N ^+ 2))) big_seq.
  apply: eq_bigr => r; rewrite mem_iota add0n => hr; rewrite big_map [RHS]big_seq (sum_iota _ (fun s => b_B b (r %/ b_n b)%N (s %/ b_n b)%N ^+ 2 * b_A b (r %% b_n b)%N (s %% b_n b)%N ^+ 2)) big_seq.
  by apply: eq_bigr => s; rewrite mem_iota add0n => hs'; rewrite lmat_entries // /kron exprMn.
symmetry; transitivity (\sum_(r < b_o b * b_n b) \sum_(a < b_o b) \sum_(c < b_n b)
   b_B b (r %/ b_n b)%N a ^+ 2 * b_A b (r %% b_n b)%N c ^+ 2).
  by apply: eq_bigr => r _; exact: (sum_divmod (b_o b) (b_n b) (fun a c => b_B b (r %/ b_n b)%N a ^+ 2 * b_A b (r %% b_n b)%N c ^+ 2)).
rewrite (sum_divmod _ _ (fun r1 r2 => \sum_(a < b_o b) \sum_(c < b_n b) b_B b r1 a ^+ 2 * b_A b r2 c ^+ 2)).
rewrite mulr_suml; apply: eq_bigr => a _; rewrite mulr_sumr; apply: eq_bigr => c _.
by rewrite mulr_suml; apply: eq_bigr => a' _; rewrite mulr_sumr.
Qed.
End Layer.

Section Shared.
Variable F : comRingType.
Local Notation cov := (dict nat_eqType (tensor F)).
Variables (sep : bool) (S : seq (seq nat)) (ids : seq nat) (mods : seq module) (inC grC : cov).
Hypothesis hnet : shared_net sep S ids mods inC grC.
Hypothesis hS : S <> [::].
Local Notation block m := (layer_entry sep S (net_layer ids inC grC m)).
(* the coordinates of the parameters of layer m, in increasing order, and the layer's block *)
Definition own_coords (m : module) : seq nat := [seq i <- iota 0 (total S) | layer_has ids m (param_of S i)].
Definition own_block (m : module) (a b : nat) : F :=
  let i := nth 0%N (own_coords m) a in let j := nth 0%N (own_coords m) b in
  block m (param_of S i) (within S i) (param_of S j) (within S j).

Lemma in_layers m : List.In m mods -> relevant ids m -> List.In (net_layer ids inC grC m) (net_layers ids inC grC mods).
Proof. by move=> hm hr; apply/in_map; exists m => //; apply/in_filter. Qed.

Lemma axes mp : describes_all sep S inC grC mp (net_layers ids inC grC mods) -> forall p, (p < size S)%N -> pshape S p <> [::].
Proof.
move=> hd p hp; case: (hnet) => _ hs [_ ho] _ _; rewrite hs in hp.
have [m hm hl] := ho p hp; have hr := has_relevant hp hl.
have hin := in_layers hm hr; have [h1 h2] := describes_all_shaped hd hin.
have := layer_hasE hnet hm hr hp; rewrite hl -l_memE => /orP[/eqP e|/eqP e] e'.
  by have [rest] := h1 _ e; rewrite e'.
by have := h2 _ e; rewrite e'.
Qed.

Lemma own_perm m : List.In m mods -> relevant ids m -> perm_eq (pos_coords S (l_pos (net_layer ids inC grC m))) (own_coords m).
Proof.
move=> hm hr; have [ha hu] := layer_good hnet (in_layers hm hr); have hs : size S = size ids by case: hnet.
have uq : uniq (pos_coords S (l_pos (net_layer ids inC grC m))).
  elim: (l_pos _) ha hu => //= p ps IH /andP[hp ha] /andP[hn hu]; rewrite cat_uniq iota_uniq IH // andbT /=.
  apply/hasPn => x /(param_of_coords ha)[q [r [hq hq' hr' ->]]]; rewrite [_ (_ + _)%N]mem_iota; apply/negP => /andP[g1 g2].
  have [e _] := locate_off hq' hr'; have hr2 : (off S q + r - off S p < numel (pshape S p))%N by rewrite ltn_subLR.
  have [e2 _] := locate_off hp hr2; rewrite subnKC // e in e2; by rewrite -e2 hq in hn.
apply: uniq_perm => //; first by rewrite filter_uniq ?iota_uniq.
move=> a; rewrite mem_filter mem_iota add0n /=; apply/idP/idP.
  move=> /(param_of_coords ha)[p [r [hp hp' hr' ->]]]; have [-> _] := locate_off hp' hr'.
  by rewrite -(layer_hasE hnet hm hr) -?hs // hp off_bound.
case/andP=> hl hi; have [b1 b2 b3] := locate_bound hi; rewrite b3.
apply/flattenP; exists (iota (off S (param_of S a)) (numel (pshape S (param_of S a)))).
  by apply/mapP; exists (param_of S a) => //; rewrite (layer_hasE hnet hm hr) -?hs.
by rewrite mem_iota leq_addr ltn_add2l.
Qed.
Lemma own_det mp m : describes_all sep S inC grC mp (net_layers ids inC grC mods) -> List.In m mods -> relevant ids m ->
  detL (pos_coords S (l_pos (net_layer ids inC grC m))) (lmat sep S (net_layer ids inC grC m)) =
  \det (\matrix_(a < size (own_coords m), b < size (own_coords m)) own_block m a b).
Proof. by move=> hd hm hr; rewrite (detL_perm _ (own_perm hm hr)). Qed.

(* det multiplies the determinants of all layers' blocks *)
Theorem C31_det_partial mp : compute_parameter_mapping ids mods = Ok mp ->
  kfac_det sep inC grC mp = Ok (\prod_(m <- mods | relevant ids m)
    \det (\matrix_(a < size (own_coords m), b < size (own_coords m)) own_block m a b)).
Proof.
have [mp' h1 h2] := shared_mapping hnet; rewrite h1 => -[<-].
rewrite /kfac_det (@scalar_loop_ok F F 1 [com_law of *%R] _ _ _ (fun o n B A => detn o B ^+ n * detn n A ^+ o) _ (fun _ => True) _ _ _ sep S inC grC mp' _ _ _ h2) //.
- congr Ok; rewrite big_flatten big_map /= /net_layers big_map -[RHS]big_filter.
  apply: eq_prod_In => m /in_filter[hm hr]; have hl := in_layers hm hr; have [g1 g2] := layer_good hnet hl.
  by rewrite -(own_det h2 hm hr) -(layer_det sep (describes_all_shaped h2 hl) g1 g2 (axes h2)).
- by move=> o n B A B' A' e1 e2; rewrite (detn_ext e1) (detn_ext e2).
- by move=> G A o n hG hA _ _; rewrite (mrowsE hG) (mdetE hG) (mrowsE hA) (mdetE hA) /= mulrC.
- by move=> G A o n hG hA _ _; rewrite (mrowsE hG) (mdetE hG) (mrowsE hA) (mdetE hA).
move=> G o hG _; rewrite (mrowsE hG) (mdetE hG) /=; congr (Ok (_ * _)).
by rewrite /detn det_mx11 mxE expr1n.
Qed.

(* the squared Frobenius norm adds the squared entries of all layers' blocks *)
Lemma shared_frob2 mp : compute_parameter_mapping ids mods = Ok mp ->
  (forall k t, (dget k inC = Some t \/ dget k grC = Some t) -> wf t) ->
  kfac_frob2 sep inC grC mp = Ok (\sum_(m <- mods | relevant ids m) \sum_(i < total S) \sum_(j < total S)
    block m (param_of S i) (within S i) (param_of S j) (within S j) ^+ 2).
Proof.
have [mp' h1 h2] := shared_mapping hnet; rewrite h1 => -[<-] hwf.
rewrite /kfac_frob2 (@scalar_loop_ok F F 0 [com_law of +%R] _ _ _ (fun o n B A =>
   (\sum_(i < o) \sum_(j < o) B i j ^+ 2) * (\sum_(i < n) \sum_(j < n) A i j ^+ 2)) _ (fun t => wf t) _ _ _ sep S inC grC mp' _ _ _ h2) //.
- congr Ok; rewrite big_flatten big_map /= /net_layers big_map -[RHS]big_filter.
  apply: eq_big_In => m /in_filter[hm hr]; have hl := in_layers hm hr; have [g1 g2] := layer_good hnet hl.
  rewrite (layer_frob sep (describes_all_shaped h2 hl) g1 g2 (axes h2)).
  have hs : size S = size ids by case: hnet.
  have zero i j : (i < total S)%N -> (j < total S)%N -> ~~ (layer_has ids m (param_of S i) && layer_has ids m (param_of S j)) ->
      block m (param_of S i) (within S i) (param_of S j) (within S j) = 0.
    move=> hi hj; have [b1 _ _] := locate_bound hi; have [c1 _ _] := locate_bound hj; rewrite hs in b1 c1.
    rewrite -!(layer_hasE hnet hm hr) // negb_and => /orP[h|h]; first exact: layer_entry_out.
    by rewrite /layer_entry (negbTE (_ : ~~ l_mem _ (param_of S j))) ?andbF // l_memE.
  rewrite (perm_big _ (own_perm hm hr)) /= (sum_iota _ (fun i => \sum_(j < total S) block m (param_of S i) (within S i) (param_of S j) (within S j) ^+ 2)).
  rewrite big_filter big_mkcond big_seq [RHS]big_seq; apply: eq_bigr => i; rewrite mem_iota add0n => hi.
  case: ifP => hp; last first.
    by rewrite big1 // => j _; rewrite zero ?expr0n // hp.
  rewrite (perm_big _ (own_perm hm hr)) /= (sum_iota _ (fun j => block m (param_of S i) (within S i) (param_of S j) (within S j) ^+ 2)).
  rewrite big_filter big_mkcond big_seq [RHS]big_seq; apply: eq_bigr => j; rewrite mem_iota add0n => hj.
  by case: ifP => hq //; rewrite zero ?expr0n // hp hq.
- by move=> o n B A B' A' e1 e2; congr (_ * _); apply: eq_bigr => i _; apply: eq_bigr => j _; rewrite ?e1 ?e2.
- by move=> G A o n hG hA wG wA; rewrite (msquare_sumE wG hG) (msquare_sumE wA hA) mulrC.
- by move=> G A o n hG hA wG wA; rewrite (msquare_sumE wG hG) (msquare_sumE wA hA).
- by move=> G o hG wG; rewrite (msquare_sumE wG hG) !big_ord1 expr1n.
- by move=> k t h; apply: (hwf k); left.
by move=> k t h; apply: (hwf k); right.
Qed.
End Shared.
Print Assumptions C31_det_partial.

(* frobenius_norm: the root of the sum of the squared entries of all layers' blocks *)
Theorem C31_frobenius_partial (F : rcfType) sep S ids mods (inC grC : dict nat_eqType (tensor F)) mp :
  shared_net sep S ids mods inC grC -> S <> [::] -> compute_parameter_mapping ids mods = Ok mp ->
  (forall k t, (dget k inC = Some t \/ dget k grC = Some t) -> wf t) ->
  exists f, [/\ kfac_frobenius_norm sep inC grC mp = Ok f, (0 <= f)%R &
    f ^+ 2 = \sum_(m <- mods | relevant ids m) \sum_(i < total S) \sum_(j < total S)
      layer_entry sep S (net_layer ids inC grC m) (param_of S i) (within S i) (param_of S j) (within S j) ^+ 2].
Proof.
move=> hnet hS hmp hwf; rewrite /kfac_frobenius_norm (shared_frob2 hnet hmp hwf) /=.
have -> : nilp (flatten [seq e.2 | e <- mp]) = false.
  case: (hnet) => hw hsz _ _ _; have pos0 : (0 < size ids)%N by rewrite -hsz; case: (S) hS.
  have [name [n [d [d1 d2]]]] := C29_every_position hw hmp pos0.
  have := dget_in d1; have := dget_in d2; case: d {d1 d2} => // p d _ hin.
  elim: (mp) hin => //= e mp' IH [->|h] //=; rewrite /nilp size_cat addn_eq0.
  by move: (IH h); rewrite /nilp => ->; rewrite andbF.
eexists; split; [reflexivity|exact: Num.Theory.sqrtr_ge0|].
by rewrite Num.Theory.sqr_sqrtr //; do 3 (apply: Num.Theory.sumr_ge0 => ? _); exact: Num.Theory.sqr_ge0.
Qed.
Print Assumptions C31_frobenius_partial.

(* logdet: the sum of the logarithms of the determinants of all layers' blocks *)
Theorem C31_logdet_partial sep S ids mods (inC grC : dict nat_eqType (tensor R)) mp :
  shared_net sep S ids mods inC grC -> compute_parameter_mapping ids mods = Ok mp ->
  (forall k t d, (dget k inC = Some t \/ dget k grC = Some t) -> mdet t = Ok d -> Rlt 0 d) ->
  let D m := \det (\matrix_(a < size (own_coords S ids m), b < size (own_coords S ids m)) own_block sep S ids inC grC m a b) in
  (forall m, List.In m mods -> relevant ids m -> Rlt 0 (D m)) /\
  kfac_logdet sep inC grC mp = Ok (\sum_(m <- mods | relevant ids m) ln (D m)).
Proof.
move=> hnet hmp hpos D; have [mp' h1 h2] := shared_mapping hnet; move: hmp; rewrite h1 => -[?]; subst mp'.
have DE m : List.In m mods -> relevant ids m -> Rlt 0 (D m) /\
    ln (D m) = \sum_(b <- layer_blocks sep S (net_layer ids inC grC m)) ((b_n b)%:R * ln (detn (b_o b) (b_B b)) + (b_o b)%:R * ln (detn (b_n b) (b_A b))).
  move=> hm hr; have hl := in_layers inC grC hm hr; have [g1 g2] := layer_good hnet hl.
  rewrite /D -(own_det hnet h2 hm hr) -(layer_det sep (describes_all_shaped h2 hl) g1 g2 (axes hnet h2)).
  have bp b : List.In b (layer_blocks sep S (net_layer ids inC grC m)) -> Rlt 0 (detn (b_o b) (b_B b)) /\ Rlt 0 (detn (b_n b) (b_A b)).
    move=> hb; apply: (blocks_pos h2 hpos); elim: (net_layers ids inC grC mods) hl => //= l' ls IH [->|h]; apply/List.in_app_iff; [by left|right; exact: IH].
  have [|p1 p2] := @ln_prod _ (layer_blocks sep S (net_layer ids inC grC m)) (fun b => detn (b_o b) (b_B b) ^+ b_n b * detn (b_n b) (b_A b) ^+ b_o b).
    by move=> b /bp[q1 q2]; apply: Rmult_lt_0_compat; exact: exprR_pos.
  split=> //; rewrite p2; apply: eq_big_In => b /bp[q1 q2]; rewrite ln_mulR ?ln_expr //; exact: exprR_pos.
split; first by move=> m hm hr; case: (DE m hm hr).
rewrite /kfac_logdet (@scalar_loop_ok [comRingType of R] R 0 [com_law of +%R] _ _ _ (fun o n B A => n%:R * ln (detn o B) + o%:R * ln (detn n A)) _ (fun _ => True) _ _ _ sep S inC grC mp _ _ _ h2) //.
- congr Ok; rewrite big_flatten big_map /= /net_layers big_map -[RHS]big_filter.
  by apply: eq_big_In => m /in_filter[hm hr]; have [_ ->] := DE m hm hr.
- by move=> o n B A B' A' e1 e2; rewrite (detn_ext e1) (detn_ext e2).
- by move=> G A o n hG hA _ _; rewrite (mrowsE hG) (mdetE hG) (mrowsE hA) (mdetE hA) /= addrC.
- by move=> G A o n hG hA _ _; rewrite (mrowsE hG) (mdetE hG) (mrowsE hA) (mdetE hA).
move=> G o hG _; rewrite (mrowsE hG) (mdetE hG) /=; congr (Ok (_ + _)).
by rewrite /detn det_mx11 mxE ln_1 mulr0.
Qed.
Print Assumptions C31_logdet_partial.

(* the network with a common weight of Props_KfacShared.v: both layers own the weight *)
Example C31_ex_own_coords : [/\ own_coords two_S [:: 7; 8; 9]%N (nth (Module 0 true [::]) two_mods 0) = [:: 0; 1]%N &
  own_coords two_S [:: 7; 8; 9]%N (nth (Module 0 true [::]) two_mods 1) = [:: 0; 2]%N].
Proof. by []. Qed.
Definition ex_in2 : dict nat_eqType (tensor R) := two_in (2%:R : [comRingType of R]) 1 1 5%:R 1 1.
Definition ex_gr2 : dict nat_eqType (tensor R) := two_gr (3%:R : [comRingType of R]) 7%:R.
Example C31_ex_positive k t d : (dget k ex_in2 = Some t \/ dget k ex_gr2 = Some t) -> mdet t = Ok d -> Rlt 0 d.
Proof.
have one (x : R) : \det (\matrix_(i < 1, j < 1) entry 1 [:: x] i j) = x by rewrite det_mx11 mxE.
case; case: k => [|[|k]] //= -[<-]; rewrite /mdet /= ?det22 ?one => -[<-]; rewrite ?mulrS ?mulr0n; toR; lra.
Qed.
Example C31_ex_values : exists mp d f l, [/\ compute_parameter_mapping [:: 7; 8; 9]%N two_mods = Ok mp,
  kfac_det false ex_in2 ex_gr2 mp = Ok d, kfac_frob2 false ex_in2 ex_gr2 mp = Ok f & kfac_logdet false ex_in2 ex_gr2 mp = Ok l].
Proof.
have hn := two_net (2%:R : [comRingType of R]) 1 1 3%:R 5%:R 1 1 7%:R.
have [mp h1 _] := shared_mapping hn; exists mp; do 3 eexists; split=> //.
- exact: (C31_det_partial hn h1).
- by apply: (shared_frob2 hn h1) => k t; case; case: k => [|[|k]] //= -[<-].
exact: (C31_logdet_partial hn h1 C31_ex_positive).2.
Qed.
