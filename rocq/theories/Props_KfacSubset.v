(* C80 for KFAC: the operator for some of the parameters is a sub-matrix of the
   operator for all of them, whichever parameters of a layer are chosen. *)
From Coq Require Import Reals Lra FunctionalExtensionality.
From Coquelicot Require Import Coquelicot.
From mathcomp Require Import all_ssreflect all_algebra.
From Verif Require Import PyPrelude Tensor Spec TorchBase Submatrix RInst Calculus ROrd Curvature HessGGN Risk Losses Fisher FisherMC FisherExp OpSpec LossHess Props_LossHess Conv Props_Conv Kfac KfacSpec KfacProof KfacMap Props_Kfac KfacCov KfacCovHooks KfacCovSpec KfacCovProof Props_KfacCov Props_KfacMC Props_KfacEnd Props_KfacEx ParamSubset.
Set Implicit Arguments.
Unset Strict Implicit.
Unset Printing Implicit Defensive.
Import GRing.Theory Num.Theory.
Local Open Scope ring_scope.

(* ---- coordinates of the chosen parameters ---- *)
Section Coords.
Variables (S : seq (seq nat)) (sel : seq nat).
Hypothesis hsel : sublist S sel.
Local Notation S' := (sub_shapes S sel).

Lemma nth_sub p : (p < size sel)%N -> pshape S' p = pshape S (nth 0%N sel p).
Proof. by move=> hp; rewrite /pshape (nth_map 0%N). Qed.

Lemma coord_off s p r : (p < size s)%N -> (r < numel (nth [::] S (nth 0%N s p)))%N ->
  nth 0%N (coords S s) (off (sub_shapes S s) p + r) = (off S (nth 0%N s p) + r)%N.
Proof.
elim: s p => // k s IH [|p] /= hp hr.
  rewrite off0 add0n /coords /= nth_cat size_mkseq hr nth_mkseq //.
rewrite /sub_shapes /= offS -addnA /coords /= nth_cat size_mkseq ltnNge leq_addr /= addKn.
exact: IH.
Qed.

Lemma coord_param i : (i < total S')%N ->
  [/\ (param_of S' i < size sel)%N, param_of S (coord S sel i) = nth 0%N sel (param_of S' i) &
      within S (coord S sel i) = within S' i].
Proof.
move=> hi; have [h1 h2 h3] := locate_bound hi; rewrite size_map in h1.
have hk : (nth 0%N sel (param_of S' i) < size S)%N by case/and3P: hsel => _ /allP h _; apply: h; apply: mem_nth.
rewrite nth_sub // in h2; rewrite {2 4}h3 /coord coord_off //.
by have [-> ->] := locate_off hk h2.
Qed.
End Coords.

(* ---- sums over the layers ---- *)
Lemma sum_filter_In (A : Type) (s : seq A) (P Q : pred A) (f g : A -> R) :
  (forall m, List.In m s -> (if P m then f m else 0) = if Q m then g m else 0) ->
  \sum_(m <- [seq m <- s | P m]) f m = \sum_(m <- [seq m <- s | Q m]) g m.
Proof.
move=> h; rewrite !big_filter big_mkcond [RHS]big_mkcond; elim: s h => [|a s IH] h; first by rewrite !big_nil.
by rewrite !big_cons h ?IH //; [move=> m hm; apply: h; right|left].
Qed.

Section Drawn.
Variables (X Y : Type) (T C : nat) (kind : loss_kind) (net : X -> seq R) (M : nat) (G : Type).
Variable normal_o : G -> nat -> (nat -> R) * G.
Variable multinomial_o : G -> nat -> nat -> (nat -> nat -> R) -> nat -> (nat -> nat -> nat) * G.
Variable bernoulli_o : G -> nat -> (nat -> R) -> (nat -> bool) * G.
(* the labels are determined by the generator *)
Lemma sampled_fun rows o g y g1 y' g1' : sampled C kind normal_o multinomial_o bernoulli_o rows o g y g1 ->
  sampled C kind normal_o multinomial_o bernoulli_o rows o g y' g1' -> y = y' /\ g1 = g1'.
Proof.
move=> [s h] [s' h']; move: h h'; case: kind => -[-> h] [-> h']; split=> //;
  (apply: (@eq_from_nth _ (TCls 0)); rewrite ?s // => r hr; by rewrite h ?h').
Qed.
Lemma samples_fun n rows o g y g1 y' g1' : samples C kind normal_o multinomial_o bernoulli_o n rows o g y g1 ->
  samples C kind normal_o multinomial_o bernoulli_o n rows o g y' g1' -> y = y' /\ g1 = g1'.
Proof.
move=> h; elim: h y' g1' => {n rows o g y g1} [rows o g|n rows o g y g1 ys g2 h1 _ IH] y' g1' h'.
  by inversion h'; subst.
inversion h' as [|? ? ? ? y0 g0 ys0 ? k1 k2]; subst.
by have [-> e] := sampled_fun h1 k1; subst g0; have [-> ->] := IH _ _ k2.
Qed.
Lemma drawn_fun (loader : seq (seq (X * Y))) g yss yss' : drawn T C kind net M normal_o multinomial_o bernoulli_o loader g yss ->
  drawn T C kind net M normal_o multinomial_o bernoulli_o loader g yss' -> yss = yss'.
Proof.
move=> h; elim: h yss' => {loader g yss} [g|b l g ys g' yss h1 _ IH] yss' h'.
  by inversion h'.
inversion h' as [|? ? ? ys0 g0 yss0 k1 k2]; subst.
by have [-> e] := samples_fun h1 k1; subst g0; rewrite (IH _ k2).
Qed.
End Drawn.

Section Subset.
Variables (X Y : Type) (T C : nat) (kind : loss_kind).
Local Notation batch := (seq (X * Y)).
Hypothesis T_gt0 : (0 < T)%N.
Hypothesis C_gt0 : (0 < C)%N.
Variable net : X -> seq R.
Variable tgt : Y -> nat -> target.
Hypothesis net_size : forall x, size (net x) = (T * C)%N.
Variables (sep : bool) (ap : kfac_approx) (red : reduction) (M : nat) (ge : geometry X).
Hypothesis hred : red <> ROther.
Hypothesis M_gt0 : (0 < M)%N.
Variables (G : Type).
Variable normal_o : G -> nat -> (nat -> R) * G.
Variable multinomial_o : G -> nat -> nat -> (nat -> nat -> R) -> nat -> (nat -> nat -> nat) * G.
Variable bernoulli_o : G -> nat -> (nat -> R) -> (nat -> bool) * G.
(* the network, all its parameters (data pointers and shapes), the chosen ones *)
Variables (ms : seq module) (mods : nat -> nlayer X) (ids : seq nat) (S : seq (seq nat)) (sel : seq nat).
Hypothesis hS : S <> [::].
Hypothesis hnet : network_ok T C ap ge ms mods ids S.
Hypothesis hsel : sublist S sel.
Definition sub_ids : seq nat := [seq nth 0%N ids k | k <- sel].
Local Notation S' := (sub_shapes S sel).
Local Notation ids' := sub_ids.

Let hids : uniq ids. Proof. by case: hnet => _ _ [h _] _. Qed.
Let sids : size S = size ids. Proof. by case: hnet. Qed.
Lemma sel_lt p : (p < size sel)%N -> (nth 0%N sel p < size ids)%N.
Proof. by move=> hp; rewrite -sids; case/and3P: hsel => _ /allP h _; apply: h; apply: mem_nth. Qed.
Lemma sub_ids_sub i : i \in ids' -> i \in ids.
Proof. by move=> /(nthP 0%N)[p]; rewrite size_map => hp <-; rewrite (nth_map 0%N) // mem_nth // sel_lt. Qed.
Lemma sub_ids_uniq : uniq ids'.
Proof.
rewrite map_inj_in_uniq; first by case/and3P: hsel.
move=> a b /(nthP 0%N)[p hp <-] /(nthP 0%N)[q hq <-] /eqP; rewrite nth_uniq ?sel_lt // => /eqP; by [].
Qed.

(* where a module's parameter sits *)
Lemma at_sub m n p : (p < size sel)%N -> (at_pos ids' m n == Some p) = (at_pos ids m n == Some (nth 0%N sel p)).
Proof.
move=> hp; rewrite /at_pos; case: dget => // i.
have hn : nth 0%N ids' p = nth 0%N ids (nth 0%N sel p) by rewrite (nth_map 0%N).
apply/eqP/eqP.
  case: ifP => // hi [e]; rewrite (sub_ids_sub hi); congr Some.
  by rewrite -(nth_index 0%N hi) e hn index_uniq ?sel_lt.
case: ifP => // hi [e].
have ei : i = nth 0%N ids' p by rewrite hn -e nth_index.
have hp' : (p < size ids')%N by rewrite size_map.
by rewrite ei mem_nth // index_uniq // sub_ids_uniq.
Qed.
Lemma at_sub_lt m n p : at_pos ids' m n = Some p -> (p < size sel)%N.
Proof. by rewrite /at_pos; case: dget => // i; case: ifP => // hi [<-]; rewrite -(size_map (nth 0%N ids)) index_mem. Qed.
Lemma at_sub_some m n p : at_pos ids' m n = Some p -> at_pos ids m n = Some (nth 0%N sel p).
Proof. by move=> h; apply/eqP; rewrite -at_sub ?h //; exact: at_sub_lt h. Qed.
Lemma at_relevant (l : seq nat) m n p : m_supported m -> at_pos l m n = Some p -> relevant l m.
Proof.
rewrite /relevant /at_pos => -> /=; case e : dget => [i|] //; case: ifP => // hi _.
have := dget_in e; elim: (m_params m) => //= a ps IH [->|/IH ->] /=; by rewrite ?hi ?orbT.
Qed.
Lemma relevant_sub m : relevant ids' m -> relevant ids m.
Proof.
move=> /andP[hs]; rewrite /relevant hs /=; elim: (m_params m) => //= a l IH /orP[/sub_ids_sub ->|/IH ->] //.
by rewrite orbT.
Qed.

Lemma sub_network : network_ok T C ap ge ms mods ids' S'.
Proof.
case: (hnet) => h1 _ [_ h3] h4; split=> //; first by rewrite !size_map.
  split; first exact: sub_ids_uniq.
  have e (s : seq module) : flatten [seq [seq p.2 | p <- m_params m & p.2 \in ids'] | m <- s & m_supported m] =
     [seq i <- flatten [seq [seq p.2 | p <- m_params m & p.2 \in ids] | m <- s & m_supported m] | i \in ids'].
    elim: s => //= m s IH; case: ifP => //= _; rewrite filter_cat IH; congr (_ ++ _).
    elim: (m_params m) => //= -[n i] ps IHp /=; case: ifP => hi; last by case: ifP => //= _; rewrite hi.
    by rewrite (sub_ids_sub hi) /= hi IHp.
  rewrite e; apply: uniq_perm; first by rewrite filter_uniq // (perm_uniq h3).
    exact: sub_ids_uniq.
  move=> i; rewrite mem_filter (perm_mem h3); case hi : (i \in ids') => //=; exact: sub_ids_sub.
move=> m hm hr k; have [a1 a2 a3 a4] := h4 m hm (relevant_sub hr); split=> //.
  move=> w hw; have [b1 b2] := a3 _ (at_sub_some hw); split=> //.
  by rewrite nth_sub //; exact: at_sub_lt hw.
by move=> b hb; rewrite nth_sub ?(at_sub_lt hb) //; apply: a4; exact: at_sub_some.
Qed.

Local Notation mapping_of ids := [seq (m_name m, positions ids m) | m <- ms & relevant ids m].
Local Notation compute ids S N ft := (compute_kfac T C kind net tgt mods S sep ap ft red N M T (mapping_of ids) normal_o multinomial_o bernoulli_o).
Local Notation computes ids S N ft := (computes T C kind net tgt mods S sep ap red N M (mapping_of ids) ge normal_o multinomial_o bernoulli_o ft).
Local Notation op ids S st := (LinOp S S (kfac_matmat sep st.1 st.2 (mapping_of ids))).

(* both operators compute the same gradient factors *)
Lemma same_factors ft (d0 : X * Y) N loader g : (0 < N)%N -> loader <> [::] -> nonempty loader ->
  (ft = Type2 -> type2_ok T C kind tgt (flatten loader)) ->
  exists B, computes ids S N ft loader g B /\ computes ids' S' N ft loader g B.
Proof.
move=> N0 hl hne h2.
have u1 := end_uniq hnet; have u2 := end_uniq sub_network.
have g1 := end_geometry hnet; have g2 := end_geometry sub_network.
case: ft h2 => h2.
- have [hC ht] := h2 erefl; eexists; split.
    by apply: (@type2_computes X Y T C kind T_gt0 C_gt0 net tgt mods S sep ap red N M _ ge net_size u1 g1 hred N0 M_gt0).
  by apply: (@type2_computes X Y T C kind T_gt0 C_gt0 net tgt mods S' sep ap red N M _ ge net_size u2 g2 hred N0 M_gt0).
- have [yss [hy hc]] := @C32_monte_carlo X Y T C kind T_gt0 C_gt0 net tgt mods S sep ap red N M _ ge u1 g1 hred N0 M_gt0 G
    normal_o multinomial_o bernoulli_o d0 loader g hl hne.
  have [yss' [hy' hc']] := @C32_monte_carlo X Y T C kind T_gt0 C_gt0 net tgt mods S' sep ap red N M _ ge u2 g2 hred N0 M_gt0 G
    normal_o multinomial_o bernoulli_o d0 loader g hl hne.
  by rewrite -(drawn_fun hy hy') in hc'; eexists; split; [exact: hc|exact: hc'].
- eexists; split.
    by apply: (@C32_empirical X Y T C kind T_gt0 C_gt0 net tgt mods S sep ap red N M _ ge u1 g1 hred N0 M_gt0).
  by apply: (@C32_empirical X Y T C kind T_gt0 C_gt0 net tgt mods S' sep ap red N M _ ge u2 g2 hred N0 M_gt0).
eexists; split.
  by apply: (@C32_forward_only X Y T C kind net tgt mods S sep ap red N M _ ge u1 g1) => //; exact: first_param hnet.
by apply: (@C32_forward_only X Y T C kind net tgt mods S' sep ap red N M _ ge u2 g2) => //; exact: first_param sub_network.
Qed.

(* the layers have at least one position *)
Definition positions_ok : Prop := forall m, List.In m ms -> relevant ids m -> (0 < g_S1 ge (m_name m))%N.

(* the constant-one feature contributes the number of data *)
Lemma input_factor_ones joint S1 d act (data : seq (X * Y)) : (0 < S1)%N -> data <> [::] ->
  input_factor ap joint (size data) S1 d act data d d = 1.
Proof.
move=> hS1 hd; rewrite /input_factor (eq_bigr (fun=> 1)) => [|x _].
  rewrite big_const_seq count_predT iter_addr_0 mulVr // unitfE natr_neq0 //; by case: (data) hd.
rewrite /in_term /aug ltnn; case: ap; last by rewrite mulr1.
rewrite (eq_bigr (fun=> 1)) => [|s _]; last by rewrite mulr1.
by rewrite sumr_const card_ord mulVr // unitfE natr_neq0 // -lt0n.
Qed.

Theorem C80_kfac ft (d0 : X * Y) loader g : flatten loader <> [::] -> nonempty loader -> positions_ok ->
  (ft = Type2 -> type2_ok T C kind tgt (flatten loader)) ->
  let N := size (flatten loader) in
  exists mp mp' st st' Mx, [/\ compute_parameter_mapping ids ms = Ok mp /\ compute_parameter_mapping sub_ids ms = Ok mp',
    compute_kfac T C kind net tgt mods S sep ap ft red N M T mp normal_o multinomial_o bernoulli_o loader g = (st, Ok tt),
    compute_kfac T C kind net tgt mods S' sep ap ft red N M T mp' normal_o multinomial_o bernoulli_o loader g = (st', Ok tt),
    acts_as (LinOp S S (kfac_matmat sep st.1 st.2 mp)) S Mx &
    acts_as (LinOp S' S' (kfac_matmat sep st'.1 st'.2 mp')) S' (fun i j => Mx (coord S sel i) (coord S sel j))].
Proof.
move=> hd hne hpos h2 N.
have hl : loader <> [::] by move=> e; apply: hd; rewrite e.
have N0 : (0 < N)%N by rewrite /N; case: (flatten loader) hd.
have [B [c1 c2]] := same_factors d0 g N0 hl hne h2.
have [st [m1 k1 a1]] := C30_computed hS hnet c1.
have [st' [m2 k2 a2]] := C30_computed (sub_shapes_neq0 hsel) sub_network c2.
exists (mapping_of ids), (mapping_of ids'), st, st'; eexists; split; [by []|exact: k1|exact: k2|exact: a1|].
apply: acts_as_ext a2 _ => i j hi hj; rewrite /kfac_matrix !big_map.
have [pi ei ri] := coord_param hsel hi; have [pj ej rj] := coord_param hsel hj.
rewrite ei ej ri rj.
set p := param_of S' i in pi ei *; set q := param_of S' j in pj ej *.
set r := within S' i; set s := within S' j.
have qd : (nth 0%N sel p == nth 0%N sel q) = (p == q) by rewrite nth_uniq //; case/and3P: hsel.
apply: sum_filter_In => m hm; rewrite /layer_entry /l_mem /spec_layer /joint /=.
rewrite !at_sub //.
case hs : (m_supported m); last by rewrite /relevant hs.
case: ifP => hr'; last first.
  case: ifP => hr //; case: ifP => // /andP[/orP[h|h] _];
    (move: hr'; rewrite -(at_sub _ _ pi) in h; move/eqP: h => h; by rewrite (at_relevant hs h)).
rewrite (relevant_sub hr'); case: ifP => // /andP[hp hq].
have row a : (a < size sel)%N -> forall x, lrow S' a x = lrow S (nth 0%N sel a) x by move=> ha x; rewrite /lrow /ncol nth_sub.
rewrite !row //; congr (_ * _).
have one ids0 S0 : network_ok T C ap ge ms mods ids0 S0 -> relevant ids0 m -> (0 < g_S1 ge (m_name m))%N ->
  forall p0 r0 s0, (at_pos ids0 m Weight == Some p0) = false ->
  let l := spec_layer sep ap N ge ids0 loader B m in
  (if joint sep l || ((at_pos ids0 m Weight == Some p0) && (at_pos ids0 m Weight == Some p0))
   then l_A l (lcol S0 l p0 r0) (lcol S0 l p0 s0) else (p0 == p0)%:R) = 1.
  move=> hn hr0 hS1 p0 r0 s0 hw l; rewrite hw /= orbF eqxx.
  case: ifP => // /and3P[_ + _]; rewrite /lcol /= hw; case ew : (at_pos ids0 m Weight) => [w|//] _.
  case: hn => _ _ _ /(_ m hm hr0) [_ _ /(_ w ew)[_ [rest [e1 e2]]] _].
  by rewrite /ncol e1 /= e2; apply: input_factor_ones.
have hS1 := hpos m hm (relevant_sub hr').
case wp : (at_pos ids m Weight == Some (nth 0%N sel p)); case wq : (at_pos ids m Weight == Some (nth 0%N sel q)) => /=.
- by rewrite !orbT /lcol /= !at_sub // wp wq /ncol !nth_sub.
- rewrite wq /= in hq; move: (wp) (hq); rewrite -!at_sub // => /eqP wp' /eqP bq'.
  rewrite !orbF wp' bq' (eqP wp) (eqP hq) /= !andbT qd /lcol /= !eqxx.
  by rewrite -[Some p == _]/(p == q) -[Some (nth _ _ p) == _]/(nth 0%N sel p == nth 0%N sel q) qd /ncol !nth_sub.
- rewrite wp /= in hp; move: (wq) (hp); rewrite -!at_sub // => /eqP wq' /eqP bp'.
  rewrite !orbF wq' bp' (eqP wq) (eqP hp) /= !andbT qd /lcol /= !eqxx.
  by rewrite -[Some q == _]/(q == p) -[Some (nth _ _ q) == _]/(nth 0%N sel q == nth 0%N sel p) [nth _ _ q == _]eq_sym qd (eq_sym p) /ncol !nth_sub.
rewrite wp /= in hp; rewrite wq /= in hq.
have epq : q = p by move: hq; rewrite (eqP hp) => /eqP[/eqP]; rewrite qd => /eqP.
have wp' : (at_pos ids' m Weight == Some p) = false by rewrite at_sub.
have := one _ _ sub_network hr' hS1 p r s wp'; have := one _ _ hnet (relevant_sub hr') hS1 _ r s wp.
by rewrite wp wp' /= epq => -> ->.
Qed.
End Subset.
Print Assumptions C80_kfac.

(* the network of C32's example (a convolution, then a linear layer with bias): the
   bias and the convolution's kernel in this order, and the linear weight alone,
   with weights and biases treated jointly *)
Example C80_ex_kfac ap ft (G : Type) normal_o multinomial_o bernoulli_o (g : G) : exists mp mp' st st' Mx,
  let S' := [:: [:: 1]; [:: 1; 1; 1; 2]]%N in
  [/\ compute_parameter_mapping ex_ids ex_ms = Ok mp,
    compute_parameter_mapping [:: 2; 0]%N ex_ms = Ok mp',
    compute_kfac 1 1 LMSE ex_net ex_tgt ex_mods ex_S false ap ft RMean 3 1 1 mp normal_o multinomial_o bernoulli_o ex_loader g = (st, Ok tt) /\
    compute_kfac 1 1 LMSE ex_net ex_tgt ex_mods S' false ap ft RMean 3 1 1 mp' normal_o multinomial_o bernoulli_o ex_loader g = (st', Ok tt),
    acts_as (LinOp ex_S ex_S (kfac_matmat false st.1 st.2 mp)) ex_S Mx &
    acts_as (LinOp S' S' (kfac_matmat false st'.1 st'.2 mp')) S' (fun i j => Mx (nth 0%N [:: 4; 0; 1]%N i) (nth 0%N [:: 4; 0; 1]%N j))].
Proof.
have [||||||mp [mp' [st [st' [Mx [[h1 h2] h3 h4 h5 h6]]]]]] := @C80_kfac R R 1 1 LMSE isT isT ex_net ex_tgt (fun=> erefl) false ap RMean 1 ex_ge _ isT G
  normal_o multinomial_o bernoulli_o ex_ms ex_mods ex_ids ex_S [:: 2; 0]%N _ (@ex_network ap) isT ft (0, 0) ex_loader g => //.
- by move=> m; case=> [<-|[<-|//]].
by exists mp, mp', st, st', Mx; split.
Qed.
