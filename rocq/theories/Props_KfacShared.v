(* KFAC with parameters that belong to several layers (C31): which matrix the
   product multiplies with, what trace adds up, and that neither the symmetry nor
   the agreement of the two survives. *)
From mathcomp Require Import all_ssreflect all_algebra.
From Verif Require Import PyPrelude Tensor Spec TorchBase OpSpec KfacSpec Kfac KfacProof KfacMap KfacBlocks KfacScalar KfacScalarProof Props_Kfac.
Set Implicit Arguments.
Unset Strict Implicit.
Unset Printing Implicit Defensive.
Import GRing.Theory.
Local Open Scope ring_scope.

(* parameter number p of the operator is one of layer m *)
Definition layer_has (ids : seq nat) (m : module) (p : nat) : bool :=
  m_supported m && has (fun x : pname * nat => x.2 == nth 0%N ids p) (m_params m).

(* like kfac_net, but parameters may belong to any number of layers *)
Definition shared_net (F : comRingType) sep S ids mods (inC grC : dict nat_eqType (tensor F)) : Prop :=
  [/\ well_named mods, size S = size ids,
   uniq ids /\ (forall p, (p < size ids)%N -> exists2 m, List.In m mods & layer_has ids m p),
   forall m, List.In m mods -> uniq [seq x.2 | x <- m_params m] &
   forall m, List.In m mods -> relevant ids m -> fits sep S ids inC grC m].

Section Loop.
Variable F : comRingType.
Local Notation tens := (tensor F).
Local Notation t0 := (Tensor [::] [::] : tens).
Variables (sep : bool) (S : seq (seq nat)) (inC grC : dict nat_eqType tens).

(* the last layer that has parameter p *)
Definition last_layer (ls : seq (layer F)) (p : nat) : option (layer F) := ohead (rev [seq l <- ls | p \in l_pos l]).

Lemma last_layer_cons l ls p : last_layer (l :: ls) p =
  if last_layer ls p is Some l' then Some l' else if p \in l_pos l then Some l else None.
Proof.
rewrite /last_layer /=; case: ifP => _; last by case: (ohead _).
by rewrite rev_cons; case: (rev _).
Qed.

Lemma shared_loop K (X : seq tens) m (ls : seq (layer F)) KM : valid_mat S K X -> size KM = size S ->
  (forall l, List.In l ls -> all (fun p => p < size S)%N (l_pos l) /\ uniq (l_pos l)) ->
  describes_all sep S inC grC m ls ->
  exists KM', [/\ foldM (kfac_layer sep inC grC X) KM m = Ok KM', size KM' = size S &
    forall p, if last_layer ls p is Some l then exists2 t, nth None KM' p = Some t & okval sep S K X l p t
              else nth None KM' p = nth None KM p].
Proof.
move=> hX + + hd; elim: hd KM => {m ls} [|e l m ls hd hds IH] KM hsz hall; first by exists KM.
have [ha hu] := hall l (or_introl erefl).
have [KM1 [/= -> /= s1 p1 n1]] := kfac_layer_ok hX hsz ha hu hd.
have [KM2 [-> s2 p2]] := IH KM1 s1 (fun l' h => hall l' (or_intror h)).
exists KM2; split=> // p; rewrite last_layer_cons; have := p2 p.
case: (last_layer ls p) => [l'|] // ->; case: ifP => hp; first exact: p1.
by rewrite n1 // hp.
Qed.

Definition shared_matrix (ls : seq (layer F)) (i j : nat) : F :=
  if last_layer ls (param_of S i) is Some l then
    layer_entry sep S l (param_of S i) (within S i) (param_of S j) (within S j) else 0.

Lemma shared_multiplies m ls :
  (forall l, List.In l ls -> all (fun p => p < size S)%N (l_pos l) /\ uniq (l_pos l)) ->
  (forall p, (p < size S)%N -> last_layer ls p) -> describes_all sep S inC grC m ls ->
  multiplies 0 (kfac_matmat sep inC grC m) S S (shared_matrix ls).
Proof.
move=> hall hown hd K X _ hX.
have hszX : size X = size S by case: (hX) => h _; rewrite -(size_map (@tshape F)) h size_map.
have [KM [e1 e2 e3]] := shared_loop hX (ltac:(by rewrite size_nseq) : size (nseq (size S) (None : option tens)) = size S) hall hd.
have hv p : (p < size S)%N -> exists l t, [/\ last_layer ls p = Some l, nth None KM p = Some t & okval sep S K X l p t].
  by move=> hp; have := e3 p; have := hown p hp; case: (last_layer ls p) => // l _ [t h1 h2]; exists l, t.
pose Y := [seq (if o is Some t then t else t0) | o <- KM].
have hget : mapM (fun o => if o is Some t then Ok t else Err AttributeError) KM = Ok Y.
  have : forall p, (p < size KM)%N -> nth None KM p != None.
    by move=> p; rewrite e2 => /hv[l [t [_ -> _]]].
  rewrite /Y; elim: (KM) => //= o KM' IH h; case: o h => [t|] h; last by have := h 0%N isT.
  by rewrite IH // => p hp; exact: (h p.+1).
have hY p : (p < size S)%N -> exists l, last_layer ls p = Some l /\ okval sep S K X l p (nth t0 Y p).
  by move=> hp; have [l [t [h1 h3 h4]]] := hv p hp; exists l; rewrite /Y (nth_map None) ?e2 // h3.
have hvY : valid_mat S K Y.
  split.
    apply: (@eq_from_nth _ [::]); first by rewrite !size_map.
    rewrite !size_map e2 => p hp; rewrite (nth_map t0) ?size_map ?e2 // (nth_map [::]) //.
    by have [l [_ [-> _ _]]] := hY p hp.
  apply/(all_nthP t0) => p; rewrite size_map e2 => hp.
  by have [l [_ [_ h _]]] := hY p hp.
exists Y; split=> //; first by rewrite /kfac_matmat hszX e1 /= hget.
apply: product_coord => // p r k hp hr hk.
have [l [h2 [_ _ ->]]] := hY p hp => //.
apply: eq_bigr => q _; apply: eq_bigr => s _; congr (_ * _).
by rewrite /shared_matrix; have [-> ->] := locate_off hp hr; have [-> ->] := locate_off (ltn_ord q) (ltn_ord s); rewrite h2.
Qed.
End Loop.

Section Traces.
Variable F : comRingType.
Variables (sep : bool) (S : seq (seq nat)).

Lemma sum_supported n (s : seq nat) (G : nat -> F) : uniq s -> all (fun p => p < n)%N s -> (forall p, p \notin s -> G p = 0) ->
  \sum_(p < n) G p = \sum_(p <- s) G p.
Proof.
move=> hu ha hG; rewrite -(big_mkord xpredT) /index_iota subn0 (bigID (mem s)) /= [X in _ + X]big1 ?addr0 //.
rewrite -big_filter; apply: perm_big; apply: uniq_perm => //; first by rewrite filter_uniq ?iota_uniq.
move=> x; rewrite mem_filter mem_iota add0n /=; case: (boolP (x \in s)) => //= hx; exact: (allP ha).
Qed.

Lemma layer_trace (l : layer F) : shaped S l -> all (fun p => p < size S)%N (l_pos l) -> uniq (l_pos l) ->
  \sum_(b <- layer_blocks sep S l) (\sum_(i < b_o b) b_B b i i) * (\sum_(j < b_n b) b_A b j j) =
  \sum_(p < size S) \sum_(r < numel (pshape S p)) layer_entry sep S l p r p r.
Proof.
move=> [hw hb] ha hu.
rewrite (@sum_supported _ (l_pos l) (fun p => \sum_(r < numel (pshape S p)) layer_entry sep S l p r p r)) //; last first.
  by move=> p hp; rewrite big1 // => r _; exact: layer_entry_out.
have Gw w : l_w l = Some w -> \sum_(r < numel (pshape S w)) layer_entry sep S l w r w r =
    (\sum_(i < l_out S l) l_B l i i) * (\sum_(j < ncol S w) l_A l j j).
  move=> ew; have [rest e] := hw w ew.
  have -> : numel (pshape S w) = (l_out S l * ncol S w)%N by rewrite /ncol e.
  rewrite -[LHS]/(\sum_(r < l_out S l * ncol S w) layer_entry sep S l w r w r).
  transitivity (\sum_(r < l_out S l * ncol S w) l_B l (r %/ ncol S w)%N (r %/ ncol S w)%N * l_A l (r %% ncol S w)%N (r %% ncol S w)%N).
    by apply: eq_bigr => r _; rewrite /layer_entry /l_mem /lcol ew eqxx /= orbT.
  rewrite (sum_divmod _ _ (fun a c => l_B l a a * l_A l c c)) big_distrl; apply: eq_bigr => a _ /=.
  by rewrite big_distrr.
have Gb b : l_b l = Some b -> l_w l != Some b -> \sum_(r < numel (pshape S b)) layer_entry sep S l b r b r =
    (\sum_(i < l_out S l) l_B l i i) * (if joint sep l then l_A l (lcol S l b 0) (lcol S l b 0) else 1).
  move=> eb ne; have e := hb b eb.
  rewrite e /= muln1 big_distrl; apply: eq_bigr => r _; rewrite /layer_entry /l_mem eb eqxx orbT /= (negbTE ne) /= orbF eqxx.
  rewrite /lrow /ncol e /= divn1; congr (_ * _); case: ifP => // _.
  by rewrite /lcol (negbTE ne).
rewrite /layer_blocks /l_pos; case ew : (l_w l) => [w|]; case eb : (l_b l) => [b|] /=; rewrite ?big_nil //.
- have ne : l_w l != Some b.
    by apply/eqP; rewrite ew => -[e]; move: hu; rewrite /l_pos ew eb e /= inE eqxx.
  rewrite big_cons big_seq1 (Gw w ew) (Gb b eb ne) /joint ew eb /= !andbT.
  have -> : lcol S l b 0 = ncol S w by rewrite /lcol (negbTE ne) ew.
  case: (sep) => /=; first by rewrite big_cons big_seq1 /= big_ord1.
  by rewrite big_seq1 /= big_ord_recr /= mulrDr.
- by rewrite !big_seq1 /= (Gw w ew).
by rewrite !big_seq1 /= big_ord1 (Gb b eb) ?ew // /joint ew /= andbF.
Qed.
End Traces.

Section Shared.
Variable F : comRingType.
Local Notation cov := (dict nat_eqType (tensor F)).
Variables (sep : bool) (S : seq (seq nat)) (ids : seq nat) (mods : seq module) (inC grC : cov).
Hypothesis hnet : shared_net sep S ids mods inC grC.
Hypothesis hS : S <> [::].
Local Notation op mp := (LinOp S S (kfac_matmat sep inC grC mp)).
Local Notation block m := (layer_entry sep S (net_layer ids inC grC m)).

Lemma has_relevant m p : (p < size ids)%N -> layer_has ids m p -> relevant ids m.
Proof.
move=> hp /andP[h1 /hasP[x h2 /eqP h3]]; rewrite /relevant h1; apply/hasP; exists x => //.
by rewrite h3 mem_nth.
Qed.

Lemma layer_hasE m p : List.In m mods -> relevant ids m -> (p < size ids)%N ->
  (p \in l_pos (net_layer ids inC grC m)) = layer_has ids m p.
Proof.
case: hnet => [[_ h1] _ [hu _] _ hf] hm hr hp.
have [hn _] := hf m hm hr.
rewrite (perm_mem (l_pos_net ids inC grC (h1 m hm) hn)) /layer_has; case/andP: hr => -> _ /=.
apply/mapP/hasP => [[x]|[x hx /eqP e]].
  rewrite mem_filter => /andP[hi hx] ->; exists x => //; by rewrite nth_index.
by exists x; rewrite ?mem_filter e ?mem_nth // index_uniq.
Qed.

Lemma layer_good l : List.In l (net_layers ids inC grC mods) -> all (fun p => p < size S)%N (l_pos l) /\ uniq (l_pos l).
Proof.
case: hnet => [[_ h1] hs [hu _] hu2 hf] /in_map[m /in_filter[hm hr] ->].
have [hn _] := hf m hm hr; have hp := l_pos_net ids inC grC (h1 m hm) hn.
rewrite (perm_all _ hp) (perm_uniq hp) hs; split.
  by apply/allP => x /mapP[y]; rewrite mem_filter => /andP[hy _] ->; rewrite index_mem.
rewrite (map_comp (index^~ ids) snd) map_inj_in_uniq.
  by apply: subseq_uniq (hu2 m hm); apply: map_subseq; exact: filter_subseq.
move=> x y /mapP[a ha ->] /mapP[b hb ->] e; move: ha hb; rewrite !mem_filter => /andP[ha _] /andP[hb _].
by rewrite -(nth_index 0%N ha) e nth_index.
Qed.

Lemma last_layerE p ms : (p < size ids)%N -> (forall m, List.In m ms -> List.In m mods) ->
  last_layer (net_layers ids inC grC ms) p =
  omap (net_layer ids inC grC) (ohead (rev [seq m <- ms | layer_has ids m p])).
Proof.
move=> hp; elim: ms => //= m ms IH hin.
have {}IH := IH (fun m' h => hin m' (or_intror h)); have hm := hin m (or_introl erefl).
have E : ohead (rev (if layer_has ids m p then m :: [seq m <- ms | layer_has ids m p] else [seq m <- ms | layer_has ids m p]))
   = if ohead (rev [seq m <- ms | layer_has ids m p]) is Some m' then Some m' else if layer_has ids m p then Some m else None.
  case: (layer_has ids m p); last by case: (ohead _).
  by rewrite rev_cons; case: (rev _).
rewrite E {E}; rewrite /net_layers /=; case: ifP => hr; rewrite /= -/(net_layers ids inC grC ms).
  rewrite last_layer_cons IH; case: (ohead _) => [m'|] //=.
  by rewrite layer_hasE //; case: (layer_has ids m p).
rewrite IH; case: (ohead _) => [m'|] //=; case: ifP => // hl.
by have := has_relevant hp hl; rewrite /relevant hr.
Qed.

Lemma shared_mapping : exists2 mp, compute_parameter_mapping ids mods = Ok mp &
  describes_all sep S inC grC mp (net_layers ids inC grC mods).
Proof.
case: hnet => hw hs [hu ho] _ hf.
have [|mp hmp] := (C29_accepted_iff ids hw).2.
  split=> // i hi; have [|m hm] := ho (index i ids); first by rewrite index_mem.
  rewrite /layer_has nth_index // => /andP[h1 /hasP[[n x] h2 /= /eqP h3]].
  by exists m, n; split=> //; apply/In_mem; rewrite -h3.
exists mp => //; move: hmp; case: (hw) => h1 h2; have [done [_ _ ->]] := mapping_closed ids h1 h2.
by case: ifP => // _ [<-]; exact: net_describes.
Qed.

(* The rows of parameter p come from the last layer (in the order of the modules)
   that has p; earlier layers with p do not matter for them. *)
Theorem C31_last_layer_partial : exists mp M, [/\ compute_parameter_mapping ids mods = Ok mp, acts_as (op mp) S M &
  forall i j ms m ms', (i < total S)%N -> (j < total S)%N -> mods = ms ++ m :: ms' ->
    layer_has ids m (param_of S i) -> (forall m', List.In m' ms' -> ~~ layer_has ids m' (param_of S i)) ->
    M i j = block m (param_of S i) (within S i) (param_of S j) (within S j)].
Proof.
have [mp h1 h2] := shared_mapping; exists mp, (shared_matrix sep S (net_layers ids inC grC mods)).
have hs : size S = size ids by case: hnet.
split=> //.
  apply: acts_as_multiplies hS _; apply: shared_multiplies => //; first exact: layer_good.
  move=> p hp; rewrite hs in hp; rewrite (last_layerE hp (fun m h => h)).
  case: hnet => _ _ [_ ho] _ _; have [m hm hl] := ho p hp.
  have : has (fun m => layer_has ids m p) mods.
    by elim: (mods) hm => //= a ms IH [->|h]; rewrite ?hl // IH ?orbT.
  rewrite has_count -size_filter -size_rev; by case: (rev _).
move=> i j ms m ms' hi hj e hm hn; have [b1 b2 _] := locate_bound hi; rewrite hs in b1.
rewrite /shared_matrix (last_layerE b1 (fun m h => h)) e filter_cat /= hm rev_cat rev_cons.
have -> : [seq m' <- ms' | layer_has ids m' (param_of S i)] = [::].
  elim: (ms') hn => //= a ms2 IH hn; rewrite (negbTE (hn a (or_introl erefl))); apply: IH => m' h; apply: hn; by right.
by [].
Qed.

(* trace adds the traces of all layers' blocks, also of those the product ignores *)
Theorem C31_trace_partial mp : compute_parameter_mapping ids mods = Ok mp ->
  kfac_trace sep inC grC mp = Ok (\sum_(m <- mods | relevant ids m) \sum_(i < total S)
    block m (param_of S i) (within S i) (param_of S i) (within S i)).
Proof.
have [mp' h1 h2] := shared_mapping; rewrite h1 => -[<-].
rewrite /kfac_trace (@scalar_loop_ok F F 0 [com_law of +%R] _ _ _ (fun o n B A => (\sum_(i < o) B i i) * (\sum_(j < n) A j j)) _ (fun _ => True) _ _ _ sep S inC grC mp' _ _ _ h2) //.
- congr Ok; rewrite big_flatten big_map /= /net_layers big_map.
  have hin m : List.In m mods -> relevant ids m -> List.In (net_layer ids inC grC m) (net_layers ids inC grC mods).
    by move=> hm hr; apply/in_map; exists m => //; apply/in_filter.
  rewrite -[RHS]big_filter; apply: eq_big_In => m /in_filter[hm hr].
  have hl := hin m hm hr; have [g1 g2] := layer_good hl.
  rewrite (layer_trace _ (describes_all_shaped h2 hl) g1 g2).
  rewrite (sum_coord S (fun i => block m (param_of S i) (within S i) (param_of S i) (within S i))).
  by apply: eq_bigr => p _; apply: eq_bigr => r _; have [-> ->] := locate_off (ltn_ord p) (ltn_ord r).
- by move=> o n B A B' A' e1 e2; congr (_ * _); apply: eq_bigr => i _; rewrite ?e1 ?e2.
- by move=> G A o n hG hA _ _; rewrite (mtraceE hG) (mtraceE hA) /= mulrC.
- by move=> G A o n hG hA _ _; rewrite (mtraceE hG) (mtraceE hA).
by move=> G o hG _; rewrite (mtraceE hG) /= big_ord1.
Qed.
End Shared.
Print Assumptions C31_last_layer_partial.
Print Assumptions C31_trace_partial.

(* Two linear layers R -> R with a common weight (7) and biases 8 and 9. *)
Section Tied.
Variable F : comRingType.
Variables (a1 b1 c1 g1 a2 b2 c2 g2 : F).
Definition two_mods : seq module :=
  [:: Module 0 true [:: (Weight, 7); (Bias, 8)]; Module 1 true [:: (Weight, 7); (Bias, 9)]]%N.
Definition two_S : seq (seq nat) := [:: [:: 1; 1]; [:: 1]; [:: 1]]%N.
Definition sym2 (a b c : F) : tensor F := Tensor [:: 2; 2]%N [:: a; b; b; c].
Definition two_in : dict nat_eqType (tensor F) := [:: (0%N, sym2 a1 b1 c1); (1%N, sym2 a2 b2 c2)].
Definition two_gr : dict nat_eqType (tensor F) := [:: (0%N, s1 g1); (1%N, s1 g2)].

Lemma two_net : shared_net false two_S [:: 7; 8; 9]%N two_mods two_in two_gr.
Proof.
split=> //.
- by split=> // m /= [<-|[<-|//]].
- split=> // -[|[|[|p]]] //= _; [exists (nth (Module 0 true [::]) two_mods 0)|exists (nth (Module 0 true [::]) two_mods 0)|exists (nth (Module 0 true [::]) two_mods 1)] => //=; auto.
- by move=> m /= [<-|[<-|//]].
move=> m /= [<-|[<-|//]] _; split=> //.
  exists 1%N, (s1 g1); split=> //= w [<-]; last by [].
  exists [:: 1%N], (sym2 a1 b1 c1); split=> //=; split=> //.
  by move=> [|[|i]] [|[|j]].
exists 1%N, (s1 g2); split=> //= w [<-]; last by [].
exists [:: 1%N], (sym2 a2 b2 c2); split=> //=; split=> //.
by move=> [|[|i]] [|[|j]].
Qed.

(* the product uses (a2, b2, c2, g2) for the weight, so the operator is not
   symmetric although adjoint() returns the operator itself *)
Theorem C31_not_symmetric_refuted : g1 * b1 <> 0 ->
  exists mp M, [/\ compute_parameter_mapping [:: 7; 8; 9]%N two_mods = Ok mp,
    acts_as (LinOp two_S two_S (kfac_matmat false two_in two_gr mp)) two_S M,
    M 0%N 1%N = 0 /\ M 1%N 0%N = g1 * b1 &
    ~ self_adjoint_op (LinOp two_S two_S (kfac_matmat false two_in two_gr mp)) two_S].
Proof.
move=> hne; have [mp [M [h1 h2 h3]]] := C31_last_layer_partial two_net (ltac:(by []) : two_S <> [::]).
have e01 : M 0%N 1%N = 0.
  rewrite (h3 0%N 1%N [:: nth (Module 0 true [::]) two_mods 0] (nth (Module 0 true [::]) two_mods 1) [::]) //.
have e10 : M 1%N 0%N = g1 * b1.
  rewrite (h3 1%N 0%N [::] (nth (Module 0 true [::]) two_mods 0) [:: nth (Module 0 true [::]) two_mods 1]) //.
  by move=> m' /= [<-|//].
exists mp, M; split=> // -[_ _ hs].
pose e (k : nat) := VTensor (Tensor [:: 3%N] (mkseq (fun i => (i == k)%:R) 3) : tensor F).
have hf k : has_format two_S false None (e k) by [].
have [A0 [A1 [p0 p1]]] := hs false false (e 0%N) (e 1%N) (hf _) (hf _).
case: h2 => _ _ h2.
have [W0 [w0 _ q0]] := h2 _ _ _ (hf 0%N); have [W1 [w1 _ q1]] := h2 _ _ _ (hf 1%N).
move: p0 p1; rewrite w0 w1 => -[<-] [<-].
have v0 i : (i < 3)%N -> nth 0 (content W0) i = M i 0%N.
  move=> hi; have := q0 i 0%N hi isT; rewrite /entry /= !muln1 !addn0 => ->.
  by rewrite 3!big_ord_recl big_ord0 /= mulr1 !mulr0 !addr0.
have v1 i : (i < 3)%N -> nth 0 (content W1) i = M i 1%N.
  move=> hi; have := q1 i 0%N hi isT; rewrite /entry /= !muln1 !addn0 => ->.
  by rewrite 3!big_ord_recl big_ord0 /= mulr1 !mulr0 !addr0 add0r.
rewrite !big_ord_recl !big_ord0 /= !v0 // !v1 // !mulr0 !mul0r !addr0 !add0r mulr1 mul1r e01 e10.
by [].
Qed.
End Tied.
Print Assumptions C31_not_symmetric_refuted.

Local Notation Zc := [comRingType of int].
(* the network of the theorems above with numbers: product with (1, 1, 1) and trace *)
Example C31_ex_shared : shared_net false two_S [:: 7; 8; 9]%N two_mods (two_in (2%:R : Zc) 1 1 5%:R 1 1) (two_gr (3%:R : Zc) 7%:R).
Proof. exact: two_net. Qed.
Example C31_ex_last_layer : exists mp, [/\ compute_parameter_mapping [:: 7; 8; 9]%N two_mods = Ok mp,
    op_matmul (LinOp two_S two_S (kfac_matmat false (two_in (2%:R : Zc) 1 1 5%:R 1 1) (two_gr (3%:R : Zc) 7%:R) mp))
      (VTensor (Tensor [:: 3%N] [:: 1; 1; 1])) = Ok (VTensor (Tensor [:: 3%N] [:: 42%:R; 6%:R; 14%:R])) &
    kfac_trace false (two_in (2%:R : Zc) 1 1 5%:R 1 1) (two_gr (3%:R : Zc) 7%:R) mp = Ok 51%:R].
Proof. by eexists; split; first reflexivity; vm_compute. Qed.
