(* KFAC: parameter mapping (C29), the matrix it multiplies with (C30, C31, C33,
   C05) and trace, det, logdet and frobenius_norm (C34-C37). *)
From Coq Require Import Reals.
From Coquelicot Require Import Coquelicot.
From mathcomp Require Import all_ssreflect all_algebra ring.
From Verif Require Import PyPrelude Tensor Spec TorchBase OpSpec KfacSpec Kfac KfacProof KfacMap KfacBlocks KfacScalar KfacScalarProof RInst.
Set Implicit Arguments.
Unset Strict Implicit.
Unset Printing Implicit Defensive.
Import GRing.Theory.
Local Open Scope ring_scope.

(* ---------- C29: the parameter mapping ---------- *)
(* parameter [i] is the one called [n] of supported layer [m] *)
Definition owns (mods : seq module) (m : module) (n : pname) (i : nat) : Prop :=
  [/\ List.In m mods, m_supported m & List.In (n, i) (m_params m)].

Lemma in_filter (T : Type) (P : pred T) (s : seq T) x : List.In x (filter P s) <-> List.In x s /\ P x.
Proof.
elim: s => [|y s IH] /=; first by split=> [|[]].
case hy : (P y) => /=; rewrite IH; split.
- by case=> [<-|[h1 h2]]; auto.
- by case=> -[->|h1] h2; auto.
- by case=> h1 h2; auto.
by case=> -[e|h1] h2; [rewrite e h2 in hy|].
Qed.
Lemma in_map (T U : Type) (f : T -> U) (s : seq T) y : List.In y (map f s) <-> exists2 x, List.In x s & y = f x.
Proof.
elim: s => [|x s IH] /=; first by split=> // -[].
rewrite IH; split.
- by case=> [<-|[z h1 ->]]; [exists x; auto|exists z; auto].
by case=> z [->|h1] ->; [left|right; exists z].
Qed.
Lemma In_mem (T : eqType) (s : seq T) x : List.In x s <-> x \in s.
Proof.
elim: s => //= y s IH; rewrite inE eq_sym; split; first by case=> [->|/IH ->]; rewrite ?eqxx ?orbT.
by case/orP => [/eqP ->|/IH]; auto.
Qed.

Lemma map_filter_subseq (T : Type) (U : eqType) (f : T -> U) (P : pred T) (s : seq T) : subseq (map f (filter P s)) (map f s).
Proof. by elim: s => //= x s IH; case: (P x); rewrite /= ?eqxx //; apply: subseq_trans IH (subseq_cons _ _). Qed.

Lemma mapping_done ids mods x :
  (x \in flatten [seq [seq p.2 | p <- kept ids m] | m <- mods & relevant ids m]) <->
  x \in ids /\ exists m n, owns mods m n x.
Proof.
split.
  elim: mods => //= m ms IH; case: ifP => hr; last first.
    by move/IH => [h1 [m' [n [a b c]]]]; split=> //; exists m', n; split=> //; right.
  rewrite /= mem_cat => /orP[|/IH[h1 [m' [n [a b c]]]]]; last by split=> //; exists m', n; split=> //; right.
  move=> /mapP[[n i] + ->]; rewrite mem_filter => /andP[h1 h2]; split=> //; exists m, n; split; first by left.
    by case/andP: hr.
  by apply/In_mem.
move=> [hx [m [n [h1 h2 h3]]]]; elim: mods h1 => //= m' ms IH [e|h]; last by case: ifP => _ /=; rewrite ?mem_cat IH // orbT.
subst m'; have -> : relevant ids m.
  rewrite /relevant h2; apply/hasP; exists (n, x) => //; exact/In_mem.
rewrite /= mem_cat; apply/orP; left; apply/mapP; exists (n, x) => //; rewrite mem_filter hx; exact/In_mem.
Qed.

(* accepted iff no parameter was passed twice and each is owned by a supported layer *)
Theorem C29_accepted_iff ids mods : well_named mods ->
  (exists mp, compute_parameter_mapping ids mods = Ok mp) <->
  uniq ids /\ (forall i, i \in ids -> exists m n, owns mods m n i).
Proof.
move=> [hu hp]; have [done [d1 d2 ->]] := mapping_closed ids hu hp.
have sub : {subset done <= ids} by move=> x; rewrite d2 => /mapping_done[].
split.
  case=> mp; case: eqP => // hsz _.
  have [e1 e2] := uniq_min_size d1 sub (eq_leq (esym hsz)).
  by split; [rewrite (uniq_size_uniq d1) // -hsz|move=> i; rewrite -e2 d2 => /mapping_done[]].
move=> [ui ho]; rewrite (_ : size done == size ids); first by eexists.
rewrite eqn_leq (uniq_leq_size d1 sub) (uniq_leq_size ui) //.
by move=> x hx; rewrite d2; apply/mapping_done; split=> //; exact: ho.
Qed.
Print Assumptions C29_accepted_iff.

(* otherwise the constructor raises NotImplementedError *)
Theorem C29_rejected ids mods : well_named mods ->
  ~ (uniq ids /\ (forall i, i \in ids -> exists m n, owns mods m n i)) ->
  compute_parameter_mapping ids mods = Err NotImplementedError.
Proof.
move=> hw hn; have h := C29_accepted_iff ids hw; case: hw => hu hp.
have [done [d1 d2 e]] := mapping_closed ids hu hp; move: e; case: ifP => // _ e.
by exfalso; apply: hn; apply/h; rewrite e; eexists.
Qed.
Print Assumptions C29_rejected.

(* the mapping sends (layer name, parameter name) to the parameter's position *)
Theorem C29_positions ids mods mp : well_named mods -> compute_parameter_mapping ids mods = Ok mp ->
  forall name n pos,
  (exists2 d, dget name mp = Some d & dget n d = Some pos) <->
  (exists m i, [/\ owns mods m n i, m_name m = name, (pos < size ids)%N & nth 0%N ids pos = i]).
Proof.
move=> hw hmp; have [ui _] := (C29_accepted_iff ids hw).1 (ex_intro _ mp hmp).
case: hw => hu hp; have [done [d1 d2]] := mapping_closed ids hu hp; rewrite hmp; case: ifP => // _ [->] name n pos.
have hk : uniq (dkeys [seq (m_name m, positions ids m) | m <- mods & relevant ids m]).
  rewrite /dkeys -map_comp; apply: subseq_uniq hu; exact: map_filter_subseq.
split.
  case=> d k1 k2; have [m /in_filter[h1 h2] [-> ed]] := (in_map _ _ _).1 (dget_in k1); subst d.
  have [[n' i] /in_filter[h3 h4] [-> ->]] := (in_map _ _ _).1 (dget_in k2).
  by exists m, i; split; rewrite ?index_mem ?nth_index //; split=> //; case/andP: h2.
case=> m [i [[h1 h2 h3] <- hpos e]]; exists (positions ids m).
  apply: in_dget hk _; apply/in_map; exists m => //; apply/in_filter; split=> //.
  rewrite /relevant h2; apply/hasP; exists (n, i); first exact/In_mem.
  by rewrite /= -e mem_nth.
have hk' : uniq (dkeys (positions ids m)).
  have hu' := hp m h1.
  by rewrite /dkeys /positions -map_comp; apply: subseq_uniq hu'; apply: map_subseq; exact: filter_subseq.
apply: in_dget hk' _; apply/in_map; exists (n, i); first by apply/in_filter; split=> //=; rewrite -e mem_nth.
by rewrite /= -e index_uniq.
Qed.
Print Assumptions C29_positions.

(* every position appears *)
Theorem C29_every_position ids mods mp pos : well_named mods -> compute_parameter_mapping ids mods = Ok mp ->
  (pos < size ids)%N -> exists name n d, dget name mp = Some d /\ dget n d = Some pos.
Proof.
move=> hw hmp hpos; have [_ ho] := (C29_accepted_iff ids hw).1 (ex_intro _ mp hmp).
have [m [n hm]] := ho _ (mem_nth 0%N hpos).
have [|d d1 d2] := (C29_positions hw hmp (m_name m) n pos).2; first by exists m, (nth 0%N ids pos).
by exists (m_name m), n, d.
Qed.
Print Assumptions C29_every_position.

(* two layers; the parameters are listed in another order than the layers own them *)
Definition ex_mods := [:: Module 9 false [:: (Other 0, 10); (Other 1, 11); (Other 2, 20); (Other 3, 21)]%N;
                          Module 0 true [:: (Weight, 10); (Bias, 11)]%N; Module 1 true [:: (Weight, 20); (Bias, 21)]%N].
Definition ex_ids := [:: 11; 20; 10]%N.
Lemma ex_named : well_named ex_mods.
Proof. by split=> // m /=; case=> [<-|[<-|[<-|//]]]. Qed.
Example C29_ex : compute_parameter_mapping ex_ids ex_mods =
    Ok [:: (0, [:: (Weight, 2); (Bias, 0)]); (1, [:: (Weight, 1)])]%N /\
  compute_parameter_mapping [:: 11; 20; 10; 20]%N ex_mods = Err NotImplementedError /\
  compute_parameter_mapping [:: 11; 33]%N ex_mods = Err NotImplementedError.
Proof. by []. Qed.

(* ---------- C30: the matrix ---------- *)
(* A network with modules [mods], operator parameters [ids] of shapes S, each
   owned by exactly one layer, and factors of the right sizes. *)
Definition kfac_net (F : comRingType) sep S ids mods (inC grC : dict nat_eqType (tensor F)) : Prop :=
  [/\ well_named mods, size S = size ids, owned_once ids mods &
   forall m, List.In m mods -> m_supported m && has (fun p : pname * nat => p.2 \in ids) (m_params m) ->
     fits sep S ids inC grC m].

Section Ring.
Variable F : comRingType.
Local Notation cov := (dict nat_eqType (tensor F)).
Variables (sep : bool) (S : seq (seq nat)) (ids : seq nat) (mods : seq module) (inC grC : cov).
Hypothesis hnet : kfac_net sep S ids mods inC grC.
Hypothesis hS : S <> [::].
Local Notation layers := (net_layers ids inC grC mods).
Local Notation op mp := (LinOp S S (kfac_matmat sep inC grC mp)).

Lemma net_facts : exists mp, [/\ compute_parameter_mapping ids mods = Ok mp, unshared S layers &
  describes_all sep S inC grC mp layers].
Proof.
case: hnet => h1 h2 h3 h4; exists [seq (m_name m, positions ids m) | m <- mods & relevant ids m].
split; [exact: net_mapping| |exact: net_describes].
by apply: net_unshared => // m hm hr; case: (h4 m hm hr).
Qed.

(* for every network, every subset and order of the parameters, the operator
   multiplies with the block-diagonal Kronecker matrix, in every input format *)
Theorem C30_kfac_product : exists2 mp, compute_parameter_mapping ids mods = Ok mp &
  acts_as (op mp) S (kfac_matrix sep S layers).
Proof.
have [mp [h1 h2 h3]] := net_facts; exists mp => //.
by apply: acts_as_multiplies hS _; exact: kfac_matmat_multiplies.
Qed.

Lemma mp_facts mp : compute_parameter_mapping ids mods = Ok mp ->
  [/\ unshared S layers, describes_all sep S inC grC mp layers & acts_as (op mp) S (kfac_matrix sep S layers)].
Proof.
have [mp' [h1 h2 h3]] := net_facts; rewrite h1 => -[<-]; split=> //.
by apply: acts_as_multiplies hS _; exact: kfac_matmat_multiplies.
Qed.

(* kfac.adjoint() = kfac is right if the gradient factors are symmetric, too *)
Theorem C05_kfac_self_adjoint mp : compute_parameter_mapping ids mods = Ok mp ->
  (forall k G o, dget k grC = Some G -> tshape G = [:: o; o] ->
     forall i j, (i < o)%N -> (j < o)%N -> entry o (tdata G) i j = entry o (tdata G) j i) ->
  self_adjoint_op (op mp) S.
Proof.
move=> hmp hsym; have [h1 h2 h3] := mp_facts hmp.
apply: acts_as_self_adjoint h3 _ => i j hi hj.
have [i1 i2 _] := locate_bound hi; have [j1 j2 _] := locate_bound hj.
rewrite /kfac_matrix; apply: eq_big_In => l hl.
have [e [_ _ _ _ [m [G [hG hGs hB hA hbs]]]]] : exists e, describes sep S inC grC e l.
  elim: h2 hl => //= e l' m' ls' h hs IH [<-|/IH //]; by exists e.
move: (param_of S i) (within S i) (param_of S j) (within S j) i1 i2 j1 j2 => p r q s p1 r1 q1 s1.
rewrite /layer_entry andbC; case: ifP => // /andP[hq hp].
have row x y : l_mem l x -> (y < numel (pshape S x))%N -> (lrow S x y < m)%N.
  rewrite /l_mem /lrow /ncol => /orP[/eqP h|/eqP h].
    by have [rest [-> _]] /= := hA x h => /modn_ltn[].
  by rewrite (hbs x h) /= muln1 divn1.
have symB : l_B l (lrow S p r) (lrow S q s) = l_B l (lrow S q s) (lrow S p r).
  have rp := row _ _ hp r1; have rq := row _ _ hq s1.
  by rewrite hB // (hB (lrow S q s)) //; exact: hsym hG hGs _ _ rp rq.
rewrite symB; congr (_ * _).
rewrite andbC [(q == p)]eq_sym; case: ifP => // hj'.
have [w hw] : exists w, l_w l = Some w.
  by case/orP: hj' => [/and3P[_ h _]|/andP[/eqP -> _]]; [case: (l_w l) h => // w _; exists w|eexists].
have [rest [e1 [A [a1 a2 a3 a4]]]] := hA w hw.
have col x y : l_mem l x -> (y < numel (pshape S x))%N -> joint sep l || (l_w l == Some x) ->
   (lcol S l x y < numel rest + joint sep l)%N.
  rewrite /l_mem /lcol hw => hx hy; case: eqP => [[ex]|ne] /=.
    by subst x => _; rewrite /ncol e1 /= ltn_addr //; move: hy; rewrite e1 /= => /modn_ltn[].
  by rewrite orbF => ->; rewrite /ncol e1 /= addn1.
by rewrite a4 //; apply: col => //; case/orP: hj' => [->|/andP[h5 h6]] //; rewrite ?h5 ?h6 orbT.
Qed.

(* ---------- C34, C35: trace and determinant of the matrix `kfac @` multiplies with ---------- *)
Theorem C34_trace mp M : compute_parameter_mapping ids mods = Ok mp -> acts_as (op mp) S M ->
  kfac_trace sep inC grC mp = Ok (\sum_(i < total S) M i i).
Proof.
move=> hmp hM; have [h1 h2 h3] := mp_facts hmp.
by rewrite (kfac_trace_ok h1 h2); congr Ok; apply: eq_bigr => i _; rewrite (acts_as_unique h3 hM).
Qed.

Theorem C35_det mp M : compute_parameter_mapping ids mods = Ok mp -> acts_as (op mp) S M ->
  kfac_det sep inC grC mp = Ok (\det (\matrix_(i < total S, j < total S) M i j)).
Proof.
move=> hmp hM; have [h1 h2 h3] := mp_facts hmp.
rewrite (kfac_det_ok h1 h2); congr (Ok (\det _)); apply/matrixP => i j; rewrite !mxE.
exact: (acts_as_unique h3 hM).
Qed.

Lemma frob2 mp M : compute_parameter_mapping ids mods = Ok mp -> acts_as (op mp) S M ->
  (forall k t, (dget k inC = Some t \/ dget k grC = Some t) -> wf t) ->
  kfac_frob2 sep inC grC mp = Ok (\sum_(i < total S) \sum_(j < total S) M i j ^+ 2).
Proof.
move=> hmp hM hwf; have [h1 h2 h3] := mp_facts hmp.
rewrite (kfac_frob2_ok h1 h2 hwf); congr Ok; apply: eq_bigr => i _; apply: eq_bigr => j _.
by rewrite (acts_as_unique h3 hM).
Qed.
End Ring.
Print Assumptions C30_kfac_product.
Print Assumptions C05_kfac_self_adjoint.
Print Assumptions C34_trace.
Print Assumptions C35_det.

(* ---------- C37 ---------- *)
(* frobenius_norm is the non-negative number whose square is the sum of squares *)
Theorem C37_frobenius_norm (F : rcfType) sep S ids mods (inC grC : dict nat_eqType (tensor F)) mp M :
  kfac_net sep S ids mods inC grC -> S <> [::] -> compute_parameter_mapping ids mods = Ok mp ->
  acts_as (LinOp S S (kfac_matmat sep inC grC mp)) S M ->
  (forall k t, (dget k inC = Some t \/ dget k grC = Some t) -> wf t) ->
  exists f, [/\ kfac_frobenius_norm sep inC grC mp = Ok f, (0 <= f)%R &
    f ^+ 2 = \sum_(i < total S) \sum_(j < total S) M i j ^+ 2].
Proof.
move=> hnet hS hmp hM hwf; rewrite /kfac_frobenius_norm (frob2 hnet hS hmp hM hwf) /=.
have -> : nilp (flatten [seq e.2 | e <- mp]) = false.
  case: (hnet) => hw hsz _ _; have pos0 : (0 < size ids)%N by rewrite -hsz; case: (S) hS.
  have [name [n [d [d1 d2]]]] := C29_every_position hw hmp pos0.
  have := dget_in d1; have := dget_in d2; case: d {d1 d2} => // p d _ hin.
  elim: (mp) hin => //= e mp' IH [->|h] //=; rewrite /nilp size_cat addn_eq0.
  by move: (IH h); rewrite /nilp => ->; rewrite andbF.
eexists; split; [reflexivity|exact: Num.Theory.sqrtr_ge0|].
by rewrite Num.Theory.sqr_sqrtr //; do 2 (apply: Num.Theory.sumr_ge0 => ? _); exact: Num.Theory.sqr_ge0.
Qed.
Print Assumptions C37_frobenius_norm.

(* ---------- C36 ---------- *)
Theorem C36_logdet sep S ids mods (inC grC : dict nat_eqType (tensor R)) mp M :
  kfac_net sep S ids mods inC grC -> S <> [::] -> compute_parameter_mapping ids mods = Ok mp ->
  acts_as (LinOp S S (kfac_matmat sep inC grC mp)) S M ->
  (* all factors have positive determinant *)
  (forall k t d, (dget k inC = Some t \/ dget k grC = Some t) -> mdet t = Ok d -> Rlt 0 d) ->
  let D := \det (\matrix_(i < total S, j < total S) M i j) in
  Rlt 0 D /\ kfac_logdet sep inC grC mp = Ok (ln D).
Proof.
move=> hnet hS hmp hM hpos D; have [h1 h2 h3] := mp_facts hnet hS hmp.
have -> : D = \det (\matrix_(i < total S, j < total S) kfac_matrix sep S (net_layers ids inC grC mods) i j).
  by congr (\det _); apply/matrixP => i j; rewrite !mxE (acts_as_unique h3 hM).
exact: kfac_logdet_ok.
Qed.
Print Assumptions C36_logdet.

(* ---------- a network that meets the hypotheses, over any ring ---------- *)
Section Ex.
Variable F : comRingType.
Definition ex_S : seq (seq nat) := [:: [:: 1]; [:: 2; 2]; [:: 1; 1]]%N.
Definition ex_in : dict nat_eqType (tensor F) :=
  [:: (0%N, Tensor [:: 2; 2]%N [:: 2%:R; 1; 1; 3%:R]); (1%N, Tensor [:: 2; 2]%N [:: 1; 2%:R; 2%:R; 5%:R])].
Definition ex_gr : dict nat_eqType (tensor F) :=
  [:: (0%N, Tensor [:: 1; 1]%N [:: 3%:R]); (1%N, Tensor [:: 2; 2]%N [:: 2%:R; 1; 1; 4%:R])].
Lemma ex_net : kfac_net false ex_S ex_ids ex_mods ex_in ex_gr.
Proof.
split; [exact: ex_named|by []|by []|].
move=> m /=; case=> [<- //|[<-|[<-|//]]] _; split=> //.
  exists 1%N, (Tensor [:: 1; 1]%N [:: 3%:R]); split=> // [w|b]; rewrite /at_pos /= => -[<-]; last by [].
  exists [:: 1%N], (Tensor [:: 2; 2]%N [:: 2%:R; 1; 1; 3%:R]); split=> //; split=> //.
  by move=> [|[|i]] [|[|j]].
exists 2%N, (Tensor [:: 2; 2]%N [:: 2%:R; 1; 1; 4%:R]); split=> // [w]; rewrite /at_pos //= => -[<-].
exists [:: 2%N], (Tensor [:: 2; 2]%N [:: 1; 2%:R; 2%:R; 5%:R]); split=> //; split=> //.
by move=> [|[|i]] [|[|j]].
Qed.
Lemma ex_wf k t : dget k ex_in = Some t \/ dget k ex_gr = Some t -> wf t.
Proof. by case=> h; have /= := dget_in h; case=> [[_ <-]|[[_ <-]|//]]. Qed.
End Ex.

Local Notation Zc := [comRingType of int].
Definition ex_mp : mapping := [:: (0, [:: (Weight, 2); (Bias, 0)]); (1, [:: (Weight, 1)])]%N.
Example C30_ex : exists2 mp, compute_parameter_mapping ex_ids ex_mods = Ok mp &
  acts_as (LinOp ex_S ex_S (kfac_matmat false (ex_in Zc) (ex_gr Zc) mp)) ex_S
    (kfac_matrix false ex_S (net_layers ex_ids (ex_in Zc) (ex_gr Zc) ex_mods)).
Proof. exact: C30_kfac_product (ex_net _) _. Qed.
(* the product of that operator with a vector *)
Example C30_ex_value : op_matmul (LinOp ex_S ex_S (kfac_matmat false (ex_in Zc) (ex_gr Zc) ex_mp))
    (VTensor (Tensor [:: 6]%N [:: 1; 1; 0; 0; 0; 2%:R])) =
  Ok (VTensor (Tensor [:: 6]%N [:: 15%:R; 2%:R; 4%:R; 1; 2%:R; 15%:R])).
Proof. by vm_compute. Qed.
Example C34_ex : kfac_trace false (ex_in Zc) (ex_gr Zc) ex_mp = Ok 51%:R.
Proof. by vm_compute. Qed.
Example C34_ex_theorem : exists2 M, acts_as (LinOp ex_S ex_S (kfac_matmat false (ex_in Zc) (ex_gr Zc) ex_mp)) ex_S M &
  \sum_(i < total ex_S) M i i = 51%:R.
Proof.
have [mp e h] := C30_ex; have hm : mp = ex_mp by move: e => [<-].
subst mp; eexists; first exact: h.
by have := C34_trace (ex_net _) (ltac:(by [])) e h; rewrite C34_ex => -[<-].
Qed.
Example C35_ex M : acts_as (LinOp ex_S ex_S (kfac_matmat false (ex_in Zc) (ex_gr Zc) ex_mp)) ex_S M ->
  kfac_det false (ex_in Zc) (ex_gr Zc) ex_mp = Ok (\det (\matrix_(i < total ex_S, j < total ex_S) M i j)).
Proof. by apply: (C35_det (ex_net _)). Qed.
Example C05_kfac_ex : self_adjoint_op (LinOp ex_S ex_S (kfac_matmat false (ex_in Zc) (ex_gr Zc) ex_mp)) ex_S.
Proof.
apply: (C05_kfac_self_adjoint (ex_net _)) => // k G o hG; have /= := dget_in hG.
by case=> [[_ <-]|[[_ <-]|//]] [<- _]; move=> [|[|i]] [|[|j]].
Qed.
Example C37_ex (F : rcfType) M : acts_as (LinOp ex_S ex_S (kfac_matmat false (ex_in F) (ex_gr F) ex_mp)) ex_S M ->
  exists f, [/\ kfac_frobenius_norm false (ex_in F) (ex_gr F) ex_mp = Ok f, (0 <= f)%R &
    f ^+ 2 = \sum_(i < total ex_S) \sum_(j < total ex_S) M i j ^+ 2].
Proof. move=> hM; exact: (C37_frobenius_norm (ex_net F) _ _ hM (@ex_wf F)). Qed.
Lemma det22 (a b c d : R) : \det (\matrix_(i < 2, j < 2) entry 2 [:: a; b; c; d] i j) = a * d - b * c.
Proof.
rewrite (expand_det_row _ ord0) big_ord_recl big_ord1 /cofactor !det_mx11 !mxE /entry /=.
by rewrite /bump /= expr0 expr1 mul1r mulN1r mulrN.
Qed.
Example C36_ex M : acts_as (LinOp ex_S ex_S (kfac_matmat false (ex_in [comRingType of R]) (ex_gr [comRingType of R]) ex_mp)) ex_S M ->
  let D := \det (\matrix_(i < total ex_S, j < total ex_S) M i j) in
  Rlt 0 D /\ kfac_logdet false (ex_in [comRingType of R]) (ex_gr [comRingType of R]) ex_mp = Ok (ln D).
Proof.
move=> hM; apply: (C36_logdet (ex_net _) _ _ hM) => // k t d.
have pos n : Rlt 0 (n.+1%:R : R).
  elim: n => [|n IH]; first exact: Rlt_0_1.
  by rewrite -addn1 natrD; apply: Rplus_lt_0_compat => //; exact: Rlt_0_1.
case=> h; have /= := dget_in h; case=> [[_ <-]|[[_ <-]|//]]; rewrite /mdet /= ?det22 => -[<-].
- by rewrite (_ : _ - _ = 5%:R) //; rewrite -natrM mul1r; apply/eqP; rewrite subr_eq; apply/eqP; rewrite -[1]/(1%:R) -natrD.
- by rewrite (_ : _ - _ = 1%:R) //; rewrite mul1r -natrM; apply/eqP; rewrite subr_eq; apply/eqP; rewrite -natrD.
- by rewrite det_mx11 mxE; exact: (pos 2%N).
by rewrite (_ : _ - _ = 7%:R) //; rewrite -natrM mul1r; apply/eqP; rewrite subr_eq; apply/eqP; rewrite -[1]/(1%:R) -natrD.
Qed.

(* ---------- C31: parameters shared between layers ---------- *)
(* Two bias-free 1x1 linear layers that share their weight, with arbitrary factors
   a1, b1 and a2, b2: the product only uses the second layer's factors, while the
   trace adds both layers' blocks (and the determinant multiplies them). *)
Definition tied_mods := [:: Module 0 true [:: (Weight, 7)]%N; Module 1 true [:: (Weight, 7)]%N].
Definition s1 (F : comRingType) (x : F) : tensor F := Tensor [:: 1; 1]%N [:: x].
Theorem C31_tied_weight_refuted (F : comRingType) sep (a1 b1 a2 b2 : F) :
  let inC := [:: (0%N, s1 a1); (1%N, s1 a2)] : dict nat_eqType (tensor F) in
  let grC := [:: (0%N, s1 b1); (1%N, s1 b2)] : dict nat_eqType (tensor F) in
  exists mp, [/\ compute_parameter_mapping [:: 7%N] tied_mods = Ok mp,
    acts_as (LinOp [:: [:: 1; 1]%N] [:: [:: 1; 1]%N] (kfac_matmat sep inC grC mp)) [:: [:: 1; 1]%N] (fun _ _ => b2 * a2),
    kfac_trace sep inC grC mp = Ok (b1 * a1 + b2 * a2) &
    kfac_det sep inC grC mp = Ok ((b1 * a1) * (b2 * a2))].
Proof.
move=> inC grC; eexists; split; first reflexivity.
- apply: acts_as_multiplies => // K X _ hX.
  pose L (a b : F) := Layer (Some 0%N) None (fun _ _ => a) (fun _ _ => b).
  have D k a b : dget k inC = Some (s1 a) -> dget k grC = Some (s1 b) ->
      describes sep [:: [:: 1; 1]%N] inC grC (k, [:: (Weight, 0%N)]) (L a b).
    move=> h1 h2; split=> //; exists 1%N, (s1 b); split=> //.
    + by move=> [|i] [|j].
    + move=> w [<-]; exists [:: 1%N]; split=> //=; rewrite /joint /= !andbF; exists (s1 a); split=> //.
      by move=> [|i] [|j].
  have [KM1 [e1 z1 _ _]] := @kfac_layer_ok F sep [:: [:: 1; 1]%N] K X inC grC _ (L a1 b1) [:: None] hX erefl erefl erefl (D 0%N a1 b1 erefl erefl).
  have [KM2 [e2 z2 p2 _]] := @kfac_layer_ok F sep [:: [:: 1; 1]%N] K X inC grC _ (L a2 b2) KM1 hX z1 erefl erefl (D 1%N a2 b2 erefl erefl).
  have hszX : size X = 1%N by case: (hX) => h _; rewrite -(size_map (@tshape F)) h.
  have [t ht [t1 t2 t3]] := p2 0%N erefl.
  have eKM : KM2 = [:: Some t] by case: (KM2) z2 ht => [|o [|o' K2]] //= _ ->.
  exists [:: t]; split; first by rewrite /kfac_matmat hszX /= e1 /= e2 /= eKM.
    by split; rewrite /= ?t1 ?t2.
  apply: product_coord => //; first by split; rewrite /= ?t1 ?t2.
  move=> [|p] //= r k _ hr hk; rewrite t3 //; apply: eq_bigr => q _; apply: eq_bigr => s _.
  by case: q s => [[|q] hq] // s; rewrite /layer_entry /= orbT.
- by rewrite /kfac_trace /scalar_loop; case: (sep) => /=; rewrite /mtrace /sumr /= !addr0 add0r.
rewrite /kfac_det /scalar_loop; case: (sep) => /=; rewrite /mdet /= !det_mx11 !mxE /entry /= !expr1 mul1r //.
Qed.
Print Assumptions C31_tied_weight_refuted.
Example C31_ex : exists mp (Y : tensor Zc), [/\ compute_parameter_mapping [:: 7%N] tied_mods = Ok mp,
    op_matmul (LinOp [:: [:: 1; 1]%N] [:: [:: 1; 1]%N] (kfac_matmat false [:: (0%N, s1 1); (1%N, s1 2%:R)] [:: (0%N, s1 1); (1%N, s1 3%:R)] mp))
      (VTensor (Tensor [:: 1%N] [:: 1 : Zc])) = Ok (VTensor (Tensor [:: 1%N] [:: 6%:R])) &
    kfac_trace false [:: (0%N, s1 (1 : Zc)); (1%N, s1 2%:R)] [:: (0%N, s1 1); (1%N, s1 3%:R)] mp = Ok 7%:R].
Proof. by eexists; exists (s1 1); split; first reflexivity; vm_compute. Qed.

(* ---------- C33: positive semi-definiteness ---------- *)
Section PSD.
Variable F : realFieldType.
Local Open Scope ring_scope.
Import Num.Theory.
(* a non-negatively weighted sum of outer products v v^T *)
Definition gram (n : nat) (A : nat -> nat -> F) : Prop :=
  exists2 vs : seq (F * (nat -> F)), (forall v, List.In v vs -> 0 <= v.1) &
   forall i j, (i < n)%N -> (j < n)%N -> A i j = \sum_(v <- vs) v.1 * (v.2 i * v.2 j).

Lemma sum_ge0_In (T : Type) (s : seq T) (f : T -> F) : (forall x, List.In x s -> 0 <= f x) -> 0 <= \sum_(x <- s) f x.
Proof.
elim: s => [|x s IH] h; first by rewrite big_nil.
by rewrite big_cons addr_ge0 ?h ?IH //; [left|move=> y hy; apply: h; right].
Qed.

Lemma gram_kron o n (B A : nat -> nat -> F) (x : nat -> F) : gram o B -> gram n A ->
  0 <= \sum_(r < o * n) \sum_(s < o * n) x r * (kron n B A r s * x s).
Proof.
move=> [vs v0 hB] [us u0 hA].
have -> : \sum_(r < o * n) \sum_(s < o * n) x r * (kron n B A r s * x s) =
  \sum_(v <- vs) \sum_(u <- us) v.1 * u.1 * (\sum_(r < o * n) x r * v.2 (r %/ n)%N * u.2 (r %% n)%N) ^+ 2.
  transitivity (\sum_(r < o * n) \sum_(s < o * n) \sum_(v <- vs) \sum_(u <- us)
     v.1 * u.1 * ((x r * v.2 (r %/ n)%N * u.2 (r %% n)%N) * (x s * v.2 (s %/ n)%N * u.2 (s %% n)%N))).
    apply: eq_bigr => r _; apply: eq_bigr => s _; have [r1 r2] := modn_ltn (ltn_ord r); have [q1 q2] := modn_ltn (ltn_ord s).
    rewrite /kron hB // hA // mulr_suml mulr_suml mulr_sumr; apply: eq_bigr => v _.
    rewrite mulr_sumr mulr_suml mulr_sumr; apply: eq_bigr => u _.
    move: v.1 (v.2 _) (v.2 _) u.1 (u.2 _) (u.2 _) (x r) (x s) => a b c d e f g h.
    by ring.
  transitivity (\sum_(r < o * n) \sum_(v <- vs) \sum_(s < o * n) \sum_(u <- us)
     v.1 * u.1 * ((x r * v.2 (r %/ n)%N * u.2 (r %% n)%N) * (x s * v.2 (s %/ n)%N * u.2 (s %% n)%N))).
    by apply: eq_bigr => r _; apply: exchange_big.
  rewrite exchange_big; apply: eq_bigr => v _.
  transitivity (\sum_(r < o * n) \sum_(u <- us) \sum_(s < o * n)
     v.1 * u.1 * ((x r * v.2 (r %/ n)%N * u.2 (r %% n)%N) * (x s * v.2 (s %/ n)%N * u.2 (s %% n)%N))).
    by apply: eq_bigr => r _; apply: exchange_big.
  rewrite exchange_big; apply: eq_bigr => u _.
  rewrite expr2 mulr_suml mulr_sumr; apply: eq_bigr => r _; rewrite !mulr_sumr; by [].
apply: sum_ge0_In => v hv; apply: sum_ge0_In => u hu.
by apply: mulr_ge0; [apply: mulr_ge0; [exact: v0|exact: u0]|exact: sqr_ge0].
Qed.

Lemma gram_one : gram 1 (fun _ _ => 1 : F).
Proof.
exists [:: (1, fun=> 1)]; first by move=> v [<-|//]; exact: ler01.
by move=> i j _ _; rewrite big_seq1 /= !mulr1.
Qed.
Lemma gram_ext n (A A' : nat -> nat -> F) : (forall i j, (i < n)%N -> (j < n)%N -> A i j = A' i j) -> gram n A' -> gram n A.
Proof. by move=> e [vs v0 h]; exists vs => // i j hi hj; rewrite e // h. Qed.

Lemma kfac_quad_ge0 sep S ids mods (inC grC : dict nat_eqType (tensor F)) (x : nat -> F) :
  kfac_net sep S ids mods inC grC -> S <> [::] ->
  (forall k t n, (dget k inC = Some t \/ dget k grC = Some t) -> tshape t = [:: n; n] ->
     gram n (fun i j => entry n (tdata t) i j)) ->
  0 <= \sum_(i < total S) \sum_(j < total S) x i * (kfac_matrix sep S (net_layers ids inC grC mods) i j * x j).
Proof.
move=> hnet hS hg; have [mp [hmp _ _]] := net_facts hnet; have [h1 h2 _] := mp_facts hnet hS hmp.
have [hp he hc] := kfac_blocked sep h1 (describes_all_shaped h2).
rewrite (sum_pairs (g := fun i j => x i * (kfac_matrix sep S (net_layers ids inC grC mods) i j * x j)) hp); last first.
  by apply: crosses_imp hc _ => a b ->; rewrite mul0r mulr0.
apply: sum_ge0_In => b hb.
have -> : \sum_(r < b_o b * b_n b) \sum_(s < b_o b * b_n b)
    x (b_at b r) * (kfac_matrix sep S (net_layers ids inC grC mods) (b_at b r) (b_at b s) * x (b_at b s)) =
  \sum_(r < b_o b * b_n b) \sum_(s < b_o b * b_n b)
    x (b_at b r) * (kron (b_n b) (b_B b) (b_A b) r s * x (b_at b s)).
  by apply: eq_bigr => r _; apply: eq_bigr => s _; rewrite he.
have [gB gA] : gram (b_o b) (b_B b) /\ gram (b_n b) (b_A b).
  have [l0 hl hb'] : exists2 l, List.In l (net_layers ids inC grC mods) & List.In b (layer_blocks sep S l).
    elim: (net_layers ids inC grC mods) hb => //= l1 ls' IH /List.in_app_iff [h|/IH[l2 q1 q2]]; first by exists l1 => //; left.
    by exists l2 => //; right.
  have [e [_ _ _ _ [o [G [hG hGs hB hA hbs]]]]] : exists e, describes sep S inC grC e l0.
    elim: h2 hl => //= e l' m' ls' h hs IH [<-|/IH //]; by exists e.
  have gG : gram o (l_B l0) by apply: gram_ext hB _; apply: (hg e.1); [right|].
  have gA w rest : l_w l0 = Some w -> pshape S w = o :: rest -> gram (numel rest + joint sep l0) (l_A l0).
    move=> hw hs; have [rest' [e1 [A [a1 a2 a3 _]]]] := hA w hw.
    have er : rest' = rest by move: e1; rewrite hs => -[].
    by rewrite er in a2 a3; apply: gram_ext a3 _; apply: (hg e.1); [left|].
  have one := gram_one.
  move: hb'; rewrite /layer_blocks; case ew : (l_w l0) => [w|]; case eb : (l_b l0) => [c|] //=.
  - have [rest [e1 _]] := hA w ew; have lo : l_out S l0 = o by rewrite /l_out ew e1.
    have := gA w rest ew e1; rewrite /joint ew eb /= andbT.
    case es : sep => /=; rewrite ?addn0 ?addn1 => h; last by case=> // <- /=; rewrite lo /ncol e1.
    by case=> [<-|[<-|//]] /=; rewrite lo /ncol ?e1.
  - have [rest [e1 _]] := hA w ew; have lo : l_out S l0 = o by rewrite /l_out ew e1.
    have := gA w rest ew e1; rewrite /joint ew eb /= andbF addn0 => h.
    by case=> // <- /=; rewrite lo /ncol e1.
  have lo : l_out S l0 = o by rewrite /l_out ew eb (hbs c eb).
  by case=> // <- /=; rewrite lo.
exact: (gram_kron (fun r => x (b_at b r)) gB gA).
Qed.

(* x^T K x >= 0 for every vector x in every format, if every factor is a
   non-negatively weighted sum of outer products (C32: the computed ones are) *)
Theorem C33_positive_semidefinite sep S ids mods (inC grC : dict nat_eqType (tensor F)) mp :
  kfac_net sep S ids mods inC grC -> S <> [::] -> compute_parameter_mapping ids mods = Ok mp ->
  (forall k t n, (dget k inC = Some t \/ dget k grC = Some t) -> tshape t = [:: n; n] ->
     gram n (fun i j => entry n (tdata t) i j)) ->
  forall l (V : pyval F), has_format S l None V ->
  exists W, op_matmul (LinOp S S (kfac_matmat sep inC grC mp)) V = Ok W /\
    0 <= \sum_(i < total S) nth 0 (content V) i * nth 0 (content W) i.
Proof.
move=> hnet hS hmp hg l V hV; have [h1 h2 [_ _ h3]] := mp_facts hnet hS hmp.
have [W [w1 w2 w3]] := h3 _ _ _ hV; exists W; split=> //.
set x := fun i => nth 0 (content V) i.
have -> : \sum_(i < total S) nth 0 (content V) i * nth 0 (content W) i =
  \sum_(i < total S) \sum_(j < total S) x i * (kfac_matrix sep S (net_layers ids inC grC mods) i j * x j).
  apply: eq_bigr => i _; rewrite -mulr_sumr; congr (_ * _).
  have := w3 i 0%N (ltn_ord i) isT; rewrite /entry /= !muln1 addn0 => ->.
  by apply: eq_bigr => j _; rewrite muln1 addn0.
exact: (kfac_quad_ge0 x hnet hS hg).
Qed.
End PSD.
Print Assumptions C33_positive_semidefinite.

(* factors [2 1; 1 3] = [1 1; 1 1] + 1 [1 0; 0 0] + 2 [0 0; 0 1], ... *)
Lemma ex_gram (F : realFieldType) k t n : dget k (ex_in F) = Some t \/ dget k (ex_gr F) = Some t -> tshape t = [:: n; n] ->
  gram n (fun i j => entry n (tdata t) i j).
Proof.
have nn m : (0 <= m%:R :> F)%R by exact: Num.Theory.ler0n.
pose v (a b : F) (i : nat) : F := nth 0 [:: a; b] i.
have G2 (a b c d w1 w2 w3 : F) : (0 <= w1)%R -> (0 <= w2)%R -> (0 <= w3)%R -> forall x y : F,
   a = w1 + w2 * x ^+ 2 -> b = w2 * (x * y) -> c = w2 * (x * y) -> d = w3 + w2 * y ^+ 2 ->
   gram 2 (fun i j => entry 2 [:: a; b; c; d] i j).
  move=> h1 h2 h3 x y -> -> -> ->; exists [:: (w1, v 1 0); (w2, v x y); (w3, v 0 1)].
    by move=> u /= [<-|[<-|[<-|//]]].
  by move=> [|[|i]] [|[|j]] // _ _; rewrite !big_cons big_nil /entry /= /v /=; ring.
case=> h; have /= := dget_in h; case=> [[_ <-]|[[_ <-]|//]] [<- _].
- by apply: (G2 _ _ _ _ 1 1 2%:R (nn 1%N) (nn 1%N) (nn 2%N) 1 1); ring.
- by apply: (G2 _ _ _ _ 0 1 1 (nn 0%N) (nn 1%N) (nn 1%N) 1 2%:R); ring.
- exists [:: (3%:R, fun=> 1)]; first by move=> u [<-|//]; exact: nn.
  by move=> [|i] [|j] // _ _; rewrite big_seq1 /entry /=; ring.
by apply: (G2 _ _ _ _ 1 1 3%:R (nn 1%N) (nn 1%N) (nn 3%N) 1 1); ring.
Qed.
Example C33_ex (F : realFieldType) l (V : pyval F) : has_format ex_S l None V ->
  exists W, op_matmul (LinOp ex_S ex_S (kfac_matmat false (ex_in F) (ex_gr F) ex_mp)) V = Ok W /\
    (0 <= \sum_(i < total ex_S) nth 0 (content V) i * nth 0 (content W) i)%R.
Proof.
apply: (C33_positive_semidefinite (ex_net F)) => // k t n; exact: ex_gram.
Qed.
