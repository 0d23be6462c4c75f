(* C73: the reference implementations of curvlinops/examples/functorch.py agree
   with the linear operators. *)
From Coq Require Import Reals Lra FunctionalExtensionality.
From Coquelicot Require Import Coquelicot.
From mathcomp Require Import all_ssreflect all_algebra.
From Verif Require Import PyPrelude Tensor Spec TorchBase RInst Calculus Curvature HessGGN Risk Kfac Losses Fisher FisherMC FisherExp CurvOps Jacobian Functorch FunctorchProof Props_Curv Props_Fisher Props_Jac.
Set Implicit Arguments.
Unset Strict Implicit.
Unset Printing Implicit Defensive.
Import GRing.Theory.
Local Open Scope ring_scope.

(* blocks_to_matrix: the block with row name a and column name b appears at the
   position given by the sizes of the preceding names, flattened to dims a rows *)
Theorem C73_blocks_to_matrix (T : Type) (x0 : T) (int_sqrt : nat -> nat) (names : seq nat) (dims : nat -> nat)
    (blocks : seq (nat * seq (nat * tensor T))) (blk : nat -> nat -> tensor T) :
  (forall d, int_sqrt (d * d) = d)%N -> names <> [::] -> uniq names ->
  [seq b.1 | b <- blocks] = names ->
  (forall a b, a \in names -> b \in names -> exists inner,
     [/\ dget a blocks = Some inner, dget b inner = Some (blk a b), wf (blk a b) &
         numel (tshape (blk a b)) = (dims a * dims b)%N]) ->
  (forall a, a \in names -> 0 < dims a)%N ->
  let pos i := sumn (take i [seq dims n | n <- names]) in
  let D := sumn [seq dims n | n <- names] in
  exists t, [/\ blocks_to_matrix int_sqrt blocks = Ok t, tshape t = [:: D; D], wf t &
    forall i j k l, (i < size names)%N -> (j < size names)%N ->
      (k < dims (nth 0%N names i))%N -> (l < dims (nth 0%N names j))%N ->
      nth x0 (tdata t) ((pos i + k) * D + (pos j + l)) =
      nth x0 (tdata (blk (nth 0%N names i) (nth 0%N names j))) (k * dims (nth 0%N names j) + l)].
Proof.
move=> hq hn hu hk hb hd pos D.
pose inner a := if dget a blocks is Some i then i else [::].
have eb : blocks = [seq (a, inner a) | a <- names].
  rewrite -hk in hu *; rewrite -map_comp -[LHS]map_id.
  have main : forall s, (forall b, List.In b s -> List.In b blocks) ->
     [seq id i | i <- s] = [seq ((fun a => (a, inner a)) \o fst) i | i <- s].
    elim=> [|[a i] s IH] //= hs; rewrite IH; last by move=> b hb'; apply: hs; right.
    by rewrite /inner (@KfacMap.in_dget _ _ a i blocks hu) //; apply: hs; left.
  exact: main.
have hget a b : a \in names -> b \in names -> dget b (inner a) = Some (blk a b).
  by move=> ha hb'; have [i [e1 e2 _ _]] := hb a b ha hb'; rewrite /inner e1.
have hw a b : a \in names -> b \in names -> wf (blk a b).
  by move=> ha hb'; have [i [_ _ e _]] := hb a b ha hb'.
have hs a b : a \in names -> b \in names -> numel (tshape (blk a b)) = (dims a * dims b)%N.
  by move=> ha hb'; have [i [_ _ _ e]] := hb a b ha hb'.
have [t ht] := @blocks_to_matrix_ok T int_sqrt hq names inner blk dims hn hget hw hs hd x0.
by exists t; rewrite eb.
Qed.
Print Assumptions C73_blocks_to_matrix.

Section Props.
Variables (X Y : Type) (so : seq nat) (modelf : inp X -> (nat -> seq R) -> seq R).
Hypothesis model_size : forall x e, size (modelf x e) = numel so.
Variables (named : seq (nat * nat)) (frozen : nat -> seq R).
Local Notation O := (numel so).
Local Notation batch := (seq (inp X * Y)).
(* int(math.sqrt(n)) is exact on squares *)
Variable int_sqrt : nat -> nat.
Hypothesis int_sqrt_ok : forall d, int_sqrt (d * d) = d.

Variable params : seq tparam.
Local Notation S := [seq tp_shape p | p <- params].
Local Notation D := (total S).
Local Notation net := (module_net modelf named frozen params).

(* distinct parameters of the model, at least one, all on one device *)
Definition good_params : Prop :=
  [/\ params_ok named params, params <> [::] & exists dev, all (fun p => tp_dev p == dev) params].

Lemma one_device : good_params -> exists dev, the_one [seq tp_dev p | p <- params] = Ok dev.
Proof.
case=> _ hn [dev hd]; exists dev; rewrite /the_one.
suff -> : undup [seq tp_dev p | p <- params] = [:: dev] by [].
case: (params) hn hd => // p s _ /= /andP[/eqP -> hs].
elim: s hs => //= q s IH /andP[/eqP -> hs]; rewrite inE eqxx /=; exact: IH.
Qed.

Lemma params_S : good_params -> S <> [::].
Proof. by case=> _ hn _; case: (params) hn. Qed.

Lemma net_size x th : size (net x th) = O.
Proof. exact: model_size. Qed.

(* evaluating the model with the dictionary's parameters *)
Lemma functional_netE : good_params ->
  functional_net modelf frozen (zip (names named params) params) = net.
Proof.
case=> hp _ _; apply: functional_extensionality => x; apply: functional_extensionality => z.
by rewrite /functional_net /module_net envE.
Qed.

Lemma dict_paramsE : dict_params (zip (names named params) params) = zip (names named params) (pack 0 S).
Proof. by rewrite /dict_params dict_names dict_shapes. Qed.

Lemma pred_eq (d1 d2 : batch) z : [seq (modelf d.1, d.2) | d <- d1] = [seq (modelf d.1, d.2) | d <- d2] ->
  predict net d1 z = predict net d2 z.
Proof. exact: (@predict_congr X Y modelf (module_env named frozen params)). Qed.

Section Loss.
Variable lossd : seq R -> Y -> R.

Lemma loss_eq red (data : batch) (loader : seq batch) z :
  [seq (modelf d.1, d.2) | d <- data] = [seq (modelf d.1, d.2) | d <- flatten loader] ->
  loss_func O lossd red (predict net data z) [seq x.2 | x <- data] =
  mean_over red None loader * \sum_(d <- flatten loader) lossd (net d.1 z) d.2.
Proof.
move=> h; rewrite (pred_eq z h); have [-> _] := targets_congr h.
rewrite -/(batch_loss O net lossd red (flatten loader) z) (batch_lossE net_size) reduceE mean_overE.
by rewrite /infer_num_data -size_flatten.
Qed.

(* C73: functorch_hessian *)
Theorem C73_hessian red loader input_key th :
  good_params -> all (fun s => 0 < numel s)%N S -> red <> ROther ->
  loader <> [::] -> nonempty loader -> data_ok modelf input_key (flatten loader) ->
  Forall_in (fun d => twice_diff D (fun z => lossd (net d.1 z) d.2) th) (flatten loader) ->
  exists A H, [/\ hessian_operator O net lossd red None loader S None th = Ok A,
    functorch_hessian so modelf named frozen int_sqrt lossd red params loader input_key th = Ok H,
    tshape H = [:: D; D], wf H & acts_as A S (entry D (tdata H))].
Proof.
move=> hp hpos hr hl hne hdat hd.
have hS := params_S hp.
have [A eA hA] := @C14_hessian_of_empirical_risk _ _ O net lossd net_size red None loader S th hS hr hl hne isT hd.
have [dev edev] := one_device hp.
have [data edata hmap] := concat_ok hl hdat.
case: (hp) => hok _ _.
have [H [h1 h2 h3 h4]] := @hessian_matrix (names named params) S
  (etrans (size_names named params) (esym (size_map tp_shape params))) (names_uniq hok) hS int_sqrt
  (fun z => loss_func O lossd red (predict net data z) [seq x.2 | x <- data]) th int_sqrt_ok hpos.
exists A, H; split=> //.
  by rewrite /functorch_hessian edev edata /= make_params_dictE //= functional_netE // /func_hessian dict_paramsE.
apply: acts_as_ext hA _ => i j hi hj; rewrite h4 // /risk_hessian.
by apply: pd_ext => z; apply: pd_ext => w; rewrite (loss_eq _ _ hmap).
Qed.

(* C73: functorch_gradient_and_loss returns what the operators' gradient_and_loss
   returns *)
Theorem C73_gradient_and_loss red loader input_key th :
  good_params -> red <> ROther -> loader <> [::] -> nonempty loader -> data_ok modelf input_key (flatten loader) ->
  Forall_in (fun d => forall i, (i < D)%N -> ex_pd i (fun z => lossd (net d.1 z) d.2) th) (flatten loader) ->
  exists g l, gradient_and_loss O net lossd true red None loader S th = Ok (g, l) /\
    functorch_gradient_and_loss so modelf named frozen lossd red params loader input_key th = Ok (g, l).
Proof.
move=> hp hr hl hne hdat hd.
have [g [e1 e2 e3 e4]] := @C20_gradient_and_loss _ _ O net lossd net_size red None loader S th hr hl hne isT hd.
have [dev edev] := one_device hp.
have [data edata hmap] := concat_ok hl hdat.
case: (hp) => hok _ _.
eexists; eexists; split; first exact: e1.
rewrite /functorch_gradient_and_loss edev edata /= make_params_dictE //= functional_netE // /func_grad dict_paramsE.
congr (Ok (_, _)); last by rewrite (loss_eq _ _ hmap).
set L := fun z => loss_func _ _ _ _ _.
have -> : [seq g0.2 | g0 <- [seq (a.1, Tensor (pshape a.2) (mkseq (fun k => pd (poff a.2 + k) L th) (numel (pshape a.2)))) | a <- zip (names named params) (pack 0 S)]]
  = [seq Tensor (pshape p) (mkseq (fun k => (fun i => pd i L th) (poff p + k)%N) (numel (pshape p))) | p <- pack 0 S].
  rewrite -map_comp -[in RHS](@unzip2_zip _ _ (names named params) (pack 0 S)) ?size_pack ?size_names ?size_map //.
  by rewrite /unzip2 -map_comp.
have [p1 p2] := pack_tensors (fun i => pd i L th) 0 S.
have sg (h : seq (tensor R)) : [seq tshape t | t <- h] = S -> all (@wf R) h -> size (flat h) = D.
  move=> <-; rewrite /flat; elim: h => //= t ts IH /andP[/eqP ht /IH].
  by rewrite size_cat ht /total /= => ->.
apply: tensor_list_ext => //; first by rewrite p1 e2.
apply: (@eq_from_nth _ 0); rewrite ?sg // => i hi.
rewrite (@nth_flat_pack (fun i => pd i L th)) // e4 //; apply: pd_ext => z.
by rewrite /L (loss_eq _ _ hmap).
Qed.

(* the loss of the linearized model *)
Lemma linearized_lossE red (data : batch) th z :
  loss_func O lossd red
    (mkseq (fun i => nth 0 (predict net data th) i + func_jvp D (predict net data) th (fun j => z j - th j) i) (size data * O))
    [seq x.2 | x <- data] =
  weight red (size data) * \sum_(d <- data)
    lossd (mkseq (affine O D (fun c j => pd j (fun z => nth 0 (net d.1 z) c) th) (nth 0 (net d.1 th)) th z) O) d.2.
Proof.
case: data => [|d0 data]; first by rewrite /loss_func /= !big_nil reduceE.
set ds := d0 :: data.
rewrite (@loss_rowsE _ _ O lossd red ds _ d0) -mulr_sumr (sum_nth d0); congr (_ * _).
apply: eq_bigr => n _; congr lossd.
apply/eq_in_map => c; rewrite mem_iota add0n => /andP[_ hc].
rewrite /affine hc /row_pt (row_of_predict net_size _ d0) //; congr (_ + _).
apply: eq_bigr => j _; congr (_ * _); apply: pd_ext => w.
exact: (row_of_predict net_size).
Qed.

(* C73: functorch_ggn, the Hessian of the loss of the linearized model *)
Theorem C73_ggn red loader input_key th :
  good_params -> all (fun s => 0 < numel s)%N S -> red <> ROther ->
  loader <> [::] -> nonempty loader -> data_ok modelf input_key (flatten loader) ->
  Forall_in (fun d => loss_smooth O (fun f => lossd (mkseq f O) d.2) (nth 0 (net d.1 th))) (flatten loader) ->
  exists A G, [/\ ggn_operator O net lossd red None loader S None th = Ok A,
    functorch_ggn so modelf named frozen int_sqrt lossd red params loader input_key th = Ok G,
    tshape G = [:: D; D], wf G & acts_as A S (entry D (tdata G))].
Proof.
move=> hp hpos hr hl hne hdat hd.
have hS := params_S hp.
have [A eA hA] := @C15_ggn_of_empirical_risk _ _ O net lossd net_size red None loader S th hS hr hl hne isT.
have [dev edev] := one_device hp.
have [data edata hmap] := concat_ok hl hdat.
case: (hp) => hok _ _.
pose lin (b : batch) z := loss_func O lossd red
    (mkseq (fun i => nth 0 (predict net b th) i + func_jvp D (predict net b) th (fun j => z j - th j) i) (size b * O))
    [seq x.2 | x <- b].
have elin : lin data = lin (flatten loader).
  have ep : predict net data = predict net (flatten loader).
    by apply: functional_extensionality => z; apply: pred_eq.
  by rewrite /lin ep; have [-> ->] := targets_congr hmap.
have [G [h1 h2 h3 h4]] := @hessian_matrix (names named params) S
  (etrans (size_names named params) (esym (size_map tp_shape params))) (names_uniq hok) hS int_sqrt
  (lin data) th int_sqrt_ok hpos.
exists A, G; split=> //.
  rewrite /functorch_ggn edev edata /= make_params_dictE //= functional_netE //.
  by rewrite dict_shapes /func_hessian dict_paramsE.
apply: acts_as_ext hA _ => i j hi hj; rewrite h4 // elin.
rewrite (@pd_ext _ (pd i (fun z => weight red (size (flatten loader)) * \sum_(d <- flatten loader)
    lossd (mkseq (affine O D (fun c j => pd j (fun z => nth 0 (net d.1 z) c) th) (nth 0 (net d.1 th)) th z) O) d.2))); last first.
  by move=> z; apply: pd_ext => w; apply: linearized_lossE.
rewrite pd2_scal (@pd2_sum _ D _ (fun d z => lossd (mkseq (affine O D (fun c j => pd j (fun z => nth 0 (net d.1 z) c) th) (nth 0 (net d.1 th)) th z) O) d.2)) //; last first.
  apply: Forall_in_impl hd => d /smooth_hess[g [h [hg hh]]].
  exact: (@affine_twice_diff O D (fun f => lossd (mkseq f O) d.2) g h).
rewrite /ggn_matrix mean_overE /infer_num_data -size_flatten; congr (_ * _).
elim: (flatten loader) hd => [|d l IH] /=; first by rewrite !big_nil.
case=> /smooth_hess[g [h [hg hh]]] /IH e; rewrite !big_cons e; congr (_ + _).
by rewrite (@affine_hessian O D (fun f => lossd (mkseq f O) d.2) g h).
Qed.
End Loss.

(* ---- Jacobian ---- *)
Lemma flatten_jac (pre : seq nat) (F : point -> nat -> R) th ns ps o : size ns = size ps ->
  all (fun p => tp_shape p != [::]) ps ->
  mapM (fun jp : (nat * tensor R) * (nat * tparam) => flatten_from_back (size (tp_shape jp.2.2)) jp.1.2)
   (zip [seq (a.1, Tensor (pre ++ pshape a.2)
     (mkseq (fun e => pd (poff a.2 + e %% numel (pshape a.2)) (fun z => F z (e %/ numel (pshape a.2)))%N th)
            (numel pre * numel (pshape a.2)))) | a <- zip ns (pack o [seq tp_shape p | p <- ps])] (zip ns ps)) =
  Ok [seq Tensor (rcons pre (numel (pshape a)))
     (mkseq (fun e => pd (poff a + e %% numel (pshape a)) (fun z => F z (e %/ numel (pshape a)))%N th)
            (numel pre * numel (pshape a))) | a <- pack o [seq tp_shape p | p <- ps]].
Proof.
elim: ns ps o => [|n ns IH] [|p ps] o //= [hs] /andP[hp hps]; rewrite /flatten_from_back.
rewrite -[size (tp_shape p) == 0%N]/(_ == 0%N) size_eq0 (negPf hp) /ndim /= size_cat.
rewrite ltnNge leq_addl /= addnK /flatten_from /ndim /= size_cat.
have -> : (size pre < maxn 1 (size pre + size (tp_shape p)))%N.
  by rewrite leq_max; apply/orP; right; rewrite -addn1 leq_add2l; case: (tp_shape p) hp.
by rewrite /= take_size_cat // drop_size_cat // IH.
Qed.

(* C73: functorch_jacobian, for parameters with at least one axis *)
Theorem C73_jacobian (loader : seq batch) input_key th :
  good_params -> all (fun s => s != [::]) S -> loader <> [::] -> data_ok modelf input_key (flatten loader) ->
  let N := size (flatten loader) in
  exists A J, [/\ jac_init so net S th Jac None loader = Ok A,
    functorch_jacobian so modelf named frozen params loader input_key th = Ok J,
    tshape J = [:: (N * O)%N; D], wf J &
    forall l cols (V : pyval R), has_format S l cols V -> (0 < ncols cols)%N ->
    exists W, [/\ op_matmul A V = Ok W, has_format [:: N :: so] l cols W &
      forall r k, (r < N * O)%N -> (k < ncols cols)%N ->
        entry (ncols cols) (content W) r k =
        \sum_(j < D) entry D (tdata J) r j * entry (ncols cols) (content V) j k]].
Proof.
move=> hp hsc hl hdat N.
have hS := params_S hp.
have [A eA [_ hA]] := @C23_jacobian _ _ so net net_size S th hS None loader hl I.
have [dev edev] := one_device hp.
have [data edata hmap] := concat_ok hl hdat.
case: (hp) => hok _ _.
have [_ es] := targets_congr hmap.
have [J [h1 h2 h3 h4]] := @jacobian_matrix S hS (size data :: so) _ (fun z => nth 0 (predict net data z)) th erefl.
exists A, (Tensor [:: (N * O)%N; D] (tdata J)); split=> //.
- rewrite /functorch_jacobian edev edata /= make_params_dictE //= functional_netE // /func_jacrev dict_paramsE.
  have hsc' : all (fun p => tp_shape p != [::]) params by move: hsc; rewrite all_map.
  have := @flatten_jac (size data :: so) (fun z => nth 0 (predict net data z)) th (names named params) params 0 (size_names _ _) hsc'.
  rewrite /= => -> /=; move: h1 => /= ->; rewrite /= /flatten_to_rows /ndim h2 size_rcons /=.
  by rewrite -rcons_cons lead_rcons last_rcons es.
- by rewrite /wf /= muln1; move: h3; rewrite /wf h2 numel_rcons /= es.
move=> l cols V hV hc; have [W [w1 w2 w3]] := hA l cols V hV hc; exists W; split=> // r k hr hk.
have [d0 _] : exists d0 : inp X * Y, True.
  by case: (flatten loader) @N hr => [|d0 s _ _] //; exists d0.
have O0 : (0 < O)%N by case: (O) hr; rewrite // muln0.
have hq : (r %/ O < N)%N by rewrite ltn_divLR.
rewrite {1}(divn_eq r O) (w3 d0) ?ltn_mod //.
apply: eq_bigr => j _; congr (_ * _).
rewrite h4 //; last by rewrite /= es.
apply: pd_ext => z.
by rewrite (pred_eq z hmap) [in RHS](divn_eq r O) (row_of_predict net_size z d0) // ltn_mod.
Qed.

(* ---- empirical Fisher ---- *)
Lemma bind_Ok (U V : Type) (x : U) (f : U -> res V) : bind (Ok x) f = f x.
Proof. by []. Qed.

Lemma flatten_ef (K : nat) (F : point -> nat -> R) th ns ps o : size ns = size ps ->
  all (fun p => tp_shape p != [::]) ps ->
  mapM (fun j : nat * tensor R => flatten_from 1 j.2)
   [seq (a.1, Tensor ([:: K] ++ pshape a.2)
     (mkseq (fun e => pd (poff a.2 + e %% numel (pshape a.2)) (fun z => F z (e %/ numel (pshape a.2)))%N th)
            (numel [:: K] * numel (pshape a.2)))) | a <- zip ns (pack o [seq tp_shape p | p <- ps])] =
  Ok [seq Tensor (rcons [:: K] (numel (pshape a)))
     (mkseq (fun e => pd (poff a + e %% numel (pshape a)) (fun z => F z (e %/ numel (pshape a)))%N th)
            (numel [:: K] * numel (pshape a))) | a <- pack o [seq tp_shape p | p <- ps]].
Proof.
elim: ns ps o => [|n ns IH] [|p ps] o //= [hs] /andP[hp hps]; rewrite /flatten_from /ndim /= IH //=.
by case: (tp_shape p) hp => //= a s _; rewrite drop0.
Qed.

Section EF.
Variables (T C : nat) (kind : loss_kind) (tgt : Y -> nat -> target).
Hypothesis T_gt0 : (0 < T)%N.
Hypothesis C_gt0 : (0 < C)%N.
Hypothesis out_TC : O = (T * C)%N.
Local Notation G := (if is_ce kind then 1%N else C).

Lemma net_size_TC x z : size (net x z) = (T * C)%N.
Proof. by rewrite net_size out_TC. Qed.

(* the elementary losses of the reference: one per loss term (cross-entropy), one
   per entry of the prediction otherwise *)
Definition elem (d : inp X * Y) (t c : nat) (z : point) : R :=
  if is_ce kind then torch_row kind C (prediction_row T C kind net d t z) (tgt d.2 t)
  else torch_row kind 1 [:: nth 0 (net d.1 z) (t * C + c)%N]
         (if tgt d.2 t is TVec v then TVec (fun _ => v c) else tgt d.2 t).

Lemma size_y_flat (data : batch) : size (y_flat T C kind tgt data) = (size data * T * G)%N.
Proof.
rewrite /y_flat; case: ifP => _; first by rewrite size_ys2d muln1.
rewrite -(size_ys2d T tgt data); elim: (ys2d _ _ _) => //= y s IH.
by rewrite size_cat size_mkseq IH mulSn.
Qed.

Lemma size_output_flat (data : batch) z : size (output_flat T C kind net data z) = (size data * T * G)%N.
Proof.
rewrite /output_flat; case: ifP => _; first by rewrite size_mkseq muln1.
by rewrite size_map (Jacobian.size_predict (net := net) net_size) out_TC mulnA.
Qed.

Lemma size_losses red (data : batch) z : size (elementary_losses T C kind tgt red net data z) = (size data * T * G)%N.
Proof. by rewrite /elementary_losses size_map size_zip size_output_flat size_y_flat minnn. Qed.

Lemma nth_losses red (data : batch) z d0 r c : (r < size data * T)%N -> (c < G)%N ->
  nth 0 (elementary_losses T C kind tgt red net data z) (r * G + c) = elem (nth d0 data (r %/ T)) (r %% T) c z.
Proof.
move=> hr hc.
have hs : (r * G + c < size data * T * G)%N.
  by apply: leq_trans (_ : r.+1 * G <= _)%N; [rewrite mulSn addnC ltn_add2r | rewrite leq_mul2r hr orbT].
rewrite /elementary_losses (nth_map (([::] : seq R), TCls 0%N)); last first.
  by rewrite size_zip size_output_flat size_y_flat minnn.
rewrite nth_zip; last by rewrite size_output_flat size_y_flat.
rewrite /elem /output_flat /y_flat; move: hc hs; case: ifP => ce /= hc hs.
  have c0 : c = 0%N by case: c hc {hs}.
  rewrite c0 muln1 addn0 nth_mkseq // (nth_ys2d tgt T_gt0 _ d0) // /loss2d /= big_cons big_nil addr0.
  rewrite take_oversize ?size_mkseq // ce.
  have -> : forall v : R, (match red with RMean => v / 1%:R | _ => v end) = v.
    by move=> v; case: red => //; rewrite divr1.
  congr torch_row; rewrite /prediction_row; apply/eq_in_map => c'; rewrite mem_iota add0n => /andP[_ hc'].
  rewrite (out2dE kind net_size_TC T_gt0 C_gt0 z d0) //.
  by rewrite /term_pos ce; case: (kind) ce.
have hn : (r %/ T < size data)%N by rewrite ltn_divLR.
have h1 : (r * C + c)%N = (r %/ T * O + (r %% T * C + c))%N by rewrite out_TC mulnA addnA -mulnDl -divn_eq.
rewrite (nth_map 0); last by rewrite (Jacobian.size_predict (net := net) net_size) out_TC mulnA.
rewrite {1}h1 (row_of_predict net_size z d0) //; last first.
  rewrite out_TC; apply: leq_trans (_ : (r %% T).+1 * C <= _)%N; last by rewrite leq_mul2r ltn_mod T_gt0 orbT.
  by rewrite mulSn addnC ltn_add2r.
rewrite (@nth_flatten_uniform _ _ _ C) ?size_map ?size_ys2d //; last first.
  by elim: (ys2d _ _ _) => //= y s ->; rewrite size_mkseq eqxx.
rewrite (nth_map (TCls 0%N)) ?size_ys2d // nth_mkseq // (nth_ys2d tgt T_gt0 _ d0) //.
rewrite /loss2d /= big_cons big_nil addr0 ce mul1r.
by case: red => //; rewrite divr1.
Qed.

Lemma elem_sum d t z : target_ok kind C (tgt d.2 t) ->
  \sum_(c < G) elem d t c z = torch_row kind C (prediction_row T C kind net d t z) (tgt d.2 t).
Proof.
rewrite /elem; case: ifP => ce ht; first by rewrite big_ord_recr big_ord0 /= add0r.
rewrite /prediction_row; case: (kind) ce ht => //; case: (tgt d.2 t) => // y _ _ /=.
  by apply: eq_bigr => c _; rewrite /mse_row big_ord_recr big_ord0 /= add0r nth_mkseq.
by apply: eq_bigr => c _; rewrite /bce_row big_ord_recr big_ord0 /= add0r nth_mkseq.
Qed.

Lemma row_ex_pd k n y (pos : nat -> nat) x th i : target_ok k n y ->
  (forall c, (c < n)%N -> ex_pd i (fun z => nth 0 (net x z) (pos c)) th) ->
  ex_pd i (fun z => torch_row k n (mkseq (fun c => nth 0 (net x z) (pos c)) n) y) th.
Proof.
move=> hy hd; pose row z := mkseq (fun c => nth 0 (net x z) (pos c)) n.
have := @torch_row_curve k n y (nth 0 (row th)) hy (fun s => nth 0 (row (upd th i s)))
  (fun c => pd i (fun z => nth 0 (net x z) (pos c)) th) (th i).
rewrite upd_id => /(_ erefl) h; eexists.
apply: (derive_ext _ (h _ _)).
- move=> s; congr torch_row; apply: (@eq_from_nth _ 0); first by rewrite !size_mkseq.
  by move=> c; rewrite size_mkseq => hc; rewrite !nth_mkseq // /row nth_mkseq.
- move=> c hc; apply: derive_ext (Derive_correct _ _ (hd c hc)) => s.
  by rewrite /row nth_mkseq.
by move=> s c hc; rewrite /row !nth_default // size_mkseq.
Qed.

Lemma elem_ex_pd th d t c i : datum_ok T C kind net tgt D th d -> (t < T)%N -> (c < G)%N -> (i < D)%N ->
  ex_pd i (elem d t c) th.
Proof.
case=> ht hd hT hc hi; have ht' := ht t hT; rewrite /elem; move: hc; case: ifP => ce hc.
  apply: (@row_ex_pd kind C _ (fun c => if kind is LCE then c * T + t else t * C + c)%N) => // c' hc'; apply: hd => //.
  have := @term_pos_lt T C kind t c' hT hc'; rewrite /term_pos ce.
  by case: (kind) ce.
apply: (@row_ex_pd kind 1 _ (fun _ => t * C + c)%N).
  by case: (kind) ce ht' => //; case: (tgt d.2 t).
move=> c' _; apply: hd => //.
apply: leq_trans (_ : t.+1 * C <= _)%N; last by rewrite leq_mul2r hT orbT.
by rewrite mulSn addnC ltn_add2r.
Qed.

Lemma elem_grad th d t i : datum_ok T C kind net tgt D th d -> (t < T)%N -> (i < D)%N ->
  \sum_(c < G) pd i (elem d t c) th = loss_term_grad T C kind net tgt d t th i.
Proof.
move=> hd ht hi; rewrite /loss_term_grad.
rewrite -(@pd_ext (fun z => \sum_(c <- index_iota 0 G) elem d t c z)); last first.
  by move=> z; rewrite big_mkord elem_sum //; case: hd => h _; apply: h.
rewrite pd_sum ?big_mkord // /index_iota subn0.
have : forall c, c \in seq.iota 0 G -> (c < G)%N by move=> c; rewrite mem_iota.
elim: (seq.iota _ _) => //= c s IH h; split; first by apply: elem_ex_pd => //; apply: h; rewrite inE eqxx.
by apply: IH => c' hc'; apply: h; rewrite inE hc' orbT.
Qed.

Lemma losses_eq red (d1 d2 : batch) : [seq (modelf d.1, d.2) | d <- d1] = [seq (modelf d.1, d.2) | d <- d2] ->
  elementary_losses T C kind tgt red net d1 = elementary_losses T C kind tgt red net d2.
Proof.
move=> h; apply: functional_extensionality => z; have [e1 e2] := targets_congr h.
rewrite /elementary_losses; congr map; congr zip.
  rewrite /output_flat e2 (pred_eq z h); case: ifP => // _; apply/eq_map => r; apply/eq_map => c.
  by rewrite /out2d (pred_eq z h).
rewrite /y_flat; suff -> : ys2d T tgt d1 = ys2d T tgt d2 by [].
rewrite /ys2d; congr flatten.
have e (d : batch) : [seq mkseq (tgt x.2) T | x <- d] = [seq mkseq (tgt y) T | y <- [seq x.2 | x <- d]].
  by rewrite -map_comp.
by rewrite !e e1.
Qed.

(* C73: functorch_empirical_fisher, for parameters with at least one axis *)
Theorem C73_empirical_fisher red (loader : seq batch) input_key th :
  good_params -> all (fun s => s != [::]) S -> red <> ROther ->
  loader <> [::] -> nonempty loader -> data_ok modelf input_key (flatten loader) ->
  Forall_in (datum_ok T C kind net tgt D th) (flatten loader) ->
  exists A E, [/\ ef_operator T C (Some kind) net tgt red None loader S th = Ok A,
    functorch_empirical_fisher modelf named frozen T C kind tgt red params loader input_key th = Ok E,
    tshape E = [:: D; D], wf E & acts_as A S (entry D (tdata E))].
Proof.
move=> hp hsc hr hl hne hdat hd.
have hS := params_S hp.
have [A eA hA] := @C16_empirical_fisher _ _ T C kind net tgt net_size_TC T_gt0 C_gt0 red None loader S th hS hr hl hne isT hd.
have [dev edev] := one_device hp.
have [data edata hmap] := concat_ok hl hdat.
case: (hp) => hok _ _.
have [_ es] := targets_congr hmap.
have N0 : (0 < size (flatten loader))%N.
  case: (loader) hl hne => //= b bs _ /andP[hb _]; by rewrite size_cat addn_gt0 hb.
set N := size (flatten loader) in es N0.
have NT0 : (0 < N * T)%N by rewrite muln_gt0 N0.
have [J [h1 h2 h3 h4]] := @jacobian_matrix S hS [:: (N * T * G)%N] _
   (fun z => nth 0 (elementary_losses T C kind tgt red net (flatten loader) z)) th erefl.
have hsc' : all (fun p => tp_shape p != [::]) params by move: hsc; rewrite all_map.
have eD : sumn [seq numel (tp_shape p) | p <- params] = D by rewrite /total -map_comp.
have hG : ((if is_ce kind then N * T else N * T * C) %/ (N * T))%N = G.
  by case: ifP => _; [rewrite divnn NT0 | rewrite mulKn].
pose norm : R := match red with RMean => (N * T)%:R | _ => 1 end.
pose summed r i := \sum_(g < G) nth 0 (tdata J) ((r * G + g) * D + i).
pose scaled r i := if ~~ is_ce kind && (if red is RMean then true else false)
                    then summed r i / sqrt (G%:R) else summed r i.
exists A, (Tensor [:: D; D] (mkseq (fun e => (\sum_(r < N * T) scaled r (e %/ D)%N * scaled r (e %% D)%N) / norm) (D * D))).
split=> //.
- rewrite /functorch_empirical_fisher edev edata !bind_Ok make_params_dictE // bind_Ok.
  rewrite functional_netE // /func_jacrev dict_paramsE (losses_eq red hmap) size_losses -/N es.
  rewrite (@flatten_ef (N * T * G) (fun z => nth 0 (elementary_losses T C kind tgt red net (flatten loader) z))) ?size_names // bind_Ok h1 bind_Ok eD.
  have -> : (N * T == 0)%N = false by rewrite eqn0Ngt NT0.
  rewrite [raise_if false _]/= bind_Ok hG /treshape.
  have -> : numel [:: (N * T)%N; G; D] == size (tdata J).
    by move: h3; rewrite /wf h2 /= => /eqP ->; rewrite !muln1 mulnA.
  by rewrite bind_Ok [tdata (Tensor _ _)]/= /norm /scaled /summed; case: (red) hr.
- by rewrite /wf /= size_mkseq muln1.
apply: acts_as_ext hA _ => i j hi hj.
have hsum r k : (r < N * T)%N -> (k < D)%N -> forall d0,
    summed r k = loss_term_grad T C kind net tgt (nth d0 (flatten loader) (r %/ T)) (r %% T) th k.
  move=> hr' hk d0; rewrite -elem_grad ?ltn_mod //; last first.
    have hn : (r %/ T < N)%N by rewrite ltn_divLR.
    elim: (flatten loader) (r %/ T)%N @N hn hd {NT0 N0 es h1 h2 h3 h4 hG norm summed scaled hr'} => // d l IH [|n] /= hn [] // hd0 hd1.
    exact: IH.
  apply: eq_bigr => g _.
  have := h4 (r * G + g)%N k _ hk; rewrite /entry => ->; last first.
    rewrite /= muln1; apply: leq_trans (_ : r.+1 * G <= _)%N; last by rewrite leq_mul2r hr' orbT.
    by rewrite mulSn addnC ltn_add2r.
  by apply: pd_ext => z; apply: nth_losses.
rewrite /entry nth_mkseq; last first.
  by apply: leq_trans (_ : i.+1 * D <= _)%N; [rewrite mulSn addnC ltn_add2r | rewrite leq_mul2r hi orbT].
have D0 : (0 < D)%N by apply: leq_ltn_trans hi.
rewrite divnMDl // (divn_small hj) addn0 modnMDl (modn_small hj).
have [d0 _] : exists d0 : inp X * Y, True by case: (flatten loader) @N N0 {hd hdat hmap h1 h2 h3 h4 es NT0 hG norm summed scaled hsum} => // d0 s _ _; exists d0.
have -> : \sum_(r < N * T) scaled r i * scaled r j =
   (if ~~ is_ce kind && (if red is RMean then true else false) then C%:R^-1 else 1) *
   \sum_(d <- flatten loader) \sum_(t < T) loss_term_grad T C kind net tgt d t th i * loss_term_grad T C kind net tgt d t th j.
  rewrite -(@sum_terms _ _ T T_gt0 (flatten loader) d0
    (fun d t => loss_term_grad T C kind net tgt d t th i * loss_term_grad T C kind net tgt d t th j)) mulr_sumr.
  apply: eq_bigr => r _; rewrite /scaled (hsum r i _ _ d0) // (hsum r j _ _ d0) //.
  case: ifP => [/andP[ce _]|_]; last by rewrite mul1r.
  rewrite (negPf ce).
  have hc : rlt 0 C%:R by rewrite Calculus.natrE; apply: lt_0_INR; apply/ltP.
  have hq : sqrt C%:R * sqrt C%:R = C%:R by apply: sqrt_sqrt; left.
  rewrite -[in RHS]hq; set a := loss_term_grad _ _ _ _ _ _ _ _ i; set b := loss_term_grad _ _ _ _ _ _ _ _ j.
  by rewrite invfM; set q := (sqrt _)^-1; toR; ring.
rewrite /ef_matrix /terms_over -/N /norm; set Q := \sum_(d <- _) _.
case: (red) hr => // _ /=; rewrite ?andbF ?andbT; last by rewrite divr1.
have e : (N * T * C)%:R^-1 = (N * T)%:R^-1 * C%:R^-1 :> R by rewrite natrM invfM mulrC.
case: (kind) => /=; rewrite ?e; last by rewrite [in RHS]mulrC mulrA.
  by rewrite [in RHS]mulrC mulrA.
by rewrite mul1r mulrC.
Qed.

(* the reference fails for a parameter without axes: flatten(start_dim=1) *)
Theorem C73_empirical_fisher_scalar_refuted red (loader : seq batch) input_key th :
  good_params -> has (fun s => s == [::]) S -> loader <> [::] -> data_ok modelf input_key (flatten loader) ->
  functorch_empirical_fisher modelf named frozen T C kind tgt red params loader input_key th = Err IndexError.
Proof.
move=> hp hsc hl hdat.
have [dev edev] := one_device hp.
have [data edata hmap] := concat_ok hl hdat.
case: (hp) => hok _ _.
rewrite /functorch_empirical_fisher edev edata !bind_Ok make_params_dictE // bind_Ok.
rewrite functional_netE // /func_jacrev dict_paramsE.
pose F z := nth 0 (elementary_losses T C kind tgt red net data z).
set K := size _.
suff H : forall ns ps o, size ns = size ps -> has (fun s => s == [::]) [seq tp_shape p | p <- ps] ->
  mapM (fun j : nat * tensor R => flatten_from 1 j.2)
   [seq (a.1, Tensor ([:: K] ++ pshape a.2)
     (mkseq (fun e => pd (poff a.2 + e %% numel (pshape a.2)) (fun z => F z (e %/ numel (pshape a.2)))%N th)
            (numel [:: K] * numel (pshape a.2)))) | a <- zip ns (pack o [seq tp_shape p | p <- ps])] = Err IndexError.
  by rewrite (H (names named params) params 0%N (size_names _ _) hsc).
elim=> [|n ns IH] [|p ps] o //= [hs]; rewrite /flatten_from /ndim /=.
by case: (tp_shape p) => //= a s h; rewrite (IH _ _ hs h).
Qed.
End EF.

Lemma flatten_jac_scalar (pre : seq nat) (F : point -> nat -> R) th ns ps o js : size ns = size ps ->
  has (fun s => s == [::]) [seq tp_shape p | p <- ps] ->
  mapM (fun jp : (nat * tensor R) * (nat * tparam) => flatten_from_back (size (tp_shape jp.2.2)) jp.1.2)
   (zip [seq (a.1, Tensor (pre ++ pshape a.2)
     (mkseq (fun e => pd (poff a.2 + e %% numel (pshape a.2)) (fun z => F z (e %/ numel (pshape a.2)))%N th)
            (numel pre * numel (pshape a.2)))) | a <- zip ns (pack o [seq tp_shape p | p <- ps])] (zip ns ps)) = Ok js ->
  has (fun t => lead (tshape t) == [::]) js.
Proof.
elim: ns ps o js => [|n ns IH] [|p ps] o js //= [hs].
case/orP=> [/eqP e|h].
  rewrite e {1}/flatten_from_back /= /flatten_from leq_max /= take0 drop0 /=.
  by case: (mapM _ _) => //= js' [<-].
case: (flatten_from_back _ _) => //= t.
set M := mapM _ _; case E : M => [js'|] //= [<-] /=; apply/orP; right.
exact: (IH ps _ js' hs h E).
Qed.

(* the reference fails for a parameter without axes: flatten(start_dim=-0) merges
   the axes of the output as well *)
Theorem C73_jacobian_scalar_refuted (loader : seq batch) input_key th :
  good_params -> has (fun s => s == [::]) S -> loader <> [::] -> data_ok modelf input_key (flatten loader) ->
  exists e, functorch_jacobian so modelf named frozen params loader input_key th = Err e.
Proof.
move=> hp hsc hl hdat.
have [dev edev] := one_device hp.
have [data edata hmap] := concat_ok hl hdat.
case: (hp) => hok _ _.
rewrite /functorch_jacobian edev edata !bind_Ok make_params_dictE // bind_Ok.
rewrite functional_netE // /func_jacrev dict_paramsE.
set M := mapM _ _; case E : M => [js|e]; last by exists e.
rewrite bind_Ok.
have hjs : has (fun t => lead (tshape t) == [::]) js.
  exact: (@flatten_jac_scalar (size data :: so) (fun z => nth 0 (predict net data z)) th (names named params) params 0%N js (size_names _ _) hsc E).
case Ec : (cat_last js) => [t|e]; last by exists e.
exists IndexError; rewrite bind_Ok /flatten_to_rows.
suff -> : (ndim t < 2)%N by [].
move: hjs Ec; rewrite /cat_last; case: js {E} => // t0 js hjs; case: ifP => // hall [<-].
rewrite /ndim /= size_rcons ltnS ltnNge -ltnNge.
have : lead (tshape t0) = [::].
  elim: (t0 :: js) hjs hall => //= t' js' IH /orP[/eqP h|h] /andP[/andP[_ /eqP h'] hall]; first by rewrite -h' h.
  exact: IH.
by move=> ->.
Qed.

(* the references fail for a parameter without elements: reshape(0, -1) *)
Theorem C73_empty_parameter_refuted lossd red (loader : seq batch) input_key th :
  good_params -> has (fun s => numel s == 0)%N S -> loader <> [::] -> data_ok modelf input_key (flatten loader) ->
  (exists e, functorch_hessian so modelf named frozen int_sqrt lossd red params loader input_key th = Err e) /\
  (exists e, functorch_ggn so modelf named frozen int_sqrt lossd red params loader input_key th = Err e).
Proof.
move=> hp hz hl hdat.
have [dev edev] := one_device hp.
have [data edata hmap] := concat_ok hl hdat.
case: (hp) => hok _ _.
have main L : exists e, blocks_to_matrix int_sqrt (func_hessian (zip (names named params) params) L th) = Err e.
  case E : (blocks_to_matrix _ _) => [t|e]; last by exists e.
  have := @hessian_matrix_empty (names named params) S
    (etrans (size_names named params) (esym (size_map tp_shape params))) (names_uniq hok) int_sqrt L th (int_sqrt_ok 0) hz t.
  by rewrite -dict_paramsE -[X in X <> _]/(blocks_to_matrix int_sqrt (func_hessian _ _ _)) E.
by split; rewrite /functorch_hessian /functorch_ggn edev edata !bind_Ok make_params_dictE // bind_Ok; apply: main.
Qed.
End Props.

Print Assumptions C73_hessian.
Print Assumptions C73_gradient_and_loss.
Print Assumptions C73_ggn.
Print Assumptions C73_jacobian.
Print Assumptions C73_empirical_fisher.
Print Assumptions C73_empirical_fisher_scalar_refuted.
Print Assumptions C73_jacobian_scalar_refuted.
Print Assumptions C73_empty_parameter_refuted.

(* the hypotheses are met by linear regression with two parameters, in two batches *)
Module FEx.
Definition model (x : inp R) (e : nat -> seq R) : seq R :=
  match x with Plain x => [:: x * nth 0 (e 10%N) 0 + nth 0 (e 11%N) 0] | Dict _ => [:: 0] end.
Definition named := [:: (10, 7); (11, 8)]%N.
Definition frozen (n : nat) : seq R := [::].
Definition params := [:: TParam 8 0 [:: 1]; TParam 7 0 [:: 1]]%N.
Definition tgt (y : R) (t : nat) : target := TVec (fun _ => y).
Definition lossd (s : seq R) (y : R) : R := torch_row LMSE 1 s (tgt y 0).
Definition loader : seq (seq (inp R * R)) := [:: [:: (Plain (IZR 2), IZR 5); (Plain (IZR 3), IZR 7)]; [:: (Plain (IZR 4), IZR 1)]].
Local Notation net := (module_net model named frozen params).
Local Notation S := [seq tp_shape p | p <- params].

Lemma model_size x e : size (model x e) = numel [:: 1%N].
Proof. by case: x. Qed.
Lemma good : good_params named params.
Proof. by split=> //; exists 0%N. Qed.
Lemma netE x z : net (Plain x) z = [:: x * z 1%N + z 0%N].
Proof. by []. Qed.
Lemma data : data_ok model None (flatten loader).
Proof. by left. Qed.
Lemma sqrt_ok d : Nat.sqrt (d * d) = d.
Proof. exact: PeanoNat.Nat.sqrt_square. Qed.
Lemma diff x th i a : ex_pd i (fun z => nth 0 (net (Plain x) z) a) th.
Proof.
case: a => [|[|a]]; last 2 first.
- by exists 0; apply: (derive_ext (f := fun=> 0)) => //; exact: is_derive_const.
- by exists 0; apply: (derive_ext (f := fun=> 0)) => //; exact: is_derive_const.
exists (x * (i == 1%N)%:R + (i == 0%N)%:R).
apply: (derive_ext (f := fun t => Rplus (x * upd th i t 1%N) (upd th i t 0%N))) => //.
have h k : is_derive (fun t => upd th i t k) (th i) ((i == k)%:R).
  rewrite /upd [k == i]eq_sym; case: eqP => _; [exact: is_derive_id | exact: is_derive_const].
by apply: (@is_derive_plus _ R_NormedModule) => //; apply: is_derive_scal.
Qed.
Lemma dok th : Forall_in (datum_ok 1 1 LMSE net tgt 2 th) (flatten loader).
Proof. by rewrite /=; do !split=> // *; exact: diff. Qed.
Lemma smooth th : Forall_in (fun d => loss_smooth 1 (fun f => lossd (mkseq f 1) d.2) (nth 0 (net d.1 th))) (flatten loader).
Proof. by rewrite /=; do !split; exact: (@torch_loss_smooth LMSE 1). Qed.
Lemma twice th : Forall_in (fun d => twice_diff 2 (fun z => lossd (net d.1 z) d.2) th) (flatten loader).
Proof.
have h x y : twice_diff 2 (fun z => lossd (net (Plain x) z) y) th.
  have [g [h [h1 h2]]] := smooth_hess (@torch_loss_smooth LMSE 1 (tgt y 0) (nth 0 (net (Plain x) th)) I).
  have := @affine_twice_diff 1 2 (fun f => lossd (mkseq f 1) y) g h (fun _ j => if j is 0%N then 1 else x)
     (nth 0 (net (Plain x) th)) th h1 h2.
  congr twice_diff; apply: functional_extensionality => z; congr lossd; rewrite netE /mkseq /=; congr [:: _].
  rewrite -[RHS]/(x * z 1%N + z 0%N) /affine !big_ord_recr big_ord0 /=; toR; ring.
by rewrite /=; do 3! (split; first exact: h).
Qed.


Lemma mean_ok : RMean <> ROther. Proof. by []. Qed.
Lemma loader_ok : loader <> [::]. Proof. by []. Qed.

Example hessian_case th : exists A H, [/\ hessian_operator 1 net lossd RMean None loader S None th = Ok A,
  functorch_hessian [:: 1%N] model named frozen Nat.sqrt lossd RMean params loader None th = Ok H,
  tshape H = [:: 2; 2]%N, wf H & acts_as A S (entry 2 (tdata H))].
Proof. exact (C73_hessian model_size sqrt_ok good isT mean_ok loader_ok isT data (@twice th)). Qed.
Example ggn_case th : exists A G, [/\ ggn_operator 1 net lossd RMean None loader S None th = Ok A,
  functorch_ggn [:: 1%N] model named frozen Nat.sqrt lossd RMean params loader None th = Ok G,
  tshape G = [:: 2; 2]%N, wf G & acts_as A S (entry 2 (tdata G))].
Proof. exact (C73_ggn model_size sqrt_ok good isT mean_ok loader_ok isT data (@smooth th)). Qed.
Example ef_case th : exists A E, [/\ ef_operator 1 1 (Some LMSE) net tgt RMean None loader S th = Ok A,
  functorch_empirical_fisher model named frozen 1 1 LMSE tgt RMean params loader None th = Ok E,
  tshape E = [:: 2; 2]%N, wf E & acts_as A S (entry 2 (tdata E))].
Proof. exact (@C73_empirical_fisher R R [:: 1%N] model model_size named frozen params 1 1 LMSE tgt isT isT erefl RMean loader None th good isT mean_ok loader_ok isT data (@dok th)). Qed.
Example jacobian_case th : exists A J, jac_init [:: 1%N] net S th Jac None loader = Ok A /\
  functorch_jacobian [:: 1%N] model named frozen params loader None th = Ok J.
Proof. by have [|A [J [h1 h2 _ _ _]]] := @C73_jacobian R R [:: 1%N] model model_size named frozen params loader None th good isT _ data; [|exists A, J]. Qed.
Example grad_case th : exists g l, gradient_and_loss 1 net lossd true RMean None loader S th = Ok (g, l) /\
  functorch_gradient_and_loss [:: 1%N] model named frozen lossd RMean params loader None th = Ok (g, l).
Proof.
have := @C73_gradient_and_loss R R [:: 1%N] model model_size named frozen params lossd RMean loader None th good mean_ok loader_ok isT data.
apply; have h := @twice th; apply: Forall_in_impl h => d h i hi.
by have [h' _] := h i i hi hi; have := locally_singleton _ _ h'; rewrite upd_id.
Qed.
(* a bias without axes *)
Definition params0 := [:: TParam 8 0 [::]; TParam 7 0 [:: 1]]%N.
Example scalar_case : good_params named params0 /\ has (fun s => s == [::]) [seq tp_shape p | p <- params0].
Proof. by split=> //; split=> //; exists 0%N. Qed.
End FEx.
