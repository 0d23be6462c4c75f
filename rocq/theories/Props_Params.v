(* C80: operators for some of the parameters, or for the parameters in another
   order, are sub-matrices of the operator for all of them. *)
From Coq Require Import Reals Lra Permutation.
From Coquelicot Require Import Coquelicot.
From mathcomp Require Import all_ssreflect all_algebra.
From Verif Require Import PyPrelude Tensor Spec TorchBase Numpy Submatrix Scipy RInst Calculus Curvature HessGGN Risk Losses Fisher FisherMC FisherExp CurvOps Jacobian OpSpec Export Props_Curv Props_Fisher Props_Jac ParamSubset.
Set Implicit Arguments.
Unset Strict Implicit.
Unset Printing Implicit Defensive.
Import GRing.Theory.
Local Open Scope ring_scope.

Section HessianGGN.
Variables (X Y : Type) (O : nat) (net : X -> point -> seq R) (lossd : seq R -> Y -> R).
Hypothesis net_size : forall x th, size (net x th) = O.
Local Notation batch := (seq (X * Y)).
(* all parameters and their values; the chosen ones *)
Variables (S : seq (seq nat)) (sel : seq nat) (th : point).
Hypothesis hsel : sublist S sel.
(* the network as a function of the chosen parameters: torch.autograd.grad treats the
   parameters that are not in the list given to the operator (_torch_base.py 404-508)
   as constants *)
Definition sub_net (x : X) (z : point) : seq R := net x (embed S sel th z).
Local Notation S' := (sub_shapes S sel).
Local Notation th' := (chosen S sel th).
Local Notation at_ := (coord S sel).
Local Notation coord_lt := (coord_lt hsel).

Lemma sub_net_size x z : size (sub_net x z) = O.
Proof. exact: net_size. Qed.

Theorem C80_hessian red num_data (loader : seq batch) :
  S <> [::] -> red <> ROther -> loader <> [::] -> nonempty loader ->
  (if num_data is Some n then 0 < n else true)%N ->
  Forall_in (fun d => twice_diff (total S) (fun z => lossd (net d.1 z) d.2) th) (flatten loader) ->
  exists A B M, [/\ hessian_operator O net lossd red num_data loader S None th = Ok A,
    hessian_operator O sub_net lossd red num_data loader S' None th' = Ok B,
    acts_as A S M & acts_as B S' (fun i j => M (at_ i) (at_ j))].
Proof.
move=> hS hr hl hne hn hd.
have [A eA hA] := C14_hessian_of_empirical_risk net_size hS hr hl hne hn hd.
have hd' : Forall_in (fun d => twice_diff (total S') (fun z => lossd (sub_net d.1 z) d.2) th') (flatten loader).
  apply: Forall_in_impl hd => d h; apply: (twice_diff_embed hsel (F := fun z => lossd (net d.1 z) d.2)).
  by rewrite embed_chosen.
have [B eB hB] := C14_hessian_of_empirical_risk sub_net_size (sub_shapes_neq0 hsel) hr hl hne hn hd'.
exists A, B; eexists; split; [by []|by []|exact: hA|].
apply: acts_as_ext hB _ => i j hi hj; rewrite /risk_hessian.
rewrite (pd2_embed hsel th (fun z => mean_over red num_data loader * \sum_(d <- flatten loader) lossd (net d.1 z) d.2)) //.
by rewrite embed_chosen.
Qed.

Theorem C80_ggn red num_data (loader : seq batch) :
  S <> [::] -> red <> ROther -> loader <> [::] -> nonempty loader ->
  (if num_data is Some n then 0 < n else true)%N ->
  exists A B M, [/\ ggn_operator O net lossd red num_data loader S None th = Ok A,
    ggn_operator O sub_net lossd red num_data loader S' None th' = Ok B,
    acts_as A S M & acts_as B S' (fun i j => M (at_ i) (at_ j))].
Proof.
move=> hS hr hl hne hn.
have [A eA hA] := C15_ggn_of_empirical_risk lossd net_size th hS hr hl hne hn.
have [B eB hB] := C15_ggn_of_empirical_risk lossd sub_net_size th' (sub_shapes_neq0 hsel) hr hl hne hn.
exists A, B; eexists; split; [by []|by []|exact: hA|].
apply: acts_as_ext hB _ => i j hi hj; rewrite /ggn_matrix.
congr (_ * _); apply: eq_bigr => d _; apply: eq_bigr => a _; apply: eq_bigr => b _.
have J o k : (k < total S')%N -> jac_entry sub_net d th' o k = jac_entry net d th o (at_ k).
  by move=> hk; rewrite /jac_entry (pd_embed hsel th (fun z => nth 0 (net d.1 z) o)) // embed_chosen.
by rewrite !J // /loss_hessian /sub_net embed_chosen.
Qed.

Theorem C80_gradient red num_data (loader : seq batch) :
  red <> ROther -> loader <> [::] -> nonempty loader ->
  (if num_data is Some n then 0 < n else true)%N ->
  Forall_in (fun d => forall i, (i < total S)%N -> ex_pd i (fun z => lossd (net d.1 z) d.2) th) (flatten loader) ->
  exists g g' l, [/\ gradient_and_loss O net lossd true red num_data loader S th = Ok (g, l),
    gradient_and_loss O sub_net lossd true red num_data loader S' th' = Ok (g', l),
    [seq tshape t | t <- g'] = S' &
    forall i, (i < total S')%N -> nth 0 (flat g') i = nth 0 (flat g) (at_ i)].
Proof.
move=> hr hl hne hn hd.
have [g [e1 e2 e3 e4]] := C20_gradient_and_loss net_size hr hl hne hn hd.
have hd' : Forall_in (fun d => forall i, (i < total S')%N -> ex_pd i (fun z => lossd (sub_net d.1 z) d.2) th') (flatten loader).
  apply: Forall_in_impl hd => d h i hi; apply: (ex_pd_embed hsel (F := fun z => lossd (net d.1 z) d.2)) => //.
  by rewrite embed_chosen; apply: h; exact: coord_lt.
have [g' [f1 f2 f3 f4]] := C20_gradient_and_loss sub_net_size hr hl hne hn hd'.
exists g, g', (mean_over red num_data loader * \sum_(d <- flatten loader) lossd (net d.1 th) d.2); split=> //.
  by rewrite f1 /sub_net embed_chosen.
move=> i hi; rewrite f4 // e4 ?coord_lt //.
rewrite (pd_embed hsel th (fun z => mean_over red num_data loader * \sum_(d <- flatten loader) lossd (net d.1 z) d.2)) //.
by rewrite embed_chosen.
Qed.
End HessianGGN.
Print Assumptions C80_hessian.
Print Assumptions C80_ggn.
Print Assumptions C80_gradient.

Section Fisher.
Variables (X Y : Type) (T C : nat) (kind : loss_kind) (net : X -> point -> seq R) (tgt : Y -> nat -> target).
Hypothesis net_size : forall x th, size (net x th) = (T * C)%N.
Hypothesis T_gt0 : (0 < T)%N.
Hypothesis C_gt0 : (0 < C)%N.
Local Notation batch := (seq (X * Y)).
Variables (S : seq (seq nat)) (sel : seq nat) (th : point).
Hypothesis hsel : sublist S sel.
Local Notation sub_net := (sub_net net S sel th).
Local Notation S' := (sub_shapes S sel).
Local Notation th' := (chosen S sel th).
Local Notation at_ := (coord S sel).
Local Notation coord_lt := (coord_lt hsel).

Theorem C80_empirical_fisher red num_data (loader : seq batch) :
  S <> [::] -> red <> ROther -> loader <> [::] -> nonempty loader ->
  (if num_data is Some n then 0 < n else true)%N ->
  Forall_in (datum_ok T C kind net tgt (total S) th) (flatten loader) ->
  exists A B M, [/\ ef_operator T C (Some kind) net tgt red num_data loader S th = Ok A,
    ef_operator T C (Some kind) sub_net tgt red num_data loader S' th' = Ok B,
    acts_as A S M & acts_as B S' (fun i j => M (at_ i) (at_ j))].
Proof.
move=> hS hr hl hne hn hd.
have [A eA hA] := C16_empirical_fisher net_size T_gt0 C_gt0 hS hr hl hne hn hd.
have hd' : Forall_in (datum_ok T C kind sub_net tgt (total S') th') (flatten loader).
  apply: Forall_in_impl hd => d [h1 h2]; split=> // i a hi ha.
  by apply: (ex_pd_embed hsel (F := fun z => nth 0 (net d.1 z) a)) => //; rewrite embed_chosen; apply: h2 => //; exact: coord_lt.
have [B eB hB] := C16_empirical_fisher (sub_net_size net_size S sel th) T_gt0 C_gt0 (sub_shapes_neq0 hsel) hr hl hne hn hd'.
exists A, B; eexists; split; [by []|by []|exact: hA|].
apply: acts_as_ext hB _ => i j hi hj; rewrite /ef_matrix.
have G d t k : (k < total S')%N -> loss_term_grad T C kind sub_net tgt d t th' k = loss_term_grad T C kind net tgt d t th (at_ k).
  move=> hk; rewrite /loss_term_grad (pd_embed hsel th (fun z => torch_row kind C (prediction_row T C kind net d t z) (tgt d.2 t))) //.
  by rewrite embed_chosen.
by congr (_ * _); apply: eq_bigr => d _; apply: eq_bigr => t _; rewrite !G.
Qed.
End Fisher.
Print Assumptions C80_empirical_fisher.

Section MC.
Variables (G : Type).
Variable normal_o : G -> nat -> (nat -> R) * G.
Variable multinomial_o : G -> nat -> nat -> (nat -> nat -> R) -> nat -> (nat -> nat -> nat) * G.
Variable bernoulli_o : G -> nat -> (nat -> R) -> (nat -> bool) * G.
Variables (dev : Type) (dev_eq : dev -> dev -> bool) (seed_gen : dev -> G).
Hypothesis dev_eqP : forall d d', dev_eq d d' -> d = d'.
Variables (X Y : Type) (T C : nat) (kind : loss_kind) (net : X -> point -> seq R) (tgt : Y -> nat -> target).
Hypothesis net_size : forall x th, size (net x th) = (T * C)%N.
Hypothesis T_gt0 : (0 < T)%N.
Hypothesis C_gt0 : (0 < C)%N.
Local Notation batch := (seq (X * Y)).
Variables (red : reduction) (num_data : option nat) (loader : seq batch) (samples : nat).
Variables (S : seq (seq nat)) (sel : seq nat) (th : point).
Hypothesis hsel : sublist S sel.
Local Notation sub_net := (sub_net net S sel th).
Local Notation S' := (sub_shapes S sel).
Local Notation th' := (chosen S sel th).
Local Notation at_ := (coord S sel).
Local Notation coord_lt := (coord_lt hsel).
Local Notation mc_op net S th s :=
  (mc_operator normal_o multinomial_o bernoulli_o dev_eq seed_gen T C kind net tgt red num_data loader S th samples s).

(* whatever the two objects did before, as long as they are on the same device (and
   have the same seed) *)
Theorem C80_monte_carlo_fisher (s s' : mc_state G dev) : st_dev s = st_dev s' ->
  S <> [::] -> red <> ROther -> loader <> [::] -> nonempty loader ->
  (if num_data is Some n then 0 < n else true)%N -> (0 < samples)%N -> binary_labels_ok T C kind tgt loader ->
  exists2 M, acts_as (mc_op net S th s) S M &
    acts_as (mc_op sub_net S' th' s') S' (fun i j => M (at_ i) (at_ j)).
Proof.
move=> es hS hr hl hne hn hs hb.
have hA := C17_monte_carlo_fisher normal_o multinomial_o bernoulli_o seed_gen dev_eqP net_size T_gt0 C_gt0 th s hS hr hl hne hn hs hb.
have hB := C17_monte_carlo_fisher normal_o multinomial_o bernoulli_o seed_gen dev_eqP (sub_net_size net_size S sel th) T_gt0 C_gt0 th' s'
  (sub_shapes_neq0 hsel) hr hl hne hn hs hb.
eexists; first exact: hA.
apply: acts_as_ext hB _ => i j hi hj; rewrite -es.
have -> g : mc_draws normal_o multinomial_o bernoulli_o T C kind sub_net tgt th' samples g loader =
  mc_draws normal_o multinomial_o bernoulli_o T C kind net tgt th samples g loader.
  elim: (loader) g => //= b l IH g; rewrite /batch_draw.
  have -> : out2d T C kind sub_net b th' = out2d T C kind net b th.
    by rewrite /out2d /predict /sub_net embed_chosen.
  by case: sample_grad_output => -[w|e] g' //; rewrite IH.
have P d t w k : (k < total S')%N -> pulled_back T C kind sub_net th' d t w k = pulled_back T C kind net th d t w (at_ k).
  move=> hk; apply: eq_bigr => c _; congr (_ * _).
  by rewrite (pd_embed hsel th (pred_entry T C kind net d t c)) // embed_chosen.
rewrite /mc_matrix; congr (_ * _); apply: eq_bigr => bw _; apply: eq_bigr => n _; apply: eq_bigr => t _.
by case: ohead => // d; congr (_ * _); apply: eq_bigr => m _; rewrite !P.
Qed.
End MC.
Print Assumptions C80_monte_carlo_fisher.

Section Jac.
Variables (X Y : Type) (so : seq nat) (net : X -> point -> seq R).
Hypothesis net_size : forall x th, size (net x th) = numel so.
Local Notation batch := (seq (X * Y)).
Local Notation O := (numel so).
Variables (S : seq (seq nat)) (sel : seq nat) (th : point).
Hypothesis hsel : sublist S sel.
Local Notation sub_net := (sub_net net S sel th).
Local Notation S' := (sub_shapes S sel).
Local Notation th' := (chosen S sel th).
Local Notation at_ := (coord S sel).
Local Notation coord_lt := (coord_lt hsel).

(* A multiplies vectors and matrices on the space Sin (with at least k0 columns)
   with M, results on the space Sout *)
Definition acts_between (k0 : nat) (A : linop R) (Sin Sout : seq (seq nat)) (M : nat -> nat -> R) : Prop :=
  op_shape A = (total Sout, total Sin) /\
  forall l cols (V : pyval R), has_format Sin l cols V -> (k0 <= ncols cols)%N ->
  exists W, [/\ op_matmul A V = Ok W, has_format Sout l cols W &
    is_product M (total Sout) (total Sin) (ncols cols) (content V) (content W)].

Lemma sum_blocks N P (f : nat -> R) : \sum_(n < N) \sum_(c < P) f (n * P + c)%N = \sum_(r < N * P) f r.
Proof.
elim: N => [|N IH]; first by rewrite mul0n !big_ord0.
rewrite big_ord_recr IH mulSn addnC /= -!(big_mkord predT f) -(big_mkord predT (fun c => f (N * P + c)%N)).
rewrite (big_cat_nat _ _ _ (leq0n _) (leq_addr P (N * P))) /=; congr (_ + _).
by rewrite -{2}[(N * P)%N]addn0 addnC (big_addn 0) addKn; apply: eq_bigr => c _; rewrite addnC.
Qed.

(* columns of the Jacobian, rows of its transpose *)
Theorem C80_jacobian num_data (loader : seq batch) : S <> [::] -> (0 < O)%N -> flatten loader <> [::] -> right_num_data num_data loader ->
  let Sout := [:: size (flatten loader) :: so] in
  exists A AT B BT M, [/\
    [/\ jac_init so net S th Jac num_data loader = Ok A & jac_init so net S th JacT num_data loader = Ok AT],
    [/\ jac_init so sub_net S' th' Jac num_data loader = Ok B & jac_init so sub_net S' th' JacT num_data loader = Ok BT],
    acts_between 1 A S Sout M /\ acts_between 0 AT Sout S (fun i j => M j i) &
    acts_between 1 B S' Sout (fun r j => M r (at_ j)) /\ acts_between 0 BT Sout S' (fun i r => M r (at_ i))].
Proof.
move=> hS hO hd hN Sout; have hl : loader <> [::] by move=> e; apply: hd; rewrite e.
have tE : total Sout = (size (flatten loader) * O)%N by rewrite /total /= addn0.
have [d0 _] : exists d0 : X * Y, True by case: (flatten loader) hd => // d; exists d.
have [A eA [sA hA]] := C23_jacobian net_size th hS hl hN.
have [AT eAT [sAT hAT]] := C23_transposed_jacobian net_size th hS hl hN.
have hS' := sub_shapes_neq0 hsel.
have [B eB [sB hB]] := C23_jacobian (sub_net_size net_size S sel th) th' hS' hl hN.
have [BT eBT [sBT hBT]] := C23_transposed_jacobian (sub_net_size net_size S sel th) th' hS' hl hN.
pose M (r j : nat) : R := datum_jac net th d0 (flatten loader) (r %/ O) (r %% O) j.
have ME n c j : (c < O)%N -> datum_jac net th d0 (flatten loader) n c j = M (n * O + c)%N j.
  by move=> hc; rewrite /M divnMDl // (divn_small hc) addn0 modnMDl (modn_small hc).
have ME' n c j : (c < O)%N -> (j < total S')%N ->
    datum_jac sub_net th' d0 (flatten loader) n c j = M (n * O + c)%N (at_ j).
  move=> hc hj; rewrite -ME // /datum_jac.
  by rewrite (pd_embed hsel th (fun z => nth 0 (net (nth d0 (flatten loader) n).1 z) c)) // embed_chosen.
exists A, AT, B, BT, M; rewrite /acts_between !tE; split=> //; split; split=> //.
- move=> l cols V hV hk; have [W [w1 w2 w3]] := hA l cols V hV hk; exists W; split=> // r k hr hk'.
  rewrite {1}(divn_eq r O) (w3 d0) ?ltn_divLR ?ltn_mod //.
- move=> l cols V hV hk; have [W [w1 w2 w3]] := hAT l cols V hV; exists W; split=> // i k hi hk'.
  rewrite -(sum_blocks _ _ (fun r => M r i * entry (ncols cols) (content V) r k)) (w3 d0) //.
  by apply: eq_bigr => n _; apply: eq_bigr => c _; rewrite ME.
- move=> l cols V hV hk; have [W [w1 w2 w3]] := hB l cols V hV hk; exists W; split=> // r k hr hk'.
  rewrite {1}(divn_eq r O) (w3 d0) ?ltn_divLR ?ltn_mod //.
  by apply: eq_bigr => j _; rewrite ME' ?ltn_mod // -divn_eq.
- move=> l cols V hV hk; have [W [w1 w2 w3]] := hBT l cols V hV; exists W; split=> // i k hi hk'.
  rewrite -(sum_blocks _ _ (fun r => M r (at_ i) * entry (ncols cols) (content V) r k)) (w3 d0) //.
  by apply: eq_bigr => n _; apply: eq_bigr => c _; rewrite ME'.
Qed.
End Jac.
Print Assumptions C80_jacobian.

(* Through SciPy: if A (all parameters) and B (some of them) are related as above,
   then the sub-matrix operator that takes the entries of the chosen parameters out
   of the export of A multiplies vectors, and matrices with at least two columns,
   exactly like the export of B.  (With one column the sub-matrix operator raises,
   C10_single_column_refuted.) *)
Theorem C80_submatrix trunc S sel (A B : linop R) M : sublist S sel ->
  acts_as A S M -> acts_as B (sub_shapes S sel) (fun i j => M (coord S sel i) (coord S sel j)) ->
  let n := total (sub_shapes S sel) in
  let idx := [seq PInt c%:Z | c <- coords S sel] in
  exists2 o, submat_init (exported trunc A) (exported trunc A) idx idx = Ok o &
    [/\ sp_rows (submat_op o) = sp_rows (exported trunc B), sp_cols (submat_op o) = sp_cols (exported trunc B) &
    forall x : tensor R, wf x -> tshape x = [:: n] \/ (exists2 K, (1 < K)%N & tshape x = [:: n; K]) ->
      sp_dot (submat_op o) x = sp_dot (exported trunc B) x /\
      exists y, sp_dot (submat_op o) x = Ok y].
Proof.
move=> hsel /(exported_acts trunc) [[rA cA] vA _ _ _] /(exported_acts trunc) [[rB cB] vB _ mB _] n idx.
have hv m : m = total S -> valid_indices m idx.
  move=> ->; split; first by rewrite all_map; apply/allP.
    by rewrite -map_comp map_inj_uniq ?coords_uniq // => a b [].
  rewrite all_map; apply/allP => c hc /=.
  have h : all (fun k => k < size S)%N sel by case/and3P: hsel.
  by rewrite ltz_nat (coords_lt h hc).
have hb : no_bools idx by rewrite /no_bools all_map; apply/allP.
have ho := submat_init_valid (exported trunc A) (hv _ rA) (hv _ cA).
move: ho; move: (Submat _ _ _ _ _) => o ho; exists o => //.
have vA' : vec_multiplies (sp_dot (exported trunc A)) (sp_rows (exported trunc A)) (sp_cols (exported trunc A)) M by rewrite rA cA.
have [e1 e2 e3] := submat_multiplies ho hb hb vA'.
have sI : size idx = n by rewrite size_map size_coords.
rewrite !sI in e1 e2 e3.
have MI i j : (i < n)%N -> (j < n)%N -> M (absz (idx_val (nth PNonInt idx i))) (absz (idx_val (nth PNonInt idx j))) = M (coord S sel i) (coord S sel j).
  by move=> hi hj; rewrite !(nth_map 0%N) ?size_coords.
case: e1 => e1 e1'; split; [by rewrite rB|by rewrite cB|].
move=> x hw [hx|[K hK hx]].
  have [y [y1 y2 y3 y4]] := e2 x hx hw; have [z [z1 z2 z3 z4]] := vB x hx hw.
  split; last by exists y.
  rewrite y1 z1; congr Ok; case: y z y2 y3 y4 z2 z3 z4 {y1 z1} => [sy dy] [sz dz] /= -> /eqP /= wy y4 -> /eqP /= wz z4.
  congr Tensor; apply: (@eq_from_nth _ 0); first by rewrite wy wz.
  move=> i; rewrite wy /numel /= muln1 => hi; rewrite y4 // z4 //.
  by apply: eq_bigr => j _; rewrite MI.
have [y [y1 y2 y3 y4]] := e3 K hK x hx hw; have [z [z1 z2 z3 z4]] := mB K x hx hw.
split; last by exists y.
rewrite y1 z1; congr Ok; case: y z y2 y3 y4 z2 z3 z4 {y1 z1} => [sy dy] [sz dz] /= -> /eqP /= wy y4 -> /eqP /= wz z4.
congr Tensor; apply: (@op_entry_ext _ K n); rewrite ?wy ?wz /numel /= ?muln1 //.
move=> i k hi hk; rewrite y4 // z4 //; by apply: eq_bigr => j _; rewrite MI.
Qed.
Print Assumptions C80_submatrix.

(* the running example of C14 with its two parameters swapped, and with the second
   one only; and three parameters of different shapes of which two are chosen *)
Example C80_ex th : [/\ sublist exr_S [:: 1; 0]%N /\ coords exr_S [:: 1; 0]%N = [:: 1; 0]%N,
  sublist exr_S [:: 1]%N /\ coords exr_S [:: 1]%N = [:: 1]%N,
  Forall_in (fun d => twice_diff (total exr_S) (fun z => exr_loss (exr_net d.1 z) d.2) th) (flatten exr_loader) &
  let S := [:: [:: 2; 2]; [:: 3]; [:: 2]]%N in let sel := [:: 2; 0]%N in
  [/\ sublist S sel, sub_shapes S sel = [:: [:: 2]; [:: 2; 2]]%N & coords S sel = [:: 7; 8; 0; 1; 2; 3]%N]].
Proof. by split=> //; case: (C14_ex th). Qed.

(* the operator for the second parameter only sees the first one as a constant *)
Example C80_ex_net x th z : sub_net exr_net exr_S [:: 1]%N th x z = exr_net x (fun c => if c == 1%N then z 0%N else th c).
Proof. by rewrite /sub_net /embed /exr_net /=. Qed.
