(* C86: a network that applies one linear layer to two positions, in one call or in two. *)
From Coq Require Import Reals Lra FunctionalExtensionality Permutation.
From Coquelicot Require Import Coquelicot.
From mathcomp Require Import all_ssreflect all_algebra.
From Verif Require Import PyPrelude Tensor Spec TorchBase Submatrix RInst Calculus ROrd Curvature HessGGN Risk Losses Fisher FisherMC FisherExp CurvOps Props_Curv Props_Fisher OpSpec LossHess Props_LossHess Conv Props_Conv Kfac KfacSpec KfacProof KfacMap KfacBlocks Props_Kfac KfacCov KfacCovHooks KfacCovSpec KfacCovProof Props_KfacCov Props_KfacMC Props_KfacEnd Props_KfacEx KfacExact Props_KfacExact KfacCalls Props_KfacCalls.
Set Implicit Arguments.
Unset Strict Implicit.
Unset Printing Implicit Defensive.
Import GRing.Theory Num.Theory.
Local Open Scope ring_scope.

(* inputs x = (a, b), one weight w, predictions (w a, w b), squared error for each *)
Definition seq_pnet (x : R * R) (z : point) : seq R := [:: z 0%N * x.1; z 0%N * x.2].
Definition seq_th : point := fun=> 1.
Definition seq_ms : seq module := [:: Module 0 true [:: (Weight, 0%N)]].
Definition seq_ids : seq nat := [:: 0%N].
Definition seq_S : seq (seq nat) := [:: [:: 1; 1]]%N.
Definition seq_mp : mapping := [:: (0%N, [:: (Weight, 0%N)])].
Definition seq_tgt (y : R) (t : nat) : target := TVec (fun=> y).
(* layer(x) on both positions *)
Definition seq_mods (k : nat) : nlayer (R * R) :=
  NLayer None [:: 2; 1]%N [:: 2; 1]%N (fun x => [:: x.1; x.2]) (fun x => [:: x.1; x.2]) (fun x z => [:: z 0%N; z 1%N]).
(* stack([layer(x[0]), layer(x[1])]) *)
Definition seq_views (c : nat) : nlayer (R * R) :=
  NLayer None [:: 1]%N [:: 1]%N (fun x => [:: if c == 0%N then x.1 else x.2]) (fun x => [:: if c == 0%N then x.1 else x.2])
    (fun x z => if c == 0%N then [:: z 0%N; x.2] else [:: x.1; z 0%N]).
Definition seq_callee (c : nat) : nat := 0%N.
Definition seq_ge : geometry (R * R) := ge_one seq_mods (fun=> 2%N) (fun=> 1%N) (fun=> 1%N).

Lemma seq_layer_ok k : layer_ok 2 1 (seq_mods k).
Proof. by split=> //= x z z' h; rewrite !h. Qed.
Lemma seq_network : network_ok 2 1 Expand seq_ge seq_ms seq_mods seq_ids seq_S.
Proof.
split=> //; first by split=> // m /= [<-|//].
move=> m [<-|//] _; split=> //; first split.
- exact: seq_layer_ok.
- exact: (@OutLinear _ (seq_mods 0) [:: 2%N] 1).
by move=> w [<-]; split; [exact: (@InLinear _ Expand (seq_mods 0) [:: 2%N] 1)|eexists].
Qed.
Lemma seq_separate k : separate (seq_mods k) 2 1 1 seq_views.
Proof.
split=> //; [by exists [:: 2%N]|by exists [:: 2%N]|].
by move=> [|[|//]] _; split.
Qed.
Lemma seq_calls k : calls_of seq_callee [:: 0; 1]%N k = (if k == 0%N then [:: 0; 1]%N else [::]).
Proof. by case: k. Qed.

Lemma seq_layers_ok loader : layers_ok 2 1 seq_pnet seq_th seq_ge seq_ms seq_mods seq_ids seq_S (loader : seq (seq ((R * R) * R))).
Proof.
move=> m [<-|//] _; apply: Forall_in_all => -[[a b] y] /=; split.
  split=> //; exists (fun _ _ => 0), (fun _ => 0); split.
    by move=> [|[|//]] [|//] _ _; rewrite /layer_map /weight_at /bias_at /= big_ord1 /lin_act /seq_th /= mul1r addr0.
  move=> z hz o ho; rewrite /seq_pnet.
  have := ho 0%N 0%N isT isT; have := ho 1%N 0%N isT isT.
  by rewrite /layer_map /weight_at /bias_at /= !big_ord1 /lin_act /= !addr0 => -> ->.
move=> t ht; exists (fun c => if c == t then 1 else 0) => u du t0 ux hu _.
rewrite !big_ord_recl big_ord0 /=.
case: t ht => [|[|//]] _ /=; rewrite ?mul1r ?mul0r ?addr0 ?add0r; exact: hu.
Qed.

Lemma seq_jac k x t c p : (t < 2)%N -> (c < 1)%N -> jac 2 1 LMSE seq_mods k x t c p = (p == t)%:R.
Proof.
move=> ht hc; rewrite /jac (@pd_ext _ (fun z => z t)); last by move=> z; case: t ht => [|[|]] //; case: c hc.
apply: is_derive_unique; rewrite /upd; have [->|ne] := p =P t.
  rewrite eqxx; exact: is_derive_id.
rewrite (_ : (t == p) = false); last by apply/eqP => e; case: ne.
exact: is_derive_const.
Qed.
Lemma seq_unmixed1 k x : unmixed 2 1 LMSE seq_mods Expand seq_ge k x.
Proof.
move=> t t' c c' i j ne ht ht'.
move=> hc hc' hi hj; rewrite /cross big1 // => s _; rewrite !seq_jac //.
move: i j hi hj => [|//] [|//] _ _ /=; rewrite muln1 addn0; case: eqP => [e|_]; last by rewrite mul0r.
by case: eqP => [e'|_]; [case: ne; rewrite -e -e'|rewrite mulr0].
Qed.
Lemma seq_unmixed loader : layers_unmixed 2 1 LMSE Expand seq_ge seq_ms seq_mods seq_ids (loader : seq (seq ((R * R) * R))).
Proof. by move=> m [<-|//] _; apply: Forall_in_all => d; exact: seq_unmixed1. Qed.

Section Refuted.
Variables (G : Type) (normal_o : G -> nat -> (nat -> R) * G).
Variable multinomial_o : G -> nat -> nat -> (nat -> nat -> R) -> nat -> (nat -> nat -> nat) * G.
Variable bernoulli_o : G -> nat -> (nat -> R) -> (nat -> bool) * G.
Local Notation op st := (LinOp seq_S seq_S (kfac_matmat false st.1 st.2 seq_mp)).

Lemma one_entry (st : dict nat_eqType (tensor R) * dict nat_eqType (tensor R)) A B :
  dget 0%N st.1 = Some A -> dget 0%N st.2 = Some B -> tshape A = [:: 1; 1]%N -> tshape B = [:: 1; 1]%N ->
  exists2 K, acts_as (op st) seq_S K & K 0%N 0%N = entry 1 (tdata B) 0 0 * entry 1 (tdata A) 0 0.
Proof.
move=> hA hB sA sB.
have [||mp [<-] h] := @C30_kfac_product [comRingType of R] false seq_S seq_ids seq_ms st.1 st.2; [|by []|].
  split=> //; first by split=> // m /= [<-|//].
  move=> m [<-|//] _; split=> //; exists 1%N, B; split=> // w [<-]; exists [:: 1%N], A; split=> //; split=> //.
  by move=> [|//] [|//].
exists (kfac_matrix false seq_S (net_layers seq_ids st.1 st.2 seq_ms)) => //.
by rewrite /kfac_matrix /= big_seq1 /layer_entry /= /stored hA hB sA sB.
Qed.

(* "KFAC-expand is exact for linear networks with squared error" (C45) needs that the layer is
   called once for all positions: the network that calls it once per position has the same
   predictions for all weights, but twice the KFAC matrix *)
Theorem C86_exact_refuted ap (a b y : R) (g : G) : a <> 0 -> let loader := [:: [:: ((a, b), y)]] in
  exists st1 st2 A, [/\
    compute_kfac 2 1 LMSE (fun x => seq_pnet x seq_th) seq_tgt seq_mods seq_S false Expand Type2 RSum 1 1 2 seq_mp normal_o multinomial_o bernoulli_o loader g = (st1, Ok tt),
    compute_kfac_calls 2 1 LMSE (fun x => seq_pnet x seq_th) seq_tgt seq_callee seq_views [:: 0; 1]%N [:: 1; 0]%N seq_S false ap Type2 RSum 1 1 2 seq_mp
      normal_o multinomial_o bernoulli_o loader g = (st2, Ok tt),
    ggn_operator 2 seq_pnet (FisherExp.datum_loss 2 1 LMSE seq_tgt RSum) RSum None loader seq_S None seq_th = Ok A &
    exists K1 K2 K', [/\ acts_as (op st1) seq_S K1, acts_as (op st2) seq_S K2, acts_as A seq_S K' &
      [/\ K1 0%N 0%N = K' 0%N 0%N, K2 0%N 0%N = 2%:R * K' 0%N 0%N & K' 0%N 0%N <> 0]]].
Proof.
move=> ha loader.
have ht : type2_targets 2 1 LMSE seq_tgt (flatten loader) by apply: Forall_in_all => d t _; do !split.
have [|||st1 [A [h1 h2 [K1 [K' [h3 h4 h5]]]]]] := @C45_deep_linear (R * R) R 2 1 LMSE isT isT seq_pnet seq_th seq_tgt (fun _ _ => erefl) false Expand RSum seq_ge _ G
  normal_o multinomial_o bernoulli_o seq_ms seq_mods seq_ids seq_S _ seq_network loader _ isT g erefl ht (@seq_layers_ok loader) (@seq_unmixed loader) => //.
have hK : K1 0%N 0%N = K' 0%N 0%N.
  apply: (h5 (Module 0 true [:: (Weight, 0%N)]) (or_introl erefl) isT _ _ 0%N 0%N 0%N 0%N) => //.
    by move=> d d' t c q _ _ h h'; rewrite !seq_jac.
  right; split=> //; apply: Forall_in_all => d t c.
    move=> [|[|//]] [|//] h h' _ _ ne; rewrite seq_jac //; case: t h ne => [|[|//]] //.
  by move=> [|//] h h' _; rewrite !seq_jac //= muln1 addn0 eqxx.
have [||||||||st1' [st2 [e1 e2 h6]]] := @C86_separate_calls (R * R) R 2 1 LMSE (fun x => seq_pnet x seq_th) seq_tgt seq_callee seq_views [:: 0; 1]%N [:: 1; 0]%N seq_S false ap RSum 1 1 seq_mp
  G normal_o multinomial_o bernoulli_o isT isT (fun=> erefl) isT _ isT isT seq_mods (fun=> 2%N) (fun=> 1%N) (fun=> 1%N) (fun _ s => s) isT _ _ _ Type2 ((a, b), y) loader g => //.
- exact: perm_swap.
- by move=> [|k] ps //= [<-].
- move=> [|k] ps //= _; split=> //; [exact: seq_layer_ok|exact: seq_separate].
rewrite h1 in e1; case: e1 => e1; subst st1'.
have [h7 [B1 [B2 [b1 b2 [s1 s2] b3]]]] := h6 0%N [:: (Weight, 0%N)] erefl.
have [|A1 [A2 [a1 a2 [s3 s4] a3]]] := h7; first by [].
have [K1' k1 k2] := one_entry a1 b1 s3 s1; have [K2 k3 k4] := one_entry a2 b2 s4 s2.
have eK : K1 0%N 0%N = K1' 0%N 0%N by apply: acts_as_unique h3 k1 _ _ _ _.
exists st1, st2, A; split=> //; exists K1, K2, K'; split=> //.
have -> : K2 0%N 0%N = 2%:R * K' 0%N 0%N by rewrite k4 a3 // b3 // -hK eK k2 mulrCA.
split=> //; rewrite -hK eK k2.
(* the value *)
have [|||||||st1' [f1 f2]] := @C32_type2_ggn (R * R) R 2 1 LMSE isT isT (fun x => seq_pnet x seq_th) seq_tgt seq_mods seq_S false Expand RSum 1 1 seq_mp seq_ge (fun=> erefl) isT _
  _ isT isT G normal_o multinomial_o bernoulli_o loader g => //.
- exact: (end_geometry seq_network).
- move=> [|k] ps //= _; split=> //; split; last exact: seq_unmixed1.
  move=> t c q h h'; apply: (@ex_pd_ext (fun z => z t)); last exact: ex_pd_coord.
  by move=> z; case: t h => [|[|]] //; case: c h'.
rewrite h1 in f1; case: f1 => f1; subst st1'; have := f2 0%N => /= -[[A1' [p1 _ _ p2]] [B1' [q1 _ _ q2]]].
rewrite p1 in a1; case: a1 => e; subst A1'; rewrite q1 in b1; case: b1 => e; subst B1'.
rewrite p2 // q2 // /input_factor !big_seq1 !big_ord_recl !big_ord0 /=.
have hess t : (t < 2)%N -> row_hessian 2 1 LMSE (fun x => seq_pnet x seq_th) seq_tgt RSum ((a, b), y) t 0 0 = 2%:R.
  by move=> h; rewrite raw_row_hessian mul1r /raw_hessian C18_closed_form.
rewrite /bump /= !seq_jac // !hess // /aug /= !big_ord_recl big_ord0 /lin_act /=.
rewrite !(mul0r, mulr0, addr0, add0r, mulr1, mul1r, invr1).
have two : (2%:R : R) = IZR 2 by rewrite natrE.
have -> : (2%:R + 2%:R) * (2%:R^-1 * (a * a + b * b)) = 2%:R * (a * a + b * b) :> R.
  by rewrite mulrA; congr (_ * _); rewrite mulrDl mulfV ?natr_neq0.
rewrite two; clear -ha; move: ha; toR; nra.
Qed.

(* a second layer that the forward pass never calls *)
Example C86_ex_unused ap ft red (loader : seq (seq ((R * R) * R))) (g : G) : ft <> ForwardOnly -> loader <> [::] ->
  exists e, (compute_kfac_calls 2 1 LMSE (fun x => seq_pnet x seq_th) seq_tgt seq_callee seq_views [:: 0; 1]%N [:: 1; 0]%N
    [:: [:: 1; 1]; [:: 2; 3]]%N false ap ft red 1 1 2 [:: (0%N, [:: (Weight, 0%N)]); (1%N, [:: (Weight, 1%N)])]
    normal_o multinomial_o bernoulli_o loader g).2 = Err e.
Proof.
move=> hft hl; apply: (@C86_unused_fails _ _ _ _ _ _ _ _ _ _ _ _ _ _ _ _ _ _ _ _ _ _ ft loader g 1%N) => //; last 1 first.
- split; first by exists 1%N, [:: (Weight, 1%N)], Weight.
  by move=> c ps n _ [<-]; case: n.
- by split=> // -[|[|k]] ps //= [<-].
exact: perm_swap.
Qed.
End Refuted.
Print Assumptions C86_unused_fails.
Print Assumptions C86_calls_add.
Print Assumptions C86_separate_calls.
Print Assumptions C86_exact_refuted.

(* ---- C45 with several positions and KFAC-reduce: one prediction w a + w b ---- *)
Definition pool_pnet (x : R * R) (z : point) : seq R := [:: z 0%N * x.1 + z 0%N * x.2].
Definition pool_mods (k : nat) : nlayer (R * R) :=
  NLayer None [:: 2; 1]%N [:: 2; 1]%N (fun x => [:: x.1; x.2]) (fun x => [:: x.1; x.2]) (fun x z => [:: z 0%N + z 1%N]).
Definition pool_ge : geometry (R * R) := ge_one pool_mods (fun=> 2%N) (fun=> 1%N) (fun=> 1%N).
Lemma pool_network ap : network_ok 1 1 ap pool_ge seq_ms pool_mods seq_ids seq_S.
Proof.
split=> //; first by split=> // m /= [<-|//].
move=> m [<-|//] _; split=> //; first split.
- by split=> //= x z z' h; rewrite !h.
- exact: (@OutLinear _ (pool_mods 0) [:: 2%N] 1).
by move=> w [<-]; split; [exact: (@InLinear _ ap (pool_mods 0) [:: 2%N] 1)|eexists].
Qed.
Lemma pool_layers_ok loader : layers_ok 1 1 pool_pnet seq_th pool_ge seq_ms pool_mods seq_ids seq_S (loader : seq (seq ((R * R) * R))).
Proof.
move=> m [<-|//] _; apply: Forall_in_all => -[[a b] y] /=; split.
  split=> //; exists (fun _ _ => 0), (fun _ => 0); split.
    by move=> [|[|//]] [|//] _ _; rewrite /layer_map /weight_at /bias_at /= big_ord1 /lin_act /seq_th /= mul1r addr0.
  move=> z hz o ho; rewrite /pool_pnet.
  have := ho 0%N 0%N isT isT; have := ho 1%N 0%N isT isT.
  by rewrite /layer_map /weight_at /bias_at /= !big_ord1 /lin_act /= !addr0 => -> ->.
move=> [|//] _; exists (fun c => 1) => u du t0 ux hu _; rewrite !big_ord_recl big_ord0 /= !mul1r addr0.
by apply: (@is_derive_plus _ R_NormedModule); apply: hu.
Qed.
Lemma pool_jac k x t c p : (t < 1)%N -> (c < 1)%N -> jac 1 1 LMSE pool_mods k x t c p = (p < 2)%N%:R.
Proof.
move=> ht hc; rewrite /jac (@pd_ext _ (fun z => z 0%N + z 1%N)); last by move=> z; case: t ht => //; case: c hc.
apply: is_derive_unique; case: p => [|[|p]]; rewrite /upd /GRing.add /=; auto_derive => //; toR; ring.
Qed.
Example C45_ex_reduce (G : Type) normal_o multinomial_o bernoulli_o (loader : seq (seq ((R * R) * R))) (g : G) : loader <> [::] -> nonempty loader ->
  exists st A, [/\ compute_kfac 1 1 LMSE (fun x => pool_pnet x seq_th) seq_tgt pool_mods seq_S false Reduce Type2 RMean (size (flatten loader)) 1 1 seq_mp
      normal_o multinomial_o bernoulli_o loader g = (st, Ok tt),
    ggn_operator 1 pool_pnet (FisherExp.datum_loss 1 1 LMSE seq_tgt RMean) RMean None loader seq_S None seq_th = Ok A &
    exists K K', [/\ acts_as (LinOp seq_S seq_S (kfac_matmat false st.1 st.2 seq_mp)) seq_S K, acts_as A seq_S K' & K 0%N 0%N = K' 0%N 0%N]].
Proof.
move=> hl hne.
have [||||||st [A [h1 h2 [K [K' [h3 h4 h5]]]]]] := @C45_deep_linear (R * R) R 1 1 LMSE isT isT pool_pnet seq_th seq_tgt (fun _ _ => erefl) false Reduce RMean pool_ge _ G
  normal_o multinomial_o bernoulli_o seq_ms pool_mods seq_ids seq_S _ (pool_network Reduce) loader hl hne g => //.
- by apply: Forall_in_all => d t _; do !split.
- exact: pool_layers_ok.
- exact: one_term_unmixed.
exists st, A; split=> //; exists K, K'; split=> //.
apply: (h5 (Module 0 true [:: (Weight, 0%N)]) (or_introl erefl) isT _ _ 0%N 0%N 0%N 0%N) => //.
  by move=> d d' t c q _ _ h h'; rewrite !pool_jac.
left; right; split=> //; apply: Forall_in_all => d t c s i h h' hs hi; rewrite !pool_jac //.
by case: s i hs hi => [|[|]] // [|].
Qed.
(* the forward-only matrix of that network: times 2 N T it is the GGN *)
Example C45_ex_forward_only (G : Type) normal_o multinomial_o bernoulli_o (loader : seq (seq ((R * R) * R))) (g : G) : loader <> [::] -> nonempty loader ->
  exists st A, [/\ compute_kfac 2 1 LMSE (fun x => seq_pnet x seq_th) seq_tgt seq_mods seq_S false Expand ForwardOnly RSum (size (flatten loader)) 1 2 seq_mp
      normal_o multinomial_o bernoulli_o loader g = (st, Ok tt),
    ggn_operator 2 seq_pnet (FisherExp.datum_loss 2 1 LMSE seq_tgt RSum) RSum None loader seq_S None seq_th = Ok A &
    exists K K', [/\ acts_as (LinOp seq_S seq_S (kfac_matmat false st.1 st.2 seq_mp)) seq_S K, acts_as A seq_S K' &
      (2 * (size (flatten loader) * 2)%:R) * K 0%N 0%N = K' 0%N 0%N]].
Proof.
move=> hl hne.
have [|||||st [A [h1 h2 [K [K' [h3 h4 h5]]]]]] := @C45_forward_only (R * R) R 2 1 LMSE isT isT seq_pnet seq_th seq_tgt (fun _ _ => erefl) false Expand RSum seq_ge _ G
  normal_o multinomial_o bernoulli_o seq_ms seq_mods seq_ids seq_S _ seq_network loader hl hne g => //.
- by apply: Forall_in_all => d t _.
- exact: seq_layers_ok.
exists st, A; split=> //; exists K, K'; split=> //.
apply: (h5 (Module 0 true [:: (Weight, 0%N)]) (or_introl erefl) isT _ 0%N 0%N 0%N 0%N) => //.
split=> //; left; split=> //; apply: Forall_in_all => d t c s i h h' hs hi; rewrite !seq_jac //.
by move: i c hi h' => [|//] [|//] _ _; rewrite /= muln1 addn0 andbT; case: eqP.
Qed.
