(* From the network and its data to the operator: the matrix KFAC multiplies with
   after computing its factors (C30, C32, C33, C05). *)
From Coq Require Import Reals Lra FunctionalExtensionality.
From Coquelicot Require Import Coquelicot.
From mathcomp Require Import all_ssreflect all_algebra.
From Verif Require Import PyPrelude Tensor Spec TorchBase Submatrix RInst Calculus ROrd Curvature HessGGN Risk Losses Fisher FisherMC FisherExp OpSpec LossHess Props_LossHess Conv Props_Conv Kfac KfacSpec KfacProof KfacMap Props_Kfac KfacCov KfacCovHooks KfacCovSpec KfacCovProof Props_KfacCov.
Set Implicit Arguments.
Unset Strict Implicit.
Unset Printing Implicit Defensive.
Import GRing.Theory Num.Theory.
Local Open Scope ring_scope.

(* ---- non-negatively weighted sums of outer products ---- *)
Lemma gram_scaled_sum (A : Type) (s : seq A) n (f : A -> nat -> nat -> R) (w : R) : 0 <= w ->
  (forall a, gram n (f a)) -> gram n (fun i j => w * \sum_(a <- s) f a i j).
Proof.
move=> w0 hf; elim: s => [|a s [vs v0 hv]].
  by exists [::] => // i j _ _; rewrite !big_nil mulr0.
have [us u0 hu] := hf a.
exists ([seq (w * u.1, u.2) | u <- us] ++ vs).
  move=> v hin; have [/List.in_map_iff [u [<- hu']]|h] := List.in_app_or _ _ _ hin; last exact: v0.
  by apply: mulr_ge0 => //; exact: u0.
move=> i j hi hj; rewrite big_cons mulrDr hv // big_cat big_map hu // mulr_sumr; congr (_ + _).
by apply: eq_bigr => u _; exact: (mulrA w u.1 (u.2 i * u.2 j)).
Qed.
Lemma gram_outer n (v : nat -> R) : gram n (fun i j => v i * v j).
Proof. by exists [:: (1, v)] => [u [<-|//]|i j _ _]; [exact: ler01|rewrite big_seq1 mul1r]. Qed.
Lemma gram_sum (A : Type) (s : seq A) n (f : A -> nat -> nat -> R) :
  (forall a, gram n (f a)) -> gram n (fun i j => \sum_(a <- s) f a i j).
Proof.
move=> hf; have [vs v0 hv] := @gram_scaled_sum A s n f 1 ler01 hf; exists vs => // i j hi hj.
by rewrite -hv // mul1r.
Qed.
Lemma gram_eye n : gram n (fun i j => (i == j)%:R : R).
Proof.
have [vs v0 hv] := @gram_sum _ (iota 0 n) n (fun k i j => (i == k)%:R * (j == k)%:R) (fun k => gram_outer n (fun i => (i == k)%:R)).
exists vs => // i j hi hj; rewrite -hv // (bigD1_seq i) /= ?mem_iota ?iota_uniq //.
rewrite eqxx mul1r big1 ?addr0 1?eq_sym // => k ne.
by rewrite eq_sym (negbTE ne) mul0r.
Qed.
Lemma gram_sym n (A : nat -> nat -> R) i j : gram n A -> (i < n)%N -> (j < n)%N -> A i j = A j i.
Proof. by move=> [vs _ h] hi hj; rewrite !h //; apply: eq_bigr => v _; rewrite [v.2 i * _]mulrC. Qed.

Lemma gram_in_term n ap joint S d a : gram n (in_term ap joint S d a).
Proof.
rewrite /in_term; case: ap; last exact: gram_outer.
apply: (@gram_scaled_sum _ _ n (fun (s : 'I_S) i j => aug d (a s) i * aug d (a s) j)).
  by rewrite invr_ge0 ler0n.
by move=> s; apply: gram_outer.
Qed.
Lemma gram_input_factor (X Y : Type) n ap joint N S d act (data : seq (X * Y)) : gram n (input_factor ap joint N S d act data).
Proof.
apply: gram_scaled_sum; first by rewrite invr_ge0 ler0n.
by move=> x; apply: gram_in_term.
Qed.
Lemma gram_grad_term n ap S g : gram n (grad_term ap S g).
Proof.
rewrite /grad_term; case: ap; last exact: (gram_outer n (fun i => \sum_(s < S) g s i)).
by apply: (@gram_sum _ _ n (fun (s : 'I_S) i j => g s i * g s j)) => s; apply: gram_outer.
Qed.

Section End.
Variables (X Y : Type) (T C : nat) (kind : loss_kind).
Local Notation batch := (seq (X * Y)).
Hypothesis T_gt0 : (0 < T)%N.
Hypothesis C_gt0 : (0 < C)%N.
Variable net : X -> seq R.
Variable tgt : Y -> nat -> target.
Hypothesis net_size : forall x, size (net x) = (T * C)%N.
Variables (sep : bool) (ap : kfac_approx) (red : reduction) (N M : nat) (ge : geometry X).
Hypothesis hred : red <> ROther.
Hypothesis N_gt0 : (0 < N)%N.
Hypothesis M_gt0 : (0 < M)%N.
Variables (G : Type).
Variable normal_o : G -> nat -> (nat -> R) * G.
Variable multinomial_o : G -> nat -> nat -> (nat -> nat -> R) -> nat -> (nat -> nat -> nat) * G.
Variable bernoulli_o : G -> nat -> (nat -> R) -> (nat -> bool) * G.
(* the network: its modules, the layers as the hooks see them, the operator's parameters *)
Variables (ms : seq module) (mods : nat -> nlayer X) (ids : seq nat) (S : seq (seq nat)).
Hypothesis hS : S <> [::].

Definition network_ok : Prop :=
  [/\ well_named ms, size S = size ids, owned_once ids ms &
  forall m, List.In m ms -> relevant ids m -> let k := m_name m in
  [/\ all (fun p : pname * nat => (p.1 == Weight) || (p.1 == Bias)) (m_params m),
      layer_ok T C (mods k) /\ output_geometry (mods k) (g_S2 ge k) (g_d2 ge k) (g_pos ge k),
      (forall w, at_pos ids m Weight = Some w -> input_geometry ap (mods k) (g_S1 ge k) (g_d1 ge k) (g_act ge k) /\
         exists rest, pshape S w = g_d2 ge k :: rest /\ numel rest = g_d1 ge k) &
      (forall b, at_pos ids m Bias = Some b -> pshape S b = [:: g_d2 ge k])]].
Hypothesis hnet : network_ok.

Local Notation mp := [seq (m_name m, positions ids m) | m <- ms & relevant ids m].
Local Notation compute ft := (compute_kfac T C kind net tgt mods S sep ap ft red N M T mp normal_o multinomial_o bernoulli_o).
Local Notation computes ft := (computes T C kind net tgt mods S sep ap red N M mp ge normal_o multinomial_o bernoulli_o ft).
Local Notation op st := (LinOp S S (kfac_matmat sep st.1 st.2 mp)).
Local Notation grads := (grads T C kind mods ge).

Lemma end_mapping : compute_parameter_mapping ids ms = Ok mp.
Proof. by case: hnet => h1 _ h3 _; apply: net_mapping. Qed.

Lemma end_keys : dkeys (mp : mapping) = [seq m_name m | m <- ms & relevant ids m].
Proof. by rewrite /dkeys -map_comp. Qed.
Lemma end_uniq : uniq (dkeys (mp : mapping)).
Proof.
case: hnet => -[hu _] _ _ _; rewrite end_keys; apply: subseq_uniq hu.
elim: (ms) => //= m l IH; case: ifP => _ /=; first by rewrite eqxx.
exact: subseq_trans IH (subseq_cons _ _).
Qed.
Lemma In_relevant m : List.In m [seq m <- ms | relevant ids m] -> List.In m ms /\ relevant ids m.
Proof.
elim: (ms) => //= a l IH; case: ifP => ha /=; last by move=> /IH[]; split=> //; right.
by case=> [<-|/IH[]]; split=> //; [left|right].
Qed.
Lemma In_relevant2 m : List.In m ms -> relevant ids m -> List.In m [seq m <- ms | relevant ids m].
Proof.
move=> + hr; elim: (ms) => //= a l IH [->|/IH h]; first by rewrite hr; left.
by case: ifP => _ //; right.
Qed.
Lemma end_dget k ps : dget k (mp : mapping) = Some ps -> exists m, [/\ List.In m ms, relevant ids m, k = m_name m & ps = positions ids m].
Proof.
move=> h; have /List.in_map_iff [m [[<- <-] /In_relevant [h1 h2]]] := @dget_in nat_eqType _ k ps mp h; by exists m.
Qed.
Lemma end_dget2 m : List.In m ms -> relevant ids m -> dget (m_name m) (mp : mapping) = Some (positions ids m).
Proof.
move=> h1 h2; apply: (@in_dget nat_eqType); first exact: end_uniq.
by apply/List.in_map_iff; exists m; split=> //; apply: In_relevant2.
Qed.
Lemma end_weight m : List.In m ms -> dmem Weight (positions ids m) = (at_pos ids m Weight != None).
Proof.
case: hnet => -[_ hp] _ _ _ hm; rewrite -dget_positions; last exact: hp.
rewrite /dmem /dget; elim: (positions ids m) => //= -[k v] d IH /=.
by rewrite inE eq_sym; case: (k =P Weight) => //= _; rewrite IH.
Qed.

Lemma end_geometry : fits_geometry T C ap mods mp ge.
Proof.
case: (hnet) => _ _ _ h k ps /end_dget [m [hm hr -> ->]]; have [_ [h1 h2] h3 _] := h m hm hr; split=> //.
by rewrite end_weight //; case e : (at_pos _ _ _) => [w|//] _; have [] := h3 w e.
Qed.

Lemma end_joint m : List.In m ms -> at_pos ids m Weight != None ->
  joint_params sep (positions ids m) = ~~ sep && (at_pos ids m Bias != None).
Proof.
case: hnet => -[_ hp] _ _ _ hm hw; rewrite /joint_params !dget_positions; try exact: hp.
by case: (at_pos ids m Weight) hw => // w _; case: (at_pos ids m Bias).
Qed.

(* the layers with the factors of C32 *)
Definition spec_layer (loader : seq batch) (B : nat -> nat -> nat -> R) (m : module) : layer R_comRingType :=
  let k := m_name m in
  Layer (at_pos ids m Weight) (at_pos ids m Bias)
    (input_factor ap (~~ sep && (at_pos ids m Bias != None)) N (g_S1 ge k) (g_d1 ge k) (g_act ge k) (flatten loader)) (B k).

Lemma end_describes ft loader g B : computes ft loader g B ->
  exists st, compute ft loader g = (st, Ok tt) /\
    describes_all sep S st.1 st.2 mp [seq spec_layer loader B m | m <- ms & relevant ids m] /\
    kfac_net sep S ids ms st.1 st.2.
Proof.
move=> [st [h1 h2]]; exists st; split=> //; case: (hnet) => -[hw1 hp] n2 n3 n4.
have key m : List.In m ms -> relevant ids m ->
   exists Gt, [/\ dget (m_name m) st.2 = Some Gt, tshape Gt = [:: g_d2 ge (m_name m); g_d2 ge (m_name m)],
      (forall i j, (i < g_d2 ge (m_name m))%N -> (j < g_d2 ge (m_name m))%N -> B (m_name m) i j = entry (g_d2 ge (m_name m)) (tdata Gt) i j) &
      forall w, at_pos ids m Weight = Some w -> exists rest, pshape S w = g_d2 ge (m_name m) :: rest /\
        let n := (numel rest + (~~ sep && (at_pos ids m Bias != None)))%N in
        exists A, [/\ dget (m_name m) st.1 = Some A, tshape A = [:: n; n] &
          forall i j, (i < n)%N -> (j < n)%N -> l_A (spec_layer loader B m) i j = entry n (tdata A) i j]].
  move=> hm hr; have := h2 (m_name m); rewrite end_dget2 // => -[hA [Gt [g1 g2 _ g4]]].
  have [_ _ hw _] := n4 m hm hr.
  exists Gt; split=> //; first by move=> i j hi hj; rewrite g4.
  move=> w ew; have [_ [rest [r1 r2]]] := hw w ew; exists rest; split=> //.
  move: hA; rewrite end_weight // ew /= end_joint ?ew // -r2 => -[A [a1 a2 a3 a4]].
  by exists A; split=> // i j hi hj; rewrite a4 //= -r2.
have symA loader' m n i j : (i < n)%N -> (j < n)%N -> l_A (spec_layer loader' B m) i j = l_A (spec_layer loader' B m) j i.
  by move=> hi hj; apply: gram_sym hi hj; apply: gram_input_factor.
split; last first.
  split=> // m hm hr; have [Gt [g1 g2 g3 g4]] := key m hm hr; have [ha _ _ hb] := n4 m hm hr; split=> //.
  exists (g_d2 ge (m_name m)), Gt; split=> // w ew; have [rest [r1 [A [a1 a2 a3]]]] := g4 w ew.
  exists rest, A; split=> //; split=> // i j hi hj; rewrite -!a3 //; exact: symA hi hj.
have H m : List.In m [seq m <- ms | relevant ids m] ->
   describes sep S st.1 st.2 (m_name m, positions ids m) (spec_layer loader B m).
  move=> /In_relevant [hm hr]; have hu := hp m hm; have [Gt [g1 g2 g3 g4]] := key m hm hr.
  have [ha _ _ hb] := n4 m hm hr; split=> /=.
  - by rewrite /dkeys /positions -map_comp; apply: subseq_uniq hu; apply: map_subseq; exact: filter_subseq.
  - rewrite /positions all_map /kept; apply/allP => p; rewrite mem_filter => /andP[_ hpin]; by move/allP: ha => /(_ p hpin).
  - exact: dget_positions.
  - exact: dget_positions.
  exists (g_d2 ge (m_name m)), Gt; split=> // w ew; have [rest [r1 [A [a1 a2 a3]]]] := g4 w ew.
  exists rest; split=> //.
  have -> : joint sep (spec_layer loader B m) = (~~ sep && (at_pos ids m Bias != None)) by rewrite /joint /= ew.
  by exists A; split=> // i j hi hj; apply: symA hi hj.
elim: [seq m <- ms | relevant ids m] H => [|m l IH] H /=; first by constructor.
constructor; first by apply: H; left.
by apply: IH => m' h; apply: H; right.
Qed.

(* KFAC multiplies with diag(B_l (x) A_l), A_l and B_l the averages over the data *)
Theorem C30_computed ft loader g B : computes ft loader g B ->
  exists st, [/\ compute_parameter_mapping ids ms = Ok mp, compute ft loader g = (st, Ok tt) &
    acts_as (op st) S (kfac_matrix sep S [seq spec_layer loader B m | m <- ms & relevant ids m])].
Proof.
move=> hc; have [st [h1 [h2 _]]] := end_describes hc; exists st; split=> //; first exact: end_mapping.
apply: acts_as_multiplies hS _; apply: kfac_matmat_multiplies h2.
case: (hnet) => n1 n2 n3 n4.
have := @net_unshared R_comRingType S ids [::] [::] ms n1 n2 n3 (fun m hm hr => let: And4 a _ _ _ := n4 m hm hr in a).
by rewrite /unshared /net_layers -!map_comp.
Qed.

(* all gradient factors are non-negatively weighted sums of outer products *)
Definition type2_ok (data : seq (X * Y)) : Prop :=
  (kind = LCE -> C <> 1%N) /\ type2_targets T C kind tgt data.
Lemma first_param k ps : dget k (mp : mapping) = Some ps -> exists n p rest, ps = (n, p) :: rest /\ head 0%N (nth [::] S p) = g_d2 ge k.
Proof.
move=> /end_dget [m [hm hr -> ->]]; case: (hnet) => -[_ hp] _ _ h; have [ha _ hw hb] := h m hm hr.
have [p [ps' e]] : exists p ps', positions ids m = p :: ps'.
  move: hr; rewrite /relevant /positions /kept => /andP[_]; elim: (m_params m) => //= a l IH.
  by case: (a.2 \in ids) => /= [_|/IH //]; eexists; eexists.
case: p e => n p e; exists n, p, ps'; split=> //.
have ed : dget n (positions ids m) = Some p by rewrite e /dget /= eqxx.
have hn : (n == Weight) || (n == Bias).
  have : all (fun p : pname * nat => (p.1 == Weight) || (p.1 == Bias)) (positions ids m).
    rewrite /positions all_map /kept; apply/allP => q; rewrite mem_filter => /andP[_ hpin]; by move/allP: ha => /(_ q hpin).
  by rewrite e /= => /andP[].
move: ed; rewrite dget_positions; last exact: hp.
by case/orP: hn => /eqP -> h'; [have [_ [rest [r1 _]]] := hw _ h'; rewrite -/(pshape S p) r1|have := hb _ h'; rewrite /pshape => ->].
Qed.

Lemma weight_ge0 : 0 <= term_weight T C kind red N :> R.
Proof. by rewrite /term_weight; case: red; rewrite ?ler01 //; case: is_ce; rewrite invr_ge0 ler0n. Qed.
Lemma invM_ge0 : 0 <= M%:R^-1 :> R. Proof. by rewrite invr_ge0 ler0n. Qed.

Lemma end_gram ft (d0 : X * Y) loader g : loader <> [::] -> nonempty loader -> (ft = Type2 -> type2_ok (flatten loader)) ->
  exists B, computes ft loader g B /\ forall k n, gram n (B k).
Proof.
move=> hl hne h2; case: ft h2 => h2.
- have [hC ht] := h2 erefl.
  have [Rt [_ hc]] := @C32_type2 X Y T C kind T_gt0 C_gt0 net tgt mods S sep ap red N M mp ge net_size end_uniq end_geometry hred N_gt0 M_gt0 G
    normal_o multinomial_o bernoulli_o loader g hl hne hC ht.
  eexists; split; first exact: hc.
  move=> k n; apply: gram_scaled_sum.
    apply: mulr_ge0; first exact: invM_ge0.
    by rewrite /type2_weight; case: red; rewrite ?ler01 // invr_ge0 ler0n.
  by move=> d; apply: (@gram_sum _ _ n (fun (l : 'I_C) i j => grad_term ap (g_S2 ge k) (grads k d.1 (fun t f => \sum_(c < C) f c * Rt d.1 t c l)) i j)) => l; apply: gram_grad_term.
- have [yss [_ hc]] := @C32_monte_carlo X Y T C kind T_gt0 C_gt0 net tgt mods S sep ap red N M mp ge end_uniq end_geometry hred N_gt0 M_gt0 G
    normal_o multinomial_o bernoulli_o d0 loader g hl hne.
  eexists; split; first exact: hc.
  move=> k n; apply: gram_scaled_sum; first by apply: mulr_ge0; [exact: invM_ge0|exact: weight_ge0].
  move=> p; apply: (@gram_sum _ _ n (fun y i j => \sum_(m < size p.1) grad_term ap (g_S2 ge k) (grads k (nth d0 p.1 m).1 (row_loss C kind (fun t => nth (TCls 0) y (m * T + t)))) i j)) => y.
  by apply: (@gram_sum _ _ n (fun (m : 'I_(size p.1)) i j => grad_term ap (g_S2 ge k) (grads k (nth d0 p.1 m).1 (row_loss C kind (fun t => nth (TCls 0) y (m * T + t)))) i j)) => m; apply: gram_grad_term.
- have hc := @C32_empirical X Y T C kind T_gt0 C_gt0 net tgt mods S sep ap red N M mp ge end_uniq end_geometry hred N_gt0 M_gt0 G
    normal_o multinomial_o bernoulli_o loader g hl hne.
  eexists; split; first exact: hc.
  move=> k n; apply: gram_scaled_sum; first by apply: mulr_ge0; [exact: invM_ge0|exact: weight_ge0].
  by move=> d; apply: gram_grad_term.
have hc := @C32_forward_only X Y T C kind net tgt mods S sep ap red N M mp ge end_uniq end_geometry G
    normal_o multinomial_o bernoulli_o loader g hl first_param.
eexists; split; first exact: hc.
by move=> k n; apply: gram_eye.
Qed.

Theorem C33_computed ft (d0 : X * Y) loader g : loader <> [::] -> nonempty loader -> (ft = Type2 -> type2_ok (flatten loader)) ->
  exists st, [/\ compute ft loader g = (st, Ok tt), self_adjoint_op (op st) S &
    forall l V, has_format S l None V -> exists W, op_matmul (op st) V = Ok W /\
      0 <= \sum_(i < total S) nth 0 (content V) i * nth 0 (content W) i].
Proof.
move=> hl hne h2; have [B [hc hB]] := @end_gram ft d0 loader g hl hne h2.
have [st [h1 [_ hn]]] := end_describes hc; exists st.
have hst k : (match dget k (mp : mapping) with
    | None => dget k st.1 = None /\ dget k st.2 = None
    | Some ps =>
        (if dmem Weight ps then is_factor st.1 k (g_d1 ge k + joint_params sep ps)
           (input_factor ap (joint_params sep ps) N (g_S1 ge k) (g_d1 ge k) (g_act ge k) (flatten loader))
         else dget k st.1 = None) /\ is_factor st.2 k (g_d2 ge k) (B k) end : Prop).
  by case: hc => st' [e hh]; move: e hh; rewrite h1 => -[<-] hh; apply: hh.
have hg k t n : dget k st.1 = Some t \/ dget k st.2 = Some t -> tshape t = [:: n; n] -> gram n (fun i j => entry n (tdata t) i j).
  have := hst k; case: (dget k (mp : mapping)) => [ps|]; last by move=> [-> ->] [].
  move=> [hA [Gt [g1 g2 g3 g4]]] [ht|ht] hs; last first.
    move: ht; rewrite g1 => -[e]; subst Gt; move: g2; rewrite hs => -[e _]; subst n.
    by apply: (@gram_ext R_realFieldType _ _ _ g4); apply: hB.
  move: hA; case: (dmem Weight ps); last by rewrite ht.
  move=> [A [a1 a2 a3 a4]]; move: ht; rewrite a1 => -[e]; subst A; move: a2; rewrite hs => -[e _]; subst n.
  by apply: (@gram_ext R_realFieldType _ _ _ a4); apply: gram_input_factor.
split=> //.
  apply: (C05_kfac_self_adjoint hn hS end_mapping) => k Gt o hG hs i j hi hj.
  have := gram_sym (hg k Gt o (or_intror hG) hs) hi hj; by [].
move=> l V hV; exact: (C33_positive_semidefinite hn hS end_mapping hg hV).
Qed.
End End.
Print Assumptions C30_computed.
Print Assumptions C33_computed.
