(* C45: layers and data for which KFAC is not an approximation. *)
From Coq Require Import Reals Lra FunctionalExtensionality.
From Coquelicot Require Import Coquelicot.
From mathcomp Require Import all_ssreflect all_algebra.
From Verif Require Import PyPrelude Tensor Spec TorchBase Submatrix RInst Calculus ROrd Curvature HessGGN Risk Losses Fisher FisherMC FisherExp CurvOps Props_Curv Props_Fisher OpSpec LossHess Props_LossHess Conv Props_Conv Kfac KfacSpec KfacProof KfacMap KfacBlocks Props_Kfac KfacCov KfacCovHooks KfacCovSpec KfacCovProof Props_KfacCov Props_KfacMC Props_KfacEnd Props_KfacEx KfacExact.
Set Implicit Arguments.
Unset Strict Implicit.
Unset Printing Implicit Defensive.
Import GRing.Theory Num.Theory.
Local Open Scope ring_scope.

Section C45.
Variables (X Y : Type) (T C : nat) (kind : loss_kind).
Local Notation batch := (seq (X * Y)).
Hypothesis T_gt0 : (0 < T)%N.
Hypothesis C_gt0 : (0 < C)%N.
(* the network as a function of the operator's parameters, whose values are th *)
Variables (pnet : X -> point -> seq R) (th : point).
Variable tgt : Y -> nat -> target.
Hypothesis net_size : forall x z, size (pnet x z) = (T * C)%N.
Variables (sep : bool) (ap : kfac_approx) (red : reduction) (ge : geometry X).
Hypothesis hred : red <> ROther.
Variables (G : Type).
Variable normal_o : G -> nat -> (nat -> R) * G.
Variable multinomial_o : G -> nat -> nat -> (nat -> nat -> R) -> nat -> (nat -> nat -> nat) * G.
Variable bernoulli_o : G -> nat -> (nat -> R) -> (nat -> bool) * G.
Variables (ms : seq module) (mods : nat -> nlayer X) (ids : seq nat) (S : seq (seq nat)).
Hypothesis hS : S <> [::].
Hypothesis hnet : network_ok T C ap ge ms mods ids S.
Variable loader : seq batch.
Hypothesis hl : loader <> [::].
Hypothesis hne : nonempty loader.
Local Notation data := (flatten loader).
Local Notation N := (size data).

Local Notation net := (fun x => pnet x th).
Local Notation mp := [seq (m_name m, positions ids m) | m <- ms & relevant ids m].
Local Notation compute ft M := (compute_kfac T C kind net tgt mods S sep ap ft red N M T mp normal_o multinomial_o bernoulli_o).
Local Notation computes ft M := (computes T C kind net tgt mods S sep ap red N M mp ge normal_o multinomial_o bernoulli_o ft).
Local Notation op st := (LinOp S S (kfac_matmat sep st.1 st.2 mp)).
Local Notation jac := (jac T C kind mods).

(* the layers used for the data: affine maps followed by differentiable functions *)
Definition layers_ok : Prop := forall m, List.In m ms -> relevant ids m ->
  Forall_in (fun d : X * Y => enters_once pnet th ge mods ids S m d.1 /\ tail_diff T C mods m d.1) data.
(* no two loss terms of a datum read the same (pooled) position of a layer; holds if
   there is one loss term per datum *)
Definition layers_unmixed : Prop := forall m, List.In m ms -> relevant ids m ->
  Forall_in (fun d : X * Y => unmixed T C kind mods ap ge (m_name m) d.1) data.

(* two matrices agree on the parameters of module m: on the weight, on the bias, and on
   both together if KFAC treats them jointly *)
Definition agree_on (m : module) (K K' : nat -> nat -> R) : Prop :=
  forall p q r s, of_layer ids m p -> of_layer ids m q ->
    (p == q) || [&& ~~ sep, at_pos ids m Weight != None & at_pos ids m Bias != None] ->
    (r < numel (pshape S p))%N -> (s < numel (pshape S q))%N ->
    K (off S p + r)%N (off S q + s)%N = K' (off S p + r)%N (off S q + s)%N.

Lemma N_gt0 : (0 < N)%N.
Proof. by case: loader hl hne => // b l _ /= /andP[h _]; rewrite size_cat addn_gt0 h. Qed.

Lemma feature_aug m x p r A B : List.In m ms -> relevant ids m -> of_layer ids m p -> (r < numel (pshape S p))%N ->
  let l := layer_of ids A B m in
  (at_pos ids m Weight == Some p) || (at_pos ids m Weight != None) ->
  forall s, feature ge ids S m x p r s = aug (g_d1 ge (m_name m)) (g_act ge (m_name m) x s) (lcol S l p r).
Proof.
move=> hm hr hp hr' l hc s; rewrite /feature /lcol /=; case: eqP => [e|ne].
  have hd := w_ncol hnet hm hr e; rewrite hd /aug ltn_mod.
  by move: hr'; rewrite (w_numel hnet hm hr e); case: (g_d1 ge (m_name m)) => //; rewrite muln0.
move: hc; case e : (at_pos ids m Weight) => [w|//] _; rewrite (w_ncol hnet hm hr e) /aug ltnn; by [].
Qed.

Lemma block_exact (I : Type) (D : seq I) (xof : I -> X) (H : I -> nat -> nat -> nat -> R) (w : R) (B : nat -> nat -> nat -> R) m p q r s :
  List.In m ms -> relevant ids m -> map xof D = map fst data -> (g_S1 ge (m_name m) = g_S2 ge (m_name m)) ->
  (forall d, List.In d D -> sharing T C kind ap ge mods (m_name m) xof H d) -> same_curv T C kind ap ge mods (m_name m) xof H D ->
  (forall i j, (i < g_d2 ge (m_name m))%N -> (j < g_d2 ge (m_name m))%N -> B (m_name m) i j = w * \sum_(d <- D) factor_curv T C kind ap ge mods (m_name m) xof H d i j) ->
  of_layer ids m p -> of_layer ids m q ->
  (p == q) || [&& ~~ sep, at_pos ids m Weight != None & at_pos ids m Bias != None] ->
  (r < numel (pshape S p))%N -> (s < numel (pshape S q))%N ->
  kfac_matrix sep S [seq spec_layer sep ap N ge ids loader B m | m <- ms & relevant ids m] (off S p + r)%N (off S q + s)%N =
  w * \sum_(d <- D) ggn_part T C kind ge mods (m_name m) xof H d
        (feature ge ids S m (xof d) p r) (feature ge ids S m (xof d) q s) (lrow S p r) (lrow S q s).
Proof.
move=> hm hr eD eS hsh hsame hB hp hq hpq hr' hs.
pose A0 m := l_A (spec_layer sep ap N ge ids loader B m).
pose B0 m := B (m_name m).
have eN : size D = N by rewrite -(size_map xof) eD size_map.
have D0 : (0 < size D)%N by rewrite eN N_gt0.
have S0 : (0 < g_S2 ge (m_name m))%N.
  by case: D D0 hsh {eD hsame hB eN} => // d D _ h; apply: sharing_pos T_gt0 (h d (or_introl erefl)).
have hi := row_lt hnet hm hr hp hr'; have hj := row_lt hnet hm hr hq hs.
have hp' : p \in l_pos (layer_of ids A0 B0 m) by rewrite -of_layer_pos.
have hq' := of_layer_lt hnet hm hr hq.
rewrite (M_layer sep (unshared_layers hnet A0 B0) (layer_in hm hr A0 B0) hp' hq' hr' hs).
rewrite /layer_entry.
have -> : l_mem (layer_of ids A0 B0 m) p by exact: hp.
have -> : l_mem (layer_of ids A0 B0 m) q by exact: hq.
rewrite [true && true]/= [l_B _ _ _]/(B0 m (lrow S p r) (lrow S q s)) /B0 hB //.
set cond := joint _ _ || _.
have [hc|hc] := boolP cond; last first.
  have npq : p = q.
    move: hpq hc; rewrite /cond /joint /=; case: eqP => // _ /= ->; by [].
  subst q; have nw : at_pos ids m Weight != Some p.
    apply/eqP => e; move: hc; by rewrite /cond /= e eqxx orbT.
  rewrite eqxx mulr1; congr (_ * _).
  have : forall d, List.In d D -> sharing T C kind ap ge mods (m_name m) xof H d by [].
  elim: D {eD hsh hsame hB eN D0} => [|d D IH] h; first by rewrite !big_nil.
  rewrite !big_cons IH; last by move=> d' hd'; apply: h; right.
  congr (_ + _); rewrite -factor_bias //; last by apply: h; left.
  by rewrite /feature (negbTE nw).
have hw : at_pos ids m Weight != None.
  by move: hc; rewrite /cond /joint /= => /orP[/and3P[]|/andP[/eqP ->]].
have eA : A0 m (lcol S (layer_of ids A0 B0 m) p r) (lcol S (layer_of ids A0 B0 m) q s) =
   N%:R^-1 * \sum_(d <- D) in_part ap ge (m_name m) (feature ge ids S m (xof d) p r) (feature ge ids S m (xof d) q s).
  rewrite /A0 /= /input_factor; congr (_ * _).
  rewrite -(big_map (fun d : X * Y => d.1) xpredT (fun x => in_term ap _ _ _ (g_act ge (m_name m) x) _ _)) -eD big_map.
  apply: eq_bigr => d _; rewrite eS in_term_part //; congr (in_part ap ge _ _ _).
    by apply: functional_extensionality => t; rewrite -(@feature_aug m _ p r A0 B0 hm hr hp hr') // hw orbT.
  by apply: functional_extensionality => t; rewrite -(@feature_aug m _ q s A0 B0 hm hr hq hs) // hw orbT.
rewrite -/(A0 m) eA -eN sums_exact //; congr (_ * _).
elim: D hsh {eD hsame hB eN D0 eA} => [|d D IH] h; first by rewrite !big_nil.
rewrite !big_cons IH; last by move=> d' hd'; apply: h; right.
congr (_ + _); by rewrite (datum_exact _ _ T_gt0 (h d (or_introl erefl))).
Qed.

(* ---- type 2 and the GGN ---- *)
Local Notation raw := (raw_hessian T C kind net tgt).
(* layer m is used in one of the ways described by [sharing], and there is one datum
   or the curvature w.r.t. the layer's output is the same for all data *)
Definition exact_layer (H : X * Y -> nat -> nat -> nat -> R) (m : module) : Prop :=
  Forall_in (sharing T C kind ap ge mods (m_name m) fst H) data /\
  same_curv T C kind ap ge mods (m_name m) fst H data.

Lemma jac_ok m : layers_ok -> List.In m ms -> relevant ids m ->
  Forall_in (fun d : X * Y => jac_exists T C kind mods (m_name m) d.1) data.
Proof.
move=> h hm hr; apply: Forall_in_impl (h m hm hr) => d [h1 h2] t c p ht hc.
by apply: (tail_ex_pd hnet hm hr) => //; apply: term_pos_lt.
Qed.

Lemma param_jac m p r d t c : List.In m ms -> relevant ids m -> enters_once pnet th ge mods ids S m d -> tail_diff T C mods m d ->
  of_layer ids m p -> (r < numel (pshape S p))%N -> (t < T)%N -> (c < C)%N ->
  pd (off S p + r) (fun z => nth 0 (pnet d z) (term_pos T C kind t c)) th =
  \sum_(s < g_S2 ge (m_name m)) feature ge ids S m d p r s * jac (m_name m) d t c (g_pos ge (m_name m) s (lrow S p r)).
Proof. by move=> hm hr h1 h2 hp hr' ht hc; rewrite (param_pd hnet hm hr h1 h2 hp hr') // term_pos_lt. Qed.

Theorem C45_type2 g : (kind = LCE -> C <> 1%N) -> type2_targets T C kind tgt data -> layers_ok -> layers_unmixed ->
  exists st A, [/\ compute Type2 1 loader g = (st, Ok tt),
    ggn_operator (T * C) pnet (FisherExp.datum_loss T C kind tgt red) red None loader S None th = Ok A &
    exists K K', [/\ acts_as (op st) S K, acts_as A S K' &
      forall m, List.In m ms -> relevant ids m -> exact_layer raw m -> agree_on m K K']].
Proof.
move=> hC ht hlay hun.
have hge := end_geometry hnet; have hu := end_uniq hnet.
have hJ : forall k ps, dget k (mp : mapping) = Some ps -> Forall_in (fun d : X * Y => jac_exists T C kind mods k d.1 /\ unmixed T C kind mods ap ge k d.1) data.
  move=> k ps /end_dget [m [hm hr -> _]].
  have := jac_ok hlay hm hr; have := hun m hm hr; elim: data => //= d l IH [a1 a2] [b1 b2]; split=> //; exact: IH.
have hc := @C32_type2_ggn X Y T C kind T_gt0 C_gt0 net tgt mods S sep ap red N 1 mp ge (fun x => net_size x th) hu hge hred N_gt0 isT G
   normal_o multinomial_o bernoulli_o loader g hl hne hC ht hJ.
have [st [h1 h2 h3]] := @C30_computed X Y T C kind net tgt sep ap red N 1 ge G normal_o multinomial_o bernoulli_o ms mods ids S hS hnet _ loader g _ hc.
have [A hA hA'] := @C15_ggn_of_empirical_risk X Y (T * C) pnet (FisherExp.datum_loss T C kind tgt red) net_size red None loader S th hS hred hl hne isT.
exists st, A; split=> //; eexists; eexists; split; [exact: h3|exact: hA'|].
move=> m hm hr [hsh hsame] p q r s hp hq hpq hr' hs.
have [eS hent] : g_S1 ge (m_name m) = g_S2 ge (m_name m) /\ Forall_in (fun d : X * Y => enters_once pnet th ge mods ids S m d.1 /\ tail_diff T C mods m d.1) data.
  have := hlay m hm hr; move: N_gt0; case: data => //= d l _ h; split=> //; by case: h => -[[]].
have hy : Forall_in (fun d : X * Y => forall t, (t < T)%N -> target_ok kind C (tgt d.2 t)) data.
  by apply: Forall_in_impl ht => d h t' /h [].
rewrite (@block_exact _ data fst raw (term_weight T C kind red N) _ m p q r s hm hr erefl eS) //.
- rewrite /ggn_matrix mean_overE -[RHS]/(ggn_entry _ _ _ _ _ _ _ _) /infer_num_data -size_flatten ggn_entry_terms //; last exact: N_gt0.
  congr (_ * _); elim: data hent hy => [|d l IH] /=; first by rewrite !big_nil.
  move=> [[e1 e2] hent] [hy hys]; rewrite !big_cons IH //; congr (_ + _).
  rewrite /ggn_part; apply: eq_bigr => t _; apply: eq_bigr => c _; apply: eq_bigr => c' _.
  by rewrite !(param_jac hm hr e1 e2) // /raw_hessian torch_row_pd2 //; apply: hy.
- by move=> d hd; elim: data hsh hd => //= d' l IH [a1 a2] [<-//|]; exact: IH.
move=> i j _ _; rewrite invr1 mul1r -(weights T C kind _ hred) -mulrA; congr (_ * _); rewrite mulr_sumr.
apply: eq_bigr => d _; rewrite /factor_curv mulr_sumr; apply: eq_bigr => t' _; rewrite mulr_sumr; apply: eq_bigr => c _.
by rewrite mulr_sumr; apply: eq_bigr => c' _; rewrite raw_row_hessian mulrA.
Qed.

(* ---- one datum ---- *)
(* the layer has one position, or KFAC-reduce is used and the predictions use all
   positions equally *)
Definition evenly_used (m : module) : Prop := g_S2 ge (m_name m) = 1%N \/
  [/\ ap = Reduce, (0 < g_S2 ge (m_name m))%N &
   Forall_in (fun d : X * Y => forall t c s i, (t < T)%N -> (c < C)%N -> (s < g_S2 ge (m_name m))%N -> (i < g_d2 ge (m_name m))%N ->
       jac (m_name m) d.1 t c (g_pos ge (m_name m) s i) = jac (m_name m) d.1 t c (g_pos ge (m_name m) 0 i)) data].

Lemma even_sharing m H : evenly_used m -> Forall_in (sharing T C kind ap ge mods (m_name m) fst H) data.
Proof.
by case=> [h|[h1 h2]]; [apply: Forall_in_all => d; apply: NoSharing|apply: Forall_in_impl => d h; apply: ReduceShare].
Qed.

Lemma one_term_unmixed : T = 1%N -> layers_unmixed.
Proof. by move=> e m _ _; apply: Forall_in_all => d t t' c c' i j ne; rewrite e; case: t t' ne => [|t] [|t']. Qed.

(* one datum with one loss term: KFAC's blocks are the blocks of the GGN *)
Theorem C45_type2_one_datum g : N = 1%N -> T = 1%N -> (kind = LCE -> C <> 1%N) -> type2_targets T C kind tgt data -> layers_ok ->
  exists st A, [/\ compute Type2 1 loader g = (st, Ok tt),
    ggn_operator (T * C) pnet (FisherExp.datum_loss T C kind tgt red) red None loader S None th = Ok A &
    exists K K', [/\ acts_as (op st) S K, acts_as A S K' &
      forall m, List.In m ms -> relevant ids m -> evenly_used m -> agree_on m K K']].
Proof.
move=> hN hT hC ht hlay; have [st [A [h1 h2 [K [K' [h3 h4 h5]]]]]] := C45_type2 g hC ht hlay (one_term_unmixed hT).
exists st, A; split=> //; exists K, K'; split=> // m hm hr he; apply: h5 => //.
by split; [exact: even_sharing|left].
Qed.

(* squared error and predictions that are linear in every layer's output: KFAC's blocks
   are the blocks of the GGN for any number of data *)
Theorem C45_deep_linear g : kind = LMSE -> type2_targets T C kind tgt data -> layers_ok -> layers_unmixed ->
  exists st A, [/\ compute Type2 1 loader g = (st, Ok tt),
    ggn_operator (T * C) pnet (FisherExp.datum_loss T C kind tgt red) red None loader S None th = Ok A &
    exists K K', [/\ acts_as (op st) S K, acts_as A S K' &
      forall m, List.In m ms -> relevant ids m ->
        (* the derivatives of the predictions do not depend on the datum *)
        (forall d d' t c p, List.In d data -> List.In d' data -> (t < T)%N -> (c < C)%N -> jac (m_name m) d.1 t c p = jac (m_name m) d'.1 t c p) ->
        evenly_used m \/
        (* KFAC-expand; term t reads position t, in the same way for every t *)
        [/\ ap = Expand, g_S2 ge (m_name m) = T,
          Forall_in (fun d : X * Y => forall t c s i, (t < T)%N -> (c < C)%N -> (s < g_S2 ge (m_name m))%N -> (i < g_d2 ge (m_name m))%N ->
            s <> t -> jac (m_name m) d.1 t c (g_pos ge (m_name m) s i) = 0) data &
          Forall_in (fun d : X * Y => forall t c i, (t < T)%N -> (c < C)%N -> (i < g_d2 ge (m_name m))%N ->
            jac (m_name m) d.1 t c (g_pos ge (m_name m) t i) = jac (m_name m) d.1 0 c (g_pos ge (m_name m) 0 i)) data] ->
        agree_on m K K']].
Proof.
move=> hk ht hlay hun; have hC : kind = LCE -> C <> 1%N by rewrite hk.
have [st [A [h1 h2 [K [K' [h3 h4 h5]]]]]] := C45_type2 g hC ht hlay hun.
have hraw d t c c' : (forall t, (t < T)%N -> target_ok kind C (tgt d.2 t)) -> (t < T)%N -> (c < C)%N -> (c' < C)%N -> raw d t c c' = if c == c' then 2 else 0.
  by move=> hy ht' hc hc'; rewrite /raw_hessian C18_closed_form ?hk //; rewrite -hk; apply: hy.
have hy : Forall_in (fun d : X * Y => forall t, (t < T)%N -> target_ok kind C (tgt d.2 t)) data.
  by apply: Forall_in_impl ht => d h t' /h [].
have hy' d : List.In d data -> forall t, (t < T)%N -> target_ok kind C (tgt d.2 t).
  by move=> hd; elim: data hy hd => //= d' l IH [a1 a2] [<-//|]; exact: IH.
exists st, A; split=> //; exists K, K'; split=> // m hm hr hj he; apply: h5 => //; split.
  case: he => [he|[e1 e2 e3 e4]]; first exact: even_sharing.
  elim: data hy e3 e4 => //= d l IH [y1 y2] [a1 a2] [b1 b2]; split; last exact: IH.
  apply: ExpandShare => // t t' i j ht1 ht2 hi hj'; rewrite /term_curv; apply: eq_bigr => c _; apply: eq_bigr => c' _.
  by rewrite !hraw // (b1 t) // (b1 t') // (b1 t _ j) // (b1 t' _ j).
right=> d d' i j hd hd' hi hj'; rewrite /factor_curv; apply: eq_bigr => t _; apply: eq_bigr => c _; apply: eq_bigr => c' _.
rewrite !hraw //; try exact: hy'.
by congr (_ * _); apply: cross_ext => s; apply: hj.
Qed.

(* ---- empirical Fisher ---- *)
(* gradient of the loss of term t w.r.t. the prediction row, for the labels y *)
Definition row_gradient (x : X) (y : nat -> target) (t c : nat) : R :=
  pd c (fun f => torch_row kind C (mkseq f C) (y t)) (pred_row T C kind net x t).

Lemma prod_outer (n : nat) (a b w : nat -> R) :
  (\sum_(c < n) a c * w c) * (\sum_(c < n) b c * w c) = \sum_(c < n) \sum_(c' < n) a c * (w c * w c' * b c').
Proof.
rewrite mulr_suml; apply: eq_bigr => c _; rewrite mulr_sumr; apply: eq_bigr => c' _.
by rewrite -!mulrA; congr (_ * (_ * _)); rewrite mulrC.
Qed.

Lemma grad_term_curv m x (y : nat -> target) i j : List.In m ms -> relevant ids m ->
  enters_once pnet th ge mods ids S m x -> tail_diff T C mods m x -> unmixed T C kind mods ap ge (m_name m) x ->
  (forall t, (t < T)%N -> target_ok kind C (y t)) -> (i < g_d2 ge (m_name m))%N -> (j < g_d2 ge (m_name m))%N ->
  grad_term ap (g_S2 ge (m_name m)) (grads T C kind mods ge (m_name m) x (row_loss C kind y)) i j =
  \sum_(t < T) \sum_(c < C) \sum_(c' < C) (row_gradient x y t c * row_gradient x y t c') *
    cross ap (g_S2 ge (m_name m)) (fun s => jac (m_name m) x t c (g_pos ge (m_name m) s i)) (fun s => jac (m_name m) x t c' (g_pos ge (m_name m) s j)).
Proof.
move=> hm hr he hd hu hy hi hj.
have hx : jac_exists T C kind mods (m_name m) x.
  by move=> t c p ht hc; apply: (tail_ex_pd hnet hm hr) => //; apply: term_pos_lt.
transitivity (grad_term ap (g_S2 ge (m_name m)) (grads T C kind mods ge (m_name m) x
   (fun t f => \sum_(c < C) f c * row_grad kind C (y t) (pred_row T C kind net x t) c)) i j).
  by apply: grad_term_ext => s i'; apply: grads_chain => //; rewrite -(enters_net he).
rewrite (grad_term_linear _ _ (fun t c => row_grad kind C (y t) (pred_row T C kind net x t) c)) //.
apply: eq_bigr => t _; apply: eq_bigr => c _.
rewrite (bigD1 t) //= [X in _ + X]big1 ?addr0 // => [|t' /eqP ne]; last first.
  by rewrite big1 // => c' _; rewrite hu ?mulr0 // => e; apply: ne; apply: val_inj.
by apply: eq_bigr => c' _; rewrite /row_gradient !torch_row_pd //; apply: hy.
Qed.

Lemma datum_ok_layers : layers_ok -> Forall_in (fun d : X * Y => forall t, (t < T)%N -> target_ok kind C (tgt d.2 t)) data ->
  Forall_in (datum_ok T C kind pnet tgt (total S) th) data.
Proof.
move=> hlay; have : forall m, List.In m ms -> relevant ids m -> Forall_in (fun d : X * Y => enters_once pnet th ge mods ids S m d.1 /\ tail_diff T C mods m d.1) data by [].
elim: data => //= d l IH h [y1 y2]; split; last by apply: IH => // m hm hr; case: (h m hm hr).
split=> // i a hi ha; have [m [p [r [hm hr hp hr' ->]]]] := coord_module hnet hi.
have [[e1 e2] _] := h m hm hr; eexists; exact: (param_derive hnet hm hr e1 e2 hp hr' ha).
Qed.

Theorem C45_empirical_one_datum g : N = 1%N -> layers_ok -> layers_unmixed ->
  Forall_in (fun d : X * Y => forall t, (t < T)%N -> target_ok kind C (tgt d.2 t)) data ->
  exists st A, [/\ compute Empirical 1 loader g = (st, Ok tt),
    ef_operator T C (Some kind) pnet tgt red None loader S th = Ok A &
    exists K K', [/\ acts_as (op st) S K, acts_as A S K' &
      forall m, List.In m ms -> relevant ids m -> evenly_used m -> agree_on m K K']].
Proof.
move=> hN hlay hun hy.
have hge := end_geometry hnet; have hu := end_uniq hnet.
have hc := @C32_empirical X Y T C kind T_gt0 C_gt0 net tgt mods S sep ap red N 1 mp ge hu hge hred N_gt0 isT G
   normal_o multinomial_o bernoulli_o loader g hl hne.
have [st [h1 h2 h3]] := @C30_computed X Y T C kind net tgt sep ap red N 1 ge G normal_o multinomial_o bernoulli_o ms mods ids S hS hnet _ loader g _ hc.
have [A hA hA'] := @C16_empirical_fisher X Y T C kind pnet tgt net_size T_gt0 C_gt0 red None loader S th hS hred hl hne isT (datum_ok_layers hlay hy).
exists st, A; split=> //; eexists; eexists; split; [exact: h3|exact: hA'|].
move=> m hm hr hev p q r s hp hq hpq hr' hs.
have [eS hent] : g_S1 ge (m_name m) = g_S2 ge (m_name m) /\ Forall_in (fun d : X * Y => enters_once pnet th ge mods ids S m d.1 /\ tail_diff T C mods m d.1) data.
  have := hlay m hm hr; move: N_gt0; case: data => //= d l _ h; split=> //; by case: h => -[[]].
pose H (d : X * Y) t c c' := row_gradient d.1 (tgt d.2) t c * row_gradient d.1 (tgt d.2) t c'.
have hum := hun m hm hr; have hdo := datum_ok_layers hlay hy.
rewrite (@block_exact _ data fst H (term_weight T C kind red N) _ m p q r s hm hr erefl eS) //.
- rewrite /ef_matrix terms_overE /infer_num_data -size_flatten; congr (_ * _).
  elim: data hent hy hdo => [|d l IH] /=; first by rewrite !big_nil.
  move=> [[e1 e2] hent] [hy hys] [[o1 o2] hdo]; rewrite !big_cons IH //; congr (_ + _).
  rewrite /ggn_part; apply: eq_bigr => t _.
  have sm := torch_ef_smooth o1 o2 T_gt0 C_gt0.
  have lg p0 r0 : of_layer ids m p0 -> (r0 < numel (pshape S p0))%N -> loss_term_grad T C kind pnet tgt d t th (off S p0 + r0) =
     \sum_(c < C) (\sum_(s0 < g_S2 ge (m_name m)) feature ge ids S m d.1 p0 r0 s0 * jac (m_name m) d.1 t c (g_pos ge (m_name m) s0 (lrow S p0 r0))) *
       row_gradient d.1 (tgt d.2) t c.
    move=> hp0 hr0; rewrite -term_gradE -(term_chain sm) //; last exact (off_bound (of_layer_lt hnet hm hr hp0) hr0).
    rewrite /term_vjp; apply: eq_bigr => c _; rewrite (param_jac hm hr e1 e2) //; congr (_ * _).
    apply: (@pd_local C) => //; first exact: (@mkseq_local C (fun s => torch_row kind C s (tgt d.2 t))).
    by move=> c0 hc0; rewrite nth_mkseq.
  pose jj p0 r0 (c : nat) := \sum_(s0 < g_S2 ge (m_name m)) feature ge ids S m d.1 p0 r0 s0 * jac (m_name m) d.1 t c (g_pos ge (m_name m) s0 (lrow S p0 r0)).
  by rewrite !lg //; symmetry; exact: (prod_outer C (jj p r) (jj q s) (row_gradient d.1 (tgt d.2) t)).
- move=> d hd; have := even_sharing H hev; elim: data hd => //= d' l IH hd [a1 a2]; case: hd => [<-//|]; move=> h; exact: IH.
- by left.
move=> i j hi hj; rewrite invr1 mul1r; congr (_ * _).
elim: data hent hy hum => [|d l IH] /=; first by rewrite !big_nil.
move=> [[e1 e2] hent] [hy hys] [u1 u2]; rewrite !big_cons IH //; congr (_ + _).
by rewrite (grad_term_curv hm hr).
Qed.

(* ---- Monte-Carlo Fisher ---- *)
(* the would-be gradients for M drawn label vectors of a batch: gradients of the loss
   of row e / C w.r.t. its entry e mod C *)
Definition label_gradients (d0 : X * Y) (p : batch * seq (seq target)) (m e : nat) : R :=
  row_gradient (nth d0 p.1 (e %/ C %/ T)).1 (fun t => nth (TCls 0) (nth [::] p.2 m) (e %/ C %/ T * T + t)) (e %/ C %% T) (e %% C).

Lemma label_average (I : Type) (ys : seq I) (k : R) (h : I -> nat -> nat -> nat -> R) (f : nat -> nat -> nat -> R) :
  \sum_(t < T) \sum_(c < C) \sum_(c' < C) (k * \sum_(y <- ys) h y t c c') * f t c c' =
  k * \sum_(y <- ys) \sum_(t < T) \sum_(c < C) \sum_(c' < C) h y t c c' * f t c c'.
Proof.
symmetry; rewrite exchange_big mulr_sumr; apply: eq_bigr => t _; rewrite exchange_big mulr_sumr; apply: eq_bigr => c _.
rewrite exchange_big mulr_sumr; apply: eq_bigr => c' _; by rewrite -mulrA mulr_suml.
Qed.

Lemma one_datum : N = 1%N -> exists d, loader = [:: [:: d]].
Proof.
case: loader hl hne => // -[|d b] l _ //= h [e]; exists d; move: e; rewrite size_cat.
by case: b => // ; case: l h => [|[|d' b'] l].
Qed.

(* valid labels, if drawn classes are classes *)
Lemma sampled_ok rows o g y g' t : (forall g rows P n r i, ((multinomial_o g rows C P n).1 r i < C)%N) ->
  sampled C kind normal_o multinomial_o bernoulli_o rows o g y g' -> (t < rows)%N -> target_ok kind C (nth (TCls 0) y t).
Proof. by move=> hc [_]; case: kind => /= -[_ h] ht; rewrite h //=; apply: hc. Qed.
Lemma samples_ok n rows o g ys g' : (forall g rows P n r i, ((multinomial_o g rows C P n).1 r i < C)%N) ->
  samples C kind normal_o multinomial_o bernoulli_o n rows o g ys g' -> size ys = n /\
  Forall_in (fun y => forall t, (t < rows)%N -> target_ok kind C (nth (TCls 0) y t)) ys.
Proof.
move=> hc; elim=> {n rows o g ys g'} [//|n rows o g y g1 ys g2 h _ [h1 h2]]; split; first by rewrite /= h1.
by split=> // t; apply: sampled_ok h.
Qed.

Theorem C45_monte_carlo_one_datum d0 M g : N = 1%N -> (0 < M)%N -> layers_ok -> layers_unmixed ->
  (* drawn classes are classes *)
  (forall g rows P n r i, ((multinomial_o g rows C P n).1 r i < C)%N) ->
  exists yss st, [/\ drawn T C kind net M normal_o multinomial_o bernoulli_o loader g yss,
    compute MC M loader g = (st, Ok tt) &
    exists2 K, acts_as (op st) S K &
      forall m, List.In m ms -> relevant ids m -> evenly_used m ->
        agree_on m K (mc_matrix T C kind pnet red None loader th M [seq label_gradients d0 p | p <- zip loader yss])].
Proof.
move=> hN hM hlay hun hcls.
have hge := end_geometry hnet; have hu := end_uniq hnet.
have [yss [hdr hc]] := @C32_monte_carlo X Y T C kind T_gt0 C_gt0 net tgt mods S sep ap red N M mp ge hu hge hred N_gt0 hM G
   normal_o multinomial_o bernoulli_o d0 loader g hl hne.
have [st [h1 h2 h3]] := @C30_computed X Y T C kind net tgt sep ap red N M ge G normal_o multinomial_o bernoulli_o ms mods ids S hS hnet _ loader g _ hc.
exists yss, st; split=> //; eexists; first exact: h3.
move=> m hm hr hev p q r s hp hq hpq hr' hs.
have [d eL] := one_datum hN.
have ed : data = [:: d] by rewrite eL.
have [eS [e1 e2]] : g_S1 ge (m_name m) = g_S2 ge (m_name m) /\ (enters_once pnet th ge mods ids S m d.1 /\ tail_diff T C mods m d.1).
  by have := hlay m hm hr; rewrite ed /= => -[[e1 e2] _]; split=> //; case: e1.
have hum : unmixed T C kind mods ap ge (m_name m) d.1 by have := hun m hm hr; rewrite ed /= => -[].
move: hdr; rewrite eL => hdr; inversion hdr as [|b l g0 ys g' yss' hsam hnil eb eg ey]; subst.
inversion hnil; subst; have [sz hys] := samples_ok hcls hsam; rewrite /= mul1n in hys.
pose H (d : X * Y) t c c' := M%:R^-1 * \sum_(y <- ys) row_gradient d.1 (nth (TCls 0) y) t c * row_gradient d.1 (nth (TCls 0) y) t c'.
rewrite -eL (@block_exact _ data fst H (term_weight T C kind red N) _ m p q r s hm hr erefl eS) //.
- rewrite /mc_matrix terms_overE /infer_num_data -size_flatten eL /= !big_seq1 /= big_ord1 /=; congr (_ * _).
  have jE p0 r0 t c : of_layer ids m p0 -> (r0 < numel (pshape S p0))%N -> (t < T)%N -> (c < C)%N ->
     pd (off S p0 + r0) (pred_entry T C kind pnet d t c) th =
     \sum_(s0 < g_S2 ge (m_name m)) feature ge ids S m d.1 p0 r0 s0 * jac (m_name m) d.1 t c (g_pos ge (m_name m) s0 (lrow S p0 r0)).
    by move=> hp0 hr0 ht hc1; rewrite -(param_jac hm hr e1 e2) //; rewrite /pred_entry /term_pos; case: kind.
  pose jj p0 r0 t (c : nat) := \sum_(s0 < g_S2 ge (m_name m)) feature ge ids S m d.1 p0 r0 s0 * jac (m_name m) d.1 t c (g_pos ge (m_name m) s0 (lrow S p0 r0)).
  have gE m0 t c : (t < T)%N -> (c < C)%N -> label_gradients d0 ([:: d], ys) m0 ((0 * T + t) * C + c)%N = row_gradient d.1 (nth (TCls 0) (nth [::] ys m0)) t c.
    move=> ht hc1; rewrite /label_gradients mul0n add0n divnMDl // [(c %/ C)%N]divn_small // addn0 [(t %/ T)%N]divn_small // modnMDl !modn_small //=.
  rewrite -mulr_sumr exchange_big /=.
  transitivity (M%:R^-1 * \sum_(y <- ys) \sum_(t < T) \sum_(c < C) \sum_(c' < C) (row_gradient d.1 (nth (TCls 0) y) t c * row_gradient d.1 (nth (TCls 0) y) t c') * (jj p r t c * jj q s t c')).
    apply: etrans (label_average ys M%:R^-1 (fun y t c c' => row_gradient d.1 (nth (TCls 0) y) t c * row_gradient d.1 (nth (TCls 0) y) t c') (fun t c c' => jj p r t c * jj q s t c')).
    rewrite /ggn_part; apply: eq_bigr => t _; apply: eq_bigr => c _; apply: eq_bigr => c' _.
    by rewrite -/(H d t c c') -/(jj p r t c) -/(jj q s t c') mulrCA.
  congr (_ * _); rewrite (big_nth [::]) sz big_mkord; apply: eq_bigr => m0 _; apply: eq_bigr => t _.
  rewrite -[LHS]/(\sum_(c < C) _); transitivity ((\sum_(c < C) jj p r t c * row_gradient d.1 (nth (TCls 0) (nth [::] ys m0)) t c) *
     (\sum_(c < C) jj q s t c * row_gradient d.1 (nth (TCls 0) (nth [::] ys m0)) t c)).
    by rewrite prod_outer; apply: eq_bigr => c _; apply: eq_bigr => c' _; rewrite mulrCA.
  by congr (_ * _); apply: eq_bigr => c _; rewrite gE // jE.
- move=> d' hd; have := even_sharing H hev; elim: data hd => //= d2 l IH hd [a1 a2]; case: hd => [<-//|]; move=> h; exact: IH.
- by left.
move=> i j hi hj; rewrite eL /= !big_seq1.
rewrite -[_ * term_weight _ _ _ _ _]mulrC -mulrA; congr (_ * _).
apply: etrans (esym (label_average ys M%:R^-1 (fun y t c c' => row_gradient d.1 (nth (TCls 0) y) t c * row_gradient d.1 (nth (TCls 0) y) t c')
  (fun t c c' => cross ap (g_S2 ge (m_name m)) (fun s => jac (m_name m) d.1 t c (g_pos ge (m_name m) s i)) (fun s => jac (m_name m) d.1 t c' (g_pos ge (m_name m) s j))))).
congr (_ * _) => /=; move: hys; clear h1 h2 h3 hc hsam hdr sz H; elim: ys => [|y zs IH] /=; first by rewrite !big_nil.
move=> [z1 z2]; rewrite !big_cons IH //; congr (_ + _); rewrite big_ord1 /=; exact: grad_term_curv.
Qed.
(* ---- forward-only ---- *)
(* the predictions are the layer's output: KFAC-expand, row t is position t; or KFAC-reduce,
   the only row is the mean over the positions *)
Definition is_output (m : module) : Prop := let k := m_name m in g_d2 ge k = C /\
  ([/\ ap = Expand, g_S2 ge k = T &
    Forall_in (fun d : X * Y => forall t c s i, (t < T)%N -> (c < C)%N -> (s < g_S2 ge k)%N -> (i < g_d2 ge k)%N ->
      jac k d.1 t c (g_pos ge k s i) = if (s == t) && (i == c) then 1 else 0) data] \/
   [/\ ap = Reduce, T = 1%N, (0 < g_S2 ge k)%N &
    Forall_in (fun d : X * Y => forall c s i, (c < C)%N -> (s < g_S2 ge k)%N -> (i < g_d2 ge k)%N ->
      jac k d.1 0 c (g_pos ge k s i) = if i == c then (g_S2 ge k)%:R^-1 else 0) data]).

Lemma sum_pick n (i : nat) (F : nat -> R) : (i < n)%N -> \sum_(c < n) (if i == c then F c else 0) = F i.
Proof.
by move=> h; rewrite (bigD1 (Ordinal h)) //= eqxx big1 ?addr0 // => c /eqP ne; case: eqP => // e; case: ne; apply: val_inj.
Qed.
Lemma sum_one n (F : nat -> R) : n = 1%N -> \sum_(t < n) F t = F 0%N.
Proof. by move=> ->; rewrite big_ord1. Qed.
Lemma pick_pair n (i j : nat) : (i < n)%N -> (j < n)%N ->
  \sum_(c < n) \sum_(c' < n) (if c == c' :> nat then 2 else 0) * ((if i == c then 1 else 0) * (if j == c' then 1 else 0)) = 2 * (i == j)%:R :> R.
Proof.
move=> hi hj; rewrite -[RHS](sum_pick (fun=> 2 * (i == j)%:R) hi); apply: eq_bigr => c _.
case: eqP => [<-|_]; last by rewrite big1 // => c' _; rewrite mul0r mulr0.
rewrite -[RHS](sum_pick (fun=> 2 * (i == j)%:R) hj); apply: eq_bigr => c' _; rewrite mul1r.
case: (j =P c') => [<-|_]; last by rewrite mulr0.
by case: eqP => _; rewrite ?mulr1 ?mulr0 // mul0r.
Qed.

(* squared error, one layer: the forward-only matrix times 2 N T (sum) or 2 / C (mean) is the GGN *)
Theorem C45_forward_only g : kind = LMSE -> Forall_in (fun d : X * Y => forall t, (t < T)%N -> target_ok kind C (tgt d.2 t)) data -> layers_ok ->
  exists st A, [/\ compute ForwardOnly 1 loader g = (st, Ok tt),
    ggn_operator (T * C) pnet (FisherExp.datum_loss T C kind tgt red) red None loader S None th = Ok A &
    exists K K', [/\ acts_as (op st) S K, acts_as A S K' &
      forall m, List.In m ms -> relevant ids m -> is_output m ->
        agree_on m (fun a b => (if red is RMean then 2 / C%:R else 2 * (N * T)%:R) * K a b) K']].
Proof.
move=> hk hy hlay.
have hge := end_geometry hnet; have hu := end_uniq hnet.
have hc := @C32_forward_only X Y T C kind net tgt mods S sep ap red N 1 mp ge hu hge G normal_o multinomial_o bernoulli_o loader g hl (first_param hnet).
have [st [h1 h2 h3]] := @C30_computed X Y T C kind net tgt sep ap red N 1 ge G normal_o multinomial_o bernoulli_o ms mods ids S hS hnet _ loader g _ hc.
have [A hA hA'] := @C15_ggn_of_empirical_risk X Y (T * C) pnet (FisherExp.datum_loss T C kind tgt red) net_size red None loader S th hS hred hl hne isT.
exists st, A; split=> //; eexists; eexists; split; [exact: h3|exact: hA'|].
move=> m hm hr [hC hout] p q r s hp hq hpq hr' hs.
have [eS hent] : g_S1 ge (m_name m) = g_S2 ge (m_name m) /\ Forall_in (fun d : X * Y => enters_once pnet th ge mods ids S m d.1 /\ tail_diff T C mods m d.1) data.
  have := hlay m hm hr; move: N_gt0; case: data => //= d l _ h; split=> //; by case: h => -[[]].
have Nn0 : N%:R != 0 :> R by apply: natr_neq0; exact: N_gt0.
have Tn0 : T%:R != 0 :> R by exact: natr_neq0.
have Cn0 : C%:R != 0 :> R by exact: natr_neq0.
have two0 : (2 : R) != 0 by apply/eqP; toR; lra.
have hraw d t c c' : (forall t, (t < T)%N -> target_ok kind C (tgt d.2 t)) -> (t < T)%N -> (c < C)%N -> (c' < C)%N -> raw d t c c' = if c == c' then 2 else 0.
  by move=> hy' ht' hc0 hc'; rewrite /raw_hessian C18_closed_form ?hk //; rewrite -hk; apply: hy'.
(* the curvature w.r.t. the layer's output *)
have hcurv : Forall_in (fun d => forall i j, (i < g_d2 ge (m_name m))%N -> (j < g_d2 ge (m_name m))%N ->
    factor_curv T C kind ap ge mods (m_name m) fst raw d i j = 2 * T%:R * (i == j)%:R) data.
  case: hout => [[e1 e2 e3]|[e1 e2 e3 e4]].
    elim: data hy e3 => //= d l IH [y1 y2] [a1 a2]; split; last exact: IH.
    move=> i j; rewrite hC => hi hj; rewrite /factor_curv /cross e1 e2.
    transitivity (\sum_(t < T) 2 * (i == j)%:R : R); last by rewrite sumr_const card_ord -mulr_natr -!mulrA [_%:R * T%:R]mulrC.
    apply: eq_bigr => t _; rewrite -(pick_pair hi hj); apply: eq_bigr => c _; apply: eq_bigr => c' _; rewrite hraw //; congr (_ * _).
    rewrite (bigD1 t) //= big1 ?addr0 => [|t' /eqP ne]; first by rewrite !a1 ?e2 ?hC // eqxx.
    rewrite a1 ?e2 ?hC // (_ : (t' == t :> nat) = false) ?mul0r //; apply/negbTE/eqP => e; apply: ne; exact: val_inj.
  elim: data hy e4 => //= d l IH [y1 y2] [a1 a2]; split; last exact: IH.
  move=> i j; rewrite hC => hi hj; rewrite /factor_curv /cross e1.
  have -> : T%:R = 1 :> R by rewrite e2.
  rewrite mulr1; transitivity (\sum_(t < T) 2 * (i == j)%:R : R); last exact: (@sum_one T (fun=> _) e2).
  apply: eq_bigr => t _; have -> : (t : nat) = 0%N by case: t => t /=; rewrite e2; case: t.
  rewrite -(pick_pair hi hj); apply: eq_bigr => c _; apply: eq_bigr => c' _; rewrite hraw //.
  have sm (i0 : nat) (c0 : 'I_C) : (i0 < C)%N -> \sum_(s0 < g_S2 ge (m_name m)) jac (m_name m) d.1 0 c0 (g_pos ge (m_name m) s0 i0) = if i0 == c0 then 1 else 0.
    move=> hi0; transitivity (\sum_(s0 < g_S2 ge (m_name m)) (if i0 == c0 then (g_S2 ge (m_name m))%:R^-1 else 0 : R)).
      by apply: eq_bigr => s0 _; rewrite a1 ?hC.
    by case: eqP => _; last (by rewrite big1); rewrite sumr_const card_ord -[_ *+ _]mulr_natr mulVf //; exact: natr_neq0.
  by rewrite !sm.
have sumcurv i j : (i < g_d2 ge (m_name m))%N -> (j < g_d2 ge (m_name m))%N ->
   \sum_(d <- data) factor_curv T C kind ap ge mods (m_name m) fst raw d i j = 2 * (N * T)%:R * (i == j)%:R.
  move=> hi hj; transitivity (\sum_(d <- data) 2 * T%:R * (i == j)%:R : R).
    by elim: data hcurv => [|d l IH] /=; rewrite ?big_nil // => -[a1 a2]; rewrite !big_cons IH // a1.
  by rewrite big_const_seq count_predT iter_addr_0 -mulr_natr natrM; toR; ring.
have hin d : List.In d data -> forall i j, (i < g_d2 ge (m_name m))%N -> (j < g_d2 ge (m_name m))%N ->
    factor_curv T C kind ap ge mods (m_name m) fst raw d i j = 2 * T%:R * (i == j)%:R.
  by move=> hd; elim: data hcurv hd => //= d' l IH [a1 a2] [<-//|]; exact: IH.
rewrite (@block_exact _ data fst raw (2 * (N * T)%:R)^-1 _ m p q r s hm hr erefl eS) //.
- rewrite mulrA.
  have -> : (if red is RMean then 2 / C%:R else 2 * (N * T)%:R) / (2 * (N * T)%:R) = term_weight T C kind red N :> R.
    rewrite /term_weight hk /=; case: red hred => // _; last by rewrite mulfV // mulf_neq0 // natrM mulf_neq0.
    by rewrite invfM mulrACA mulfV // mul1r -invfM -natrM mulnC.
  rewrite /ggn_matrix mean_overE -[RHS]/(ggn_entry _ _ _ _ _ _ _ _) /infer_num_data -size_flatten ggn_entry_terms //; last exact: N_gt0.
  congr (_ * _); elim: data hent hy => [|d l IH] /=; first by rewrite !big_nil.
  move=> [[e1 e2] hent] [hy' hys]; rewrite !big_cons IH //; congr (_ + _).
  rewrite /ggn_part; apply: eq_bigr => t _; apply: eq_bigr => c _; apply: eq_bigr => c' _.
  by rewrite !(param_jac hm hr e1 e2) // /raw_hessian torch_row_pd2 //; apply: hy'.
- case: hout => [[e1 e2 e3]|[e1 e2 e3 e4]] d hd.
    have [a1 y1] : (forall t c s0 i, (t < T)%N -> (c < C)%N -> (s0 < g_S2 ge (m_name m))%N -> (i < g_d2 ge (m_name m))%N ->
      jac (m_name m) d.1 t c (g_pos ge (m_name m) s0 i) = if (s0 == t) && (i == c) then 1 else 0) /\ (forall t, (t < T)%N -> target_ok kind C (tgt d.2 t)).
      by elim: data hy e3 hd => //= d' l IH [y1 y2] [b1 b2] [<-//|]; exact: IH.
    apply: ExpandShare => // [t c s0 i ht hc0 hs0 hi ne|t t' i j ht ht'].
      by rewrite a1 //; case: eqP ne.
    rewrite hC => hi hj; rewrite /term_curv; apply: eq_bigr => c _; apply: eq_bigr => c' _.
    by rewrite !hraw // !a1 ?e2 ?hC // !eqxx.
  have a1 : forall c s0 i, (c < C)%N -> (s0 < g_S2 ge (m_name m))%N -> (i < g_d2 ge (m_name m))%N ->
      jac (m_name m) d.1 0 c (g_pos ge (m_name m) s0 i) = if i == c then (g_S2 ge (m_name m))%:R^-1 else 0.
    by elim: data e4 hd => //= d' l IH [b1 b2] [<-//|]; exact: IH.
  apply: ReduceShare => // t c s0 i ht hc0 hs0 hi; have -> : t = 0%N by move: ht; rewrite e2; case: t.
  by rewrite !a1.
- by right=> d d' i j hd hd' hi hj; rewrite !hin.
move=> i j hi hj; rewrite sumcurv // mulrA mulVf ?mul1r //.
by rewrite mulf_neq0 // natrM mulf_neq0.
Qed.
End C45.
Print Assumptions C45_forward_only.
Print Assumptions C45_type2.
Print Assumptions C45_type2_one_datum.
Print Assumptions C45_deep_linear.
Print Assumptions C45_empirical_one_datum.
Print Assumptions C45_monte_carlo_one_datum.

(* ---- a network with two linear layers (1 -> 2 without, 2 -> 1 with bias) and the
   activation f in between; all five parameters are 1 ---- *)
Section Example_net.
Variables (f df : R -> R).
Hypothesis f_diff : forall x, is_derive f x (df x).
Definition two_pnet (x : R) (z : point) : seq R := [:: z 2%N * f (z 0%N * x) + z 3%N * f (z 1%N * x) + z 4%N].
Definition two_th : point := fun=> 1.
Definition two_mods (k : nat) : nlayer R :=
  if k is 0 then NLayer None [:: 1]%N [:: 2]%N (fun x => [:: x]) (fun x => [:: x; x]) (fun x o => [:: f (o 0%N) + f (o 1%N) + 1])
  else NLayer None [:: 2]%N [:: 1]%N (fun x => [:: f x; f x]) (fun x => [:: f x + f x + 1]) (fun x o => [:: o 0%N]).
Definition two_ms : seq module := [:: Module 0 true [:: (Weight, 0%N)]; Module 1 true [:: (Weight, 1%N); (Bias, 2%N)]].
Definition two_ids : seq nat := [:: 0; 1; 2]%N.
Definition two_S : seq (seq nat) := [:: [:: 2; 1]; [:: 1; 2]; [:: 1]]%N.
Definition two_ge : geometry R := {|
  g_S1 := fun=> 1%N; g_d1 := fun k => if k is 0 then 1%N else 2%N;
  g_act := fun k => lin_act (two_mods k) (if k is 0 then 1%N else 2%N);
  g_S2 := fun=> 1%N; g_d2 := fun k => if k is 0 then 2%N else 1%N;
  g_pos := fun k s i => (s * (if k is 0 then 2%N else 1%N) + i)%N |}.

Lemma two_network ap : network_ok 1 1 ap two_ge two_ms two_mods two_ids two_S.
Proof.
have ho k : output_geometry (two_mods k) (g_S2 two_ge k) (g_d2 two_ge k) (g_pos two_ge k).
  by case: k => [|k] /=; [exact: (@OutLinear _ (two_mods 0) [::] 2)|exact: (@OutLinear _ (two_mods k.+1) [::] 1)].
have hi k : input_geometry ap (two_mods k) (g_S1 two_ge k) (g_d1 two_ge k) (g_act two_ge k).
  by case: k => [|k] /=; [exact: (@InLinear _ ap (two_mods 0) [::] 1)|exact: (@InLinear _ ap (two_mods k.+1) [::] 2)].
have hk k : layer_ok 1 1 (two_mods k).
  by case: k => [|k]; split=> //= x z z' h; rewrite !h.
split=> //; first by split=> // m /= [<-|[<-|//]].
move=> m hm hr; split=> //.
- by case: hm => [<-|[<-|//]].
- move=> w hw; split; first exact: hi.
  by move: hw; case: hm => [<-|[<-|//]] /= [<-]; eexists.
by move=> b; case: hm => [<-|[<-|//]] //= [<-].
Qed.

Lemma two_layers_ok loader : layers_ok 1 1 two_pnet two_th two_ge two_ms two_mods two_ids two_S (loader : seq (seq (R * R))).
Proof.
move=> m hm _; apply: Forall_in_all => -[x y] /=; split.
  split=> //; exists (fun _ _ => 0), (fun _ => 0); split.
    move=> [|//] i _; case: hm => [<-|[<-|//]] /=; case: i => [|[|//]] // _;
    by rewrite /layer_map /weight_at /bias_at /= ?big_ord_recl ?big_ord0 /lin_act /two_th /= !mul1r ?addr0.
  move=> z hz o ho.
  have same i : ~~ ((i < total two_S)%N && of_layer two_ids m (param_of two_S i)) -> z i = 1.
    by move=> h; have [//|ne] := Req_dec (z i) 1; rewrite hz in h.
  case: hm ho same => [<-|[<-|//]] /= ho same.
    rewrite /two_pnet (same 2%N) // (same 3%N) // (same 4%N) // !mul1r.
    have := ho 0%N 0%N isT isT; have := ho 0%N 1%N isT isT.
    rewrite /layer_map /weight_at /bias_at /= !big_ord1 /lin_act /= !addr0 => -> ->; by [].
  rewrite /two_pnet (same 0%N) // (same 1%N) // !mul1r.
  have := ho 0%N 0%N isT isT.
  by rewrite /layer_map /weight_at /bias_at /= !big_ord_recl big_ord0 /lin_act /= addr0 => ->.
move=> [|//] _; case: hm => [<-|[<-|//]] /=.
  exists (fun c => df x) => u du t0 ux hu _; rewrite !big_ord_recl big_ord0 /= addr0.
  apply: (@derive_val _ _ (Rplus (Rplus (Rmult (du 0%N) (df x)) (Rmult (du 1%N) (df x))) 0)).
    have mv (d a b : R) : Rplus (Rplus (Rmult a d) (Rmult b d)) 0 = d * a + d * b by toR; ring.
    exact: mv.
  apply: (@is_derive_plus _ R_NormedModule); last exact: is_derive_const.
  have h c : (c < 2)%N -> is_derive (fun t => f (u t c)) t0 (Rmult (du c) (df x)).
    move=> hc; apply: (@is_derive_comp _ R_NormedModule f (fun t => u t c)); last exact: hu.
    have -> : u t0 c = x by rewrite ux; case: c hc => [|[|]].
    exact: f_diff.
  by apply: (@is_derive_plus _ R_NormedModule); apply: h.
exists (fun c => 1) => u du t0 ux hu _; rewrite big_ord1 mul1r; exact: hu.
Qed.

Variables (G : Type) (normal_o : G -> nat -> (nat -> R) * G).
Variable multinomial_o : G -> nat -> nat -> (nat -> nat -> R) -> nat -> (nat -> nat -> nat) * G.
Variable bernoulli_o : G -> nat -> (nat -> R) -> (nat -> bool) * G.
Definition two_mp : mapping := [:: (0%N, [:: (Weight, 0%N)]); (1%N, [:: (Weight, 1%N); (Bias, 2%N)])].
Local Notation compute ap ft M l n := (compute_kfac 1 1 LMSE (fun x => two_pnet x two_th) ex_tgt two_mods two_S false ap ft RMean n M 1 two_mp normal_o multinomial_o bernoulli_o l).

(* one datum: the block of the second layer, weight and bias together *)
Example C45_ex_type2 ap x y g : exists st A, [/\ compute ap Type2 1 [:: [:: (x, y)]] 1 g = (st, Ok tt),
  ggn_operator 1 two_pnet (FisherExp.datum_loss 1 1 LMSE ex_tgt RMean) RMean None [:: [:: (x, y)]] two_S None two_th = Ok A &
  exists K K', [/\ acts_as (LinOp two_S two_S (kfac_matmat false st.1 st.2 two_mp)) two_S K, acts_as A two_S K' &
    forall i j, (2 <= i < 5)%N -> (2 <= j < 5)%N -> K i j = K' i j]].
Proof.
have [||||||||st [A [h1 h2 [K [K' [h3 h4 h5]]]]]] := @C45_type2_one_datum R R 1 1 LMSE isT isT two_pnet two_th ex_tgt (fun _ _ => erefl) false ap RMean two_ge _ G
  normal_o multinomial_o bernoulli_o two_ms two_mods two_ids two_S _ (two_network ap) [:: [:: (x, y)]] _ isT g => //.
  exact: two_layers_ok.
exists st, A; split=> //; exists K, K'; split=> // i j hi hj.
have hb := h5 (Module 1 true [:: (Weight, 1%N); (Bias, 2%N)]) (or_intror (or_introl erefl)) isT (or_introl erefl).
have b p q r s := hb p q r s.
have := b 1%N 1%N; have := b 1%N 2%N; have := b 2%N 1%N; have := b 2%N 2%N.
move=> b22 b21 b12 b11.
case: i hi => [|[|[|[|[|i]]]]] //; case: j hj => [|[|[|[|[|j]]]]] // _ _.
- exact: (b11 0%N 0%N).
- exact: (b11 0%N 1%N).
- exact: (b12 0%N 0%N).
- exact: (b11 1%N 0%N).
- exact: (b11 1%N 1%N).
- exact: (b12 1%N 0%N).
- exact: (b21 0%N 0%N).
- exact: (b21 0%N 1%N).
exact: (b22 0%N 0%N).
Qed.
Example C45_ex_empirical ap x y g : exists st A, [/\ compute ap Empirical 1 [:: [:: (x, y)]] 1 g = (st, Ok tt),
  ef_operator 1 1 (Some LMSE) two_pnet ex_tgt RMean None [:: [:: (x, y)]] two_S two_th = Ok A &
  exists K K', [/\ acts_as (LinOp two_S two_S (kfac_matmat false st.1 st.2 two_mp)) two_S K, acts_as A two_S K' &
    forall i j, (i < 2)%N -> (j < 2)%N -> K i j = K' i j]].
Proof.
have [|||||||st [A [h1 h2 [K [K' [h3 h4 h5]]]]]] := @C45_empirical_one_datum R R 1 1 LMSE isT isT two_pnet two_th ex_tgt (fun _ _ => erefl) false ap RMean two_ge _ G
  normal_o multinomial_o bernoulli_o two_ms two_mods two_ids two_S _ (two_network ap) [:: [:: (x, y)]] _ isT g => //.
- exact: two_layers_ok.
- exact: one_term_unmixed.
exists st, A; split=> //; exists K, K'; split=> // i j hi hj.
exact: (h5 (Module 0 true [:: (Weight, 0%N)]) (or_introl erefl) isT (or_introl erefl) 0%N 0%N i j).
Qed.
Example C45_ex_monte_carlo ap x y M g : (0 < M)%N -> (forall g rows P n r i, ((multinomial_o g rows 1 P n).1 r i < 1)%N) ->
  exists yss st, [/\ drawn 1 1 LMSE (fun x => two_pnet x two_th) M normal_o multinomial_o bernoulli_o [:: [:: (x, y)]] g yss,
   compute ap MC M [:: [:: (x, y)]] 1 g = (st, Ok tt) &
   exists2 K, acts_as (LinOp two_S two_S (kfac_matmat false st.1 st.2 two_mp)) two_S K &
     forall i j, (i < 2)%N -> (j < 2)%N -> K i j = mc_matrix 1 1 LMSE two_pnet RMean None [:: [:: (x, y)]] two_th M
        [seq label_gradients 1 1 LMSE two_pnet two_th (0, 0) p | p <- zip [:: [:: (x, y)]] yss] i j].
Proof.
move=> hM hc.
have [|||||||yss [st [h1 h2 [K h3 h4]]]] := @C45_monte_carlo_one_datum R R 1 1 LMSE isT isT two_pnet two_th ex_tgt false ap RMean two_ge _ G
  normal_o multinomial_o bernoulli_o two_ms two_mods two_ids two_S _ (two_network ap) [:: [:: (x, y)]] _ isT (0, 0) M g _ hM => //.
- exact: two_layers_ok.
- exact: one_term_unmixed.
exists yss, st; split=> //; exists K => // i j hi hj.
exact: (h4 (Module 0 true [:: (Weight, 0%N)]) (or_introl erefl) isT (or_introl erefl) 0%N 0%N i j).
Qed.
End Example_net.
Example C45_ex_activation x : is_derive (exp : R -> R) x (exp x).
Proof. exact: is_derive_exp. Qed.

(* deep linear network: any data *)
Example C45_ex_deep_linear (G : Type) normal_o multinomial_o bernoulli_o ap (loader : seq (seq (R * R))) (g : G) : loader <> [::] -> nonempty loader ->
  exists st A, [/\ compute_kfac 1 1 LMSE (fun x => two_pnet id x two_th) ex_tgt (two_mods id) two_S false ap Type2 RMean (size (flatten loader)) 1 1 two_mp
      normal_o multinomial_o bernoulli_o loader g = (st, Ok tt),
    ggn_operator 1 (two_pnet id) (FisherExp.datum_loss 1 1 LMSE ex_tgt RMean) RMean None loader two_S None two_th = Ok A &
    exists K K', [/\ acts_as (LinOp two_S two_S (kfac_matmat false st.1 st.2 two_mp)) two_S K, acts_as A two_S K' &
      forall i j, (i < 2)%N -> (j < 2)%N -> K i j = K' i j]].
Proof.
move=> hl hne.
have hd x : is_derive (id : R -> R) x 1 by exact: is_derive_id.
have [||||||st [A [h1 h2 [K [K' [h3 h4 h5]]]]]] := @C45_deep_linear R R 1 1 LMSE isT isT (two_pnet id) two_th ex_tgt (fun _ _ => erefl) false ap RMean (two_ge id) _ G
  normal_o multinomial_o bernoulli_o two_ms (two_mods id) two_ids two_S _ (two_network id ap) loader hl hne g => //.
- by apply: Forall_in_all => d t _; do !split.
- exact: (two_layers_ok hd).
- exact: one_term_unmixed.
exists st, A; split=> //; exists K, K'; split=> // i j hi hj.
apply: (h5 (Module 0 true [:: (Weight, 0%N)]) (or_introl erefl) isT _ (or_introl (or_introl erefl)) 0%N 0%N i j) => //.
have lin o p : pd p (fun z : point => z 0%N + z 1%N + 1) o = (if (p < 2)%N then 1 else 0).
  apply: is_derive_unique; case: p => [|[|p]]; rewrite /upd /GRing.add /=; auto_derive => //; toR; ring.
by move=> d d' [|//] [|//] p _ _ _ _; rewrite /jac /= -[pd _ _ _]/(pd p (fun z : point => z 0%N + z 1%N + 1) _) lin -[RHS]/(pd p (fun z : point => z 0%N + z 1%N + 1) _) lin.
Qed.
