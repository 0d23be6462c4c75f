(* How the parameters of a layer enter the network, the chain rule from the layer's
   outputs to its parameters, and when sums of Kronecker products equal Kronecker
   products of sums.  Lemmas for C45. *)
From Coq Require Import Reals Lra FunctionalExtensionality.
From Coquelicot Require Import Coquelicot.
From mathcomp Require Import all_ssreflect all_algebra.
From Verif Require Import PyPrelude Tensor Spec TorchBase Submatrix RInst Calculus ROrd Curvature HessGGN Risk Losses Fisher FisherMC FisherExp OpSpec LossHess Props_LossHess Conv Props_Conv Kfac KfacSpec KfacProof KfacMap KfacBlocks Props_Kfac KfacCov KfacCovHooks KfacCovSpec KfacCovProof Props_KfacCov Props_KfacMC Props_KfacEnd.
Set Implicit Arguments.
Unset Strict Implicit.
Unset Printing Implicit Defensive.
Import GRing.Theory Num.Theory.
Local Open Scope ring_scope.

(* ---- layout of a layer's outputs ---- *)
Section Layout.
Variable X : Type.
Lemma out_pos_lt (l : nlayer X) n d pos s i : output_geometry l n d pos -> (s < n)%N -> (i < d)%N ->
  (pos s i < numel (nl_oshape l))%N.
Proof.
case=> [sh d' _ ->|c d' O1 O2 _ ->] hs hi; first by rewrite numel_rcons idx_lt.
by rewrite /= muln1 idx_lt.
Qed.
Lemma idx_inj d a b a' b' : (b < d)%N -> (b' < d)%N -> (a * d + b = a' * d + b')%N -> a = a' /\ b = b'.
Proof.
move=> h h' e; have e1 := congr1 (divn^~ d) e; have e2 := congr1 (modn^~ d) e.
by move: e1 e2 => /=; rewrite !divn_small_pos // !modnMDl !modn_small.
Qed.
Lemma out_pos_inj (l : nlayer X) n d pos s i s' i' : output_geometry l n d pos -> (s < n)%N -> (i < d)%N -> (s' < n)%N -> (i' < d)%N ->
  pos s i = pos s' i' -> s = s' /\ i = i'.
Proof.
case=> [sh d' _ _|c d' O1 O2 _ _] hs hi hs' hi'; first exact: idx_inj.
by move/(idx_inj hs hs') => [-> ->].
Qed.
End Layout.

Lemma derive_affine (a c k t0 : R) : is_derive (fun v : R => a + (v - c) * k) t0 k.
Proof. by change (is_derive (fun v : R => Rplus a (Rmult (Rplus v (Ropp c)) k)) t0 k); auto_derive => //; ring. Qed.

Section Enter.
Variables (X : Type) (T C : nat) (ap : kfac_approx).
Variables (pnet : X -> point -> seq R) (th : point).
Variables (ge : geometry X) (ms : seq module) (mods : nat -> nlayer X) (ids : seq nat) (S : seq (seq nat)).
Hypothesis hnet : network_ok T C ap ge ms mods ids S.

(* entry (i, j) of the module's weight and entry i of its bias, as functions of the
   operator's parameters z; fixed if they are not among them *)
Definition weight_at (m : module) (W0 : nat -> nat -> R) (z : point) (i j : nat) : R :=
  if at_pos ids m Weight is Some p then z (off S p + (i * ncol S p + j))%N else W0 i j.
Definition bias_at (m : module) (b0 : nat -> R) (z : point) (i : nat) : R :=
  if at_pos ids m Bias is Some p then z (off S p + i)%N else b0 i.
(* W a_s + b, channel i *)
Definition layer_map (m : module) (W0 : nat -> nat -> R) (b0 : nat -> R) (x : X) (z : point) (s i : nat) : R :=
  \sum_(j < g_d1 ge (m_name m)) weight_at m W0 z i j * g_act ge (m_name m) x s j + bias_at m b0 z i.
Definition of_layer (m : module) (p : nat) : bool := (at_pos ids m Weight == Some p) || (at_pos ids m Bias == Some p).

(* the module multiplies the input at every position with its weight and adds its
   bias; when its parameters change, the network's output changes only through the
   module's output *)
Definition enters_once (m : module) (x : X) : Prop := let k := m_name m in
  g_S1 ge k = g_S2 ge k /\
  exists W0 b0,
    (forall s i, (s < g_S2 ge k)%N -> (i < g_d2 ge k)%N ->
      nth 0 (nl_out (mods k) x) (g_pos ge k s i) = layer_map m W0 b0 x th s i) /\
    (forall z, (forall i, z i <> th i -> (i < total S)%N && of_layer m (param_of S i)) ->
     forall o, (forall s i, (s < g_S2 ge k)%N -> (i < g_d2 ge k)%N -> o (g_pos ge k s i) = layer_map m W0 b0 x z s i) ->
     pnet x z = nl_tail (mods k) x o).

(* the rest of the network is differentiable in the module's output *)
Definition tail_diff (m : module) (x : X) : Prop := let k := m_name m in
  forall a, (a < T * C)%N -> exists g, curve_diff (numel (nl_oshape (mods k))) (fun z => nth 0 (nl_tail (mods k) x z) a) (nth 0 (nl_out (mods k) x)) g.

(* derivative of prediction entry a w.r.t. entry q of the module's output *)
Definition ojac (m : module) (x : X) (a q : nat) : R :=
  pd q (fun z => nth 0 (nl_tail (mods (m_name m)) x z) a) (nth 0 (nl_out (mods (m_name m)) x)).

(* what entry r of parameter p is multiplied with at position s *)
Definition feature (m : module) (x : X) (p r s : nat) : R :=
  if at_pos ids m Weight == Some p then g_act ge (m_name m) x s (r %% ncol S p) else 1.

Definition layer_of (A B : module -> nat -> nat -> R) (m : module) : layer R_comRingType :=
  Layer (at_pos ids m Weight) (at_pos ids m Bias) (A m) (B m).
Section Module.
Variable m : module.
Hypothesis hm : List.In m ms.
Hypothesis hr : relevant ids m.
Local Notation k := (m_name m).

Lemma w_shape w : at_pos ids m Weight = Some w -> exists rest, pshape S w = g_d2 ge k :: rest /\ numel rest = g_d1 ge k.
Proof. by case: hnet => _ _ _ /(_ m hm hr) [_ _ h _] /h []. Qed.
Lemma b_shape b : at_pos ids m Bias = Some b -> pshape S b = [:: g_d2 ge k].
Proof. by case: hnet => _ _ _ /(_ m hm hr) [_ _ _ h] /h. Qed.
Lemma w_ncol w : at_pos ids m Weight = Some w -> ncol S w = g_d1 ge k.
Proof. by move=> /w_shape [rest [e h]]; rewrite /ncol e. Qed.
Lemma w_numel w : at_pos ids m Weight = Some w -> numel (pshape S w) = (g_d2 ge k * g_d1 ge k)%N.
Proof. by move=> /w_shape [rest [-> <-]]. Qed.
Lemma b_ncol b : at_pos ids m Bias = Some b -> ncol S b = 1%N.
Proof. by move=> /b_shape e; rewrite /ncol e. Qed.
Lemma b_numel b : at_pos ids m Bias = Some b -> numel (pshape S b) = g_d2 ge k.
Proof. by move=> /b_shape ->; rewrite /= muln1. Qed.

Lemma unshared_layers (A B : module -> nat -> nat -> R) :
  unshared S [seq layer_of A B m | m <- ms & relevant ids m].
Proof.
case: (hnet) => n1 n2 n3 n4.
have := @net_unshared R_comRingType S ids [::] [::] ms n1 n2 n3 (fun m hm hr => let: And4 a _ _ _ := n4 m hm hr in a).
by rewrite /unshared /net_layers -!map_comp.
Qed.
Lemma layer_in (A B : module -> nat -> nat -> R) : List.In (layer_of A B m) [seq layer_of A B m | m <- ms & relevant ids m].
Proof. by apply/List.in_map_iff; exists m; split=> //; apply: In_relevant2. Qed.
Lemma of_layer_pos A B p : of_layer m p = (p \in l_pos (layer_of A B m)).
Proof. by rewrite -(l_memE (layer_of A B m)). Qed.

Let A0 : module -> nat -> nat -> R := fun _ _ _ => 0.
Lemma of_layer_lt p : of_layer m p -> (p < size S)%N.
Proof.
rewrite (of_layer_pos A0 A0) => h; have := in_pos (layer_in A0 A0) h.
by rewrite (perm_mem (unshared_layers A0 A0)) mem_iota add0n.
Qed.
Lemma weight_not_bias w b : at_pos ids m Weight = Some w -> at_pos ids m Bias = Some b -> w <> b.
Proof.
move=> hw hb e; have hu : uniq (flatten (map (@l_pos R_comRingType) [seq layer_of A0 A0 m | m <- ms & relevant ids m])).
  by rewrite (perm_uniq (unshared_layers A0 A0)) iota_uniq.
have : uniq (l_pos (layer_of A0 A0 m)).
  move: hu (layer_in A0 A0); elim: [seq layer_of A0 A0 m | m <- ms & relevant ids m] => //= l ls IH.
  by rewrite cat_uniq => /and3P[u1 _ u3] [<-|h]; [exact: u1|exact: IH].
by rewrite /l_pos /= hw hb /= e inE eqxx.
Qed.

Lemma off_inj p r q s : (p < size S)%N -> (q < size S)%N -> (r < numel (pshape S p))%N -> (s < numel (pshape S q))%N ->
  (off S p + r = off S q + s)%N -> p = q /\ r = s.
Proof.
move=> hp hq hr' hs e; have [e1 e2] := locate_off hp hr'; have [e3 e4] := locate_off hq hs.
by move: e1 e2; rewrite e e3 e4.
Qed.

Lemma row_lt p r : of_layer m p -> (r < numel (pshape S p))%N -> (lrow S p r < g_d2 ge k)%N.
Proof.
rewrite /lrow => /orP[] /eqP e; last by rewrite b_numel // b_ncol // divn1.
rewrite w_numel // (w_ncol e) => h; rewrite ltn_divLR //; by case: (g_d1 ge k) h; rewrite ?muln0.
Qed.

Lemma layer_map_upd W0 b0 x p r v s i : of_layer m p -> (r < numel (pshape S p))%N -> (i < g_d2 ge k)%N ->
  layer_map m W0 b0 x (upd th (off S p + r) v) s i =
  layer_map m W0 b0 x th s i + (v - th (off S p + r)%N) * ((i == lrow S p r)%:R * feature m x p r s).
Proof.
move=> hp hr' hi; have hpS := of_layer_lt hp; rewrite /layer_map.
have wupd w j : at_pos ids m Weight = Some w -> (j < g_d1 ge k)%N -> upd th (off S p + r) v (off S w + (i * ncol S w + j))%N =
    th (off S w + (i * ncol S w + j))%N + (v - th (off S p + r)%N) * ((w == p) && (i == lrow S p r) && (j == r %% ncol S p)%N)%:R.
  move=> hw hj; have hwS : (w < size S)%N by apply: of_layer_lt; rewrite /of_layer hw eqxx.
  have hij : (i * ncol S w + j < numel (pshape S w))%N by rewrite w_numel // w_ncol // idx_lt.
  have hj' : (j < ncol S w)%N by rewrite w_ncol.
  rewrite /upd; case: eqP => [/(off_inj hwS hpS hij hr') [e1 e2]|ne].
    subst p; rewrite -e2 eqxx /lrow divn_small_pos // modnMDl modn_small // !eqxx /= mulr1 addrC subrK; by [].
  case: eqP => [e1|_] /=; last by rewrite mulr0 addr0.
  case: eqP => [e2|_] /=; last by rewrite mulr0 addr0.
  case: eqP => [e3|_] /=; last by rewrite mulr0 addr0.
  by case: ne; rewrite e1 e2 e3 /lrow -divn_eq.
have bupd b : at_pos ids m Bias = Some b -> upd th (off S p + r) v (off S b + i)%N =
    th (off S b + i)%N + (v - th (off S p + r)%N) * ((b == p) && (i == lrow S p r))%:R.
  move=> hb; have hbS : (b < size S)%N by apply: of_layer_lt; rewrite /of_layer hb eqxx orbT.
  have hi' : (i < numel (pshape S b))%N by rewrite b_numel.
  rewrite /upd; case: eqP => [/(off_inj hbS hpS hi' hr') [e1 e2]|ne].
    by subst p; rewrite -e2 eqxx /lrow b_ncol // divn1 eqxx /= mulr1 addrC subrK.
  case: eqP => [e1|_] /=; last by rewrite mulr0 addr0.
  case: eqP => [e2|_] /=; last by rewrite mulr0 addr0.
  by case: ne; rewrite e1 e2 /lrow -e1 b_ncol // divn1.
set dv := v - _.
have -> : \sum_(j < g_d1 ge k) weight_at m W0 (upd th (off S p + r) v) i j * g_act ge k x s j =
   \sum_(j < g_d1 ge k) weight_at m W0 th i j * g_act ge k x s j +
   dv * (((at_pos ids m Weight == Some p) && (i == lrow S p r))%:R * g_act ge k x s (r %% ncol S p)).
  rewrite /weight_at; case ew : (at_pos ids m Weight) => [w|] /=; last by rewrite mul0r mulr0 addr0.
  transitivity (\sum_(j < g_d1 ge k) (th (off S w + (i * ncol S w + j))%N * g_act ge k x s j +
     dv * (((w == p) && (i == lrow S p r) && ((j : nat) == r %% ncol S p)%N)%:R * g_act ge k x s j))).
    by apply: eq_bigr => j _; rewrite wupd // mulrDl -mulrA.
  rewrite big_split /= -mulr_sumr; congr (_ + dv * _).
  rewrite (_ : (Some w == Some p) = (w == p)); last by [].
  case: (w =P p) => [e|_] /=; last by rewrite mul0r big1 // => j _; rewrite mul0r.
  case: (i =P lrow S p r) => [e2|_] /=; last by rewrite mul0r big1 // => j _; rewrite mul0r.
  subst p; have d0 : (0 < g_d1 ge k)%N by move: hr'; rewrite w_numel //; case: (g_d1 ge k); rewrite ?muln0.
  have hlt : (r %% ncol S w < g_d1 ge k)%N by rewrite w_ncol // ltn_mod.
  rewrite (bigD1 (Ordinal hlt)) //= eqxx big1 ?addr0 // => j /eqP ne; case: eqP => [e|_]; rewrite ?mul0r //.
  by case: ne; apply: val_inj.
have -> : bias_at m b0 (upd th (off S p + r) v) i = bias_at m b0 th i + dv * ((at_pos ids m Bias == Some p) && (i == lrow S p r))%:R.
  rewrite /bias_at; case eb : (at_pos ids m Bias) => [b|] /=; last by rewrite mulr0 addr0.
  by rewrite bupd.
rewrite addrACA -mulrDr; congr (_ + dv * _); rewrite /feature.
case: eqP => [ew|nw] /=.
  have -> : (at_pos ids m Bias == Some p) = false.
    by apply/eqP => eb; have := weight_not_bias ew eb.
  by rewrite addr0.
have -> : (at_pos ids m Bias == Some p) by move: hp; rewrite /of_layer; case: eqP.
by rewrite mul0r add0r mulr1.
Qed.

(* chain rule: d(prediction)/d(parameter) = sum over positions of feature times
   d(prediction)/d(output of the row's channel) *)
Lemma param_derive x p r a : enters_once m x -> tail_diff m x -> of_layer m p -> (r < numel (pshape S p))%N -> (a < T * C)%N ->
  is_derive (fun v => nth 0 (pnet x (upd th (off S p + r) v)) a) (th (off S p + r)%N)
    (\sum_(s < g_S2 ge k) feature m x p r s * ojac m x a (g_pos ge k s (lrow S p r))).
Proof.
move=> [_ [W0 [b0 [hout hin]]]] hdiff hp hr' ha; have [g hg] := hdiff a ha.
have hpS := of_layer_lt hp; have hrow := row_lt hp hr'.
have hgeo : output_geometry (mods k) (g_S2 ge k) (g_d2 ge k) (g_pos ge k).
  by case: hnet => _ _ _ /(_ m hm hr) [_ [_ h] _ _].
set i0 := (off S p + r)%N; set i := lrow S p r.
pose D q : R := \sum_(s < g_S2 ge k) (q == g_pos ge k s i)%:R * feature m x p r s.
pose u (v : R) : point := fun q => nth 0 (nl_out (mods k) x) q + (v - th i0) * D q.
have u0 : u (th i0) = nth 0 (nl_out (mods k) x).
  by apply: functional_extensionality => q; rewrite /u subrr mul0r addr0.
have hi0 : (i0 < total S)%N && of_layer m (param_of S i0).
  by have [-> _] := locate_off hpS hr'; rewrite hp off_bound.
have key v : pnet x (upd th i0 v) = nl_tail (mods k) x (u v).
  apply: hin => [j|s i' hs hi'].
    by rewrite /upd; case: eqP => // -> _.
  rewrite layer_map_upd // /u hout // -/i -/i0; congr (_ + _ * _).
  rewrite /D (bigD1 (Ordinal hs)) //= big1 ?addr0 => [|s' /eqP ne].
    case: (i' =P i) => [->|ne]; first by rewrite eqxx.
    by case: eqP => // /(out_pos_inj hgeo hs hi' hs hrow) [_ e]; case: ne.
  case: eqP => [/(out_pos_inj hgeo hs hi' (ltn_ord s') hrow) [e _]|_]; rewrite ?mul0r //.
  by case: ne; apply: val_inj.
apply: (derive_ext (f := fun v => nth 0 (nl_tail (mods k) x (u v)) a)); first by move=> v; rewrite key.
have hc := hg u D (th i0) u0 (fun c _ => derive_affine _ _ _ _).
apply: derive_val (hc _); last first.
  move=> v c hc'; rewrite /u /D big1 ?mulr0 ?addr0 // => s _.
  by case: eqP => [e|_]; rewrite ?mul0r //; move: hc'; rewrite e leqNgt (out_pos_lt hgeo).
rewrite /D; transitivity (\sum_(q < numel (nl_oshape (mods k))) \sum_(s < g_S2 ge k) g q * (((q : nat) == g_pos ge k s i)%:R * feature m x p r s)).
  by apply: eq_bigr => q _; rewrite mulr_sumr.
rewrite exchange_big; apply: eq_bigr => s _ /=.
have hq := out_pos_lt hgeo (ltn_ord s) hrow.
rewrite (bigD1 (Ordinal hq)) //= eqxx mul1r big1 ?addr0 => [|q /eqP ne]; last first.
  by case: eqP => [e|_]; rewrite ?mul0r ?mulr0 //; case: ne; apply: val_inj.
by rewrite mulrC /ojac (curve_pd hg).
Qed.

Lemma param_pd x p r a : enters_once m x -> tail_diff m x -> of_layer m p -> (r < numel (pshape S p))%N -> (a < T * C)%N ->
  pd (off S p + r) (fun z => nth 0 (pnet x z) a) th =
  \sum_(s < g_S2 ge k) feature m x p r s * ojac m x a (g_pos ge k s (lrow S p r)).
Proof. by move=> h1 h2 h3 h4 h5; apply: is_derive_unique; apply: param_derive. Qed.

Lemma enters_net x : enters_once m x -> pnet x th = nl_tail (mods k) x (nth 0 (nl_out (mods k) x)).
Proof. by move=> [_ [W0 [b0 [hout hin]]]]; apply: hin. Qed.

Lemma tail_ex_pd x a q : tail_diff m x -> (a < T * C)%N ->
  ex_pd q (fun z => nth 0 (nl_tail (mods k) x z) a) (nth 0 (nl_out (mods k) x)).
Proof.
move=> hd ha; set z0 := nth 0 (nl_out (mods k) x); case: (ltnP q (numel (nl_oshape (mods k)))) => hq.
  have [g hg] := hd a ha; eexists; apply: (hg (fun v => upd z0 q v) (fun c => (c == q)%:R) (z0 q)).
  - exact: upd_id.
  - move=> c _; rewrite /upd; case: eqP => _; [exact: is_derive_id|exact: is_derive_const].
  by move=> t c hc; rewrite /upd; case: eqP => // e; move: hc; rewrite e leqNgt hq.
have [_ [[_ _ _ hl] _] _ _] : _ := let: And4 _ _ _ h := hnet in h m hm hr.
exists 0; apply: (derive_ext (f := fun=> nth 0 (nl_tail (mods k) x z0) a)); last exact: is_derive_const.
by move=> v; congr nth; apply: hl => c hc; rewrite /upd; case: eqP => // e; move: hc; rewrite e ltnNge hq.
Qed.
End Module.

(* every parameter belongs to a module *)
Lemma coord_module i : (i < total S)%N -> exists m p r, [/\ List.In m ms, relevant ids m, of_layer m p,
  (r < numel (pshape S p))%N & i = (off S p + r)%N].
Proof.
move=> hi; have [h1 h2 h3] := locate_bound hi.
have := unshared_layers (fun _ _ _ => 0) (fun _ _ _ => 0) => hu.
have : param_of S i \in flatten (map (@l_pos R_comRingType) [seq layer_of (fun _ _ _ => 0) (fun _ _ _ => 0) m | m <- ms & relevant ids m]).
  by rewrite (perm_mem hu) mem_iota add0n.
have : forall m, List.In m [seq m <- ms | relevant ids m] -> List.In m ms /\ relevant ids m by apply: In_relevant.
elim: [seq m <- ms | relevant ids m] => //= m l IH H; rewrite mem_cat => /orP[h|h]; last by apply: IH h => m' hm'; apply: H; right.
have [g1 g2] := H m (or_introl erefl).
exists m, (param_of S i), (within S i); split=> //.
by rewrite (of_layer_pos m (fun _ _ _ => 0) (fun _ _ _ => 0)).
Qed.
End Enter.

(* ---- when a Kronecker product of sums is a sum of Kronecker products ---- *)
Section Core.
Variables (X : Type) (T C : nat) (kind : loss_kind) (ap : kfac_approx).
Variables (ge : geometry X) (mods : nat -> nlayer X).
Variable k : nat.
Variables (I : Type) (xof : I -> X).
(* curvature of the loss term t of datum d w.r.t. its prediction row *)
Variable H : I -> nat -> nat -> nat -> R.
Local Notation jac := (jac T C kind mods k).

(* J_t^T H_t J_t at position s *)
Definition term_curv (d : I) (t s i j : nat) : R :=
  \sum_(c < C) \sum_(c' < C) H d t c c' * (jac (xof d) t c (g_pos ge k s i) * jac (xof d) t c' (g_pos ge k s j)).
(* what the datum contributes to the gradient factor *)
Definition factor_curv (d : I) (i j : nat) : R :=
  \sum_(t < T) \sum_(c < C) \sum_(c' < C) H d t c c' *
    cross ap (g_S2 ge k) (fun s => jac (xof d) t c (g_pos ge k s i)) (fun s => jac (xof d) t c' (g_pos ge k s j)).

(* the ways in which the positions of a layer may be used *)
Inductive sharing (d : I) : Prop :=
| NoSharing of g_S2 ge k = 1%N
  (* loss term t reads position t only, and all terms have the same curvature *)
| ExpandShare of ap = Expand & g_S2 ge k = T &
    (forall t c s i, (t < T)%N -> (c < C)%N -> (s < g_S2 ge k)%N -> (i < g_d2 ge k)%N -> s <> t -> jac (xof d) t c (g_pos ge k s i) = 0) &
    (forall t t' i j, (t < T)%N -> (t' < T)%N -> (i < g_d2 ge k)%N -> (j < g_d2 ge k)%N -> term_curv d t t i j = term_curv d t' t' i j)
  (* the predictions use all positions equally *)
| ReduceShare of ap = Reduce & (0 < g_S2 ge k)%N &
    (forall t c s i, (t < T)%N -> (c < C)%N -> (s < g_S2 ge k)%N -> (i < g_d2 ge k)%N ->
       jac (xof d) t c (g_pos ge k s i) = jac (xof d) t c (g_pos ge k 0 i)).

(* one datum, or data with equal curvature w.r.t. the layer's output *)
Definition same_curv (data : seq I) : Prop := size data = 1%N \/
  forall d d' i j, List.In d data -> List.In d' data -> (i < g_d2 ge k)%N -> (j < g_d2 ge k)%N -> factor_curv d i j = factor_curv d' i j.

(* the entries of the two matrices, with features f, f' of the two parameters *)
Definition ggn_part (d : I) (f f' : nat -> R) (i j : nat) : R :=
  \sum_(t < T) \sum_(c < C) \sum_(c' < C)
    (\sum_(s < g_S2 ge k) f s * jac (xof d) t c (g_pos ge k s i)) *
    (H d t c c' * \sum_(s < g_S2 ge k) f' s * jac (xof d) t c' (g_pos ge k s j)).
Definition in_part (f f' : nat -> R) : R :=
  match ap with
  | Expand => (g_S2 ge k)%:R^-1 * \sum_(s < g_S2 ge k) f s * f' s
  | Reduce => ((g_S2 ge k)%:R^-1 * \sum_(s < g_S2 ge k) f s) * ((g_S2 ge k)%:R^-1 * \sum_(s < g_S2 ge k) f' s)
  end.

Lemma datum_exact d f f' i j : (0 < T)%N -> sharing d -> (i < g_d2 ge k)%N -> (j < g_d2 ge k)%N ->
  ggn_part d f f' i j = factor_curv d i j * in_part f f'.
Proof.
move=> T0 hs hi hj; rewrite /ggn_part /factor_curv /in_part /cross; case: hs.
- move=> ->; rewrite !big_ord1 invr1 !mul1r.
  have -> : (match ap with Expand => f 0%N * f' 0%N | Reduce => f 0%N * f' 0%N end) = f 0%N * f' 0%N by case: ap.
  rewrite mulr_suml; apply: eq_bigr => t _; rewrite mulr_suml; apply: eq_bigr => c _; rewrite mulr_suml; apply: eq_bigr => c' _.
  have mv (u v h x y : R) : u * x * (h * (v * y)) = h * (x * y) * (u * v) by toR; ring.
  by case: ap; rewrite !big_ord1 mv.
- move=> -> eS hz hc; rewrite eS.
  have one t (g : nat -> R) c i0 : (t < T)%N -> (c < C)%N -> (i0 < g_d2 ge k)%N -> \sum_(s < T) g s * jac (xof d) t c (g_pos ge k s i0) = g t * jac (xof d) t c (g_pos ge k t i0).
    move=> ht hcc hi0; rewrite (bigD1 (Ordinal ht)) //= big1 ?addr0 // => s /eqP ne; rewrite hz ?mulr0 ?eS //.
    by move=> e; apply: ne; apply: val_inj.
  have -> : \sum_(t < T) \sum_(c < C) \sum_(c' < C) (\sum_(s < T) f s * jac (xof d) t c (g_pos ge k s i)) *
      (H d t c c' * (\sum_(s < T) f' s * jac (xof d) t c' (g_pos ge k s j))) = \sum_(t < T) f t * f' t * term_curv d 0 0 i j.
    apply: eq_bigr => t _; rewrite (hc 0%N t) // /term_curv mulr_sumr; apply: eq_bigr => c _; rewrite mulr_sumr; apply: eq_bigr => c' _.
    by rewrite !one //; toR; ring.
  have -> : \sum_(t < T) \sum_(c < C) \sum_(c' < C) H d t c c' * (\sum_(s < T) jac (xof d) t c (g_pos ge k s i) * jac (xof d) t c' (g_pos ge k s j)) =
      \sum_(t < T) term_curv d 0 0 i j.
    apply: eq_bigr => t _; rewrite (hc 0%N t) // /term_curv; apply: eq_bigr => c _; apply: eq_bigr => c' _; congr (_ * _).
    rewrite (one t (fun s => jac (xof d) t c (g_pos ge k s i)) c' j) //.
  rewrite -mulr_suml sumr_const card_ord -[_ *+ T]mulr_natr -[RHS]mulrA [T%:R * _]mulrA divff ?natr_neq0 // mul1r mulrC.
  by [].
move=> -> S0 hz.
have s0 := natr_neq0 S0.
rewrite mulr_suml; apply: eq_bigr => t _; rewrite mulr_suml; apply: eq_bigr => c _; rewrite mulr_suml; apply: eq_bigr => c' _.
have pull (g : nat -> R) c0 i0 : (c0 < C)%N -> (i0 < g_d2 ge k)%N ->
   \sum_(s < g_S2 ge k) g s * jac (xof d) t c0 (g_pos ge k s i0) = (\sum_(s < g_S2 ge k) g s) * jac (xof d) t c0 (g_pos ge k 0 i0).
  by move=> h1 h2; rewrite mulr_suml; apply: eq_bigr => s _; rewrite hz.
have pull1 c0 i0 : (c0 < C)%N -> (i0 < g_d2 ge k)%N ->
   \sum_(s < g_S2 ge k) jac (xof d) t c0 (g_pos ge k s i0) = (g_S2 ge k)%:R * jac (xof d) t c0 (g_pos ge k 0 i0).
  move=> h1 h2; rewrite -[LHS](eq_bigr _ (fun s _ => mul1r _)) (pull (fun=> 1)) // sumr_const card_ord; by [].
rewrite !pull // !pull1 //; move: (\sum_(s < _) f s) (\sum_(s < _) f' s) (jac _ _ c _) (jac _ _ c' _) (H d t c c') => a b x y h.
set n := (g_S2 ge k)%:R in s0 *.
rewrite (_ : h * (n * x * (n * y)) * (n^-1 * a * (n^-1 * b)) = (n * n^-1) * (n * n^-1) * (a * x * (h * (b * y)))); last by toR; ring.
by rewrite divff // !mul1r.
Qed.

Lemma sharing_pos d : (0 < T)%N -> sharing d -> (0 < g_S2 ge k)%N.
Proof. by move=> T0 [->|_ ->|]. Qed.

Lemma factor_bias d i j : (0 < T)%N -> sharing d -> (i < g_d2 ge k)%N -> (j < g_d2 ge k)%N ->
  ggn_part d (fun=> 1) (fun=> 1) i j = factor_curv d i j.
Proof.
move=> T0 hs hi hj; have hS := sharing_pos T0 hs; rewrite datum_exact // /in_part; have s0 := natr_neq0 hS.
by case: ap; rewrite ?mul1r sumr_const card_ord mulVf ?mulr1.
Qed.

Lemma in_term_part joint a u v : (0 < g_S2 ge k)%N ->
  in_term ap joint (g_S2 ge k) (g_d1 ge k) a u v = in_part (fun s => aug (g_d1 ge k) (a s) u) (fun s => aug (g_d1 ge k) (a s) v).
Proof.
move=> hS; have s0 := natr_neq0 hS; rewrite /in_term /in_part; case: ap => //.
have e w : aug (g_d1 ge k) (fun j => (g_S2 ge k)%:R^-1 * \sum_(s < g_S2 ge k) a s j) w = (g_S2 ge k)%:R^-1 * \sum_(s < g_S2 ge k) aug (g_d1 ge k) (a s) w.
  by rewrite /aug; case: ifP => // _; rewrite sumr_const card_ord mulVf.
by rewrite !e.
Qed.

Lemma sums_exact (data : seq I) (a : I -> R) (w : R) i j : (0 < size data)%N -> same_curv data -> (i < g_d2 ge k)%N -> (j < g_d2 ge k)%N ->
  w * (\sum_(d <- data) factor_curv d i j) * ((size data)%:R^-1 * \sum_(d <- data) a d) = w * \sum_(d <- data) factor_curv d i j * a d.
Proof.
move=> n0 [h|h] hi hj; rewrite -mulrA; congr (_ * _).
  by rewrite h invr1 mul1r; case: data h {n0} => // d [] // _; rewrite !big_seq1.
case: data n0 h => // d0 data _ h; set D := d0 :: data.
have e (g : I -> R) : \sum_(d <- D) factor_curv d i j * g d = factor_curv d0 i j * \sum_(d <- D) g d.
  have : forall d, List.In d D -> factor_curv d i j = factor_curv d0 i j by move=> d hd; apply: h => //; left.
  elim: D {h} => [|d D IH] h; first by rewrite !big_nil mulr0.
  by rewrite !big_cons IH ?h ?mulrDr //; [left|move=> d' hd'; apply: h; right].
have := e (fun=> 1); rewrite (eq_bigr (fun d => factor_curv d i j)) => [->|d _]; last by rewrite mulr1.
rewrite e big_const_seq count_predT iter_addr_0 -/(_%:R); set n := (size D)%:R.
by rewrite -[_ * n * _]mulrA [n * _]mulrA divff ?mul1r // natr_neq0.
Qed.
End Core.
