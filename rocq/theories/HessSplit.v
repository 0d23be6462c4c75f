(* Second derivatives of a loss of network outputs, for C81. *)
From Coq Require Import Reals Lra FunctionalExtensionality.
From Coquelicot Require Import Coquelicot.
From mathcomp Require Import all_ssreflect all_algebra.
From Verif Require Import PyPrelude Tensor Spec RInst Calculus Curvature HessGGN Risk Losses Fisher FisherMC FisherExp.
Set Implicit Arguments.
Unset Strict Implicit.
Unset Printing Implicit Defensive.
Import GRing.Theory.
Local Open Scope ring_scope.

(* F and its first partial derivatives are differentiable along curves, as
   (Frechet-)differentiable functions are, see [tdiff_curve] *)
Definition smooth2 (n : nat) (F : point -> R) : Prop := forall f,
  curve_diff n F f (fun c => pd c F f) /\
  forall c, (c < n)%N -> curve_diff n (pd c F) f (fun c' => pd c' (pd c F) f).

Lemma curve_ext n F F' x g g' : (forall f, F f = F' f) -> (forall c, (c < n)%N -> g c = g' c) ->
  curve_diff n F x g -> curve_diff n F' x g'.
Proof.
move=> hF hg h u du t0 ux hu ho; apply: (derive_ext (f := fun t => F (u t))) => //.
apply: (derive_val (l := \sum_(c < n) g c * du c)); first by apply: eq_bigr => c _; rewrite hg.
exact: h.
Qed.

Lemma curve_smooth2 n F (G : point -> nat -> R) (H : point -> nat -> nat -> R) :
  (forall f, curve_diff n F f (G f)) ->
  (forall f c, (c < n)%N -> curve_diff n (fun f => G f c) f (H f c)) -> smooth2 n F.
Proof.
move=> h1 h2; have e c f : (c < n)%N -> pd c F f = G f c by move=> hc; apply: curve_pd.
move=> f; split; first by apply: curve_ext (h1 f) => // c hc; rewrite e.
move=> c hc; have hG := h2 f c hc.
have h : curve_diff n (pd c F) f (H f c) by apply: curve_ext hG => // f'; rewrite e.
by apply: curve_ext (h) => // c' hc'; rewrite (curve_pd h).
Qed.

Lemma curve_pd2 n F (G : point -> nat -> R) (H : point -> nat -> nat -> R) :
  (forall f, curve_diff n F f (G f)) ->
  (forall f c, (c < n)%N -> curve_diff n (fun f => G f c) f (H f c)) ->
  forall f c c', (c < n)%N -> (c' < n)%N -> pd c' (pd c F) f = H f c c'.
Proof.
move=> h1 h2 f c c' hc hc'.
by rewrite (@pd_ext _ (fun f => G f c)); [apply: curve_pd (h2 f c hc) hc' | move=> z; apply: curve_pd].
Qed.

(* ---- sums, multiples and gathered coordinates ---- *)
Lemma curve_scal n (k : R) F x g : curve_diff n F x g -> curve_diff n (fun f => k * F f) x (fun c => k * g c).
Proof.
move=> h u du t0 ux hu ho; have := is_derive_scal _ _ k _ (h u du t0 ux hu ho).
apply: derive_val; rewrite RmultE mulr_sumr; apply: eq_bigr => c _; exact: mulrA.
Qed.
Lemma curve_sum n m (F : nat -> point -> R) x (g : nat -> nat -> R) :
  (forall k, (k < m)%N -> curve_diff n (F k) x (g k)) ->
  curve_diff n (fun f => \sum_(k < m) F k f) x (fun c => \sum_(k < m) g k c).
Proof.
move=> h u du t0 ux hu ho.
apply: (derive_val (l := \sum_(k < m) \sum_(c < n) g k c * du c)).
  by rewrite exchange_big; apply: eq_bigr => c _; rewrite mulr_suml.
by apply: (@is_derive_sum_ord m (fun k t => F k (u t)) (fun k => \sum_(c < n) g k c * du c)) => k hk; apply: h.
Qed.
(* F of the coordinates pos 0, ..., pos (C-1) *)
Lemma curve_gather n C (pos : nat -> nat) F x g : (forall c, (c < C)%N -> (pos c < n)%N) ->
  curve_diff C F (fun c => if (c < C)%N then x (pos c) else 0) g ->
  curve_diff n (fun f => F (fun c => if (c < C)%N then f (pos c) else 0)) x (fun a => \sum_(c < C) (pos c == a)%:R * g c).
Proof.
move=> hp h u du t0 ux hu ho.
apply: (derive_val (l := \sum_(c < C) g c * du (pos c))).
  under [in RHS]eq_bigr => a _ do rewrite mulr_suml.
  rewrite exchange_big; apply: eq_bigr => c _ /=.
  rewrite (bigD1 (Ordinal (hp c (ltn_ord c)))) //= eqxx mul1r big1 ?addr0 // => a /eqP ha.
  by case: eqP => [e|_]; [case: ha; apply: val_inj | rewrite !mul0r].
apply: (h (fun t c => if (c < C)%N then u t (pos c) else 0) (fun c => du (pos c))); first by rewrite ux.
  by move=> c hc; rewrite hc; apply: hu; apply: hp.
by move=> t c; rewrite ltnNge => ->.
Qed.

(* ---- the gradients of the row losses ---- *)
Lemma coord_curve n i x : (i < n)%N -> curve_diff n (fun f => f i) x (fun c => (c == i)%:R).
Proof.
move=> hi u du t0 ux hu _; have := hu i hi; apply: derive_val.
rewrite (bigD1 (Ordinal hi)) //= eqxx mul1r big1 ?addr0 // => c /eqP hc.
by case: eqP => [e|_]; [case: hc; apply: val_inj | rewrite mul0r].
Qed.
Lemma minus_const_curve n F (k : R) x g : curve_diff n F x g -> curve_diff n (fun f => F f - k) x g.
Proof.
move=> h u du t0 ux hu ho.
apply: (derive_val (l := Rminus (\sum_(c < n) g c * du c) (IZR 0))); first by toR; lra.
by apply: (@is_derive_minus _ R_NormedModule); [exact: h | exact: is_derive_const].
Qed.
Lemma softmax_curve C i x : (i < C)%N ->
  curve_diff C (fun f => softmax C f i) x (fun c => (i == c)%:R * softmax C x i - softmax C x i * softmax C x c).
Proof.
move=> hi u du t0 ux hu _; have C0 := ltn_gt0 hi.
have hS : is_derive (fun t => sumexp C (u t)) t0 (\sum_(c < C) exp (u t0 c) * du c).
  apply: (@is_derive_sum_ord C (fun c t => exp (u t c)) (fun c => exp (u t0 c) * du c)) => c hc.
  by apply: is_derive_exp_curve; apply: hu.
have hE : is_derive (fun t => exp (u t i)) t0 (exp (u t0 i) * du i) by apply: is_derive_exp_curve; apply: hu.
have n0 : sumexp C (u t0) <> IZR 0 by apply: sumexp_neq0.
apply: derive_val (is_derive_div _ _ _ _ _ hE hS n0); rewrite ux in n0 *.
rewrite [RHS](eq_bigr (fun c : 'I_C => (i == c :> nat)%:R * (softmax C x i * du c) - softmax C x i * (softmax C x c * du c))); last first.
  by move=> c _; rewrite mulrBl; congr (_ - _); exact: (esym (mulrA _ _ _)).
rewrite sumrB -mulr_sumr.
have -> : \sum_(c < C) (i == c :> nat)%:R * (softmax C x i * du c) = softmax C x i * du i.
  rewrite (bigD1 (Ordinal hi)) //= eqxx mul1r big1 ?addr0 // => c /eqP hc.
  by case: eqP => [e|_]; [case: hc; apply: val_inj | rewrite mul0r].
have -> : \sum_(c < C) softmax C x c * du c = Rmult (\sum_(c < C) exp (x c) * du c) (Rinv (sumexp C x)).
  by rewrite RmultE mulr_suml; apply: eq_bigr => c _; rewrite /softmax /Rdiv; toR; ring.
by rewrite /softmax; toR; field.
Qed.

Lemma row_grad_curve k C y c x : target_ok k C y -> (c < C)%N ->
  curve_diff C (fun f => row_grad k C y f c) x (row_hess k C x c).
Proof.
case: k; case: y => //= y h hc.
- apply: curve_ext (curve_scal 2 (minus_const_curve (y c) (@coord_curve C c x hc))) => // c' _.
  by rewrite /row_hess [c' == c]eq_sym; case: (c == c') => /=; rewrite ?mulr1 ?mulr0.
- exact: (minus_const_curve _ (@softmax_curve C c x hc)).
apply: minus_const_curve => u du t0 ux hu ho.
apply: (derive_val (l := du c * (sigmoid (x c) * (1 - sigmoid (x c))))).
  rewrite (bigD1 (Ordinal hc)) //= eqxx mulrC big1 ?addr0 // => c' /eqP hc'.
  by case: eqP => [e|_]; [case: hc'; apply: val_inj | rewrite mul0r].
rewrite -ux; apply: (is_derive_comp sigmoid (fun t => u t c)); [exact: sigmoid_derive | exact: hu].
Qed.

(* the losses MSELoss, CrossEntropyLoss and BCEWithLogitsLoss of one datum *)
Section DatumLoss.
Variables (Y : Type) (T C : nat) (kind : loss_kind) (tgt : Y -> nat -> target) (red : reduction) (y : Y).
Hypothesis T0 : (0 < T)%N.
Hypothesis C0 : (0 < C)%N.
Hypothesis ht : forall t, (t < T)%N -> target_ok kind C (tgt y t).
Local Notation pos t c := (term_pos T C kind t c).
(* factor of the reduction, rows of the prediction, gradient and Hessian (specification) *)
Definition dl_s : R := match red with RMean => ((if is_ce kind then T else T * C)%N)%:R^-1 | _ => 1 end.
Definition dl_row t (f : point) : point := fun c => if (c < C)%N then f (pos t c) else 0.
Definition dl_grad (f : point) a := dl_s * \sum_(t < T) \sum_(c < C) (pos t c == a)%:R * row_grad kind C (tgt y t) (dl_row t f) c.
Definition dl_hess (f : point) a b := dl_s * \sum_(t < T) \sum_(c < C) (pos t c == a)%:R *
  \sum_(c' < C) (pos t c' == b)%:R * row_hess kind C (dl_row t f) c c'.
Local Notation s := dl_s.
Local Notation row := dl_row.
Local Notation G := dl_grad.
Local Notation H := dl_hess.
Local Notation dl := (fun f => datum_loss T C kind tgt red (mkseq f (T * C)) y).

Lemma dl_pos t : (t < T)%N -> forall c, (c < C)%N -> (pos t c < T * C)%N.
Proof. by move=> h1 c h2; apply: term_pos_lt. Qed.

Lemma dl_curve f : curve_diff (T * C) dl f (G f).
Proof.
apply: (@curve_ext _ (fun f => s * \sum_(t < T) torch_row kind C (mkseq (row t f) C) (tgt y t)) _ _ (G f)) => //.
  move=> f'; congr (_ * _); apply: eq_bigr => t _; congr torch_row.
  apply/eq_in_map => c; rewrite mem_iota add0n => /andP[_ hc]; rewrite /row hc nth_mkseq //; exact: dl_pos.
apply: curve_scal; apply: (@curve_sum _ T (fun t f => torch_row kind C (mkseq (row t f) C) (tgt y t))
  f (fun t a => \sum_(c < C) (pos t c == a)%:R * row_grad kind C (tgt y t) (row t f) c)) => t hlt.
apply: (@curve_gather _ C (fun c => pos t c) (fun f => torch_row kind C (mkseq f C) (tgt y t))); first exact: dl_pos.
by apply: torch_row_curve; apply: ht.
Qed.

Lemma dl_grad_curve f a : (a < T * C)%N -> curve_diff (T * C) (fun f => G f a) f (H f a).
Proof.
move=> ha; apply: curve_scal.
apply: (@curve_sum _ T (fun t f => \sum_(c < C) (pos t c == a)%:R * row_grad kind C (tgt y t) (row t f) c)
    f (fun t b => \sum_(c < C) (pos t c == a)%:R * \sum_(c' < C) (pos t c' == b)%:R * row_hess kind C (row t f) c c')) => t hlt.
apply: (@curve_sum _ C (fun c f => (pos t c == a)%:R * row_grad kind C (tgt y t) (row t f) c)
    f (fun c b => (pos t c == a)%:R * \sum_(c' < C) (pos t c' == b)%:R * row_hess kind C (row t f) c c')) => c hc.
apply: curve_scal; apply: (@curve_gather _ C (fun c => pos t c) (fun f => row_grad kind C (tgt y t) f c)); first exact: dl_pos.
by apply: row_grad_curve => //; apply: ht.
Qed.

Lemma datum_loss_smooth2 : smooth2 (T * C) dl.
Proof. exact: curve_smooth2 dl_curve dl_grad_curve. Qed.
Lemma datum_loss_hess f a b : (a < T * C)%N -> (b < T * C)%N -> pd b (pd a dl) f = H f a b.
Proof. exact: (curve_pd2 dl_curve dl_grad_curve). Qed.
End DatumLoss.

(* ---- a loss of network outputs ---- *)
Section Compose.
Variables (O D : nat) (out : point -> seq R) (l : point -> R) (th : point).
Hypothesis out_size : forall z, size (out z) = O.

Lemma comp_derive i z (F : point -> R) g : curve_diff O F (nth 0 (out z)) g ->
  (forall o, (o < O)%N -> ex_pd i (fun z => nth 0 (out z) o) z) ->
  is_derive (fun t => F (nth 0 (out (upd z i t)))) (z i) (\sum_(o < O) g o * pd i (fun z => nth 0 (out z) o) z).
Proof.
move=> hF hx; apply: (hF (fun t => nth 0 (out (upd z i t))) (fun o => pd i (fun z => nth 0 (out z) o) z)); first by rewrite upd_id.
  by move=> o ho; apply: Derive_correct; apply: hx.
by move=> t o ho; rewrite !nth_default ?out_size.
Qed.

Hypothesis hl : smooth2 O l.
Hypothesis hout : forall o, (o < O)%N -> twice_diff D (fun z => nth 0 (out z) o) th.

Lemma comp_pd i z : (forall o, (o < O)%N -> ex_pd i (fun z => nth 0 (out z) o) z) ->
  pd i (fun z => l (nth 0 (out z))) z = \sum_(o < O) pd o l (nth 0 (out z)) * pd i (fun z => nth 0 (out z) o) z.
Proof. by move=> hx; apply: is_derive_unique; apply: (@comp_derive i z l (fun o => pd o l (nth 0 (out z)))) => //; case: (hl (nth 0 (out z))). Qed.

Lemma comp_locally i j : (i < D)%N -> (j < D)%N ->
  locally (th j) (fun t => forall o, (o < O)%N -> ex_pd i (fun z => nth 0 (out z) o) (upd th j t)).
Proof.
move=> hi hj.
have : forall m, (m <= O)%N -> locally (th j) (fun t => forall o, (o < m)%N -> ex_pd i (fun z => nth 0 (out z) o) (upd th j t)).
  elim=> [_|m IH hm]; first by apply: filter_forall => t o.
  have [h _] := hout hm hi hj.
  apply: filter_imp (filter_and _ _ (IH (ltnW hm)) h) => t [h1 h2] o.
  by rewrite ltnS leq_eqVlt => /orP[/eqP ->|/h1].
exact.
Qed.

Lemma comp_derive2 i j : (i < D)%N -> (j < D)%N ->
  is_derive (fun t => pd i (fun z => l (nth 0 (out z))) (upd th j t)) (th j)
  (\sum_(o < O) \sum_(o' < O) pd i (fun z => nth 0 (out z) o) th * (pd o' (pd o l) (nth 0 (out th)) * pd j (fun z => nth 0 (out z) o') th)
   + \sum_(o < O) pd o l (nth 0 (out th)) * pd j (pd i (fun z => nth 0 (out z) o)) th).
Proof.
move=> hi hj.
apply: (is_derive_ext_loc (fun t => \sum_(o < O) pd o l (nth 0 (out (upd th j t))) * pd i (fun z => nth 0 (out z) o) (upd th j t))).
  by apply: filter_imp (comp_locally hi hj) => t ht; rewrite comp_pd.
rewrite -big_split /=.
apply: (@is_derive_sum_ord O (fun o t => pd o l (nth 0 (out (upd th j t))) * pd i (fun z => nth 0 (out z) o) (upd th j t))
  (fun o => \sum_(o' < O) pd i (fun z => nth 0 (out z) o) th * (pd o' (pd o l) (nth 0 (out th)) * pd j (fun z => nth 0 (out z) o') th)
   + pd o l (nth 0 (out th)) * pd j (pd i (fun z => nth 0 (out z) o)) th)) => o ho.
have [_ /(_ o ho) h2] := hl (nth 0 (out th)).
have ex o' : (o' < O)%N -> ex_pd j (fun z => nth 0 (out z) o') th.
  move=> ho'; have [h _] := hout ho' hj hj.
  by have := locally_singleton _ _ h; rewrite upd_id.
have d1 := comp_derive h2 ex.
have [_ /Derive_correct d2] := hout ho hi hj.
have := is_derive_mult _ _ _ _ _ d1 d2 Rmult_comm.
apply: derive_val; rewrite /plus /= /mult /= upd_id RplusE !RmultE; congr (_ + _).
by rewrite mulr_suml; apply: eq_bigr => o' _; rewrite mulrC.
Qed.

Lemma comp_twice_diff : twice_diff D (fun z => l (nth 0 (out z))) th.
Proof.
move=> i j hi hj; split; last by eexists; apply: comp_derive2.
apply: filter_imp (comp_locally hi hj) => t ht; eexists.
by apply: (@comp_derive i _ l (fun o => pd o l (nth 0 (out (upd th j t)))) _ ht); case: (hl (nth 0 (out (upd th j t)))).
Qed.

Lemma comp_pd2 i j : (i < D)%N -> (j < D)%N ->
  pd j (pd i (fun z => l (nth 0 (out z)))) th =
  \sum_(o < O) \sum_(o' < O) pd i (fun z => nth 0 (out z) o) th * (pd o' (pd o l) (nth 0 (out th)) * pd j (fun z => nth 0 (out z) o') th)
   + \sum_(o < O) pd o l (nth 0 (out th)) * pd j (pd i (fun z => nth 0 (out z) o)) th.
Proof. by move=> hi hj; apply: is_derive_unique; apply: comp_derive2. Qed.
End Compose.
