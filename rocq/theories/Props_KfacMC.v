(* C74: the expectation of KFAC's Monte-Carlo gradient factors. *)
From Coq Require Import Reals Lra FunctionalExtensionality.
From Coquelicot Require Import Coquelicot.
From mathcomp Require Import all_ssreflect all_algebra.
From Verif Require Import PyPrelude Tensor Spec TorchBase Submatrix RInst Calculus Curvature HessGGN Risk Losses Fisher FisherMC FisherExp LossHess Props_LossHess Conv Props_Conv Kfac KfacCov KfacCovHooks KfacCovSpec KfacCovProof Props_KfacCov.
Set Implicit Arguments.
Unset Strict Implicit.
Unset Printing Implicit Defensive.
Import GRing.Theory.
Local Open Scope ring_scope.

Section C74.
Variables (X Y : Type) (T C : nat) (kind : loss_kind).
Local Notation batch := (seq (X * Y)).
Hypothesis T_gt0 : (0 < T)%N.
Hypothesis C_gt0 : (0 < C)%N.
Variable net : X -> seq R.
Variable tgt : Y -> nat -> target.
Variable mods : nat -> nlayer X.
Variable shapes : seq (seq nat).
Variables (sep : bool) (ap : kfac_approx) (red : reduction) (N M : nat) (mp : mapping) (ge : geometry X).
Hypothesis net_size : forall x, size (net x) = (T * C)%N.
Hypothesis mp_uniq : uniq (dkeys mp).
Hypothesis hge : fits_geometry T C ap mods mp ge.
Hypothesis hred : red <> ROther.
Hypothesis N_gt0 : (0 < N)%N.
Hypothesis M_gt0 : (0 < M)%N.
Variables (G : Type).
Variable normal_o : G -> nat -> (nat -> R) * G.
Variable multinomial_o : G -> nat -> nat -> (nat -> nat -> R) -> nat -> (nat -> nat -> nat) * G.
Variable bernoulli_o : G -> nat -> (nat -> R) -> (nat -> bool) * G.
Local Notation compute ft := (compute_kfac T C kind net tgt mods shapes sep ap ft red N M T mp normal_o multinomial_o bernoulli_o).
Variables (Omega : Type) (E : (Omega -> R) -> R).
Local Notation pred_row := (pred_row T C kind net).
Local Notation jac := (jac T C kind mods).

(* generator after drawing labels for [rows] predictions o *)
Definition next_gen (rows : nat) (o : point) (g : G) : G :=
  match kind with
  | LMSE => (normal_o g (rows * C)).2
  | LCE => (multinomial_o g rows C (fun r c => softmax C (row_pt C r o) c) 1).2
  | LBCE => (bernoulli_o g (rows * C) (fun i => sigmoid (o i))).2
  end.

(* contract of torch's generators for a random generator state: first and second
   moments of one draw; independent across predictions *)
Definition label_law (rows : nat) (o : point) (g : Omega -> G) : Prop :=
  match kind with
  | LMSE =>
      let z w := (normal_o (g w) (rows * C)).1 in
      forall i j, (i < rows * C)%N -> (j < rows * C)%N -> E (fun w => z w i * z w j) = (i == j)%:R
  | LCE =>
      let p r c := softmax C (row_pt C r o) c in
      let smp w := (multinomial_o (g w) rows C p 1).1 in
      [/\ forall w r, (r < rows)%N -> (smp w r 0%N < C)%N,
          forall r c, (r < rows)%N -> (c < C)%N -> E (fun w => (c == smp w r 0%N)%:R) = p r c &
          forall r r' c c', r <> r' -> (r < rows)%N -> (r' < rows)%N -> (c < C)%N -> (c' < C)%N ->
            E (fun w => (c == smp w r 0%N)%:R * (c' == smp w r' 0%N)%:R) = p r c * p r' c']
  | LBCE =>
      let p i := sigmoid (o i) in
      let smp w := (bernoulli_o (g w) (rows * C) p).1 in
      (forall i, (i < rows * C)%N -> E (fun w => (smp w i)%:R) = p i) /\
      (forall i j, i <> j -> (i < rows * C)%N -> (j < rows * C)%N -> E (fun w => (smp w i)%:R * (smp w j)%:R) = p i * p j)
  end.
Fixpoint draws_law (n rows : nat) (o : point) (g : Omega -> G) : Prop :=
  if n is n'.+1 then label_law rows o g /\ draws_law n' rows o (fun w => next_gen rows o (g w)) else True.
Fixpoint loader_law (loader : seq batch) (g : Omega -> G) : Prop :=
  if loader is b :: l then
    draws_law M (size b * T) (kout2d T C kind net b) g /\
    loader_law l (fun w => iter M (next_gen (size b * T) (kout2d T C kind net b)) (g w))
  else True.

Local Notation draw_label := (draw_label C kind normal_o multinomial_o bernoulli_o).
Local Notation draw_labels := (draw_labels C kind normal_o multinomial_o bernoulli_o).

Lemma draw_label_next rows o g : (draw_label rows o g).2 = next_gen rows o g.
Proof.
by rewrite /draw_label /next_gen; case: kind; [case: normal_o|case: multinomial_o|case: bernoulli_o].
Qed.

Lemma draw_labels_next n rows o g : (draw_labels n rows o g).2 = iter n (next_gen rows o) g.
Proof.
elim: n g => //= n IH g; rewrite -iterS iterSr -draw_label_next.
by case: draw_label => y g1 /=; rewrite -IH; case: draw_labels.
Qed.

Lemma sampled_ok rows o (g : Omega -> G) w r : label_law rows o g -> (r < rows)%N ->
  target_ok kind C (nth (TCls 0) (draw_label rows o (g w)).1 r).
Proof.
rewrite /label_law /draw_label; case: kind => hl hr.
- by case: normal_o => z g' /=; rewrite nth_mkseq.
- by case: hl => h _ _; have := h w r hr; case: multinomial_o => z g' /= h'; rewrite nth_mkseq.
by case: bernoulli_o => z g' /=; rewrite nth_mkseq.
Qed.

Lemma row_eq r r' c c' : (c < C)%N -> (c' < C)%N -> (r * C + c == r' * C + c')%N = (r == r') && (c == c').
Proof.
move=> hc hc'; apply/eqP/andP => [e|[/eqP -> /eqP ->]] //.
have [a b] := dm r hc; have [a' b'] := dm r' hc'; move: a b; rewrite e a' b' => <- <-.
by rewrite !eqxx.
Qed.

(* second moments of the loss gradients at drawn labels *)
Lemma label_moment rows o (g : Omega -> G) r r' c c' : expectation E -> label_law rows o g ->
  (r < rows)%N -> (r' < rows)%N -> (c < C)%N -> (c' < C)%N ->
  E (fun w => row_grad kind C (nth (TCls 0) (draw_label rows o (g w)).1 r) (row_pt C r o) c *
              row_grad kind C (nth (TCls 0) (draw_label rows o (g w)).1 r') (row_pt C r' o) c') =
  if r == r' then row_hess kind C (row_pt C r o) c c' else 0.
Proof.
move=> hE; case: (hE) => hp hs h1; rewrite /label_law /draw_label; case: kind => hl hr hr' hc hc'.
- set z := fun w => (normal_o (g w) (rows * C)).1 in hl.
  rewrite (@E_ext _ _ _ (fun w => 2 * (z w (r * C + c)%N * z w (r' * C + c')%N))).
    rewrite hs hl ?idx_lt // row_eq // /row_hess; case: eqP => _ /=; last by rewrite mulr0.
    by case: eqP; rewrite ?mulr1 ?mulr0.
  move=> w; rewrite /z; case: normal_o => z' g' /=; rewrite !nth_mkseq //= /row_pt.
  have h2 : sqrt (2%:R^-1) * sqrt (2%:R^-1) = 2%:R^-1 :> R.
    rewrite -RmultE sqrt_sqrt //; have -> : (2%:R^-1 : R) = Rinv (IZR 2); first by rewrite -RinvE; [congr Rinv; rewrite natrE | apply/eqP; apply: natr_neq0].
    by lra.
  rewrite !opprD !addrA !subrr !add0r.
  rewrite (_ : 2 * - (sqrt 2%:R^-1 * z' (r * C + c)%N) * (2 * - (sqrt 2%:R^-1 * z' (r' * C + c')%N)) =
      2 * (2 * (sqrt 2%:R^-1 * sqrt 2%:R^-1)) * (z' (r * C + c)%N * z' (r' * C + c')%N)); last by toR; ring.
  by rewrite h2 divff ?mulr1 //; exact: (natr_neq0 (n := 2)).
- case: hl => hlt hl hi.
  set smp := fun w => (multinomial_o (g w) rows C (fun r c => softmax C (row_pt C r o) c) 1).1 in hlt hl hi.
  rewrite (@E_ext _ _ _ (fun w => (softmax C (row_pt C r o) c - (c == smp w r 0%N)%:R) *
     (softmax C (row_pt C r' o) c' - (c' == smp w r' 0%N)%:R))); last first.
    by move=> w; rewrite /smp; case: multinomial_o => z' g' /=; rewrite !nth_mkseq.
  rewrite E_bilin // !hl //; case: (r =P r') => [<-|ne]; last by rewrite hi //; toR; ring.
  have -> : E (fun w => (c == smp w r 0%N)%:R * (c' == smp w r 0%N)%:R) = (c == c')%:R * softmax C (row_pt C r o) c.
    rewrite -(hl r c hr hc) -hs; apply: E_ext => w.
    case: (c =P c') => [<-|ne]; last first.
      case: eqP => [e1|_]; last by rewrite !mul0r.
      by case: eqP => [e2|_]; [case: ne; rewrite e1 e2 | rewrite mulr0 mul0r].
    by case: eqP => _; rewrite !(mulr1, mul1r, mulr0).
  by rewrite /row_hess; toR; ring.
case: hl => hl hi; set smp := fun w => (bernoulli_o (g w) (rows * C) (fun i => sigmoid (o i))).1 in hl hi.
rewrite (@E_ext _ _ _ (fun w => (sigmoid (o (r * C + c)%N) - (smp w (r * C + c)%N)%:R) *
   (sigmoid (o (r' * C + c')%N) - (smp w (r' * C + c')%N)%:R))); last first.
  by move=> w; rewrite /smp; case: bernoulli_o => z' g' /=; rewrite !nth_mkseq.
rewrite E_bilin // !hl ?idx_lt //.
have := row_eq r r' hc hc'; case: (r =P r') => [<-|ner] /=; last first.
  by move/eqP => ne; rewrite hi ?idx_lt //; toR; ring.
rewrite /row_hess /row_pt; case: (c =P c') => [<- _|nc /eqP ne]; last by rewrite hi ?idx_lt //; toR; ring.
have -> : E (fun w => (smp w (r * C + c)%N)%:R * (smp w (r * C + c)%N)%:R) = sigmoid (o (r * C + c)%N).
  by rewrite -hl ?idx_lt //; apply: E_ext => w; rewrite -natrM mulnb andbb.
by toR; ring.
Qed.

(* Hessian of the (unreduced) loss of prediction row t *)
Definition raw_hessian (d : X * Y) (t c c' : nat) : R :=
  pd c' (pd c (fun f => torch_row kind C (mkseq f C) (tgt d.2 t))) (pred_row d.1 t).

(* entry (i, j) of the gradient factor of layer k *)
Definition factor_entry (k d i j : nat) (st : dict nat_eqType (tensor R) * dict nat_eqType (tensor R)) : R :=
  if dget k st.2 is Some t then entry d (tdata t) i j else 0.

Section Layer.
Variables (k : nat) (i j : nat) (d0 : X * Y).
Hypothesis jac_ok : forall x, jac_exists T C kind mods k x.
Hypothesis tail_ok : forall x, nl_tail (mods k) x (nth 0 (nl_out (mods k) x)) = net x.

Definition outer (x : X) (y : nat -> target) : R :=
  grad_term ap (g_S2 ge k) (grads T C kind mods ge k x (row_loss C kind y)) i j.
Definition crossJ (x : X) (t c t' c' : nat) : R :=
  cross ap (g_S2 ge k) (fun s => jac k x t c (g_pos ge k s i)) (fun s => jac k x t' c' (g_pos ge k s j)).
Definition hess_term (x : X) : R :=
  \sum_(t < T) \sum_(c < C) \sum_(c' < C) row_hess kind C (pred_row x t) c c' * crossJ x t c t c'.

Lemma expected_label (b : batch) (g : Omega -> G) : expectation E -> label_law (size b * T) (kout2d T C kind net b) g ->
  E (fun w => \sum_(n < size b) outer (nth d0 b n).1 (fun t => nth (TCls 0) (draw_label (size b * T) (kout2d T C kind net b) (g w)).1 (n * T + t))) =
  \sum_(d <- b) hess_term d.1.
Proof.
move=> hE hlaw; case: (hE) => hp hs _.
set o := kout2d T C kind net b; set rows := (size b * T)%N.
have orow n t c : (n < size b)%N -> (t < T)%N -> (c < C)%N -> row_pt C (n * T + t) o c = pred_row (nth d0 b n).1 t c.
  move=> hn ht hc; rewrite /row_pt /o (kout2dE kind T_gt0 C_gt0 net_size d0) //; last exact: idx_lt.
  by have [-> ->] := dm n ht.
pose gr w r c := row_grad kind C (nth (TCls 0) (draw_label rows o (g w)).1 r) (row_pt C r o) c.
have loc y (f f' : point) c : (forall c, (c < C)%N -> f c = f' c) -> (c < C)%N -> target_ok kind C y -> row_grad kind C y f c = row_grad kind C y f' c.
  move=> e hc hy; rewrite -!torch_row_pd //; apply: (@pd_local C) => //.
  exact: (@mkseq_local C (fun s => torch_row kind C s y)).
have houter w (n : 'I_(size b)) : outer (nth d0 b n).1 (fun t => nth (TCls 0) (draw_label rows o (g w)).1 (n * T + t)) =
   \sum_(t < T) \sum_(c < C) \sum_(t' < T) \sum_(c' < C) crossJ (nth d0 b n).1 t c t' c' * (gr w (n * T + t)%N c * gr w (n * T + t')%N c').
  have ty t : (t < T)%N -> target_ok kind C (nth (TCls 0) (draw_label rows o (g w)).1 (n * T + t)).
    by move=> ht; apply: sampled_ok hlaw _; apply: idx_lt.
  rewrite /outer; set y := fun t => _.
  rewrite (grad_term_ext ap _ _ _ (fun s i' => grads_chain ge s i' (jac_ok (nth d0 b n).1) (tail_ok _) ty)).
  rewrite (grad_term_linear ap ge (fun t c => row_grad kind C (y t) (pred_row (nth d0 b n).1 t) c)) //.
  apply: eq_bigr => t _; apply: eq_bigr => c _; apply: eq_bigr => t' _; apply: eq_bigr => c' _.
  rewrite mulrC /gr; congr (_ * (_ * _)); apply: loc => //; try (by move=> a ha; rewrite orow); exact: ty.
rewrite (@E_ext _ _ _ (fun w => \sum_(n < size b) \sum_(t < T) \sum_(c < C) \sum_(t' < T) \sum_(c' < C)
   crossJ (nth d0 b n).1 t c t' c' * (gr w (n * T + t)%N c * gr w (n * T + t')%N c'))); last first.
  by move=> w; apply: eq_bigr => n _.
rewrite E_sum // (sum_nth d0); apply: eq_bigr => n _.
rewrite E_sum //; apply: eq_bigr => t _; rewrite E_sum //; apply: eq_bigr => c _.
rewrite E_sum //.
transitivity (\sum_(t' < T) \sum_(c' < C) crossJ (nth d0 b n).1 t c t' c' *
    (if (n * T + t == n * T + t')%N then row_hess kind C (row_pt C (n * T + t) o) c c' else 0)).
  apply: eq_bigr => t' _; rewrite E_sum //; apply: eq_bigr => c' _; rewrite hs; congr (_ * _).
  by apply: label_moment => //; apply: idx_lt.
rewrite (bigD1 t) //= eqxx [X in _ + X]big1 ?addr0; last first.
  move=> t' /eqP ne; rewrite big1 // => c' _; rewrite eqn_add2l; case: eqP => [e|_]; last by rewrite mulr0.
  by case: ne; apply: val_inj.
apply: eq_bigr => c' _; rewrite mulrC; congr (_ * _).
rewrite /row_hess; have e a : (a < C)%N -> row_pt C (n * T + t) o a = pred_row (nth d0 b n).1 t a by move=> ha; apply: orow.
have es a : (a < C)%N -> softmax C (row_pt C (n * T + t) o) a = softmax C (pred_row (nth d0 b n).1 t) a.
  by move=> ha; rewrite /softmax /sumexp e //; congr Rdiv; apply: eq_bigr => q _; rewrite e.
by case: kind e es => e es; rewrite ?e ?es.
Qed.

(* ---- the labels, as functions of the generator ---- *)
Fixpoint draws (loader : seq batch) (g : G) : seq (seq (seq target)) :=
  if loader is b :: l then
    (draw_labels M (size b * T) (kout2d T C kind net b) g).1 ::
    draws l (iter M (next_gen (size b * T) (kout2d T C kind net b)) g)
  else [::].

Lemma sampled_eq rows o g y g' : sampled C kind normal_o multinomial_o bernoulli_o rows o g y g' ->
  y = (draw_label rows o g).1 /\ g' = next_gen rows o g.
Proof.
move=> h; have h' := draw_label_sampled C kind normal_o multinomial_o bernoulli_o rows o g.
rewrite -draw_label_next; move: h h'; set d := draw_label _ _ _; rewrite /sampled.
case: kind => -[s1 [e1 n1]] [s2 [e2 n2]]; (split; last by rewrite e1 e2);
  by apply: (@eq_from_nth _ (TCls 0)) => [|r]; rewrite s1 // => hr; rewrite n1 // n2.
Qed.
Lemma samples_eq n rows o g ys g' : samples C kind normal_o multinomial_o bernoulli_o n rows o g ys g' ->
  ys = (draw_labels n rows o g).1 /\ g' = iter n (next_gen rows o) g.
Proof.
elim=> {n rows o g ys g'} [//|n rows o g y g1 ys g2 /sampled_eq [-> ->] _ [-> ->]].
rewrite -iterSr /= -draw_label_next; case: draw_label => y' g' /=.
by case: draw_labels => ys' g''.
Qed.
Lemma drawn_eq loader g yss : drawn T C kind net M normal_o multinomial_o bernoulli_o loader g yss -> yss = draws loader g.
Proof. by elim=> {loader g yss} [//|b l g ys g' yss /samples_eq [-> ->] _ ->]. Qed.

Lemma expected_draws n (b : batch) (g : Omega -> G) : expectation E -> draws_law n (size b * T) (kout2d T C kind net b) g ->
  E (fun w => \sum_(y <- (draw_labels n (size b * T) (kout2d T C kind net b) (g w)).1)
     \sum_(m < size b) outer (nth d0 b m).1 (fun t => nth (TCls 0) y (m * T + t))) =
  n%:R * \sum_(d <- b) hess_term d.1.
Proof.
move=> hE; case: (hE) => hp hs _; elim: n g => [|n IH] g /=.
  by move=> _; rewrite mul0r -[RHS](E_const hE); apply: E_ext => w; rewrite big_nil.
case=> h1 h2; rewrite -addn1 natrD mulrDl mul1r addrC -(IH _ h2) -(expected_label hE h1) -hp.
apply: E_ext => w; rewrite -draw_label_next.
by case: draw_label => y g1 /=; case: draw_labels => ys g2 /=; rewrite big_cons.
Qed.

Lemma expected_loader loader (g : Omega -> G) : expectation E -> loader_law loader g ->
  E (fun w => \sum_(p <- zip loader (draws loader (g w))) \sum_(y <- p.2)
     \sum_(m < size p.1) outer (nth d0 p.1 m).1 (fun t => nth (TCls 0) y (m * T + t))) =
  M%:R * \sum_(d <- flatten loader) hess_term d.1.
Proof.
move=> hE; case: (hE) => hp hs _; elim: loader g => [|b l IH] g /=.
  by move=> _; rewrite [in RHS]big_nil mulr0 -[RHS](E_const hE); apply: E_ext => w; rewrite big_nil.
case=> h1 h2; rewrite big_cat /= mulrDr -(expected_draws hE h1) -(IH _ h2) -hp.
by apply: E_ext => w; rewrite big_cons.
Qed.
End Layer.

(* With labels drawn from the likelihood, every entry of the Monte-Carlo gradient
   factor has as expectation the entry of the exact Gauss-Newton factor
     w sum_n sum_t J_nt^T H_nt J_nt,
   H_nt the Hessian of the loss of term t of datum n at the network's prediction.
   No condition on how loss terms share positions is needed. *)
Theorem C74_expectation (d0 : X * Y) (loader : seq batch) (g : Omega -> G) k ps i j :
  expectation E -> loader <> [::] -> nonempty loader -> loader_law loader g -> dget k mp = Some ps ->
  (forall x, jac_exists T C kind mods k x) ->
  (forall x, nl_tail (mods k) x (nth 0 (nl_out (mods k) x)) = net x) ->
  Forall_in (fun d : X * Y => forall t, (t < T)%N -> target_ok kind C (tgt d.2 t)) (flatten loader) ->
  (i < g_d2 ge k)%N -> (j < g_d2 ge k)%N ->
  (forall w, (compute MC loader (g w)).2 = Ok tt /\ exists v, is_factor (compute MC loader (g w)).1.2 k (g_d2 ge k) v) /\
  E (fun w => factor_entry k (g_d2 ge k) i j (compute MC loader (g w)).1) =
  term_weight T C kind red N * \sum_(d <- flatten loader) \sum_(t < T) \sum_(c < C) \sum_(c' < C)
    raw_hessian d t c c' * cross ap (g_S2 ge k) (fun s => jac k d.1 t c (g_pos ge k s i)) (fun s => jac k d.1 t c' (g_pos ge k s j)).
Proof.
move=> hE hl hne hlaw ek hj htl hy hi hi'; case: (hE) => hp hs _.
have hw w := @C32_monte_carlo X Y T C kind T_gt0 C_gt0 net tgt mods shapes sep ap red N M mp ge mp_uniq hge hred N_gt0 M_gt0 G normal_o multinomial_o bernoulli_o d0 loader (g w) hl hne.
have hv w : exists st t, [/\ compute MC loader (g w) = (st, Ok tt), dget k st.2 = Some t,
    tshape t = [:: g_d2 ge k; g_d2 ge k], wf t & forall i j, (i < g_d2 ge k)%N -> (j < g_d2 ge k)%N -> entry (g_d2 ge k) (tdata t) i j =
      M%:R^-1 * term_weight T C kind red N * \sum_(p <- zip loader (draws loader (g w))) \sum_(y <- p.2)
     \sum_(m < size p.1) outer k i j (nth d0 p.1 m).1 (fun t => nth (TCls 0) y (m * T + t))].
  have [yss [/drawn_eq -> [st [h1 h2]]]] := hw w.
  by have := h2 k; rewrite ek => -[_ [t [a1 a2 a3 a4]]]; exists st, t; split.
split.
  by move=> w; have [st [t [-> h1 h2 h3 h4]]] := hv w; split=> //; eexists; exists t; split=> //; exact: h4.
rewrite (@E_ext _ _ _ (fun w => M%:R^-1 * term_weight T C kind red N * \sum_(p <- zip loader (draws loader (g w))) \sum_(y <- p.2)
     \sum_(m < size p.1) outer k i j (nth d0 p.1 m).1 (fun t => nth (TCls 0) y (m * T + t)))); last first.
  by move=> w; have [st [t [-> h1 h2 h3 h4]]] := hv w; rewrite /factor_entry h1 h4.
rewrite hs expected_loader // mulrA [M%:R^-1 * _]mulrC -[_ * _ * M%:R]mulrA mulVf ?mulr1; last exact: natr_neq0.
congr (_ * _); elim: (flatten loader) hy => [|d l IH] /=; first by rewrite !big_nil.
case=> h1 h2; rewrite !big_cons IH //; congr (_ + _).
apply: eq_bigr => t _; apply: eq_bigr => c _; apply: eq_bigr => c' _.
by rewrite /raw_hessian torch_row_pd2 //; apply: h1.
Qed.

Lemma weights : type2_weight T red N * match red with RMean => if is_ce kind then 1 else C%:R^-1 | _ => 1 end = term_weight T C kind red N.
Proof.
rewrite /type2_weight /term_weight; case: red hred => // _; last by rewrite mulr1.
by case: is_ce; rewrite ?mulr1 // [(N * T * C)%N%:R]natrM invfM.
Qed.

Lemma raw_row_hessian d t c c' : row_hessian T C kind net tgt red d t c c' =
  match red with RMean => if is_ce kind then 1 else C%:R^-1 | _ => 1 end * raw_hessian d t c c'.
Proof.
rewrite /row_hessian /raw_hessian -pd_scal; apply: pd_ext => z; rewrite -pd_scal; exact: pd_ext.
Qed.

(* ... which is the factor of type-2 KFAC when no two loss terms of a datum read the
   same (pooled) position *)
Theorem C74_equals_type2 (d0 : X * Y) (loader : seq batch) (g : Omega -> G) (g0 : G) k ps i j :
  expectation E -> loader <> [::] -> nonempty loader -> loader_law loader g -> dget k mp = Some ps ->
  (kind = LCE -> C <> 1%N) -> type2_targets T C kind tgt (flatten loader) ->
  (forall k ps, dget k mp = Some ps -> forall x, jac_exists T C kind mods k x /\ unmixed T C kind mods ap ge k x) ->
  (forall x, nl_tail (mods k) x (nth 0 (nl_out (mods k) x)) = net x) ->
  (i < g_d2 ge k)%N -> (j < g_d2 ge k)%N ->
  exists st, compute_kfac T C kind net tgt mods shapes sep ap Type2 red N 1 T mp normal_o multinomial_o bernoulli_o loader g0 = (st, Ok tt) /\
    E (fun w => factor_entry k (g_d2 ge k) i j (compute MC loader (g w)).1) = factor_entry k (g_d2 ge k) i j st.
Proof.
move=> hE hl hne hlaw ek hC ht hj htl hi hi'.
have hJ : forall k ps, dget k mp = Some ps -> Forall_in (fun d : X * Y => jac_exists T C kind mods k d.1 /\ unmixed T C kind mods ap ge k d.1) (flatten loader).
  by move=> k' ps' e; apply: Forall_in_all => d; exact: hj e _.
have [st [h1 h2]] := @C32_type2_ggn X Y T C kind T_gt0 C_gt0 net tgt mods shapes sep ap red N 1 mp ge net_size mp_uniq hge hred N_gt0 isT G
   normal_o multinomial_o bernoulli_o loader g0 hl hne hC ht hJ.
exists st; split=> //; have := h2 k; rewrite ek => -[_ [t [a1 a2 a3 a4]]].
have hy : Forall_in (fun d : X * Y => forall t, (t < T)%N -> target_ok kind C (tgt d.2 t)) (flatten loader).
  by apply: Forall_in_impl ht => d h t' /h [].
have [_ ->] := C74_expectation d0 hE hl hne hlaw ek (fun x => (hj _ _ ek x).1) htl hy hi hi'.
rewrite /factor_entry a1 a4 // invr1 mul1r -weights -mulrA; congr (_ * _); rewrite mulr_sumr.
apply: eq_bigr => d _; rewrite mulr_sumr; apply: eq_bigr => t' _; rewrite mulr_sumr; apply: eq_bigr => c _.
by rewrite mulr_sumr; apply: eq_bigr => c' _; rewrite raw_row_hessian mulrA.
Qed.
End C74.
Print Assumptions C74_expectation.
Print Assumptions C74_equals_type2.
