(* Expectations of the Monte-Carlo Fisher: the would-be gradients of
   /repo/curvlinops/fisher.py 267-332 are loss gradients at labels drawn from the
   model's likelihood, their second moment is the loss Hessian, and the expected
   product with the MC-Fisher is the product with the GGN. *)
From Coq Require Import Reals Lra FunctionalExtensionality Permutation.
From Coquelicot Require Import Coquelicot.
From mathcomp Require Import all_ssreflect all_algebra.
From Verif Require Import PyPrelude Tensor Spec TorchBase Submatrix RInst Calculus Curvature HessGGN Risk Losses Fisher FisherMC.
Set Implicit Arguments.
Unset Strict Implicit.
Unset Printing Implicit Defensive.
Import GRing.Theory.
Local Open Scope ring_scope.

Local Notation tens := (tensor R).

(* ---- row losses ---- *)
Lemma mse_row_local C y : local_fun C (mse_row C ^~ y).
Proof. by move=> u v h; apply: eq_bigr => c _; rewrite h. Qed.
Lemma bce_row_local C y : local_fun C (bce_row C ^~ y).
Proof. by move=> u v h; apply: eq_bigr => c _; rewrite h. Qed.
Lemma ce_row_local C y : (y < C)%N -> local_fun C (ce_row C ^~ y).
Proof.
move=> hy u v h; rewrite /ce_row /softmax h //; congr (- ln (Rdiv _ _)).
by apply: eq_bigr => c _; rewrite h.
Qed.

(* the loss of a row as a function of the row's entries *)
Definition row_fun (k : loss_kind) (C : nat) (y : target) (f : point) : R :=
  match k, y with
  | LMSE, TVec y => mse_row C f y
  | LCE, TCls y => ce_row C f y
  | LBCE, TVec y => bce_row C f y
  | _, _ => 0
  end.

Lemma torch_rowE k C y f : target_ok k C y -> torch_row k C (mkseq f C) y = row_fun k C y f.
Proof.
have e : forall c, (c < C)%N -> nth 0 (mkseq f C) c = f c by move=> c hc; rewrite nth_mkseq.
by case: k; case: y => //= y h; [apply: mse_row_local | apply: ce_row_local | apply: bce_row_local].
Qed.

(* gradient and Hessian of a row loss, in closed form *)
Definition row_grad (k : loss_kind) (C : nat) (y : target) (f : point) (c : nat) : R :=
  match k, y with
  | LMSE, TVec y => 2 * (f c - y c)
  | LCE, TCls y => softmax C f c - (c == y)%:R
  | LBCE, TVec y => sigmoid (f c) - y c
  | _, _ => 0
  end.
Definition row_hess (k : loss_kind) (C : nat) (f : point) (c c' : nat) : R :=
  match k with
  | LMSE => if c == c' then 2 else 0
  | LCE => (c == c')%:R * softmax C f c - softmax C f c * softmax C f c'
  | LBCE => if c == c' then sigmoid (f c) * (1 - sigmoid (f c)) else 0
  end.

Lemma torch_row_curve k C y x : target_ok k C y ->
  curve_diff C (fun f => torch_row k C (mkseq f C) y) x (row_grad k C y x).
Proof.
move=> h u du t0 ux hu ho.
apply: (derive_ext (f := fun t => row_fun k C y (u t))); first by move=> t; rewrite torch_rowE.
by case: k h; case: y => //= y h; [apply: mse_curve | apply: ce_curve | apply: bce_curve].
Qed.

Lemma torch_row_pd k C y x c : target_ok k C y -> (c < C)%N ->
  pd c (fun f => torch_row k C (mkseq f C) y) x = row_grad k C y x c.
Proof. by move=> h hc; rewrite (curve_pd (@torch_row_curve k C y x h) hc). Qed.

Lemma torch_row_pd2 k C y x c c' : target_ok k C y -> (c < C)%N -> (c' < C)%N ->
  pd c' (pd c (fun f => torch_row k C (mkseq f C) y)) x = row_hess k C x c c'.
Proof.
move=> h hc hc'.
rewrite (@pd_ext _ (pd c (row_fun k C y))); last by move=> z; apply: pd_ext => z'; rewrite torch_rowE.
by case: k h; case: y => //= y h; [apply: mse_hessian | apply: ce_hessian | apply: bce_hessian].
Qed.

(* the smoothness hypothesis of the empirical Fisher holds for the three losses *)
Lemma torch_ef_smooth (X Y : Type) T C kind (net : X -> point -> seq R) (tgt : Y -> nat -> target) D th d :
  (forall t, (t < T)%N -> target_ok kind C (tgt d.2 t)) ->
  (forall i a, (i < D)%N -> (a < T * C)%N -> ex_pd i (fun z => nth 0 (net d.1 z) a) th) ->
  (0 < T)%N -> (0 < C)%N ->
  ef_smooth T C kind net tgt (torch_row kind C) D th d.
Proof.
move=> ht hn T0 C0 t hlt; split.
  by eexists; apply: torch_row_curve; apply: ht.
by move=> i c hi hc; apply: hn => //; apply: term_pos_lt.
Qed.

(* ---- sums of losses of gathered coordinates ---- *)
Section Gather.
Variables (T C : nat) (pos : nat -> nat -> nat).
Hypothesis pos_inj : forall t c t' c', (t < T)%N -> (c < C)%N -> (t' < T)%N -> (c' < C)%N ->
  pos t c = pos t' c' -> t = t' /\ c = c'.
Variable G : nat -> point -> R.
Hypothesis G_local : forall t, (t < T)%N -> local_fun C (G t).
Definition gath (t : nat) (o : point) : point := fun c => o (pos t c).

Lemma pd_gather t c x : (t < T)%N -> (c < C)%N ->
  pd (pos t c) (fun o => \sum_(t < T) G t (gath t o)) x = pd c (G t) (gath t x).
Proof.
move=> ht hc; rewrite /pd.
rewrite (@Derive_ext _ (fun s => (\sum_(t' < T | t' != t :> nat) G t' (gath t' x)) + G t (upd (gath t x) c s)));
  first exact: Derive_const_plus.
move=> s; rewrite (bigD1 (Ordinal ht)) //= addrC; congr (_ + _).
  apply: eq_big => [m|m hm]; first by [].
  apply: G_local => // c' hc'; rewrite /gath /upd; case: eqP => // /(pos_inj _ hc' _ hc) [] // e.
  by move/eqP: hm; case; apply: val_inj.
apply: G_local => // c' hc'; rewrite /gath /upd.
case: eqP => [/(pos_inj ht hc' ht hc) [_ ->]|ne]; first by rewrite eqxx.
by case: eqP => // e; case: ne; rewrite e.
Qed.

Lemma pd2_gather t c t' c' x : (t < T)%N -> (c < C)%N -> (t' < T)%N -> (c' < C)%N ->
  pd (pos t' c') (pd (pos t c) (fun o => \sum_(t < T) G t (gath t o))) x =
  if t == t' then pd c' (pd c (G t)) (gath t x) else 0.
Proof.
move=> ht hc ht' hc'.
rewrite (@pd_ext _ (fun o => pd c (G t) (gath t o))); last by move=> z; apply: pd_gather.
case: eqP => [<-|nt].
  rewrite /pd; apply: Derive_ext => s; rewrite -!/(pd _ _ _).
  apply: (@pd_local C) => //; first exact: G_local.
  move=> c0 hc0; rewrite /gath /upd.
  case: eqP => [/(pos_inj ht hc0 ht hc') [_ ->]|ne]; first by rewrite eqxx.
  by case: eqP => // e; case: ne; rewrite e.
apply: pd_indep => s; apply: (@pd_local C) => //; first exact: G_local.
move=> c0 hc0; rewrite /gath /upd; case: eqP => // /(pos_inj ht hc0 ht' hc') [] //.
Qed.
End Gather.

Lemma divn_small_pos (a b n : nat) : (b < n)%N -> ((a * n + b) %/ n)%N = a.
Proof. by move=> h; rewrite divnMDl ?(leq_ltn_trans _ h) // divn_small // addn0. Qed.

Lemma term_pos_inj T C k t c t' c' : (t < T)%N -> (c < C)%N -> (t' < T)%N -> (c' < C)%N ->
  term_pos T C k t c = term_pos T C k t' c' -> t = t' /\ c = c'.
Proof.
move=> ht hc ht' hc'; rewrite /term_pos; case: is_ce => e.
  have e1 := congr1 (divn^~ T) e; have e2 := congr1 (modn^~ T) e.
  by move: e1 e2 => /=; rewrite !divn_small_pos // !modnMDl !modn_small.
have e1 := congr1 (divn^~ C) e; have e2 := congr1 (modn^~ C) e.
by move: e1 e2 => /=; rewrite !divn_small_pos // !modnMDl !modn_small.
Qed.

Lemma sum_term_pos T C k (f : nat -> R) :
  \sum_(a < T * C) f a = \sum_(t < T) \sum_(c < C) f (term_pos T C k t c).
Proof.
rewrite /term_pos; case: is_ce; last by rewrite sum_rows.
by rewrite mulnC (sum_rows C T) exchange_big.
Qed.

Section Ggn.
Variables (X Y : Type) (T C : nat) (kind : loss_kind).
Variable net : X -> point -> seq R.
Variable tgt : Y -> nat -> target.
Hypothesis T_gt0 : (0 < T)%N.
Hypothesis C_gt0 : (0 < C)%N.

(* the loss of one datum as the torch losses reduce it *)
Definition datum_loss (red : reduction) (p : seq R) (y : Y) : R :=
  (match red with RMean => ((if is_ce kind then T else T * C)%N)%:R^-1 | _ => 1 end) *
  \sum_(t < T) torch_row kind C (mkseq (fun c => nth 0 p (term_pos T C kind t c)) C) (tgt y t).

(* targets the loss accepts (specification) *)
Definition targets_ok (d : X * Y) : Prop := forall t, (t < T)%N -> target_ok kind C (tgt d.2 t).

Lemma weight_terms red n : (0 < n)%N ->
  weight red n * (match red with RMean => ((if is_ce kind then T else T * C)%N)%:R^-1 | _ => 1 end) =
  term_weight T C kind red n.
Proof.
by move=> hn; case: red; rewrite /= ?mulr1 // -invfM -natrM; case: is_ce; rewrite // mulnA.
Qed.

(* the GGN of that loss: sum over loss terms of J_t^T H_t J_t *)
Lemma ggn_entry_terms red n data th i j : (0 < n)%N -> Forall_in targets_ok data ->
  ggn_entry (T * C) net (datum_loss red) (weight red n) data th i j =
  term_weight T C kind red n * \sum_(d <- data) \sum_(t < T) \sum_(c < C) \sum_(c' < C)
    pd i (fun z => nth 0 (net d.1 z) (term_pos T C kind t c)) th *
    (row_hess kind C (fun c => nth 0 (net d.1 th) (term_pos T C kind t c)) c c' *
     pd j (fun z => nth 0 (net d.1 z) (term_pos T C kind t c')) th).
Proof.
move=> hn hd; rewrite /ggn_entry -(weight_terms _ hn) -mulrA; congr (_ * _).
set s := match red with RMean => _ | _ => _ end.
rewrite mulr_sumr; elim: data hd => [|d l IH] /=; first by rewrite !big_nil.
case=> hd hl; rewrite !big_cons IH //; congr (_ + _) => {IH hl}.
have hF : forall a b x, pd b (pd a (fun o => datum_loss red (mkseq o (T * C)) d.2)) x =
    pd b (pd a (fun o => s * \sum_(t < T)
     (fun t f => torch_row kind C (mkseq f C) (tgt d.2 t)) t (gath (term_pos T C kind) t o))) x.
  move=> a b x; apply: pd_ext => z; apply: pd_ext => z'; congr (_ * _); apply: eq_bigr => t0 _; congr torch_row.
  by apply/eq_in_map => c0; rewrite mem_iota add0n => /andP[_ hc0]; rewrite nth_mkseq // term_pos_lt.
pose F a b := pd i (fun z => nth 0 (net d.1 z) a) th *
    (pd b (pd a (fun o => datum_loss red (mkseq o (T * C)) d.2)) (nth 0 (net d.1 th)) *
     pd j (fun z => nth 0 (net d.1 z) b) th).
rewrite (sum_term_pos T C kind (fun a => \sum_(b < T * C) F a b)) mulr_sumr; apply: eq_bigr => t _.
rewrite mulr_sumr; apply: eq_bigr => c _.
rewrite (sum_term_pos T C kind (fun b => F (term_pos T C kind t c) b)).
rewrite (bigD1 t) //= [X in _ + X]big1 ?addr0; last first.
  move=> t' /eqP tt'; rewrite big1 // => c' _; rewrite /F.
  rewrite hF pd2_scal (@pd2_gather T C (term_pos T C kind) _ (fun t f => torch_row kind C (mkseq f C) (tgt d.2 t))) //.
  - by case: eqP => [e|_]; [case: tt'; apply: val_inj; symmetry | rewrite mulr0 mul0r mulr0].
  - exact: (@term_pos_inj T C kind).
  by move=> t0 _; apply: (@mkseq_local C (fun s => torch_row kind C s (tgt d.2 t0))).
rewrite mulr_sumr; apply: eq_bigr => c' _; rewrite /F.
rewrite hF pd2_scal (@pd2_gather T C (term_pos T C kind) _ (fun t f => torch_row kind C (mkseq f C) (tgt d.2 t))) //.
- rewrite eqxx torch_row_pd2 //; last exact: hd.
  by rewrite mulrCA -!mulrA [pd i _ _ * _]mulrCA.
- exact: (@term_pos_inj T C kind).
by move=> t0 _; apply: (@mkseq_local C (fun s => torch_row kind C s (tgt d.2 t0))).
Qed.
End Ggn.

Section Expect.
Variables (G : Type).
Variable normal_o : G -> nat -> (nat -> R) * G.
Variable multinomial_o : G -> nat -> nat -> (nat -> nat -> R) -> nat -> (nat -> nat -> nat) * G.
Variable bernoulli_o : G -> nat -> (nat -> R) -> (nat -> bool) * G.
Local Notation draw := (sample_grad_output normal_o multinomial_o bernoulli_o).

(* the label drawn for sample m of row r: an entry drawn from the likelihood whose
   negative logarithm is the loss (for MSE: a normal with mean f and variance 1/2) *)
Definition drawn_label (k : loss_kind) (C rows : nat) (o : point) (samples : nat) (g : G) (m r : nat) : target :=
  match k with
  | LMSE => TVec (fun c => o (r * C + c)%N - sqrt (2%:R^-1) * (normal_o g (samples * (rows * C))).1 (m * (rows * C) + (r * C + c))%N)
  | LCE => TCls ((multinomial_o g rows C (fun r c => softmax C (row_pt C r o) c) samples).1 r m)
  | LBCE => TVec (fun c => ((bernoulli_o g (samples * (rows * C)) (fun i => sigmoid (o (i %% (rows * C))%N))).1
                              (m * (rows * C) + (r * C + c))%N)%:R)
  end.

Lemma draw_is_gradient k C rows o samples ys g w g' m r c :
  draw k C rows o samples ys g = (Ok w, g') -> (c < C)%N ->
  target_ok k C (drawn_label k C rows o samples g m r) ->
  w m (r * C + c)%N = pd c (fun f => torch_row k C (mkseq f C) (drawn_label k C rows o samples g m r)) (row_pt C r o).
Proof.
move=> hd hc hy; rewrite torch_row_pd //; move: hd hy.
case: k => /=.
- case: normal_o => z g1 [<- _] /= _; congr (2 * _); rewrite /row_pt.
  by rewrite opprB addrCA subrr addr0.
- by case: multinomial_o => z g1 [<- _] /= hz; rewrite divn_small_pos // modnMDl (modn_small hc).
case: ifP => // _; case: bernoulli_o => z g1 [<- _] _ /=; by rewrite /row_pt.
Qed.

(* expectation: a normalised linear functional on random variables *)
Variables (Omega : Type) (E : (Omega -> R) -> R).
Definition expectation : Prop :=
  [/\ forall f h, E (fun w => f w + h w) = E f + E h,
      forall k f, E (fun w => k * f w) = k * E f & E (fun _ => 1) = 1].

Lemma E_const : expectation -> forall k, E (fun _ => k) = k.
Proof. by case=> _ hs h1 k; have := hs k (fun _ => 1); rewrite mulr1 h1 mulr1. Qed.

Lemma E_sum : expectation -> forall (I : Type) (s : seq I) (f : I -> Omega -> R),
  E (fun w => \sum_(a <- s) f a w) = \sum_(a <- s) E (f a).
Proof.
move=> hE I s f; elim: s => [|a s IH].
  have -> : (fun w => \sum_(a <- [::]) f a w) = (fun _ => 0) by apply: functional_extensionality => w; rewrite big_nil.
  by rewrite E_const // big_nil.
have -> : (fun w => \sum_(b <- a :: s) f b w) = (fun w => f a w + (fun w => \sum_(b <- s) f b w) w).
  by apply: functional_extensionality => w; rewrite big_cons.
by case: hE => hp _ _; rewrite hp IH big_cons.
Qed.

(* what is assumed of torch's generators when the generator state is random: the
   marginal moments of one draw *)
Definition draw_law (k : loss_kind) (C rows : nat) (o : point) (samples : nat) (g : Omega -> G) : Prop :=
  let idx m r c := (m * (rows * C) + (r * C + c))%N in
  match k with
  | LMSE =>
      let z w := (normal_o (g w) (samples * (rows * C))).1 in
      forall m r c c', (m < samples)%N -> (r < rows)%N -> (c < C)%N -> (c' < C)%N ->
        E (fun w => z w (idx m r c) * z w (idx m r c')) = (c == c')%:R
  | LCE =>
      let smp w := (multinomial_o (g w) rows C (fun r c => softmax C (row_pt C r o) c) samples).1 in
      forall m r c, (m < samples)%N -> (r < rows)%N -> (c < C)%N ->
        E (fun w => (c == smp w r m)%:R) = softmax C (row_pt C r o) c
  | LBCE =>
      let smp w := (bernoulli_o (g w) (samples * (rows * C)) (fun i => sigmoid (o (i %% (rows * C))%N))).1 in
      forall m r c c', (m < samples)%N -> (r < rows)%N -> (c < C)%N -> (c' < C)%N ->
        E (fun w => (smp w (idx m r c))%:R) = sigmoid (o (r * C + c)%N) /\
        (c <> c' -> E (fun w => (smp w (idx m r c))%:R * (smp w (idx m r c'))%:R) =
           sigmoid (o (r * C + c)%N) * sigmoid (o (r * C + c')%N))
  end.

(* the would-be gradients of a draw (fisher.py 295-332), 0 if it raises *)
Definition draw_val k C rows o samples ys g : nat -> nat -> R :=
  if draw k C rows o samples ys g is (Ok w, _) then w else fun _ _ => 0.

Lemma E_ext (f h : Omega -> R) : (forall w, f w = h w) -> E f = E h.
Proof. by move=> e; congr E; apply: functional_extensionality. Qed.

Lemma E_bilin : expectation -> forall (p q : R) (f h : Omega -> R),
  E (fun w => (p - f w) * (q - h w)) = p * q - p * E h - q * E f + E (fun w => f w * h w).
Proof.
move=> hE p q f h; case: (hE) => hp hs _.
rewrite (@E_ext _ (fun w => (p * q + (fun w => (- p) * h w) w) + ((fun w => (- q) * f w) w + f w * h w))); last first.
  by move=> w; toR; ring.
by rewrite hp hp hp (E_const hE (p * q)) (hs (- p) h) (hs (- q) f); toR; ring.
Qed.

Lemma second_moment k C rows o samples ys (g : Omega -> G) m r c c' : expectation ->
  (k = LBCE -> all (binary_target C) ys) ->
  draw_law k C rows o samples g ->
  (m < samples)%N -> (r < rows)%N -> (c < C)%N -> (c' < C)%N ->
  E (fun w => draw_val k C rows o samples ys (g w) m (r * C + c)%N * draw_val k C rows o samples ys (g w) m (r * C + c')%N) =
  row_hess k C (row_pt C r o) c c'.
Proof.
move=> hE hb; case: (hE) => hp hs h1; case: k hb => hb hl hm hr hc hc'; rewrite /draw_val /=.
- have := hl m r c c' hm hr hc hc'.
  set z := fun w => (normal_o (g w) (samples * (rows * C))).1 => hz.
  rewrite (@E_ext _ (fun w => 2 * (z w (m * (rows * C) + (r * C + c))%N * z w (m * (rows * C) + (r * C + c'))%N))).
    by rewrite hs hz; case: eqP; rewrite ?mulr1 ?mulr0.
  move=> w; rewrite /z; case: normal_o => z' g' /=.
  have h2 : sqrt (2%:R^-1) * sqrt (2%:R^-1) = 2%:R^-1.
    rewrite -RmultE sqrt_sqrt //; have -> : (2%:R^-1 : R) = Rinv (IZR 2); first by rewrite -RinvE; [congr Rinv; rewrite natrE | apply/eqP; apply: natr_neq0].
    by lra.
  rewrite mulrACA [sqrt _ * _ * _]mulrACA h2 mulrA -[2 * 2 * _]mulrA divff ?mulr1 //; exact: (natr_neq0 (n := 2)).
- rewrite (@E_ext _ (fun w => (softmax C (row_pt C r o) c - (c == (multinomial_o (g w) rows C (fun r c => softmax C (row_pt C r o) c) samples).1 r m)%:R) *
     (softmax C (row_pt C r o) c' - (c' == (multinomial_o (g w) rows C (fun r c => softmax C (row_pt C r o) c) samples).1 r m)%:R))); last first.
    by move=> w; case: multinomial_o => z' g' /=; rewrite !divn_small_pos // !modnMDl !modn_small.
  rewrite E_bilin // !hl //.
  have -> : E (fun w => (c == (multinomial_o (g w) rows C (fun r c => softmax C (row_pt C r o) c) samples).1 r m)%:R *
     (c' == (multinomial_o (g w) rows C (fun r c => softmax C (row_pt C r o) c) samples).1 r m)%:R) = (c == c')%:R * softmax C (row_pt C r o) c.
    rewrite -(hl m r c hm hr hc) -hs; apply: E_ext => w.
    case: (c =P c') => [<-|ne]; last first.
      case: eqP => [e1|_]; last by rewrite !mul0r.
      by case: eqP => [e2|_]; [case: ne; rewrite e1 e2 | rewrite mulr0 mul0r].
    by case: eqP => _; rewrite !(mulr1, mul1r, mulr0).
  by toR; ring.
have hall := hb erefl; rewrite hall /=.
set smp := fun w => (bernoulli_o (g w) (samples * (rows * C)) (fun i => sigmoid (o (i %% (rows * C))%N))).1.
rewrite (@E_ext _ (fun w => (sigmoid (o (r * C + c)%N) - (smp w (m * (rows * C) + (r * C + c))%N)%:R) *
   (sigmoid (o (r * C + c')%N) - (smp w (m * (rows * C) + (r * C + c'))%N)%:R))); last first.
  by move=> w; rewrite /smp; case: bernoulli_o => z' g'.
rewrite E_bilin //.
have [e1 e2] := hl m r c c' hm hr hc hc'; have [e3 _] := hl m r c' c hm hr hc' hc.
rewrite -/smp in e1 e2 e3; rewrite e1 e3 /row_pt.
case: eqP => [<-|ne]; last by rewrite e2 //; toR; ring.
have -> : E (fun w => (smp w (m * (rows * C) + (r * C + c))%N)%:R * (smp w (m * (rows * C) + (r * C + c))%N)%:R) =
   sigmoid (o (r * C + c)%N).
  by rewrite -e1; apply: E_ext => w; rewrite -natrM mulnb andbb.
by toR; ring.
Qed.

Section Op.
Variables (X Y : Type) (T C : nat) (kind : loss_kind).
Variable net : X -> point -> seq R.
Hypothesis net_size : forall x th, size (net x th) = (T * C)%N.
Variable tgt : Y -> nat -> target.
Local Notation batch := (seq (X * Y)).
Variables (red : reduction) (num_data : option nat) (loader : seq batch) (S : seq (seq nat)) (th : point)
  (samples : nat).
Local Notation N := (infer_num_data (@size (X * Y)) num_data loader).
Hypothesis T_gt0 : (0 < T)%N.
Hypothesis C_gt0 : (0 < C)%N.
Local Notation bdraw := (batch_draw normal_o multinomial_o bernoulli_o T C kind net tgt th samples).
Local Notation loop := (mc_loop normal_o multinomial_o bernoulli_o T C kind net tgt red num_data loader S th samples).
Local Notation draws := (mc_draws normal_o multinomial_o bernoulli_o T C kind net tgt th samples).
Local Notation labok := (labels_ok T C kind tgt).

(* the draws of the successive batches of one product *)
Fixpoint mc_law (g : Omega -> G) (l : seq batch) : Prop :=
  match l with
  | [::] => True
  | b :: l' => draw_law kind C (size b * T) (out2d T C kind net b th) samples g /\
               mc_law (fun w => (bdraw b (g w)).2) l'
  end.

Lemma expected_batch (g : Omega -> G) b i j d0 : expectation -> (0 < samples)%N -> labok b ->
  draw_law kind C (size b * T) (out2d T C kind net b th) samples g ->
  E (fun w => \sum_(r < size b * T) samples%:R^-1 * \sum_(m < samples)
      term_vjp T C kind net (nth d0 b (r %/ T)) (r %% T) th (fun c =>
         draw_val kind C (size b * T) (out2d T C kind net b th) samples (ys2d T tgt b) (g w) m (r * C + c)%N) i *
      term_vjp T C kind net (nth d0 b (r %/ T)) (r %% T) th (fun c =>
         draw_val kind C (size b * T) (out2d T C kind net b th) samples (ys2d T tgt b) (g w) m (r * C + c)%N) j) =
  \sum_(d <- b) \sum_(t < T) \sum_(c < C) \sum_(c' < C)
    pd i (fun z => nth 0 (net d.1 z) (term_pos T C kind t c)) th *
    (row_hess kind C (fun c => nth 0 (net d.1 th) (term_pos T C kind t c)) c c' *
     pd j (fun z => nth 0 (net d.1 z) (term_pos T C kind t c')) th).
Proof.
move=> hE hs hlab hlaw; case: (hE) => _ hsc _.
rewrite E_sum // -(@sum_terms X Y T T_gt0 b d0 (fun d t => \sum_(c < C) \sum_(c' < C)
    pd i (fun z => nth 0 (net d.1 z) (term_pos T C kind t c)) th *
    (row_hess kind C (fun c => nth 0 (net d.1 th) (term_pos T C kind t c)) c c' *
     pd j (fun z => nth 0 (net d.1 z) (term_pos T C kind t c')) th))).
apply: eq_bigr => r _; rewrite hsc E_sum //.
rewrite (eq_bigr (fun _ => \sum_(c < C) \sum_(c' < C)
    pd i (fun z => nth 0 (net (nth d0 b (r %/ T)).1 z) (term_pos T C kind (r %% T) c)) th *
    (row_hess kind C (fun c => nth 0 (net (nth d0 b (r %/ T)).1 th) (term_pos T C kind (r %% T) c)) c c' *
     pd j (fun z => nth 0 (net (nth d0 b (r %/ T)).1 z) (term_pos T C kind (r %% T) c')) th))); last first.
  move=> m _; rewrite /term_vjp.
  pose v := fun w => draw_val kind C (size b * T) (out2d T C kind net b th) samples (ys2d T tgt b) (g w).
  rewrite (@E_ext _ (fun w => \sum_(c < C) \sum_(c' < C)
      (pd i (fun z => nth 0 (net (nth d0 b (r %/ T)).1 z) (term_pos T C kind (r %% T) c)) th *
       pd j (fun z => nth 0 (net (nth d0 b (r %/ T)).1 z) (term_pos T C kind (r %% T) c')) th) *
      (v w m (r * C + c)%N * v w m (r * C + c')%N))); last first.
    move=> w; rewrite mulr_suml; apply: eq_bigr => c _; rewrite mulr_sumr; apply: eq_bigr => c' _.
    by rewrite mulrACA.
  rewrite E_sum //; apply: eq_bigr => c _; rewrite E_sum //; apply: eq_bigr => c' _.
  rewrite hsc second_moment //; last by move=> hk; move: hlab; rewrite /labels_ok hk.
  rewrite mulrAC -mulrA; congr (_ * (_ * _)).
  have hloc : forall f f', (forall c, (c < C)%N -> f c = f' c) -> row_hess kind C f c c' = row_hess kind C f' c c'.
    move=> f f' h; rewrite /row_hess /softmax !h //.
    by rewrite (_ : sumexp C f = sumexp C f') //; apply: eq_bigr => c0 _; rewrite h.
  by apply: hloc => c0 hc0; rewrite /row_pt (out2dE kind net_size T_gt0 C_gt0 _ d0).
rewrite sumr_const card_ord; move: (\sum_(c < C) _) => V.
by rewrite -[V *+ _]mulr_natl mulrA mulVf ?mul1r // natr_neq0.
Qed.

Lemma mc_draws_cons b l g : labok b ->
  draws g (b :: l) = draw_val kind C (size b * T) (out2d T C kind net b th) samples (ys2d T tgt b) g :: draws (bdraw b g).2 l.
Proof.
move=> hb; have [w [g' e]] := batch_draw_ok normal_o multinomial_o bernoulli_o net th samples g hb.
by rewrite /= e /draw_val /=; move: e; rewrite /batch_draw => ->.
Qed.

Lemma expected_draws (g : Omega -> G) l i j : expectation -> (0 < samples)%N -> all labok l -> nonempty l ->
  mc_law g l ->
  E (fun w => \sum_(bw <- zip l (draws (g w) l)) draw_entry T C kind net th samples bw i j) =
  \sum_(d <- flatten l) \sum_(t < T) \sum_(c < C) \sum_(c' < C)
    pd i (fun z => nth 0 (net d.1 z) (term_pos T C kind t c)) th *
    (row_hess kind C (fun c => nth 0 (net d.1 th) (term_pos T C kind t c)) c c' *
     pd j (fun z => nth 0 (net d.1 z) (term_pos T C kind t c')) th).
Proof.
move=> hE hs; elim: l g => [|b l IH] g.
  by move=> _ _ _ /=; rewrite (@E_ext _ (fun _ => 0)) ?E_const ?big_nil // => w; rewrite big_nil.
case/andP=> hb hl /andP[hn hnl] [hlaw hlaws].
rewrite (@E_ext _ (fun w => (fun w => draw_entry T C kind net th samples
    (b, draw_val kind C (size b * T) (out2d T C kind net b th) samples (ys2d T tgt b) (g w)) i j) w +
   (fun w => \sum_(bw <- zip l (draws (bdraw b (g w)).2 l)) draw_entry T C kind net th samples bw i j) w)); last first.
  by move=> w; rewrite mc_draws_cons //= big_cons.
case: (hE) => hp _ _; rewrite hp (IH _ hl hnl hlaws) /= big_cat /=; congr (_ + _).
case: b hb hn hlaw {hlaws} => // d0 b hb _ hlaw.
rewrite -(@expected_batch g (d0 :: b) i j d0 hE hs hb hlaw).
by apply: E_ext => w.
Qed.

(* entry i of column k of a product (specification) *)
Definition result_entry K (r : res (seq tens)) i k : R := if r is Ok Q then entry K (flat Q) i k else 0.

Lemma expected_product (g : Omega -> G) K M i k : expectation -> (0 < samples)%N ->
  S <> [::] -> red <> ROther -> (0 < N)%N -> all labok loader -> nonempty loader -> mc_law g loader ->
  Forall_in (@targets_ok X Y T C kind tgt) (flatten loader) -> valid_mat S K M -> (i < total S)%N -> (k < K)%N ->
  E (fun w => result_entry K (loop M [seq zeros_like m | m <- M] (g w) loader).1 i k) =
  \sum_(j < total S) ggn_entry (T * C) net (datum_loss T C kind tgt red) (weight red N) (flatten loader) th i j *
     entry K (flat M) j k.
Proof.
move=> hE hs hS hr hN hlab hne hlaw htg hM hi hk; case: (hE) => _ hsc _.
rewrite (@E_ext _ (fun w => \sum_(j < total S) (term_weight T C kind red N * entry K (flat M) j k) *
    \sum_(bw <- zip loader (draws (g w) loader)) draw_entry T C kind net th samples bw i j)); last first.
  move=> w.
  have [Q [e1 _ e3]] := @mc_loop_multiplies G normal_o multinomial_o bernoulli_o X Y T C kind net net_size tgt red num_data
     loader S th samples T_gt0 C_gt0 (g w) loader hS hr hN hne hlab hs K M (leq0n K) hM.
  by rewrite e1 /= e3 //; apply: eq_bigr => j _; rewrite mulrAC.
rewrite E_sum //; apply: eq_bigr => j _; rewrite hsc expected_draws //.
by rewrite ggn_entry_terms // mulrAC.
Qed.
End Op.
End Expect.
