(* C32: the Kronecker factors KFAC computes.  C47: loss terms per example. *)
From Coq Require Import Reals Lra FunctionalExtensionality Permutation.
From Coquelicot Require Import Coquelicot.
From mathcomp Require Import all_ssreflect all_algebra.
From Verif Require Import PyPrelude Tensor Spec TorchBase Submatrix RInst Calculus Curvature HessGGN Risk Losses Fisher FisherMC FisherExp LossHess Props_LossHess Conv Props_Conv Kfac KfacCov KfacCovHooks KfacCovSpec KfacCovProof.
Set Implicit Arguments.
Unset Strict Implicit.
Unset Printing Implicit Defensive.
Import GRing.Theory.
Local Open Scope ring_scope.

Section C32.
Variables (X Y : Type) (T C : nat) (kind : loss_kind).
Local Notation batch := (seq (X * Y)).
Hypothesis T_gt0 : (0 < T)%N.
Hypothesis C_gt0 : (0 < C)%N.
Variable net : X -> seq R.
Variable tgt : Y -> nat -> target.
Variable mods : nat -> nlayer X.
Variable shapes : seq (seq nat).
Variables (sep : bool) (ap : kfac_approx) (red : reduction) (N M : nat) (mp : mapping) (ge : geometry X).
Hypothesis net_size : forall x, size (net x) = (T * C)%N.
Hypothesis mp_uniq : uniq (dkeys mp).
Hypothesis hge : fits_geometry T C ap mods mp ge.
Hypothesis hred : red <> ROther.
Hypothesis N_gt0 : (0 < N)%N.
Hypothesis M_gt0 : (0 < M)%N.
Variables (G : Type).
Variable normal_o : G -> nat -> (nat -> R) * G.
Variable multinomial_o : G -> nat -> nat -> (nat -> nat -> R) -> nat -> (nat -> nat -> nat) * G.
Variable bernoulli_o : G -> nat -> (nat -> R) -> (nat -> bool) * G.
Local Notation compute ft := (compute_kfac T C kind net tgt mods shapes sep ap ft red N M T mp normal_o multinomial_o bernoulli_o).

(* the computation succeeds; layers whose weight is used have the input factor
   1/N sum_n (...), the others have none; every layer has the gradient factor B *)
Definition computes (ft : fisher_type) (loader : seq batch) (g : G) (B : nat -> nat -> nat -> R) : Prop :=
  exists st, compute ft loader g = (st, Ok tt) /\ forall k,
    match dget k mp with
    | None => dget k st.1 = None /\ dget k st.2 = None
    | Some ps =>
        (if dmem Weight ps then is_factor st.1 k (g_d1 ge k + joint_params sep ps)
           (input_factor ap (joint_params sep ps) N (g_S1 ge k) (g_d1 ge k) (g_act ge k) (flatten loader))
         else dget k st.1 = None) /\
        is_factor st.2 k (g_d2 ge k) (B k)
    end.

(* gradients of layer k's outputs for datum x, for a loss sum_t phi_t(row t) *)
Definition grads (k : nat) (x : X) (phi : nat -> point -> R) (s i : nat) : R :=
  ograd T C kind (mods k) x phi (g_pos ge k s i).

Lemma computes_ext ft loader g B B' : (forall k i j, B k i j = B' k i j) -> computes ft loader g B -> computes ft loader g B'.
Proof.
move=> e [st [h1 h2]]; exists st; split=> // k; have := h2 k; case: (dget k mp) => // ps [h3 [t [a1 a2 a3 a4]]].
by split=> //; exists t; split=> // i j hi hj; rewrite -e a4.
Qed.

Lemma loss2d_any (lossrow : seq R -> target -> R) rows (ys : seq target) o : size ys = rows ->
  loss2d C kind lossrow red (mkseq o (rows * C)) ys =
  (match red with RMean => (if is_ce kind then rows%:R else rows%:R * C%:R)^-1 | _ => 1 end) *
  \sum_(r < rows) lossrow (mkseq (row_pt C r o) C) (nth (TCls 0) ys r).
Proof.
move=> hs; rewrite /loss2d hs reshape_mkseq.
have -> : \sum_(p <- zip (mkseq (fun m => mkseq (row_pt C m o) C) rows) ys) lossrow p.1 p.2 =
   \sum_(r < rows) lossrow (mkseq (row_pt C r o) C) (nth (TCls 0) ys r).
  rewrite (sum_nth (([::] : seq R), TCls 0)) size_zip size_mkseq hs minnn.
  apply: eq_bigr => r _; rewrite nth_zip /=; last by rewrite size_mkseq hs.
  by rewrite nth_mkseq.
by case: red; rewrite ?mul1r // mulrC.
Qed.

Definition pass_scale (rows : nat) : R :=
  match red with RMean => (if is_ce kind then rows%:R else rows%:R * C%:R)^-1 | _ => 1 end *
  match red with RMean => if is_ce kind then 1 else sqrt C%:R | _ => 1 end.

Lemma scaled_lossE rows ys o : size ys = rows -> scaled_loss C kind red rows ys o =
  pass_scale rows * \sum_(r < rows) (fun r f => torch_row kind C (mkseq f C) (nth (TCls 0) ys r)) r (row_pt C r o).
Proof. by move=> hs; rewrite /scaled_loss loss2d_any // mulrAC. Qed.

Lemma sqrtCC : sqrt C%:R * sqrt C%:R = C%:R :> R.
Proof. by apply: sqrt2; rewrite natrE; apply: pos_INR. Qed.

Lemma corr_mean n (k : R) : (0 < n)%N ->
  ((n * T) ^ 2)%:R / (N * M * T)%:R * ((n * T)%:R^-1 * k * ((n * T)%:R^-1 * k)) = M%:R^-1 * (N * T)%:R^-1 * (k * k) :> R.
Proof.
move=> hn; have h0 : ((n * T)%:R : R) != 0 by apply: natr_neq0; rewrite muln_gt0 hn.
have -> : (N * M * T)%:R^-1 = M%:R^-1 * (N * T)%:R^-1 :> R by rewrite [(N * M)%N]mulnC -mulnA natrM invfM.
rewrite natrX expr2.
set a := ((n * T)%:R : R) in h0 *; set m := M%:R^-1; set c := (N * T)%:R^-1.
rewrite (_ : a * a * (m * c) * (a^-1 * k * (a^-1 * k)) = (a * a^-1) * (a * a^-1) * (m * c * (k * k))); first by rewrite divff // !mul1r.
by toR; ring.
Qed.

Lemma pass_weight n : (0 < n)%N ->
  corr T red N M n * (pass_scale (n * T) * pass_scale (n * T)) = M%:R^-1 * term_weight T C kind red N.
Proof.
move=> hn; rewrite /corr /pass_scale /term_weight; case: red hred => // _; last by rewrite !mulr1.
have c0 := natr_neq0 C_gt0.
case: is_ce; first by rewrite corr_mean // !mulr1.
rewrite invfM -[_^-1 * _ * sqrt _]mulrA corr_mean // [(N * T * C)%N%:R]natrM invfM.
have -> : C%:R^-1 * sqrt C%:R * (C%:R^-1 * sqrt C%:R) = C%:R^-1 :> R.
  by rewrite mulrACA sqrtCC -mulrA mulVf // mulr1.
by rewrite mulrA.
Qed.

Lemma ograd_ext l (x : X) phi phi' p : (forall t, (t < T)%N -> phi t = phi' t) -> ograd T C kind l x phi p = ograd T C kind l x phi' p.
Proof. by move=> h; apply: pd_ext => z; apply: eq_bigr => t _; rewrite h. Qed.

Lemma grad_term_ext S (a a' : nat -> nat -> R) i j : (forall s i, a s i = a' s i) -> grad_term ap S a i j = grad_term ap S a' i j.
Proof.
move=> e; rewrite /grad_term; case: ap; first by apply: eq_bigr => s _; rewrite !e.
by congr (_ * _); apply: eq_bigr => s _.
Qed.

Lemma gens_nonempty ft loader g p : nonempty loader ->
  List.In p (gens T C kind net tgt mods shapes ap red N M mp ft normal_o multinomial_o bernoulli_o loader g) -> (0 < size p.1)%N.
Proof.
elim: loader g => //= b l IH g /andP[hb hl] [<-|h] //; exact: IH h.
Qed.

(* the row losses of a datum: loss of prediction row t against target t *)
Definition row_loss (y : nat -> target) (t : nat) (f : point) : R := torch_row kind C (mkseq f C) (y t).

(* ---- empirical Fisher ---- *)
(* B = w sum_n sum_s g_ns g_ns^T (expand) or w sum_n (sum_s g_ns) (sum_s g_ns)^T
   (reduce), g the gradients of the datum's own loss *)
Theorem C32_empirical loader g : loader <> [::] -> nonempty loader ->
  computes Empirical loader g (fun k i j => M%:R^-1 * term_weight T C kind red N *
    \sum_(d <- flatten loader) grad_term ap (g_S2 ge k) (grads k d.1 (row_loss (tgt d.2))) i j).
Proof.
move=> hl hne.
pose w := M%:R^-1 * term_weight T C kind red N.
pose v (p : batch * G) k i j := if has_k mp k then w * \sum_(d <- p.1) grad_term ap (g_S2 ge k) (grads k d.1 (row_loss (tgt d.2))) i j else 0.
have [|st [h1 h2]] := @loader_run X Y T C kind net tgt mods shapes sep ap red N M mp ge mp_uniq hge Empirical G
  normal_o multinomial_o bernoulli_o loader g v hl.
  move=> [b g'] hp; have hb := gens_nonempty hne hp; rewrite /= in hb *.
  have d0 : (X * Y)%type by case: (b) hb.
  rewrite /loss_events.
  have -> : forall ev, (if red is ROther then [:: Err RuntimeError] else ev) = ev by case: red hred.
  pose psi (a : unit) r (f : point) := torch_row kind C (mkseq f C) (nth (TCls 0) (ktargets T tgt b) r).
  have hs : size (ktargets T tgt b) = (size b * T)%N by apply: size_ys2d.
  have h := @passes_adds X Y T C kind T_gt0 C_gt0 mods sep ap red N M mp ge mp_uniq hge hred N_gt0 M_gt0 b d0 unit [:: tt]
     (fun _ => scaled_loss C kind red (size b * T) (ktargets T tgt b)) (pass_scale (size b * T)) psi.
  rewrite /= cats0 in h; apply: adds_ext (h _ _) _ _ _ _ => //.
  - by move=> a o _; rewrite scaled_lossE.
  - by move=> a r; apply: (@mkseq_local C (fun s => torch_row kind C s _)).
  move=> k i j _ _; rewrite /v; case: (has_k mp k) => //.
  rewrite pass_weight // big_seq1 (sum_nth d0) /=; congr (_ * _); apply: eq_bigr => n _.
  apply: grad_term_ext => s i'; apply: ograd_ext => t ht; rewrite /psi /row_loss.
  apply: functional_extensionality => f; congr torch_row.
  have hr : (n * T + t < size b * T)%N by apply: idx_lt.
  by rewrite (nth_ys2d _ T_gt0 (TCls 0) d0) //; have [-> ->] := dm n ht.
exists st; split=> // k; have := h2 k; case ek : (dget k mp) => [ps|//] [h3 [t [a1 a2 a3 a4]]]; split=> //.
exists t; split=> // i j hi hj; rewrite a4 // /v /has_k ek -mulr_sumr; congr (_ * _).
rewrite -sum_flatten; set gs := gens _ _ _ _ _ _ _ _ _ _ _ _ _ _ _ _ _ _.
by rewrite -[in RHS](gens_fst T C kind net tgt mods shapes ap red N M mp Empirical normal_o multinomial_o bernoulli_o loader g) big_map.
Qed.

(* ---- Monte-Carlo Fisher ---- *)
(* the labels y of [rows] predictions o, drawn from the loss's likelihood with
   generator g, which becomes g' *)
Definition sampled (rows : nat) (o : point) (g : G) (y : seq target) (g' : G) : Prop :=
  size y = rows /\
  match kind with
  | LMSE => g' = (normal_o g (rows * C)).2 /\ forall r, (r < rows)%N ->
      nth (TCls 0) y r = TVec (fun c => o (r * C + c)%N + sqrt (2%:R^-1) * (normal_o g (rows * C)).1 (r * C + c)%N)
  | LCE => let d := multinomial_o g rows C (fun r c => softmax C (row_pt C r o) c) 1 in
      g' = d.2 /\ forall r, (r < rows)%N -> nth (TCls 0) y r = TCls (d.1 r 0%N)
  | LBCE => let d := bernoulli_o g (rows * C) (fun i => sigmoid (o i)) in
      g' = d.2 /\ forall r, (r < rows)%N -> nth (TCls 0) y r = TVec (fun c => (d.1 (r * C + c)%N)%:R)
  end.
(* n draws in a row *)
Inductive samples : nat -> nat -> point -> G -> seq (seq target) -> G -> Prop :=
| samples0 rows o g : samples 0 rows o g [::] g
| samplesS n rows o g y g1 ys g2 : sampled rows o g y g1 -> samples n rows o g1 ys g2 ->
    samples n.+1 rows o g (y :: ys) g2.
(* M draws for every batch of the loader *)
Inductive drawn : seq batch -> G -> seq (seq (seq target)) -> Prop :=
| drawn_nil g : drawn [::] g [::]
| drawn_cons b l g ys g' yss : samples M (size b * T) (kout2d T C kind net b) g ys g' -> drawn l g' yss ->
    drawn (b :: l) g (ys :: yss).

(* entry (r, c) of the 2d output is the network's output for loss term r mod T of datum r / T *)
Lemma kout2dE (b : batch) (d0 : X * Y) r c : (r < size b * T)%N -> (c < C)%N ->
  kout2d T C kind net b (r * C + c)%N = nth 0 (net (nth d0 b (r %/ T)).1) (term_pos T C kind (r %% T) c).
Proof. by move=> hr hc; rewrite /kout2d (@out2dE X Y T C kind (fun x _ => net x) (fun x _ => net_size x) T_gt0 C_gt0 b _ d0). Qed.

Local Notation draw_label := (draw_label C kind normal_o multinomial_o bernoulli_o).
Local Notation draw_labels := (draw_labels C kind normal_o multinomial_o bernoulli_o).

Lemma draw_label_sampled rows o g : sampled rows o g (draw_label rows o g).1 (draw_label rows o g).2.
Proof.
rewrite /sampled /draw_label; case: kind => /=.
- by case: normal_o => z g' /=; rewrite size_mkseq; split=> //; split=> // r hr; rewrite nth_mkseq.
- by case: multinomial_o => z g' /=; rewrite size_mkseq; split=> //; split=> // r hr; rewrite nth_mkseq.
by case: bernoulli_o => z g' /=; rewrite size_mkseq; split=> //; split=> // r hr; rewrite nth_mkseq.
Qed.

Lemma draw_labels_samples n rows o g : samples n rows o g (draw_labels n rows o g).1 (draw_labels n rows o g).2.
Proof.
elim: n g => [|n IH] g /=; first exact: samples0.
have := draw_label_sampled rows o g; case: draw_label => y g1 /= h1.
have := IH g1; case: draw_labels => ys g2 /= h2; exact: samplesS h1 h2.
Qed.

Lemma samples_size n rows o g ys g' : samples n rows o g ys g' -> size ys = n /\ forall y, List.In y ys -> size y = rows.
Proof.
elim=> {n rows o g ys g'} [//|n rows o g y g1 ys g2 [hy _] _ [h1 h2]]; split; first by rewrite /= h1.
by move=> y' /= [<-|/h2].
Qed.

Lemma mc_draws loader g : exists yss, drawn loader g yss /\
  [seq (p.1, (draw_labels M (size p.1 * T) (kout2d T C kind net p.1) p.2).1) |
     p <- gens T C kind net tgt mods shapes ap red N M mp MC normal_o multinomial_o bernoulli_o loader g] = zip loader yss.
Proof.
elim: loader g => [|b l IH] g /=; first by exists [::]; split=> //; apply: drawn_nil.
have := draw_labels_samples M (size b * T) (kout2d T C kind net b) g.
case e : (draw_labels M (size b * T) (kout2d T C kind net b) g) => [ys g'] /= hs.
have [yss [h1 h2]] := IH g'; exists (ys :: yss); split; first exact: drawn_cons hs h1.
rewrite /=; congr cons; exact: h2.
Qed.

Theorem C32_monte_carlo (d0 : X * Y) loader g : loader <> [::] -> nonempty loader ->
  exists yss, drawn loader g yss /\
  computes MC loader g (fun k i j => M%:R^-1 * term_weight T C kind red N *
    \sum_(p <- zip loader yss) \sum_(y <- p.2) \sum_(n < size p.1)
      grad_term ap (g_S2 ge k) (grads k (nth d0 p.1 n).1 (row_loss (fun t => nth (TCls 0) y (n * T + t)))) i j).
Proof.
move=> hl hne; have [yss [hy ez]] := mc_draws loader g; exists yss; split=> //.
pose w := M%:R^-1 * term_weight T C kind red N.
pose v' (p : batch * seq (seq target)) k i j := \sum_(y <- p.2) \sum_(n < size p.1)
      grad_term ap (g_S2 ge k) (grads k (nth d0 p.1 n).1 (row_loss (fun t => nth (TCls 0) y (n * T + t)))) i j.
pose v (p : batch * G) k i j := if has_k mp k then w * v' (p.1, (draw_labels M (size p.1 * T) (kout2d T C kind net p.1) p.2).1) k i j else 0.
have [|st [h1 h2]] := @loader_run X Y T C kind net tgt mods shapes sep ap red N M mp ge mp_uniq hge MC G
  normal_o multinomial_o bernoulli_o loader g v hl.
  move=> [b g'] hp; have hb := gens_nonempty hne hp; rewrite /= in hb *.
  rewrite /loss_events /v /=.
  have := draw_labels_samples M (size b * T) (kout2d T C kind net b) g'.
  case: draw_labels => ys g1 /= /samples_size [sM sy].
  have -> : forall ev, (if red is ROther then (if ys is [::] then [::] else [:: Err RuntimeError]) else ev) = ev by case: red hred.
  pose psi (y : seq target) r (f : point) := torch_row kind C (mkseq f C) (nth (TCls 0) y r).
  have h := @passes_adds X Y T C kind T_gt0 C_gt0 mods sep ap red N M mp ge mp_uniq hge hred N_gt0 M_gt0 b d0 _ ys
     (fun y => scaled_loss C kind red (size b * T) y) (pass_scale (size b * T)) psi.
  apply: adds_ext (h _ _) _ _ _ _ => //.
  - by move=> a o /sy ha; rewrite scaled_lossE.
  - by move=> a r; apply: (@mkseq_local C (fun s => torch_row kind C s _)).
  - by move=> k; rewrite sM M_gt0.
  by move=> k i j _ _; case: (has_k mp k) => //; rewrite pass_weight.
exists st; split=> // k; have := h2 k; case ek : (dget k mp) => [ps|//] [h3 [t [a1 a2 a3 a4]]]; split=> //.
exists t; split=> // i j hi hj; rewrite a4 // /v /has_k ek -mulr_sumr; congr (_ * _).
by rewrite -ez big_map.
Qed.

(* ---- forward-only: no loss information ---- *)
Theorem C32_forward_only loader g : loader <> [::] ->
  (* the first parameter of every layer has the layer's output channels as leading axis *)
  (forall k ps, dget k mp = Some ps -> exists n p rest, ps = (n, p) :: rest /\ head 0%N (nth [::] shapes p) = g_d2 ge k) ->
  computes ForwardOnly loader g (fun k i j => (i == j)%:R).
Proof.
move=> hl hp; have [st [h1 h2]] := @forward_only_run X Y T C kind net tgt mods shapes sep ap red N M mp ge mp_uniq hge ForwardOnly G
  normal_o multinomial_o bernoulli_o loader g hl erefl hp.
exists st; split=> // k; have := h2 k; case: (dget k mp) => // ps [h3 h4]; split=> //.
exists (eye [fieldType of R] (g_d2 ge k)); split=> //; first by rewrite /wf /= size_mkseq muln1.
move=> i j hi hj; rewrite /entry /= nth_mkseq; last exact: idx_lt.
by have [-> ->] := dm i hj.
Qed.

(* ---- type-2 (GGN) ---- *)
(* prediction row t of x *)
Definition pred_row (x : X) (t : nat) : point := fun c => nth 0 (net x) (term_pos T C kind t c).
(* Rt x t is a square root of the Hessian of the row loss at prediction row t *)
Definition hessian_root (Rt : X -> nat -> nat -> nat -> R) : Prop :=
  forall x t y c c', (t < T)%N -> target_ok kind C y -> (c < C)%N -> (c' < C)%N ->
    \sum_(l < C) Rt x t c l * Rt x t c' l = pd c' (pd c (reduced_loss kind red C y)) (pred_row x t).
Definition type2_targets (data : seq (X * Y)) : Prop :=
  Forall_in (fun d => forall t, (t < T)%N -> target_ok kind C (tgt d.2 t) /\ (kind = LBCE -> binary_target C (tgt d.2 t))) data.
Definition type2_weight : R := match red with RMean => (N * T)%:R^-1 | _ => 1 end.

Definition root (x : X) (t : nat) : res (tensor R) :=
  loss_hessian_matrix_sqrt kind red (Tensor [:: 1; C]%N (mkseq (pred_row x t) C)) [:: 1%N] [::].

Lemma sqrt_any_target (o : tensor R) yrest yvals : (kind = LBCE -> binary yvals) ->
  loss_hessian_matrix_sqrt kind red o (1%N :: yrest) yvals = loss_hessian_matrix_sqrt kind red o [:: 1%N] [::].
Proof.
rewrite /loss_hessian_matrix_sqrt; case: (tshape o) => [|[|[|n]] [|c []]] //=.
by case: kind => // /(_ erefl) ->.
Qed.

Lemma hessian_sqrts_ok b d0 : (0 < size b)%N -> (kind = LCE -> C <> 1%N) -> type2_targets b ->
  exists S, hessian_sqrts T C kind net tgt red b = Ok S /\
   forall r i c, (r < size b * T)%N ->
     S r i c = entry C (tdata (if root (nth d0 b (r %/ T)).1 (r %% T)%N is Ok t then t else Tensor [::] [::])) i c *
               match red with RMean => (size b * T)%:R^-1 | _ => 1 end.
Proof.
move=> hb hC ht; rewrite /hessian_sqrts.
have rt r : (r %% T < T)%N by rewrite ltn_mod.
have tok r : (r < size b * T)%N -> let d := nth d0 b (r %/ T) in
    target_ok kind C (tgt d.2 (r %% T)) /\ (kind = LBCE -> binary_target C (tgt d.2 (r %% T))).
  by move=> hr d; have h := Forall_in_nth d0 ht; apply: h; rewrite ?ltn_divLR.
set f := (X in mapM X _).
have hf r : (r < size b * T)%N -> f r = root (nth d0 b (r %/ T)).1 (r %% T).
  move=> hr; have [h1 h2] := tok r hr; rewrite /f /ktargets (nth_ys2d _ T_gt0 (TCls 0) d0) // /root.
  have -> : mkseq (row_pt C r (kout2d T C kind net b)) C = mkseq (pred_row (nth d0 b (r %/ T)).1 (r %% T)) C.
    by apply/eq_in_map => c; rewrite mem_iota add0n => /andP[_ hc]; rewrite /row_pt (kout2dE d0).
  move: h1 h2; rewrite /row_target; case: (tgt _ _) => [v|n] h1 h2 //=; rewrite sqrt_any_target // => e.
  have := h2 e; rewrite /binary_target /binary all_map => h.
  by apply: sub_all h => c /=.
have hroot r : (r < size b * T)%N -> exists t, f r = Ok t.
  move=> hr; rewrite hf //; have [h1 h2] := tok r hr.
  have [||S [hS _ _ _]] := @C44_square_root kind red C (mkseq (pred_row (nth d0 b (r %/ T)).1 (r %% T)) C) _ [::] [::] hred C_gt0 _ h1 hC => //.
    by rewrite size_mkseq.
  by exists S.
have -> : mapM f (iota 0 (size b * T)) = Ok [seq (if f r is Ok t then t else Tensor [::] [::]) | r <- iota 0 (size b * T)].
  have : forall r, r \in iota 0 (size b * T) -> exists t, f r = Ok t by move=> r; rewrite mem_iota add0n => /andP[_ /hroot].
  elim: (iota 0 (size b * T)) => //= r s IH h; have [t ->] := h r (mem_head _ _).
  by rewrite /= IH //= => r' hr'; apply: h; rewrite inE hr' orbT.
rewrite /= gtn_eqF ?muln_gt0 ?hb //=.
have rows0 : (0 < size b * T)%N by rewrite muln_gt0 hb.
case: red hred @f hf hroot => // _ f hf hroot /=; eexists; (split; first reflexivity) => r i c hr; cbv beta; rewrite (nth_map 0%N) ?size_iota // nth_iota // add0n hf //.
Qed.

Definition sqrt_entry (x : X) (t i c : nat) : R :=
  entry C (tdata (if root x t is Ok t' then t' else Tensor [::] [::])) i c.

Lemma sqrt_entry_root : (kind = LCE -> C <> 1%N) -> hessian_root sqrt_entry.
Proof.
move=> hC x t y c c' htT hy hc hc'.
have [||S [h1 _ _ h4]] := @C44_square_root kind red C (mkseq (pred_row x t) C) y [::] [::] hred C_gt0 _ hy hC => //; first by rewrite size_mkseq.
rewrite /sqrt_entry /root h1 h4 //; apply: (@pd_local C) => //; last by move=> e he; rewrite nth_mkseq.
move=> u v huv; apply: (@pd_local C) => //.
by move=> u' v' h; rewrite /reduced_loss; congr (_ * _); apply: (@mkseq_local C (fun s => torch_row kind C s y)).
Qed.

Lemma type2_computes loader g : loader <> [::] -> nonempty loader -> (kind = LCE -> C <> 1%N) ->
  type2_targets (flatten loader) ->
  computes Type2 loader g (fun k i j => M%:R^-1 * type2_weight *
    \sum_(d <- flatten loader) \sum_(l < C)
      grad_term ap (g_S2 ge k) (grads k d.1 (fun t f => \sum_(c < C) f c * sqrt_entry d.1 t c l)) i j).
Proof.
move=> hl hne hC ht; pose Rt := sqrt_entry.
pose w := M%:R^-1 * type2_weight.
pose v (p : batch * G) k i j := if has_k mp k then w * \sum_(d <- p.1) \sum_(l < C)
      grad_term ap (g_S2 ge k) (grads k d.1 (fun t f => \sum_(c < C) f c * Rt d.1 t c l)) i j else 0.
have htb : forall p, List.In p (gens T C kind net tgt mods shapes ap red N M mp Type2 normal_o multinomial_o bernoulli_o loader g) -> type2_targets p.1.
  move: (Forall_in_flatten ht) => {ht} h; elim: (loader) g h => //= b l IH g' [h1 h2] p [<-|] //; exact: IH.
have [|st [h1 h2]] := @loader_run X Y T C kind net tgt mods shapes sep ap red N M mp ge mp_uniq hge Type2 G
  normal_o multinomial_o bernoulli_o loader g v hl.
  move=> [b g'] hp; have hb := gens_nonempty hne hp; have htgt := htb _ hp; rewrite /= in hb htgt *.
  have d0 : (X * Y)%type by case: (b) hb.
  have [S [eS vS]] := hessian_sqrts_ok d0 hb hC htgt.
  rewrite /loss_events eS.
  pose kk : R := match red with RMean => (size b * T)%:R^-1 | _ => 1 end.
  pose psi l r (f : point) := \sum_(c < C) f c * Rt (nth d0 b (r %/ T)).1 (r %% T)%N c l.
  have h := @passes_adds X Y T C kind T_gt0 C_gt0 mods sep ap red N M mp ge mp_uniq hge hred N_gt0 M_gt0 b d0 _ (iota 0 C)
     (fun c o => \sum_(i < size b * T * C) o i * S (i %/ C)%N (i %% C)%N c) kk psi.
  apply: adds_ext (h _ _) _ _ _ _ => //.
  - move=> l o _; rewrite (sum_rows (size b * T) C (fun i => o i * S (i %/ C)%N (i %% C)%N l)) mulr_sumr.
    apply: eq_bigr => r _; rewrite mulr_sumr; apply: eq_bigr => c _.
    by have [-> ->] := dm r (ltn_ord c); rewrite vS // -/kk mulrA mulrC.
  - by move=> l r x y hxy; apply: eq_bigr => c _; rewrite hxy.
  - by move=> k; rewrite size_iota C_gt0.
  move=> k i j _ _; rewrite /v; case: (has_k mp k) => //.
  have -> : corr T red N M (size b) * (kk * kk) = w.
    rewrite /w /kk /corr /type2_weight; case: red hred => // _; last by rewrite !mulr1.
    by have := corr_mean 1 hb; rewrite !mulr1.
  congr (_ * _); rewrite (sum_nth d0) exchange_big /=.
  apply: eq_bigr => n _; rewrite (_ : iota 0 C = index_iota 0 C) ?big_mkord /index_iota ?subn0 //; apply: eq_bigr => l _.
  apply: grad_term_ext => s i'; apply: ograd_ext => t htT; rewrite /psi.
  by have [-> ->] := dm n htT.
exists st; split=> // k; have := h2 k; case ek : (dget k mp) => [ps|//] [h3 [t [a1 a2 a3 a4]]]; split=> //.
exists t; split=> // i j hi hj; rewrite a4 // /v /has_k ek -mulr_sumr; congr (_ * _).
rewrite -sum_flatten.
by rewrite -[in RHS](gens_fst T C kind net tgt mods shapes ap red N M mp Type2 normal_o multinomial_o bernoulli_o loader g) big_map.
Qed.

(* for a square root Rt of the Hessians:
   B = w sum_n sum_l sum_s g_nls g_nls^T, g_nl the gradients of the pairing of the
   predictions with column l of the square roots *)
Theorem C32_type2 loader g : loader <> [::] -> nonempty loader -> (kind = LCE -> C <> 1%N) ->
  type2_targets (flatten loader) ->
  exists Rt, hessian_root Rt /\
  computes Type2 loader g (fun k i j => M%:R^-1 * type2_weight *
    \sum_(d <- flatten loader) \sum_(l < C)
      grad_term ap (g_S2 ge k) (grads k d.1 (fun t f => \sum_(c < C) f c * Rt d.1 t c l)) i j).
Proof. by move=> hl hne hC ht; exists sqrt_entry; split; [apply: sqrt_entry_root|apply: type2_computes]. Qed.

(* ---- type-2 as a Gauss-Newton factor ---- *)
(* Jacobian of entry c of prediction row t w.r.t. entry p of layer k's output *)
Definition jac (k : nat) (x : X) (t c p : nat) : R :=
  pd p (fun z => nth 0 (nl_tail (mods k) x z) (term_pos T C kind t c)) (nth 0 (nl_out (mods k) x)).
Definition jac_exists (k : nat) (x : X) : Prop := forall t c p, (t < T)%N -> (c < C)%N ->
  ex_pd p (fun z => nth 0 (nl_tail (mods k) x z) (term_pos T C kind t c)) (nth 0 (nl_out (mods k) x)).
(* sum of outer products over positions, or outer product of the sums *)
Definition cross (S : nat) (a b : nat -> R) : R :=
  match ap with Expand => \sum_(s < S) a s * b s | Reduce => (\sum_(s < S) a s) * (\sum_(s < S) b s) end.
(* no two loss terms of a datum depend on the same (pooled) position *)
Definition unmixed (k : nat) (x : X) : Prop := forall t t' c c' i j, t <> t' -> (t < T)%N -> (t' < T)%N -> (c < C)%N -> (c' < C)%N ->
  (i < g_d2 ge k)%N -> (j < g_d2 ge k)%N ->
  cross (g_S2 ge k) (fun s => jac k x t c (g_pos ge k s i)) (fun s => jac k x t' c' (g_pos ge k s j)) = 0.
Definition row_hessian (d : X * Y) (t c c' : nat) : R := pd c' (pd c (reduced_loss kind red C (tgt d.2 t))) (pred_row d.1 t).

Lemma grads_linear k x (W : nat -> nat -> R) s i : jac_exists k x ->
  grads k x (fun t f => \sum_(c < C) f c * W t c) s i = \sum_(t < T) \sum_(c < C) jac k x t c (g_pos ge k s i) * W t c.
Proof.
move=> hx; rewrite /grads /ograd [LHS]/pd; apply: is_derive_unique; rewrite /datum_loss.
apply: (@is_derive_sum_ord T (fun t u => \sum_(c < C) nth 0 (nl_tail (mods k) x (upd (nth 0 (nl_out (mods k) x)) (g_pos ge k s i) u)) (term_pos T C kind t c) * W t c)
  (fun t => \sum_(c < C) jac k x t c (g_pos ge k s i) * W t c)) => t ht.
apply: (@is_derive_sum_ord C (fun c u => nth 0 (nl_tail (mods k) x (upd (nth 0 (nl_out (mods k) x)) (g_pos ge k s i) u)) (term_pos T C kind t c) * W t c)
  (fun c => jac k x t c (g_pos ge k s i) * W t c)) => c hc.
have h := Derive_correct _ _ (hx t c (g_pos ge k s i) ht hc).
apply: derive_val (is_derive_mult _ _ _ _ _ h (is_derive_const (W t c) _) Rmult_comm).
by rewrite /jac /pd /plus /mult /zero /=; toR; ring.
Qed.

(* chain rule for the row losses *)
Lemma grads_chain k x (y : nat -> target) s i : jac_exists k x -> nl_tail (mods k) x (nth 0 (nl_out (mods k) x)) = net x ->
  (forall t, (t < T)%N -> target_ok kind C (y t)) ->
  grads k x (row_loss y) s i =
  grads k x (fun t f => \sum_(c < C) f c * row_grad kind C (y t) (pred_row x t) c) s i.
Proof.
move=> hx hnet hy; rewrite (grads_linear (fun t c => row_grad kind C (y t) (pred_row x t) c)) //.
rewrite /grads /ograd [LHS]/pd; apply: is_derive_unique; rewrite /datum_loss.
set p := g_pos ge k s i; set z0 := nth 0 (nl_out (mods k) x).
apply: (@is_derive_sum_ord T (fun t u => row_loss y t (fun c => nth 0 (nl_tail (mods k) x (upd z0 p u)) (term_pos T C kind t c)))
  (fun t => \sum_(c < C) jac k x t c p * row_grad kind C (y t) (pred_row x t) c)) => t ht.
apply: (derive_val (l := \sum_(c < C) row_grad kind C (y t) (pred_row x t) c * jac k x t c p)).
  by apply: eq_bigr => c _; rewrite mulrC.
pose u (v : R) : point := fun c => if (c < C)%N then nth 0 (nl_tail (mods k) x (upd z0 p v)) (term_pos T C kind t c) else pred_row x t c.
apply: (derive_ext (f := fun v => torch_row kind C (mkseq (u v) C) (y t))).
  move=> v; rewrite /row_loss; congr torch_row; apply/eq_in_map => c; rewrite mem_iota add0n => /andP[_ hc].
  by rewrite /u hc.
apply: (@torch_row_curve kind C (y t) (pred_row x t) (hy t ht) u (fun c => jac k x t c p) (z0 p)).
- by apply: functional_extensionality => c; rewrite /u upd_id hnet /pred_row; case: ifP.
- move=> c hc; apply: derive_ext (Derive_correct _ _ (hx t c p ht hc)) => v; by rewrite /u hc.
by move=> v c hc; rewrite /u ltnNge hc.
Qed.

Lemma crossDl S (I : Type) (r : seq I) (a : I -> nat -> R) (w : I -> R) b :
  cross S (fun s => \sum_(x <- r) w x * a x s) b = \sum_(x <- r) w x * cross S (a x) b.
Proof.
rewrite /cross; case: ap.
  transitivity (\sum_(s < S) \sum_(x <- r) w x * (a x s * b s)).
    by apply: eq_bigr => s _; rewrite mulr_suml; apply: eq_bigr => x _; rewrite mulrA.
  by rewrite exchange_big; apply: eq_bigr => x _; rewrite mulr_sumr.
rewrite exchange_big mulr_suml; apply: eq_bigr => x _.
by rewrite -mulr_sumr mulrA.
Qed.
Lemma crossC S a b : cross S a b = cross S b a.
Proof. by rewrite /cross; case: ap; [apply: eq_bigr => s _|]; rewrite mulrC. Qed.
Lemma grad_term_cross S g i j : grad_term ap S g i j = cross S (fun s => g s i) (fun s => g s j).
Proof. by []. Qed.
Lemma cross_ext S a a' b b' : (forall s, a s = a' s) -> (forall s, b s = b' s) -> cross S a b = cross S a' b'.
Proof.
move=> e1 e2; rewrite /cross; case: ap; first by apply: eq_bigr => s _; rewrite e1 e2.
by congr (_ * _); apply: eq_bigr.
Qed.

(* the outer products of a linear functional's gradients, as a double sum *)
Lemma grad_term_linear k x (W : nat -> nat -> R) i j : jac_exists k x ->
  grad_term ap (g_S2 ge k) (grads k x (fun t f => \sum_(c < C) f c * W t c)) i j =
  \sum_(t < T) \sum_(c < C) \sum_(t' < T) \sum_(c' < C) W t c * W t' c' *
    cross (g_S2 ge k) (fun s => jac k x t c (g_pos ge k s i)) (fun s => jac k x t' c' (g_pos ge k s j)).
Proof.
move=> hx; rewrite grad_term_cross.
have lin b (p : nat -> nat) : cross (g_S2 ge k) (fun s => \sum_(t < T) \sum_(c < C) jac k x t c (p s) * W t c) b =
   \sum_(t < T) \sum_(c < C) W t c * cross (g_S2 ge k) (fun s => jac k x t c (p s)) b.
  rewrite (@cross_ext _ _ (fun s => \sum_(t < T) 1 * (\sum_(c < C) W t c * jac k x t c (p s))) b b) //; last first.
    by move=> s; apply: eq_bigr => t _; rewrite mul1r; apply: eq_bigr => c _; rewrite mulrC.
  by rewrite crossDl; apply: eq_bigr => t _; rewrite mul1r crossDl.
rewrite (cross_ext _ (fun s => grads_linear W s i hx) (fun s => grads_linear W s j hx)) (lin _ (fun s => g_pos ge k s i)).
apply: eq_bigr => t _; apply: eq_bigr => c _.
rewrite crossC (lin _ (fun s => g_pos ge k s j)) mulr_sumr; apply: eq_bigr => t' _.
by rewrite mulr_sumr; apply: eq_bigr => c' _; rewrite mulrA crossC.
Qed.

Theorem C32_type2_ggn loader g : loader <> [::] -> nonempty loader -> (kind = LCE -> C <> 1%N) ->
  type2_targets (flatten loader) ->
  (forall k ps, dget k mp = Some ps -> Forall_in (fun d : X * Y => jac_exists k d.1 /\ unmixed k d.1) (flatten loader)) ->
  computes Type2 loader g (fun k i j => M%:R^-1 * type2_weight *
    \sum_(d <- flatten loader) \sum_(t < T) \sum_(c < C) \sum_(c' < C) row_hessian d t c c' *
      cross (g_S2 ge k) (fun s => jac k d.1 t c (g_pos ge k s i)) (fun s => jac k d.1 t c' (g_pos ge k s j))).
Proof.
move=> hl hne hC ht hJ; have [Rt [hR [st [h1 h2]]]] := C32_type2 g hl hne hC ht.
exists st; split=> // k; have := h2 k; case ek : (dget k mp) => [ps|//] [h3 [t [a1 a2 a3 a4]]]; split=> //.
exists t; split=> // i j hi hj; rewrite a4 //; congr (_ * _).
have {hJ} := hJ _ _ ek; move: ht; rewrite /type2_targets; elim: (flatten loader) => [|d data IH] /=; first by rewrite !big_nil.
case=> hd hdata [[hx hu] hJ]; rewrite !big_cons IH //; congr (_ + _).
transitivity (\sum_(l < C) \sum_(t < T) \sum_(c < C) \sum_(t' < T) \sum_(c' < C) Rt d.1 t c l * Rt d.1 t' c' l *
    cross (g_S2 ge k) (fun s => jac k d.1 t c (g_pos ge k s i)) (fun s => jac k d.1 t' c' (g_pos ge k s j))).
  by apply: eq_bigr => l _; exact: (grad_term_linear (fun t c => Rt d.1 t c l)).
rewrite exchange_big; apply: eq_bigr => t1 _; rewrite exchange_big; apply: eq_bigr => c _ /=.
transitivity (\sum_(l < C) \sum_(c' < C) Rt d.1 t1 c l * Rt d.1 t1 c' l *
    cross (g_S2 ge k) (fun s => jac k d.1 t1 c (g_pos ge k s i)) (fun s => jac k d.1 t1 c' (g_pos ge k s j))).
  apply: eq_bigr => l _; rewrite (bigD1 t1) //= [X in _ + X]big1 ?addr0 // => t2 /eqP ne.
  by rewrite big1 // => c' _; rewrite hu ?mulr0 // => e; apply: ne; apply: val_inj.
rewrite exchange_big; apply: eq_bigr => c' _; rewrite -mulr_suml; congr (_ * _).
by have [hy _] := hd t1 (ltn_ord t1); rewrite /row_hessian -(hR d.1 t1 (tgt d.2 t1)).
Qed.

(* ---- order and batching do not matter ---- *)
Lemma perm_sum (A : Type) (s1 s2 : seq A) (f : A -> R) : Permutation s1 s2 -> \sum_(a <- s1) f a = \sum_(a <- s2) f a.
Proof.
elim=> {s1 s2} [|a s1 s2 _ IH|a b s|s1 s2 s3 _ -> _ ->] //; first by rewrite !big_cons IH.
by rewrite !big_cons addrCA.
Qed.
Lemma factor_eq D1 D2 k d v1 v2 : (forall i j, v1 i j = v2 i j) -> is_factor D1 k d v1 -> is_factor D2 k d v2 -> dget k D1 = dget k D2.
Proof.
move=> e [t1 [-> s1 w1 h1]] [t2 [-> s2 w2 h2]]; congr Some.
case: t1 s1 w1 h1 => sh1 x1 /= ->; case: t2 s2 w2 h2 => sh2 x2 /= -> w2 h2 w1 h1; congr Tensor.
have z1 : size x1 = (d * d)%N by move: w1; rewrite /wf /= muln1 => /eqP.
have z2 : size x2 = (d * d)%N by move: w2; rewrite /wf /= muln1 => /eqP.
apply: (@eq_from_nth _ 0) => [|q]; rewrite ?z1 ?z2 // => hq.
have d0 : (0 < d)%N by case: (d) hq.
have hi : (q %/ d < d)%N by rewrite ltn_divLR.
have hj : (q %% d < d)%N by rewrite ltn_mod.
by have := h1 _ _ hi hj; rewrite e -(h2 _ _ hi hj) /entry -divn_eq.
Qed.
Lemma computes_same ft l1 l2 g1 g2 B1 B2 : computes ft l1 g1 B1 -> computes ft l2 g2 B2 ->
  (forall k i j, B1 k i j = B2 k i j) -> Permutation (flatten l1) (flatten l2) ->
  exists st1 st2, [/\ compute ft l1 g1 = (st1, Ok tt), compute ft l2 g2 = (st2, Ok tt) &
    forall k, dget k st1.1 = dget k st2.1 /\ dget k st1.2 = dget k st2.2].
Proof.
move=> [st1 [c1 h1]] [st2 [c2 h2]] eB eP; exists st1, st2; split=> // k.
have := h1 k; have := h2 k; case: (dget k mp) => [ps|] [a1 a2] [b1 b2]; last by rewrite a1 a2 b1 b2.
split; last by apply: factor_eq b2 a2 => i j; apply: eB.
move: a1 b1; case: (dmem Weight ps) => a1 b1; last by rewrite a1 b1.
by apply: factor_eq b1 a1 => i j; rewrite /input_factor (perm_sum _ eP).
Qed.

Theorem C32_batching ft l1 l2 g1 g2 : ft <> MC -> l1 <> [::] -> l2 <> [::] -> nonempty l1 -> nonempty l2 ->
  Permutation (flatten l1) (flatten l2) ->
  (ft = Type2 -> (kind = LCE -> C <> 1%N) /\ type2_targets (flatten l1) /\ type2_targets (flatten l2)) ->
  (ft = ForwardOnly -> forall k ps, dget k mp = Some ps -> exists n p rest, ps = (n, p) :: rest /\ head 0%N (nth [::] shapes p) = g_d2 ge k) ->
  exists st1 st2, [/\ compute ft l1 g1 = (st1, Ok tt), compute ft l2 g2 = (st2, Ok tt) &
    forall k, dget k st1.1 = dget k st2.1 /\ dget k st1.2 = dget k st2.2].
Proof.
case: ft => // _ n1 n2 e1 e2 eP h2 hf.
- have [hC [t1 t2]] := h2 erefl.
  pose Rt := sqrt_entry.
  have [c1 c2] : computes Type2 l1 g1 (fun k i j => M%:R^-1 * type2_weight *
    \sum_(d <- flatten l1) \sum_(l < C) grad_term ap (g_S2 ge k) (grads k d.1 (fun t f => \sum_(c < C) f c * Rt d.1 t c l)) i j) /\
    computes Type2 l2 g2 (fun k i j => M%:R^-1 * type2_weight *
    \sum_(d <- flatten l2) \sum_(l < C) grad_term ap (g_S2 ge k) (grads k d.1 (fun t f => \sum_(c < C) f c * Rt d.1 t c l)) i j).
    by split; apply: type2_computes.
  by apply: (computes_same c1 c2 _ eP) => k i j; rewrite (perm_sum _ eP).
- apply: (computes_same (C32_empirical g1 n1 e1) (C32_empirical g2 n2 e2) _ eP) => k i j.
  by rewrite (perm_sum _ eP).
apply: (computes_same (C32_forward_only g1 n1 (hf erefl)) (C32_forward_only g2 n2 (hf erefl)) _ eP) => //.
Qed.
End C32.
Print Assumptions C32_type2_ggn.
Print Assumptions C32_empirical.
Print Assumptions C32_monte_carlo.
Print Assumptions C32_forward_only.
Print Assumptions C32_type2.
Print Assumptions C32_batching.
