(* C05, C16-C19, C22, C25: empirical and Monte-Carlo Fisher operators. *)
From Coq Require Import Reals Lra Permutation.
From Coquelicot Require Import Coquelicot.
From mathcomp Require Import all_ssreflect all_algebra.
From Verif Require Import PyPrelude Tensor Spec TorchBase Submatrix RInst Calculus Curvature HessGGN Risk Losses Fisher FisherMC FisherExp CurvOps Props_Curv.
Set Implicit Arguments.
Unset Strict Implicit.
Unset Printing Implicit Defensive.
Import GRing.Theory.
Local Open Scope ring_scope.

Section EF.
Variables (X Y : Type) (T C : nat) (kind : loss_kind) (net : X -> point -> seq R) (tgt : Y -> nat -> target).
Hypothesis net_size : forall x th, size (net x th) = (T * C)%N.
Hypothesis T_gt0 : (0 < T)%N.
Hypothesis C_gt0 : (0 < C)%N.
Local Notation batch := (seq (X * Y)).

(* c: 1 for 'sum', 1/(N T) for cross-entropy and 1/(N T C) otherwise, for N data with T
   loss terms each *)
Definition terms_over (red : reduction) (num_data : option nat) (loader : seq batch) : R :=
  match red with
  | RMean =>
      let N := match num_data with Some n => n | None => size (flatten loader) end in
      if kind is LCE then ((N * T)%N%:R)^-1 else ((N * T * C)%N%:R)^-1
  | _ => 1
  end.

Lemma terms_overE red num_data loader :
  terms_over red num_data loader = term_weight T C kind red (infer_num_data (@size (X * Y)) num_data loader).
Proof.
rewrite /terms_over /term_weight /infer_num_data; case: red => //; case: num_data => [n|]; by case: kind; rewrite /= ?size_flatten.
Qed.

(* gradient of loss term t of a datum w.r.t. the parameters.  The prediction row of
   term t: entries (c, t) of the output for cross-entropy, (t, c) otherwise. *)
Definition prediction_row (d : X * Y) (t : nat) (z : point) : seq R :=
  mkseq (fun c => nth 0 (net d.1 z) (if kind is LCE then c * T + t else t * C + c)%N) C.
Definition loss_term_grad (d : X * Y) (t : nat) (th : point) (i : nat) : R :=
  pd i (fun z => torch_row kind C (prediction_row d t z) (tgt d.2 t)) th.
Definition ef_matrix (c : R) (data : seq (X * Y)) th (i j : nat) : R :=
  c * \sum_(d <- data) \sum_(t < T) loss_term_grad d t th i * loss_term_grad d t th j.

Lemma term_gradE d t th i : term_grad T C kind net tgt (torch_row kind C) d t th i = loss_term_grad d t th i.
Proof. by rewrite /term_grad /loss_term_grad /term_row /prediction_row /term_pos; case: kind. Qed.

(* requirements: every prediction entry has partial derivatives, targets fit the loss *)
Definition datum_ok (D : nat) (th : point) (d : X * Y) : Prop :=
  (forall t, (t < T)%N -> target_ok kind C (tgt d.2 t)) /\
  (forall i a, (i < D)%N -> (a < T * C)%N -> ex_pd i (fun z => nth 0 (net d.1 z) a) th).

Theorem C16_empirical_fisher red num_data loader S th :
  S <> [::] -> red <> ROther -> loader <> [::] -> nonempty loader ->
  (if num_data is Some n then 0 < n else true)%N ->
  Forall_in (datum_ok (total S) th) (flatten loader) ->
  exists2 A, ef_operator T C (Some kind) net tgt red num_data loader S th = Ok A &
    acts_as A S (ef_matrix (terms_over red num_data loader) (flatten loader) th).
Proof.
move=> hS hr hl hne hn hd; rewrite /ef_operator /curvature_init.
have -> : raise_if (nilp loader) StopIteration = Ok tt by case: loader hl {hne hd}.
rewrite /=; eexists; first by [].
have hN : (0 < infer_num_data (@size (X * Y)) num_data loader)%N.
  case: num_data hn => //= _; case: loader hl hne {hd} => //= b l _ /andP[h _].
  by rewrite addn_gt0 h.
have hd' : Forall_in (ef_smooth T C kind net tgt (torch_row kind C) (total S) th) (flatten loader).
  by apply: Forall_in_impl hd => d [h1 h2]; apply: torch_ef_smooth.
have := @ef_multiplies X Y target T C kind net net_size tgt (torch_row kind C) T_gt0 C_gt0 red num_data loader S th hS hr hN hne hd'.
move=> h; have := acts_as_multiplies hS h => hA; apply: acts_as_ext hA _ => i j _ _.
rewrite /ef_entry /ef_matrix terms_overE; congr (_ * _); apply: eq_bigr => d _; apply: eq_bigr => t _.
by rewrite !term_gradE.
Qed.

Theorem C16_unsupported_loss red num_data loader S th :
  ef_operator T C None net tgt red num_data loader S th = Err NotImplementedError.
Proof. by []. Qed.

Lemma empirical_fisher_symm c data th i j : ef_matrix c data th i j = ef_matrix c data th j i.
Proof.
by congr (_ * _); apply: eq_bigr => d _; apply: eq_bigr => t _; rewrite mulrC.
Qed.

Theorem C05_empirical_fisher_self_adjoint red num_data loader S th :
  S <> [::] -> red <> ROther -> loader <> [::] -> nonempty loader ->
  (if num_data is Some n then 0 < n else true)%N ->
  Forall_in (datum_ok (total S) th) (flatten loader) ->
  exists2 A, ef_operator T C (Some kind) net tgt red num_data loader S th = Ok A & self_adjoint_op A S.
Proof.
move=> hS hr hl hne hn hd; have [A eA hA] := C16_empirical_fisher hS hr hl hne hn hd.
by exists A => //; apply: acts_as_self_adjoint hA _ => i j _ _; apply: empirical_fisher_symm.
Qed.

Theorem C19_empirical_fisher_batching red num_data (l1 l2 : seq batch) S th :
  S <> [::] -> red <> ROther -> l1 <> [::] -> l2 <> [::] -> nonempty l1 -> nonempty l2 ->
  (if num_data is Some n then 0 < n else true)%N ->
  Forall_in (datum_ok (total S) th) (flatten l1) ->
  Permutation (flatten l1) (flatten l2) ->
  exists A B, [/\ ef_operator T C (Some kind) net tgt red num_data l1 S th = Ok A,
    ef_operator T C (Some kind) net tgt red num_data l2 S th = Ok B & same_products S A B].
Proof.
move=> hS hr h1 h2 n1 n2 hn hd hp.
have [A eA hA] := C16_empirical_fisher hS hr h1 n1 hn hd.
have [B eB hB] := C16_empirical_fisher hS hr h2 n2 hn (Forall_in_perm hp hd).
exists A, B; split=> //; apply: acts_as_same hA _.
apply: acts_as_ext hB _ => i j _ _; rewrite /ef_matrix (sum_permutation _ hp); congr (_ * _).
by rewrite /terms_over (Permutation_length hp : size (flatten l1) = size (flatten l2)).
Qed.

Theorem C22_empirical_fisher_num_data red loader S th n A M :
  S <> [::] -> red <> ROther -> loader <> [::] -> nonempty loader -> (0 < n)%N ->
  Forall_in (datum_ok (total S) th) (flatten loader) ->
  ef_operator T C (Some kind) net tgt red None loader S th = Ok A -> acts_as A S M ->
  exists2 B, ef_operator T C (Some kind) net tgt red (Some n) loader S th = Ok B &
    acts_as B S (fun i j => (if red is RMean then (size (flatten loader))%:R / n%:R else 1) * M i j).
Proof.
move=> hS hr hl hne hn hd hA hM.
have N0 : (0 < size (flatten loader))%N.
  case: loader hl hne {hd hA} => //= b bs _ /andP[hb _]; by rewrite size_cat addn_gt0 hb.
have [A' hA' hM'] := @C16_empirical_fisher red None loader S th hS hr hl hne isT hd.
have [B hB hB'] := @C16_empirical_fisher red (Some n) loader S th hS hr hl hne hn hd.
exists B => //; move: hA'; rewrite hA => -[e]; rewrite -e in hM'.
apply: scaled_products hM hM' _; apply: acts_as_ext hB' _ => i j _ _.
rewrite /ef_matrix mulrA; congr (_ * _); rewrite !terms_overE /=.
by rewrite -size_flatten -(term_weight_nfac kind T_gt0 C_gt0 red n N0).
Qed.

End EF.

Print Assumptions C16_empirical_fisher.
Print Assumptions C16_unsupported_loss.
Print Assumptions C05_empirical_fisher_self_adjoint.
Print Assumptions C19_empirical_fisher_batching.
Print Assumptions C22_empirical_fisher_num_data.

Section MC.
Variables (G : Type).
(* torch's random draws; each returns the draw and the advanced generator *)
Variable normal_o : G -> nat -> (nat -> R) * G.
Variable multinomial_o : G -> nat -> nat -> (nat -> nat -> R) -> nat -> (nat -> nat -> nat) * G.
Variable bernoulli_o : G -> nat -> (nat -> R) -> (nat -> bool) * G.
Variables (dev : Type) (dev_eq : dev -> dev -> bool) (seed_gen : dev -> G).
Hypothesis dev_eqP : forall d d', dev_eq d d' -> d = d'.
Variables (X Y : Type) (T C : nat) (kind : loss_kind) (net : X -> point -> seq R) (tgt : Y -> nat -> target).
Hypothesis net_size : forall x th, size (net x th) = (T * C)%N.
Hypothesis T_gt0 : (0 < T)%N.
Hypothesis C_gt0 : (0 < C)%N.
Local Notation batch := (seq (X * Y)).
Variables (red : reduction) (num_data : option nat) (loader : seq batch) (S : seq (seq nat)) (th : point) (samples : nat).
Local Notation state := (mc_state G dev).
Local Notation run := (mc_run normal_o multinomial_o bernoulli_o T C kind net tgt red num_data loader S th samples dev_eq seed_gen).

(* A @ _ in state s *)
Definition mc_operator (s : state) : linop R :=
  LinOp S S (fun M => (mc_matmat normal_o multinomial_o bernoulli_o T C kind net tgt red num_data loader S th samples dev_eq seed_gen s M).1).

(* prediction entry c of loss term t of datum d *)
Definition pred_entry (d : X * Y) (t c : nat) (z : point) : R :=
  nth 0 (net d.1 z) (if kind is LCE then c * T + t else t * C + c)%N.
Definition pulled_back (d : X * Y) (t : nat) (w : nat -> R) (i : nat) : R :=
  \sum_(c < C) pd i (pred_entry d t c) th * w c.

(* the matrix c sum_n sum_t J^T (1/M sum_m g g^T) J for given would-be gradients
   (batch, sample, entry) *)
Definition mc_matrix (ws : seq (nat -> nat -> R)) (i j : nat) : R :=
  terms_over T C kind red num_data loader *
  \sum_(bw <- zip loader ws) \sum_(n < size bw.1) \sum_(t < T)
    match ohead (drop n bw.1) with   (* n-th datum of the batch *)
    | None => 0
    | Some d => samples%:R^-1 * \sum_(m < samples)
        pulled_back d t (fun c => bw.2 m ((n * T + t) * C + c)%N) i *
        pulled_back d t (fun c => bw.2 m ((n * T + t) * C + c)%N) j
    end.
Lemma mc_matrixE ws i j :
  term_weight T C kind red (infer_num_data (@size (X * Y)) num_data loader) *
    (\sum_(bw <- zip loader ws) draw_entry T C kind net th samples bw i j) = mc_matrix ws i j.
Proof.
rewrite /mc_matrix terms_overE; congr (_ * _); apply: eq_bigr => -[b w] _ /=.
rewrite /draw_entry /=.
case: b => [|d0 b]; first by rewrite !big_ord0.
set bb := d0 :: b.
rewrite (sum_rows (size bb) T (fun r => samples%:R^-1 * \sum_(m < samples)
    (term_vjp T C kind net (nth d0 bb (r %/ T)) (r %% T) th (fun c : nat => w m (r * C + c)%N) i *
     term_vjp T C kind net (nth d0 bb (r %/ T)) (r %% T) th (fun c : nat => w m (r * C + c)%N) j))).
apply: eq_bigr => n _; apply: eq_bigr => t _.
have -> : ohead (drop n bb) = Some (nth d0 bb n) by rewrite (drop_nth d0) // ltn_ord.
rewrite divnMDl // (divn_small (ltn_ord t)) addn0 modnMDl (modn_small (ltn_ord t)).
congr (_ * _); apply: eq_bigr => m _; rewrite /term_vjp /pulled_back /pred_entry /term_pos.
by case: kind.
Qed.

Definition binary_labels_ok : Prop :=
  kind = LBCE -> Forall_in (fun d : X * Y => forall t, (t < T)%N -> binary_target C (tgt d.2 t)) (flatten loader).

Lemma labels_okP : binary_labels_ok -> all (labels_ok T C kind tgt) loader.
Proof.
rewrite /binary_labels_ok /labels_ok; case: kind => [_|_|/(_ erefl)]; try by elim: loader.
elim: loader => //= b l IH /Forall_in_cat [hb /IH ->]; rewrite andbT.
rewrite /ys2d; elim: b hb => //= d b IHb [hd hb]; rewrite all_cat IHb // andbT all_map.
by apply/allP => t; rewrite mem_iota add0n => /andP[_ ht]; apply: hd.
Qed.

Local Notation draws s := (mc_draws normal_o multinomial_o bernoulli_o T C kind net tgt th samples
  (seed_gen (st_dev (s : state))) loader).

(* C17: in every state, the product is with the Fisher sampled by the draws made
   from the freshly seeded generator *)
Theorem C17_monte_carlo_fisher (s : state) :
  S <> [::] -> red <> ROther -> loader <> [::] -> nonempty loader ->
  (if num_data is Some n then 0 < n else true)%N -> (0 < samples)%N -> binary_labels_ok ->
  acts_as (mc_operator s) S (mc_matrix (draws s)).
Proof.
move=> hS hr hl hne hn hs /labels_okP hlab.
have hN : (0 < infer_num_data (@size (X * Y)) num_data loader)%N.
  case: num_data hn => //= _; case: loader hl hne => //= b l _ /andP[h _].
  by rewrite addn_gt0 h.
apply: acts_as_ext (fun i j _ _ => mc_matrixE (draws s) i j).
apply: acts_as_multiplies => // K M hK hM; rewrite mc_matmat_fresh //.
exact: (@mc_loop_multiplies G normal_o multinomial_o bernoulli_o X Y T C kind net net_size tgt red num_data loader S th
  samples T_gt0 C_gt0 _ loader hS hr hN hne hlab hs K M hK hM).
Qed.

(* for other labels nothing is returned *)
Theorem C17_non_binary_labels (s : state) b l V : loader = b :: l -> kind = LBCE -> red <> ROther ->
  (if num_data is Some n then 0 < n else 0 < size (flatten loader))%N ->
  ~~ all (fun d => all (fun t => binary_target C (tgt d.2 t)) (iota 0 T)) b ->
  (mc_matmat normal_o multinomial_o bernoulli_o T C kind net tgt red num_data loader S th samples dev_eq seed_gen s V).1
  = Err NotImplementedError.
Proof.
move=> el ek hr hn hb; rewrite mc_matmat_fresh // {2}el /= normalization_ok //; last first.
  by move: hn; rewrite /infer_num_data; case: num_data => //; rewrite size_flatten.
rewrite /batch_draw ek /=.
have -> : all (binary_target C) (ys2d T tgt b) = all (fun d => all (fun t => binary_target C (tgt d.2 t)) (iota 0 T)) b.
  by rewrite /ys2d; elim: b {hb el} => //= d b IH; rewrite all_cat IH all_map.
by rewrite (negbTE hb).
Qed.

(* mc_samples = 0 is accepted by the constructor, but no product with a batch returns *)
Theorem C17_zero_samples_refuted (s : state) b l V : loader = b :: l -> kind = LMSE -> samples = 0%N -> red <> ROther ->
  (if num_data is Some n then 0 < n else 0 < size (flatten loader))%N -> (0 < size b)%N ->
  (mc_matmat normal_o multinomial_o bernoulli_o T C kind net tgt red num_data loader S th samples dev_eq seed_gen s V).1
  = Err ZeroDivisionError.
Proof.
move=> el ek es hr hn hb; rewrite mc_matmat_fresh // {2}el /= normalization_ok //; last first.
  by move: hn; rewrite /infer_num_data; case: num_data => //; rewrite size_flatten.
rewrite /batch_draw ek /=; case: (normal_o _ _) => z g' /=.
rewrite /mc_batch /= es.
have ne : (size b * T)%N%:R * C%:R != 0 :> R by rewrite -natrM natr_neq0 // !muln_gt0 hb T_gt0 C_gt0.
by case: red hr => //= _; rewrite /py_div ?(negbTE ne) ?oner_eq0 /= eqxx.
Qed.

(* the would-be gradients are loss gradients at sampled labels *)
Theorem C17_would_be_gradients (o : point) rows ys g w g' m r :
  (kind = LCE -> forall r m, ((multinomial_o g rows C (fun r c => softmax C (row_pt C r o) c) samples).1 r m < C)%N) ->
  sample_grad_output normal_o multinomial_o bernoulli_o kind C rows o samples ys g = (Ok w, g') ->
  exists2 y, target_ok kind C y &
    forall c, (c < C)%N -> w m (r * C + c)%N =
      pd c (fun f => torch_row kind C (mkseq f C) y) (fun c => o (r * C + c)%N).
Proof.
move=> hm hw; exists (drawn_label normal_o multinomial_o bernoulli_o kind C rows o samples g m r).
  by case: kind hm => //= hm; apply: hm.
move=> c hc; apply: (draw_is_gradient hw hc).
by case: kind hm => //= hm; apply: hm.
Qed.

Lemma monte_carlo_fisher_symm ws i j : mc_matrix ws i j = mc_matrix ws j i.
Proof.
congr (_ * _); apply: eq_bigr => bw _; apply: eq_bigr => n _; apply: eq_bigr => t _.
case: ohead => // d; congr (_ * _); apply: eq_bigr => m _; exact: mulrC.
Qed.

Theorem C05_monte_carlo_fisher_self_adjoint (s : state) :
  S <> [::] -> red <> ROther -> loader <> [::] -> nonempty loader ->
  (if num_data is Some n then 0 < n else true)%N -> (0 < samples)%N -> binary_labels_ok ->
  self_adjoint_op (mc_operator s) S.
Proof.
move=> hS hr hl hne hn hs hb; have hA := C17_monte_carlo_fisher s hS hr hl hne hn hs hb.
by apply: acts_as_self_adjoint hA _ => i j _ _; apply: monte_carlo_fisher_symm.
Qed.

(* C18 *)
Theorem C18_second_moment (Omega : Type) (E : (Omega -> R) -> R) rows o ys (g : Omega -> G) m r c c' y :
  expectation E -> (kind = LBCE -> all (binary_target C) ys) ->
  draw_law normal_o multinomial_o bernoulli_o E kind C rows o samples g -> target_ok kind C y ->
  (m < samples)%N -> (r < rows)%N -> (c < C)%N -> (c' < C)%N ->
  let w om := draw_val normal_o multinomial_o bernoulli_o kind C rows o samples ys (g om) in
  E (fun om => w om m (r * C + c)%N * w om m (r * C + c')%N) =
  pd c' (pd c (fun f => torch_row kind C (mkseq f C) y)) (fun c => o (r * C + c)%N).
Proof.
move=> hE hb hl hy hm hr hc hc' w; rewrite torch_row_pd2 //.
exact: second_moment.
Qed.

(* the loss Hessians in closed form *)
Theorem C18_closed_form y (f : point) c c' : target_ok kind C y -> (c < C)%N -> (c' < C)%N ->
  pd c' (pd c (fun f => torch_row kind C (mkseq f C) y)) f =
  match kind with
  | LMSE => if c == c' then 2 else 0
  | LCE => (if c == c' then softmax C f c else 0) - softmax C f c * softmax C f c'
  | LBCE => if c == c' then sigmoid (f c) * (1 - sigmoid (f c)) else 0
  end.
Proof.
move=> hy hc hc'; rewrite torch_row_pd2 // /row_hess; case: kind => //.
by case: eqP; rewrite ?mul1r ?mul0r.
Qed.

(* the expected product is the product with the GGN *)
Theorem C18_expected_product (Omega : Type) (E : (Omega -> R) -> R) (seeds : Omega -> dev -> G) d0 K M i k :
  expectation E -> (0 < samples)%N ->
  S <> [::] -> red <> ROther -> loader <> [::] -> nonempty loader ->
  (if num_data is Some n then 0 < n else true)%N -> binary_labels_ok ->
  Forall_in (fun d : X * Y => forall t, (t < T)%N -> target_ok kind C (tgt d.2 t)) (flatten loader) ->
  mc_law normal_o multinomial_o bernoulli_o E T C kind net tgt th samples (fun om => seeds om d0) loader ->
  valid_mat S K M -> (i < total S)%N -> (k < K)%N ->
  E (fun om => result_entry K (mc_matmat normal_o multinomial_o bernoulli_o T C kind net tgt red num_data loader S th
       samples dev_eq (seeds om) (McState d0 None) M).1 i k) =
  \sum_(j < total S) ggn_matrix (T * C) net (datum_loss T C kind tgt red) (mean_over red num_data loader) (flatten loader) th i j
     * entry K (flat M) j k.
Proof.
move=> hE hs hS hr hl hne hn /labels_okP hlab htg hlaw hM hi hk.
have hN : (0 < infer_num_data (@size (X * Y)) num_data loader)%N.
  case: num_data hn => //= _; case: loader hl hne => //= b l _ /andP[h _].
  by rewrite addn_gt0 h.
rewrite mean_overE; under eq_bigr => j _ do rewrite -[ggn_matrix _ _ _ _ _ _ _ _]/(ggn_entry _ _ _ _ _ _ _ _).
rewrite -(@expected_product G normal_o multinomial_o bernoulli_o Omega E X Y T C kind net net_size tgt red num_data loader S th
  samples T_gt0 C_gt0 (fun om => seeds om d0) K M i k hE hs hS hr hN hlab hne hlaw htg hM hi hk).
by apply: E_ext => om; rewrite mc_matmat_fresh.
Qed.

(* C25 *)
Theorem C25_history_independent (s : state) (h : seq (mc_event dev)) V :
  let s' := run s h in
  op_matmul (mc_operator s') V = op_matmul (mc_operator (McState (st_dev s') None)) V.
Proof.
move=> s'; have e : forall M, matmat (mc_operator s') M = matmat (mc_operator (McState (st_dev s') None)) M.
  by move=> M; rewrite /= !mc_matmat_fresh.
have hc : check_input_and_preprocess (mc_operator s') V = check_input_and_preprocess (mc_operator (McState (st_dev s') None)) V by [].
rewrite /op_matmul hc; case: (check_input_and_preprocess _ V) => [[[[Xl a] b] c]|] //=.
by rewrite !mc_matmat_fresh.
Qed.

Theorem C25_same_device (s : state) (h : seq (mc_event dev)) :
  all (fun e => if e is EvToDevice _ then false else true) h -> st_dev (run s h) = st_dev s.
Proof.
elim: h s => //= e h IH s /andP[he /IH ->]; rewrite mc_step_dev.
by case: e he.
Qed.

(* moving to another device and back *)
Theorem C25_device_after_moves (s : state) (h : seq (mc_event dev)) d :
  st_dev (run s (rcons h (EvToDevice d))) = d.
Proof. by rewrite /mc_run -cats1 foldl_cat. Qed.

Theorem C25_columns (s : state) K k (V v : pyval R) l l' W w :
  S <> [::] -> red <> ROther -> loader <> [::] -> nonempty loader ->
  (if num_data is Some n then 0 < n else true)%N -> (0 < samples)%N -> binary_labels_ok ->
  has_format S l (Some K) V -> has_format S l' None v -> (k < K)%N ->
  (forall j, (j < total S)%N -> nth 0 (content v) j = nth 0 (content V) (j * K + k)) ->
  op_matmul (mc_operator s) V = Ok W -> op_matmul (mc_operator s) v = Ok w ->
  forall i, (i < total S)%N -> nth 0 (content w) i = nth 0 (content W) (i * K + k).
Proof.
move=> hS hr hl hne hn hs hlab hV hv hk hcol eW ew i hi.
have [_ _ hA] := C17_monte_carlo_fisher s hS hr hl hne hn hs hlab.
have [W' [eW' _ pW]] := hA _ _ _ hV; have [w' [ew' _ pw]] := hA _ _ _ hv.
move: eW' ew'; rewrite eW ew => -[eWW] [eww]; rewrite -eWW in pW; rewrite -eww in pw.
have := pw i 0%N hi isT; rewrite /= /entry muln1 addn0 => ->.
have := pW i k hi hk; rewrite /= /entry => ->.
by apply: eq_bigr => j _; rewrite muln1 addn0 hcol.
Qed.
End MC.

Print Assumptions C17_monte_carlo_fisher.
Print Assumptions C17_non_binary_labels.
Print Assumptions C17_zero_samples_refuted.
Print Assumptions C17_would_be_gradients.
Print Assumptions C05_monte_carlo_fisher_self_adjoint.
Print Assumptions C18_second_moment.
Print Assumptions C18_closed_form.
Print Assumptions C18_expected_product.
Print Assumptions C25_history_independent.
Print Assumptions C25_same_device.
Print Assumptions C25_device_after_moves.
Print Assumptions C25_columns.

(* ---- concrete case: cross-entropy with 2 classes, 1 loss term per datum, net(x; th) =
   (x th0, th1), two batches; the generator is a stream of fair bits ---- *)
Definition exc_net (x : R) (th : point) : seq R := [:: x * th 0%N; th 1%N].
Definition exc_tgt (y : nat) (_ : nat) : target := TCls y.
Definition exc_loader : seq (seq (R * nat)) := [:: [:: (1, 0%N)]; [:: (1 + 1, 1%N)]].
Definition exc_th : point := fun _ => 0.
Definition exc_S : seq (seq nat) := [:: [:: 2]]%N.
Definition exc_normal (g : seq bool) (n : nat) : (nat -> R) * seq bool := (fun _ => 0, g).
Definition exc_multinomial (g : seq bool) (rows C : nat) (p : nat -> nat -> R) (n : nat) : (nat -> nat -> nat) * seq bool :=
  (fun _ _ => head false g : nat, behead g).
Definition exc_bernoulli (g : seq bool) (n : nat) (p : nat -> R) : (nat -> bool) * seq bool := (fun _ => false, g).
Definition exc_E (f : bool * bool -> R) : R :=
  (2%:R^-1 * 2%:R^-1) * (f (true, true) + f (true, false) + f (false, true) + f (false, false)).

Example C16_ex th : [/\ (forall x z, size (exc_net x z) = (1 * 2)%N), nonempty exc_loader &
  Forall_in (datum_ok 1 2 LCE exc_net exc_tgt (total exc_S) th) (flatten exc_loader)].
Proof.
split=> //; rewrite /=; split; [|split=> //]; (split; first by move=> t _);
  by move=> [|[|i]] [|[|a]] // _ _; rewrite /ex_pd /exc_net /upd; toRb; auto_derive.
Qed.

Lemma half2 : 2%:R^-1 + 2%:R^-1 = 1 :> R.
Proof.
have h : (2%:R : R) != 0 by rewrite natr_neq0.
by rewrite -[RHS](divff h) [in RHS](_ : 2%:R = 1 + 1) // mulrDl mul1r.
Qed.

Example C18_ex : expectation exc_E /\
  mc_law exc_normal exc_multinomial exc_bernoulli exc_E 1 2 LCE exc_net exc_tgt exc_th 1
    (fun om => [:: om.1; om.2]) exc_loader.
Proof.
have hq : (2%:R^-1 * 2%:R^-1) * (1 + 1 + 1 + 1) = 1 :> R.
  have -> : (1 + 1 + 1 + 1 : R) = (1 + 1) * (1 + 1) by toR; ring.
  by rewrite mulrACA (_ : 1 + 1 = 2%:R :> R) // mulVf ?mul1r // natr_neq0.
have hh : (2%:R^-1 * 2%:R^-1) * (1 + 1) = 2%:R^-1 :> R.
  by rewrite -mulrA (_ : 1 + 1 = 2%:R :> R) // mulVf ?mulr1 // natr_neq0.
have sm : forall (o : point) c, (c < 2)%N -> (forall c, (c < 2)%N -> o c = 0) -> softmax 2 o c = 2%:R^-1.
  move=> o c hc ho; rewrite /softmax /sumexp !big_ord_recl big_ord0 !ho //= exp_0 addr0.
  rewrite -RinvE; last by apply/eqP; rewrite natr_neq0.
  by rewrite natrE /=; toR; field.
split.
  split; first by move=> f h; rewrite /exc_E -mulrDr; congr (_ * _); toR; ring.
    by move=> k f; rewrite /exc_E mulrCA; congr (_ * _); toR; ring.
  by rewrite /exc_E hq.
split; [|split=> //] => idx smp m r c _; case: r => // _ hc; rewrite sm //.
- by case: c hc => [|[|]] // _; rewrite /exc_E -[RHS]hh; congr (_ * _); rewrite /= ?mulr0n ?mulr1n ?add0r ?addr0.
- by move=> [|[|]] // _; rewrite /row_pt /out2d /raw_idx /term_pos /exc_th /= ?mulr0.
- by case: c hc => [|[|]] // _; rewrite /exc_E -[RHS]hh; congr (_ * _); rewrite /= ?mulr0n ?mulr1n ?add0r ?addr0.
by move=> [|[|]] // _; rewrite /row_pt /out2d /raw_idx /term_pos /exc_th /= ?mulr0.
Qed.

(* label draws and moves change the generator's state and device *)
Example C25_ex : let run := mc_run exc_normal exc_multinomial exc_bernoulli 1 2 LCE exc_net exc_tgt RMean None exc_loader
    exc_S exc_th 1 (fun a b : bool => a == b) (fun d => [:: d; ~~ d]) in
  let s := McState false (Some (false, [:: true; false])) in
  let s' := run s [:: EvSample bool 1 2 exc_th 1 [:: TCls 0]; EvToDevice true] in
  st_gen s' = Some (false, [:: false]) /\ st_dev s' = true.
Proof. by []. Qed.
