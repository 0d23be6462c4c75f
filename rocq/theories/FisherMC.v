(* FisherMCLinearOperator: the random number generator and the sampled
   gradients.  /repo/curvlinops/fisher.py 112-332. *)
From Coq Require Import Reals Lra FunctionalExtensionality Permutation.
From Coquelicot Require Import Coquelicot.
From mathcomp Require Import all_ssreflect all_algebra.
From Verif Require Import PyPrelude Tensor Spec TorchBase Submatrix RInst Calculus Curvature HessGGN Risk Losses Fisher.
Set Implicit Arguments.
Unset Strict Implicit.
Unset Printing Implicit Defensive.
Import GRing.Theory.
Local Open Scope ring_scope.

Local Notation tens := (tensor R).

(* target of one loss term: a vector (MSE, BCE) or a class (cross-entropy) *)
Inductive target := TVec of (nat -> R) | TCls of nat.

(* the three torch losses on one prediction row, without reduction; a target of
   the wrong kind is not modelled (torch raises) *)
Definition torch_row (k : loss_kind) (C : nat) (f : seq R) (y : target) : R :=
  match k, y with
  | LMSE, TVec y => mse_row C (nth 0 f) y
  | LCE, TCls y => ce_row C (nth 0 f) y
  | LBCE, TVec y => bce_row C (nth 0 f) y
  | _, _ => 0
  end.

(* targets that the loss accepts *)
Definition target_ok (k : loss_kind) (C : nat) (y : target) : Prop :=
  match k, y with LCE, TCls y => (y < C)%N | LCE, _ => False | _, TVec _ => True | _, _ => False end.

(* set(y.unique().flatten().tolist()).issubset({0, 1}) on one row *)
Definition binary_target (C : nat) (y : target) : bool :=
  if y is TVec y then all (fun c => (y c == 0) || (y c == 1)) (iota 0 C) else false.

Section Sampling.
Variables (G : Type).
(* torch.normal(zeros, 1) with n entries (times std), torch.multinomial on a matrix
   of probabilities (row, class) -> R, giving labels (row, sample) -> class, and
   torch.bernoulli on n probabilities; every draw advances the generator *)
Variable normal_o : G -> nat -> (nat -> R) * G.
Variable multinomial_o : G -> nat -> nat -> (nat -> nat -> R) -> nat -> (nat -> nat -> nat) * G.
Variable bernoulli_o : G -> nat -> (nat -> R) -> (nat -> bool) * G.

(* fisher.py 267-332 on a 2d output with `rows` rows and C columns, o (r * C + c).
   The result maps (sample, entry of the output) to a number. *)
Definition sample_grad_output (k : loss_kind) (C rows : nat) (o : point) (samples : nat) (ys : seq target) (g : G)
    : res (nat -> nat -> R) * G :=
  match k with
  | LMSE =>
      let '(z, g') := normal_o g (samples * (rows * C)) in
      (Ok (fun m i => 2 * (sqrt (2%:R^-1) * z (m * (rows * C) + i)%N)), g')
  | LCE =>
      let prob r c := softmax C (row_pt C r o) c in
      let '(smp, g') := multinomial_o g rows C prob samples in
      (Ok (fun m i => prob (i %/ C)%N (i %% C)%N - (i %% C == smp (i %/ C) m)%N%:R), g')
  | LBCE =>
      if ~~ all (binary_target C) ys then (Err NotImplementedError, g) else
      let prob i := sigmoid (o i) in
      let '(smp, g') := bernoulli_o g (samples * (rows * C)) (fun i => prob (i %% (rows * C))%N) in
      (Ok (fun m i => prob i - (smp (m * (rows * C) + i)%N)%:R), g')
  end.

Section Op.
Variables (X Y : Type) (T C : nat) (kind : loss_kind).
Variable net : X -> point -> seq R.
Hypothesis net_size : forall x th, size (net x th) = (T * C)%N.
Variable tgt : Y -> nat -> target.
Local Notation batch := (seq (X * Y)).
Variables (red : reduction) (num_data : option nat) (loader : seq batch) (S : seq (seq nat)) (th : point)
  (samples : nat).
Local Notation N := (infer_num_data (@size (X * Y)) num_data loader).

(* sampling for one batch: fisher.py 230 *)
Definition batch_draw (b : batch) (g : G) : res (nat -> nat -> R) * G :=
  sample_grad_output kind C (size b * T) (out2d T C kind net b th) samples (ys2d T tgt b) g.

(* the loop of _torch_base.py 540-545 with _matmat_batch of fisher.py 202-265; the
   generator is returned even if an exception ends the loop *)
Fixpoint mc_loop (M AM : seq tens) (g : G) (l : seq batch) : res (seq tens) * G :=
  match l with
  | [::] => (Ok AM, g)
  | b :: l' =>
      match normalization_factor red (size b) N with
      | Err e => (Err e, g)
      | Ok nf =>
          match batch_draw b g with
          | (Err e, g') => (Err e, g')
          | (Ok w, g') =>
              match (let! BM := mc_batch T C kind net red S th samples b w M in adds_alpha nf AM BM) with
              | Err e => (Err e, g')
              | Ok AM' => mc_loop M AM' g' l'
              end
          end
      end
  end.

(* ---- object state and operations ---- *)
Variables (dev : Type) (dev_eq : dev -> dev -> bool).
Variable seed_gen : dev -> G.              (* Generator(device).manual_seed(self._seed) *)

(* _device and _generator (fisher.py 172 and _torch_base.py 483) *)
Record mc_state := McState { st_dev : dev; st_gen : option (dev * G) }.

(* fisher.py 185-200 *)
Definition mc_matmat (s : mc_state) (M : seq tens) : res (seq tens) * mc_state :=
  let gdev := match st_gen s with
              | Some (d, _) => if dev_eq d (st_dev s) then d else st_dev s
              | None => st_dev s
              end in
  let '(r, g) := mc_loop M [seq zeros_like m | m <- M] (seed_gen gdev) loader in
  (r, McState (st_dev s) (Some (gdev, g))).

(* operations that change the object: products (also those of the determinism
   check), calls of the public sample_grad_output, and to_device
   (_torch_base.py 678-691) *)
Inductive mc_event :=
| EvMatmat of seq tens
| EvSample of nat & nat & point & nat & seq target
| EvToDevice of dev.

(* fisher.py 185-200 and 267-332, _torch_base.py 678-691 *)
Definition mc_step (s : mc_state) (e : mc_event) : mc_state :=
  match e with
  | EvMatmat M => (mc_matmat s M).2
  | EvSample rows c o n ys =>
      (* with _generator = None torch uses its global generator *)
      match st_gen s with
      | None => s
      | Some (d, g) => McState (st_dev s) (Some (d, (sample_grad_output kind c rows o n ys g).2))
      end
  | EvToDevice d => McState d (st_gen s)
  end.
Definition mc_run (s : mc_state) (h : seq mc_event) : mc_state := foldl mc_step s h.

(* ---- facts ---- *)
(* the sampled gradients of one product, batch by batch *)
Fixpoint mc_draws (g : G) (l : seq batch) : seq (nat -> nat -> R) :=
  match l with
  | [::] => [::]
  | b :: l' => match batch_draw b g with (Ok w, g') => w :: mc_draws g' l' | (Err _, _) => [::] end
  end.

(* the label check of fisher.py 319-324 passes (specification) *)
Definition labels_ok (b : batch) : bool :=
  if kind is LBCE then all (binary_target C) (ys2d T tgt b) else true.

Lemma batch_draw_ok b g : labels_ok b -> exists w g', batch_draw b g = (Ok w, g').
Proof.
rewrite /batch_draw /labels_ok /sample_grad_output; case: kind => [_|_|->] /=.
- by case: normal_o => z g'; do 2 eexists.
- by case: multinomial_o => z g'; do 2 eexists.
by case: bernoulli_o => z g'; do 2 eexists.
Qed.

(* entry (i, j) of the MC-Fisher of a batch for given would-be gradients
   (specification: docstring of fisher.py 18-110) *)
Definition draw_entry (bw : batch * (nat -> nat -> R)) (i j : nat) : R :=
  \sum_(r < size bw.1 * T) samples%:R^-1 * \sum_(m < samples)
    match bw.1 with
    | [::] => 0
    | d0 :: _ =>
      term_vjp T C kind net (nth d0 bw.1 (r %/ T)) (r %% T) th (fun c => bw.2 m (r * C + c)%N) i *
      term_vjp T C kind net (nth d0 bw.1 (r %/ T)) (r %% T) th (fun c => bw.2 m (r * C + c)%N) j
    end.

Hypothesis T_gt0 : (0 < T)%N.
Hypothesis C_gt0 : (0 < C)%N.

Lemma mc_loop_multiplies g l : S <> [::] -> red <> ROther -> (0 < N)%N -> nonempty l -> all labels_ok l -> (0 < samples)%N ->
  multiplies 0 (fun M => (mc_loop M [seq zeros_like m | m <- M] g l).1) S S
    (fun i j => term_weight T C kind red N * \sum_(bw <- zip l (mc_draws g l)) draw_entry bw i j).
Proof.
move=> hS hr hN hl hlab hs K M _ hM.
have := zeros_valid hM; have := @zeros_entry _ K M.
move: [seq zeros_like m | m <- M] => Z hZ0 hZ.
suff main : forall Z g, valid_mat S K Z -> exists Q, [/\ (mc_loop M Z g l).1 = Ok Q, valid_mat S K Q &
    forall i k, (i < total S)%N -> (k < K)%N -> entry K (flat Q) i k = entry K (flat Z) i k +
      \sum_(j < total S) (term_weight T C kind red N * \sum_(bw <- zip l (mc_draws g l)) draw_entry bw i j) *
        entry K (flat M) j k].
  have [Q [e1 e2 e3]] := main Z g hZ; exists Q; split=> // i k hi hk.
  by rewrite e3 // hZ0 add0r.
elim: l hl hlab {Z hZ0 hZ g} => [_ _|b l IH /= /andP[hb hl] /andP[hlb hlab]] Z g hZ.
  by exists Z; split=> // i k _ _; rewrite big1 ?addr0 // => j _; rewrite big_nil mulr0 mul0r.
have [w [g' ew]] := batch_draw_ok g hlb.
rewrite /= normalization_ok // ew /=.
have [d0 hd0] : exists d0, draw_entry (b, w) = (fun i j => \sum_(r < size b * T) samples%:R^-1 * \sum_(m < samples)
      term_vjp T C kind net (nth d0 b (r %/ T)) (r %% T) th (fun c => w m (r * C + c)%N) i *
      term_vjp T C kind net (nth d0 b (r %/ T)) (r %% T) th (fun c => w m (r * C + c)%N) j).
  by case: b hb {hlb ew} => // d0 b _; exists d0.
have [B [e1 e2 e3]] := @mc_batch_multiplies X Y T C kind net net_size T_gt0 C_gt0 red S th samples b w d0 hS hr hb hs K M (leq0n K) hM.
rewrite e1 /=.
have [A [-> a2 a3]] := adds_alpha_valid (nfac red (size b) N) hZ e2.
have [Q [q1 q2 q3]] := IH hl hlab A g' a2.
exists Q; split=> // i k hi hk; rewrite q3 // a3 // e3 // -addrA; congr (_ + _).
rewrite mulr_sumr -big_split /=; apply: eq_bigr => j _.
rewrite big_cons hd0 mulrDr mulrDl; congr (_ + _).
by rewrite !mulrA term_weight_nfac.
Qed.

(* history independence *)
Lemma mc_matmat_fresh s M : (forall d d', dev_eq d d' -> d = d') ->
  (mc_matmat s M).1 = (mc_loop M [seq zeros_like m | m <- M] (seed_gen (st_dev s)) loader).1.
Proof.
move=> hd; rewrite /mc_matmat.
have -> : match st_gen s with Some (d, _) => if dev_eq d (st_dev s) then d else st_dev s | None => st_dev s end = st_dev s.
  by case: (st_gen s) => // -[d _]; case: ifP => // /hd.
by case: mc_loop.
Qed.

Lemma mc_step_dev s e : st_dev (mc_step s e) = if e is EvToDevice d then d else st_dev s.
Proof.
case: e => //= [M|rows c o n ys]; first by rewrite /mc_matmat; case: mc_loop.
by case: (st_gen s) => // -[].
Qed.

End Op.
End Sampling.
