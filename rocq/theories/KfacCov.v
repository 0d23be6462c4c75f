(* Model of the computation of KFAC's Kronecker factors:
   /repo/curvlinops/kfac.py 283-314 and 399-722.

   The network is given by what the hooks can see: for every layer of the
   parameter mapping its input, its output, and the network's output as a function
   of the layer's output (the rest of the network).  Contracts: the network treats
   the data of a batch independently, and calls each of these layers once per
   forward pass with one input.  Autograd gives exact partial derivatives.
   Numbers are exact reals; tensor divisions by zero are not modelled.  The
   progress bar and devices are left out. *)
From Coq Require Import Reals FunctionalExtensionality.
From Coquelicot Require Import Coquelicot.
From mathcomp Require Import all_ssreflect all_algebra.
From Verif Require Import PyPrelude Tensor Spec TorchBase Submatrix RInst Calculus Curvature HessGGN Risk Losses Fisher FisherMC LossHess Conv Kfac.
Set Implicit Arguments.
Unset Strict Implicit.
Unset Printing Implicit Defensive.
Import GRing.Theory.
Local Open Scope ring_scope.

(* KFACType and FisherType (kfac.py 60-73) *)
Inductive kfac_approx := Expand | Reduce.
Inductive fisher_type := Type2 | MC | Empirical | ForwardOnly.

(* ---- the hooks, on the tensors they receive ---- *)
Section Hooks.
Variable F : fieldType.
Local Notation tens := (tensor F).

(* rearrange "batch ... d -> (batch ...) d": kfac.py 644 and 700 *)
Definition rows_expand (t : tens) : res tens :=
  match tshape t with
  | n :: (_ :: _) as rest =>
      Ok (Tensor [:: n * numel (take (size rest).-1 rest); last 0%N rest]%N (tdata t))
  | _ => Err RuntimeError
  end.

(* reduce "batch ... d -> batch d" with sum (kfac.py 647) or mean (704) *)
Definition rows_reduce (mean : bool) (t : tens) : res tens :=
  match tshape t with
  | n :: (_ :: _) as rest =>
      let m := numel (take (size rest).-1 rest) in
      let d := last 0%N rest in
      Ok (Tensor [:: n; d] (mkseq (fun e =>
            let s := sumr m (fun u => nth 0 (tdata t) ((e %/ d * m + u) * d + e %% d)) in
            if mean then s / m%:R else s) (n * d)))
  | _ => Err RuntimeError
  end.

(* einsum "b i,b j->i j", then multiplied with c *)
Definition covariance (c : F) (x : tens) : res tens :=
  match tshape x with
  | [:: n; d] =>
      Ok (Tensor [:: d; d] (mkseq (fun e => c *
            sumr n (fun r => nth 0 (tdata x) (r * d + e %/ d) * nth 0 (tdata x) (r * d + e %% d))) (d * d)))
  | _ => Err RuntimeError
  end.

(* cat([x, x.new_ones(x.shape[0], 1)], dim=1) *)
Definition cat_ones (x : tens) : res tens :=
  match tshape x with
  | [:: n; d] => Ok (Tensor [:: n; d.+1] (mkseq (fun e =>
        if (e %% d.+1 < d)%N then nth 0 (tdata x) (e %/ d.+1 * d + e %% d.+1) else 1) (n * d.+1)))
  | _ => Err RuntimeError
  end.

(* kfac.py 667-722 without the dictionary update.  [joint]: weight and bias are
   both in the layer's mapping entry and not treated separately. *)
Definition input_covariance (ap : kfac_approx) (cv : option conv) (joint : bool) (N : nat) (x : tens) : res tens :=
  let! x1 := match cv, ap with
             | Some c, Expand => extract_patches x c
             | Some c, Reduce => extract_averaged_patches x c
             | None, _ => Ok x
             end in
  let rest := behead (tshape x1) in
  let scale := match ap with Expand => numel (take (size rest).-1 rest) | Reduce => 1%N end in
  let! x2 := match ap with Expand => rows_expand x1 | Reduce => rows_reduce true x1 end in
  let! x3 := if joint then cat_ones x2 else Ok x2 in
  covariance ((N%:R * scale%:R)^-1) x3.

(* rearrange "batch c o1 o2 -> batch o1 o2 c": kfac.py 640 *)
Definition channels_last (g : tens) : res tens :=
  match tshape g with
  | [:: n; c; o1; o2] =>
      Ok (Tensor [:: n; o1; o2; c] (mk4 n o1 o2 c (fun b y z i => at4 c o1 o2 g b i y z)))
  | _ => Err RuntimeError
  end.

(* 1.0 / mc_samples and num_loss_terms^2 / (N_data * mc_samples *
   num_per_example_loss_terms) are both computed before the lookup: kfac.py 650-656 *)
Definition correction (red : reduction) (N M T batch_size : nat) : res F :=
  let! s := (if M == 0%N then Err ZeroDivisionError else Ok (M%:R^-1)) in
  let! m := (if (N * M * T == 0)%N then Err ZeroDivisionError
             else Ok (((batch_size * T) ^ 2)%:R / (N * M * T)%:R)) in
  match red with RSum => Ok s | RMean => Ok m | ROther => Err KeyError end.

(* kfac.py 627-665 without the dictionary update *)
Definition gradient_covariance (ap : kfac_approx) (cv : option conv) (red : reduction) (N M T : nat) (g : tens) : res tens :=
  let batch_size := head 0%N (tshape g) in
  let! g1 := if cv is Some _ then channels_last g else Ok g in
  let! g2 := match ap with Expand => rows_expand g1 | Reduce => rows_reduce false g1 end in
  let! c := correction red N M T batch_size in
  covariance c g2.

(* ---- the two dictionaries ---- *)
Local Notation cov := (dict nat_eqType tens).
Inductive update := UIn of nat & tens | UGrad of nat & tens | USet of nat & tens.

(* d[k].add_(t), in place *)
Definition tadd (a b : tens) : res tens :=
  if tshape a == tshape b then
    Ok (Tensor (tshape a) (mkseq (fun e => nth 0 (tdata a) e + nth 0 (tdata b) e) (size (tdata a))))
  else Err RuntimeError.
(* kfac.py 660-663 and 717-720 *)
Definition accumulate (k : nat) (t : tens) (d : cov) : res cov :=
  if dget k d is Some a then let! s := tadd a t in Ok (dset k s d) else Ok (dset k t d).
Definition apply_update (st : cov * cov) (u : update) : res (cov * cov) :=
  match u with
  | UIn k t => let! d := accumulate k t st.1 in Ok (d, st.2)
  | UGrad k t => let! d := accumulate k t st.2 in Ok (st.1, d)
  | USet k t => Ok (st.1, dset k t st.2)
  end.

(* A computation is the sequence of updates it makes, ending early with the first
   exception; what was written before the exception stays. *)
Fixpoint run_updates (st : cov * cov) (ev : seq (res update)) : (cov * cov) * res unit :=
  match ev with
  | [::] => (st, Ok tt)
  | Err e :: _ => (st, Err e)
  | Ok u :: ev' =>
      match apply_update st u with
      | Err e => (st, Err e)
      | Ok st' => run_updates st' ev'
      end
  end.

(* torch.eye, the gradient covariance for FORWARD_ONLY (kfac.py 533-543) *)
Definition eye (n : nat) : tens := Tensor [:: n; n] (mkseq (fun e => (e %/ n == e %% n)%N%:R) (n * n)).
End Hooks.
Arguments correction {F}.

Section Compute.
Local Notation tens := (tensor R).
Variables (X Y : Type) (T C : nat) (kind : loss_kind).
Local Notation batch := (seq (X * Y)).

(* a layer as its hooks see it, per datum: shapes and entries of input and output,
   and the network's output as a function of the layer's output *)
Record nlayer := NLayer {
  nl_conv : option conv;                    (* Some: Conv2d, None: Linear *)
  nl_ishape : seq nat; nl_oshape : seq nat;
  nl_in : X -> seq R; nl_out : X -> seq R;
  nl_tail : X -> point -> seq R }.
Variable net : X -> seq R.                  (* the network's output *)
Variable tgt : Y -> nat -> target.          (* target of loss term t *)
Variable mods : nat -> nlayer.              (* model.get_submodule(name) *)
Variable S : seq (seq nat).                 (* shapes of the parameters *)
Variables (sep : bool) (ap : kfac_approx) (ft : fisher_type) (red : reduction) (N M : nat).
Variable nterms : nat.                      (* self._num_per_example_loss_terms *)
Variable mp : mapping.

(* the input of a layer in the forward pass (kfac.py 684) *)
Definition in_tensor (l : nlayer) (b : batch) : tens :=
  Tensor (size b :: nl_ishape l) (flatten [seq nl_in l d.1 | d <- b]).

(* forward pre-hooks: only for layers whose weight is in the mapping *)
Definition forward_events (b : batch) : seq (res (update [fieldType of R])) :=
  [seq let joint := [&& ~~ sep, isSome (dget Weight e.2) & isSome (dget Bias e.2)] in
       let l := mods e.1 in
       let! t := input_covariance ap (nl_conv l) joint N (in_tensor l b) in
       Ok (UIn e.1 t) | e <- mp & dmem Weight e.2].

(* the 2d output as a function of the stacked outputs Z of layer l *)
Definition tail2d (l : nlayer) (b : batch) (Z : point) : point := fun i =>
  nth 0 (flatten [seq nl_tail l p.1.1 (row_pt (numel (nl_oshape l)) p.2 Z) | p <- zip b (iota 0 (size b))])
    (raw_idx T C kind i).
(* gradient of phi(2d output) w.r.t. the outputs of layer l *)
Definition grad_tensor (l : nlayer) (b : batch) (phi : point -> R) : tens :=
  Tensor (size b :: nl_oshape l)
    (mkseq (fun p => pd p (fun Z => phi (tail2d l b Z)) (nth 0 (flatten [seq nl_out l d.1 | d <- b])))
       (size b * numel (nl_oshape l))).

(* grad(phi(output), params): the tensor hooks of all layers of the mapping *)
Definition backward_events (b : batch) (phi : point -> R) : seq (res (update [fieldType of R])) :=
  [seq let l := mods e.1 in
       let! t := gradient_covariance ap (nl_conv l) red N M nterms (grad_tensor l b phi) in
       Ok (UGrad e.1 t) | e <- mp].

(* the 2d output and the targets of a batch (kfac.py 479-485) *)
Definition kout2d (b : batch) : point := out2d T C kind (fun x _ => net x) b (fun=> 0).
Definition ktargets (b : batch) : seq target := ys2d T tgt b.

(* shape and entries of one row of the 2d (or 1d) targets: y.split(1) *)
Definition row_target (y : target) : seq nat * seq R :=
  match y with TVec v => ([:: 1; C]%N, mkseq v C) | TCls _ => ([:: 1%N], [::]) end.

(* kfac.py 485-510: the scaled square roots (row, row of the matrix, column) *)
Definition hessian_sqrts (b : batch) : res (nat -> nat -> nat -> R) :=
  let rows := (size b * T)%N in
  let! ss := mapM (fun r => let y := row_target (nth (TCls 0) (ktargets b) r) in
                   loss_hessian_matrix_sqrt kind red (Tensor [:: 1; C]%N (mkseq (row_pt C r (kout2d b)) C)) y.1 y.2)
               (iota 0 rows) in
  let! _ := raise_if (rows == 0%N) RuntimeError in              (* stack of nothing *)
  let! scale := match red with RSum => Ok 1 | RMean => Ok (rows%:R^-1) | ROther => Err KeyError end in
  Ok (fun r i c => entry C (tdata (nth (Tensor [::] [::]) ss r)) i c * scale).

(* loss_func(output, ys) as a function of the 2d output, times sqrt(C) where
   MSE and BCE also average over the output dimension: kfac.py 442-464 *)
Definition scaled_loss (rows : nat) (ys : seq target) (o : point) : R :=
  loss2d C kind (torch_row kind C) red (mkseq o (rows * C)) ys *
  (match red with RMean => if is_ce kind then 1 else sqrt C%:R | _ => 1 end).

Section Draw.
Variable G : Type.
Variable normal_o : G -> nat -> (nat -> R) * G.
Variable multinomial_o : G -> nat -> nat -> (nat -> nat -> R) -> nat -> (nat -> nat -> nat) * G.
Variable bernoulli_o : G -> nat -> (nat -> R) -> (nat -> bool) * G.

(* kfac.py 549-597 on a 2d output *)
Definition draw_label (rows : nat) (o : point) (g : G) : seq target * G :=
  match kind with
  | LMSE => let '(z, g') := normal_o g (rows * C) in
      (mkseq (fun r => TVec (fun c => o (r * C + c)%N + sqrt (2%:R^-1) * z (r * C + c)%N)) rows, g')
  | LCE => let '(smp, g') := multinomial_o g rows C (fun r c => softmax C (row_pt C r o) c) 1 in
      (mkseq (fun r => TCls (smp r 0%N)) rows, g')
  | LBCE => let '(smp, g') := bernoulli_o g (rows * C) (fun i => sigmoid (o i)) in
      (mkseq (fun r => TVec (fun c => (smp (r * C + c)%N)%:R)) rows, g')
  end.

(* kfac.py 520-525: the labels of the mc_samples passes *)
Fixpoint draw_labels (n : nat) (rows : nat) (o : point) (g : G) : seq (seq target) * G :=
  match n with
  | 0 => ([::], g)
  | n'.+1 => let '(y, g1) := draw_label rows o g in
             let '(ys, g2) := draw_labels n' rows o g1 in (y :: ys, g2)
  end.

(* kfac.py 466-547; [backward b phi]: what the tensor hooks do during one call of
   grad; reduction 'none' gives a loss that is not a scalar, which autograd refuses *)
Definition loss_events (backward : batch -> (point -> R) -> seq (res (update [fieldType of R]))) (b : batch) (g : G) : seq (res (update [fieldType of R])) * G :=
  let rows := (size b * T)%N in
  match ft with
  | Type2 =>
      (match hessian_sqrts b with
       | Err e => [:: Err e]
       | Ok s => flatten [seq backward b (fun o => \sum_(i < rows * C) o i * s (i %/ C)%N (i %% C)%N c)
                         | c <- iota 0 C]
       end, g)
  | MC =>
      let '(ys, g') := draw_labels M rows (kout2d b) g in
      (if red is ROther then (if ys is [::] then [::] else [:: Err RuntimeError]) else
       flatten [seq backward b (scaled_loss rows y) | y <- ys], g')
  | Empirical =>
      (if red is ROther then [:: Err RuntimeError] else
       backward b (scaled_loss rows (ktargets b)), g)
  | ForwardOnly =>
      ([seq match e.2 with
            | (_, p) :: _ => Ok (USet e.1 (eye [fieldType of R] (head 0%N (nth [::] S p))))
            | [::] => Err StopIteration
            end | e <- mp], g)
  end.

(* kfac.py 399-440: the loop over the data; [forward b]: what the forward hooks do
   during one forward pass *)
Fixpoint kfac_events (forward : batch -> seq (res (update [fieldType of R])))
    (backward : batch -> (point -> R) -> seq (res (update [fieldType of R]))) (loader : seq batch) (g : G) : seq (res (update [fieldType of R])) :=
  match loader with
  | [::] => [::]
  | b :: rest => let '(ev, g') := loss_events backward b g in
                 forward b ++ ev ++ kfac_events forward backward rest g'
  end.

(* _compute_kfac on empty dictionaries; [g]: the freshly seeded generator *)
Definition compute_kfac (loader : seq batch) (g : G) :=
  run_updates ([::], [::]) (kfac_events forward_events backward_events loader g).
End Draw.
End Compute.

(* ---- number of loss terms per example: kfac.py 283-314 ---- *)
(* [yshapes]: shapes of the labels of the batches *)
Definition num_loss_terms (k : loss_kind) (yshapes : seq (seq nat)) : nat :=
  sumn [seq if is_ce k then numel s else numel (take (size s).-1 s) | s <- yshapes].
Definition set_num_per_example_loss_terms (given : option nat) (k : loss_kind) (yshapes : seq (seq nat)) (N : nat) : res nat :=
  match given with
  | Some n => Ok n
  | None =>
      let n := num_loss_terms k yshapes in
      if N == 0%N then Err ZeroDivisionError else
      if (n %% N != 0)%N then Err ValueError else Ok (n %/ N)%N
  end.
