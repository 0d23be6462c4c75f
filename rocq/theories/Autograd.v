(* Reverse-mode differentiation on a tape, as done by torch.autograd.grad, and the
   gradient and loss of _torch_base.py 618-676 computed with it.  The other files
   take "autograd returns exact partial derivatives" as a contract; here the
   algorithm itself (recording, back-propagation of cotangents, accumulation, the
   errors for parameters that are frozen or not part of the graph) is modelled. *)
From Coq Require Import Reals.
From Coquelicot Require Import Coquelicot.
From mathcomp Require Import all_ssreflect all_algebra.
From Verif Require Import PyPrelude Tensor RInst Calculus Curvature HessGGN ActHess.
Set Implicit Arguments.
Unset Strict Implicit.
Unset Printing Implicit Defensive.
Import GRing.Theory.
Local Open Scope ring_scope.

Local Notation vec := (seq R).

(* ---- the tape ---- *)

(* a differentiable function call: the positions of its arguments on the tape, the
   number of entries of its result, its value, and its backward function, which maps
   the arguments and the cotangent of the result to the cotangents of the arguments *)
Record node := Node { nd_args : seq nat; nd_size : nat; nd_fun : seq vec -> vec; nd_vjp : seq vec -> vec -> seq vec }.
(* what a forward pass puts on the tape after the parameters: a tensor that holds
   data, or the result of a function call (tensors are given by their entries) *)
Inductive item := Data (v : vec) | Call (n : node).

(* The parameters are the first tensors on the tape; Sz are their numbers of entries,
   and their entries follow each other in th. *)
Definition offset (Sz : seq nat) (p : nat) : nat := sumn (take p Sz).
Definition leaves (Sz : seq nat) (th : point) : seq vec :=
  [seq mkseq (fun c => th (offset Sz p + c)%N) (nth 0%N Sz p) | p <- iota 0 (size Sz)].

Definition args_of (vs : seq vec) (n : node) : seq vec := [seq nth [::] vs a | a <- nd_args n].
Definition item_val (vs : seq vec) (it : item) : vec :=
  match it with Data v => v | Call n => nd_fun n (args_of vs n) end.
(* the values of all tensors on the tape *)
Definition tape_vals (L : seq vec) (t : seq item) : seq vec := scan item_val L t.

(* requires_grad of a result: whether some argument requires grad *)
Definition item_rg (rs : seq bool) (it : item) : bool :=
  match it with Data _ => false | Call n => has (nth false rs) (nd_args n) end.
Definition tape_rg (rq : seq bool) (t : seq item) : seq bool := scan item_rg rq t.

(* ---- back-propagation ---- *)
Definition vadd (x y : vec) : vec := mkseq (fun c => nth 0 x c + nth 0 y c) (size x).
(* the first cotangent that arrives is stored, later ones are added *)
Definition accumulate (cot : seq (option vec)) (a : nat) (g : vec) : seq (option vec) :=
  set_nth None cot a (Some (match nth None cot a with None => g | Some x => vadd x g end)).
(* the cotangents of the arguments of the call at position i; nothing happens if no
   cotangent arrived there, and arguments that do not require grad are left out *)
Definition back_step (P : nat) (t : seq item) (vs : seq vec) (rs : seq bool) (cot : seq (option vec)) (i : nat) :
    seq (option vec) :=
  match nth None cot i, nth (Data [::]) t (i - P) with
  | Some w, Call n =>
      foldl (fun c ag => if nth false rs ag.1 then accumulate c ag.1 ag.2 else c) cot
        (zip (nd_args n) (nd_vjp n (args_of vs n) w))
  | _, _ => cot
  end.
Definition backward (L : seq vec) (t : seq item) (rs : seq bool) (out : nat) : seq (option vec) :=
  foldl (back_step (size L) t (tape_vals L t) rs)
    (set_nth None (nseq (size L + size t) None) out (Some [:: 1]))
    (rev (iota (size L) (size t))).

(* torch.autograd.grad(out, inputs) for a scalar out and with allow_unused=False: the
   output and all inputs must require grad, and every input must have been used *)
Definition grad (L : seq vec) (rq : seq bool) (t : seq item) (out : nat) (inputs : seq nat) : res (seq vec) :=
  let rs := tape_rg rq t in
  if ~~ nth false rs out then Err RuntimeError else
  if has (fun p => ~~ nth false rq p) inputs then Err RuntimeError else
  let cot := backward L t rs out in
  mapM (fun p => match nth None cot p with Some g => Ok g | None => Err RuntimeError end) inputs.

(* ---- gradient and loss ---- *)

(* loss.mul_(normalization_factor) *)
Definition scale_node (k : R) (a : nat) : node :=
  Node [:: a] 1 (fun vs => [:: nth 0 (nth [::] vs 0) 0 * k]) (fun _ w => [:: [:: nth 0 w 0 * k]]).

Section GradLoss.
Variable B : Type.                       (* batches *)
Variable bsize : B -> nat.               (* batch_size_fn *)
Variable record : B -> seq item * nat.   (* model and loss on a batch: the tape, and where the loss is *)

(* _torch_base.py 621-648: the loss on a batch, normalised, and its gradient w.r.t.
   the parameters given to the operator (positions, possibly repeated) *)
Definition loss_gradient (red : reduction) (N : nat) (Sz : seq nat) (rq : seq bool) (params : seq nat) (th : point) (b : B) :
    res (seq vec * R) :=
  let! nf := normalization_factor red (bsize b) N in
  let t := rcons (record b).1 (Call (scale_node nf (record b).2)) in
  let out := (size Sz + size (record b).1)%N in
  let L := leaves Sz th in
  let! g := grad L rq t out params in
  Ok (g, nth 0 (nth [::] (tape_vals L t) out) 0).

(* _torch_base.py 650-676 *)
Definition tape_gradient_and_loss (has_loss : bool) (red : reduction) (num_data : option nat) (loader : seq B)
    (Sz : seq nat) (rq : seq bool) (params : seq nat) (th : point) : res (seq vec * R) :=
  let N := infer_num_data bsize num_data loader in
  if ~~ has_loss then Err ValueError else
  foldM (fun (tgl : seq vec * R) b => let '(total_grad, total_loss) := tgl in
      let! gl := loss_gradient red N Sz rq params th b in
      Ok ([seq vadd xg.1 xg.2 | xg <- zip total_grad gl.1], total_loss + gl.2))
    ([seq nseq (nth 0%N Sz p) 0 | p <- params], 0) loader.

(* hessian.py 43-84 in the loop of _torch_base.py 526-547: the first backward pass is
   recorded on the tape, the Hessian-vector products are the ones of HessGGN (exact
   second derivatives); all parameters of shapes Sh belong to the operator *)
Definition tape_hessian_matmat (red : reduction) (num_data : option nat) (loader : seq B) (Sh : seq (seq nat))
    (rq : seq bool) (bs : seq int) (th : point) : seq (tensor R) -> res (seq (tensor R)) :=
  let Sz := [seq numel s | s <- Sh] in
  base_matmat bsize red (infer_num_data bsize num_data loader) loader (fun b M =>
    let! _ := grad (leaves Sz th) rq (record b).1 (record b).2 (iota 0 (size Sh)) in
    hessian_batch (pack 0 Sh) bs th (fun z => nth 0 (nth [::] (tape_vals (leaves Sz z) (record b).1) (record b).2) 0) M).
End GradLoss.
