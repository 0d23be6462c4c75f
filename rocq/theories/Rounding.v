(* Accumulation in floating point: the loops that add up the contributions of the
   batches, with rounded arithmetic.  /repo/curvlinops/_torch_base.py 526-547 (products),
   598-612 (normalisation), 650-676 (gradient and loss), 718-762 (determinism check).

   [rnd] rounds to the tensors' format, [rpy] to Python's floats, [axpy c a b] is what the
   kernel of a.add_(b, alpha=c) computes for a + c b (with or without fused
   multiply-add).  What torch computes for a batch is taken as it is; only the additions, the scaling and the factor are
   rounded.  Overflow and underflow are not modelled. *)
From Coq Require Import Reals.
From mathcomp Require Import all_ssreflect all_algebra.
From Verif Require Import PyPrelude Tensor Spec TorchBase RInst ROrd Curvature Risk Determinism.
Set Implicit Arguments.
Unset Strict Implicit.
Unset Printing Implicit Defensive.
Import GRing.Theory Order.TTheory Num.Theory.
Local Open Scope ring_scope.

Section Fl.
Variables (rnd rpy : R -> R) (axpy : R -> R -> R -> R).
Local Notation tens := (tensor R).

(* _torch_base.py 598-612; 1.0 is exact, the quotient is a Python float *)
Definition fl_normalization_factor (red : reduction) (bs N_data : nat) : res R :=
  let! q := py_div bs%:R N_data%:R in
  match red with RSum => Ok 1 | RMean => Ok (rpy q) | ROther => Err KeyError end.

(* a.add_(b, alpha=c) *)
Definition fl_add_alpha (c : R) (a b : tens) : res tens :=
  if tshape a == tshape b then
    Ok (Tensor (tshape a) (mkseq (fun e => axpy c (nth 0 (tdata a) e) (nth 0 (tdata b) e)) (size (tdata a))))
  else Err RuntimeError.
(* for a, b in zip(AM, BM): a.add_(b, alpha=c) (lines 543-545) *)
Fixpoint fl_adds_alpha (c : R) (AM BM : seq tens) : res (seq tens) :=
  match AM, BM with
  | a :: AM', b :: BM' => let! x := fl_add_alpha c a b in let! xs := fl_adds_alpha c AM' BM' in Ok (x :: xs)
  | _, _ => Ok AM
  end.

Section Loop.
Variables (batch : Type) (batch_size : batch -> nat).
(* _torch_base.py 526-547 *)
Definition fl_base_matmat (red : reduction) (N_data : nat) (data : seq batch)
    (matmat_batch : batch -> seq tens -> res (seq tens)) (M : seq tens) : res (seq tens) :=
  foldM (fun AM b =>
      let! nf := fl_normalization_factor red (batch_size b) N_data in
      let! BM := matmat_batch b M in
      fl_adds_alpha nf AM BM)
    [seq zeros_like m | m <- M] data.
End Loop.

(* ---- the determinism check ---- *)
Local Notation num := (option R).
Definition fl_num_add (a b : num) : num :=
  match a, b with Some x, Some y => Some (rnd (x + y)) | _, _ => None end.
Definition fl_tens_add (a b : tensor num) : res (tensor num) :=
  if tshape a == tshape b then
    Ok (Tensor (tshape a) (mkseq (fun e => fl_num_add (nth None (tdata a) e) (nth None (tdata b) e)) (size (tdata a))))
  else Err RuntimeError.
Fixpoint fl_all_add (ts gs : seq (tensor num)) : res (seq (tensor num)) :=
  match ts, gs with
  | t :: ts', g :: gs' => let! x := fl_tens_add t g in let! xs := fl_all_add ts' gs' in Ok (x :: xs)
  | _, _ => Ok ts
  end.

Local Notation RF := [realFieldType of R].
Variables (has_loss fixed_order : bool).
(* _torch_base.py 728-751; [check_batch] compares batch quantities *)
Definition fl_check_step (st : totals RF) (a b : item RF) : res (totals RF) :=
  let! _ := if fixed_order then check_batch has_loss a b else Ok tt in
  if has_loss then
    let! l1 := fl_tens_add (tot_loss1 st) (it_loss a) in
    let! l2 := fl_tens_add (tot_loss2 st) (it_loss b) in
    let! g1 := fl_all_add (tot_grad1 st) (it_grad a) in
    let! g2 := fl_all_add (tot_grad2 st) (it_grad b) in
    Ok (Totals l1 l2 g1 g2 (Some (it_loss a, it_loss b)))
  else Ok (Totals (tot_loss1 st) (tot_loss2 st) (tot_grad1 st) (tot_grad2 st) (Some (it_loss a, it_loss b))).

Fixpoint fl_check_loop (st : totals RF) (p1 p2 : seq (res (item RF))) : res (totals RF) :=
  match p1 with
  | [::] => Ok st
  | r1 :: p1' => let! a := r1 in
      match p2 with
      | [::] => Ok st
      | r2 :: p2' => let! b := r2 in
          let! st' := fl_check_step st a b in
          fl_check_loop st' p1' p2'
      end
  end.

(* _torch_base.py 714-760.  The comparison itself (isclose) is exact. *)
Definition fl_check_passes (S : seq (seq nat)) (p1 p2 : seq (res (item RF))) : res unit :=
  let! st := fl_check_loop (Totals (scalar (Some 0)) (scalar (Some 0)) (zeros RF S) (zeros RF S) None) p1 p2 in
  if has_loss then
      match cur st with
      | None => Err NameError
      | Some (l1, l2) =>
          let! _ := expect_close l1 l2 in
          expect_all_close (zip (tot_grad1 st) (tot_grad2 st))
      end
    else Ok tt.

(* total_g.add_(g) for the parameters (line 673-674) *)
Definition fl_add (a b : tens) : res tens :=
  if tshape a == tshape b then
    Ok (Tensor (tshape a) (mkseq (fun e => rnd (nth 0 (tdata a) e + nth 0 (tdata b) e)) (size (tdata a))))
  else Err RuntimeError.
Fixpoint fl_adds (AM BM : seq tens) : res (seq tens) :=
  match AM, BM with
  | a :: AM', b :: BM' => let! x := fl_add a b in let! xs := fl_adds AM' BM' in Ok (x :: xs)
  | _, _ => Ok AM
  end.

(* ---- gradient_and_loss: the sums over the batches (650-676); [ev b]: the scaled loss of a
   batch and its gradient as computed (636-648) ---- *)
Definition fl_gradient_and_loss (batch : Type) (ev : batch -> res (seq tens * R)) (S : seq (seq nat)) (data : seq batch)
    : res (seq tens * R) :=
  foldM (fun (tgl : seq tens * R) b => let '(total_grad, total_loss) := tgl in
      let! '(g, l) := ev b in
      let! tg := fl_adds total_grad g in
      Ok (tg, rnd (total_loss + l)))
    ([seq Tensor s (nseq (numel s) 0) | s <- S], 0) data.
End Fl.

(* two ways of computing a + c b: alpha is converted to the tensors' format; the product is
   rounded before the addition, or not *)
Definition axpy_unfused (rnd : R -> R) (c a b : R) : R := rnd (a + rnd (rnd c * b)).
Definition axpy_fused (rnd : R -> R) (c a b : R) : R := rnd (a + rnd c * b).
