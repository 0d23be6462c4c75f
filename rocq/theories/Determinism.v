(* Model of the determinism check and of moving an operator between devices:
   /repo/curvlinops/_torch_base.py 493-508, 618-648, 678-835 and
   /repo/curvlinops/utils.py 31-68.

   Two passes over the data (and two probe products) may give different results:
   the model, the loss, the loader and the generators are the user's.  A pass is
   therefore an arbitrary list of batch results, each of which may be an exception.
   Numbers are exact, plus NaN (None); infinities are not modelled. *)
From mathcomp Require Import all_ssreflect all_algebra.
From Verif Require Import PyPrelude Tensor Spec.
Set Implicit Arguments.
Unset Strict Implicit.
Unset Printing Implicit Defensive.
Import GRing.Theory Num.Theory.
Local Open Scope ring_scope.

Section Det.
Variable F : realFieldType.
Local Notation num := (option F).
Local Notation tens := (tensor num).

(* _torch_base.py 716 (defaults of allclose_report are not used) *)
Definition rtol : F := 5%:R / 10%:R ^+ 5.
Definition atol : F := 1 / 10%:R ^+ 6.

(* torch.isclose on one pair: |a - b| <= atol + rtol * |b|; NaN is close to nothing *)
Definition isclose (a b : num) : bool :=
  match a, b with Some x, Some y => `|x - y| <= atol + rtol * `|y| | _, _ => false end.

(* torch broadcasting, on reversed shapes (trailing axis first) *)
Fixpoint bshape (r1 r2 : seq nat) : option (seq nat) :=
  match r1, r2 with
  | [::], r | r, [::] => Some r
  | n1 :: r1', n2 :: r2' =>
      if (n1 == n2) || (n1 == 1%N) || (n2 == 1%N) then
        if bshape r1' r2' is Some r then Some ((if n1 == 1%N then n2 else n1) :: r) else None
      else None
  end.
(* position in a tensor with reversed shape r of the entry that is broadcast to
   position e of the reversed shape out *)
Fixpoint bidx (out r : seq nat) (e : nat) : nat :=
  match out, r with
  | n :: out', m :: r' => ((if m == 1 then 0 else e %% n) + m * bidx out' r' (e %/ n))%N
  | _, _ => 0%N
  end.

(* utils.py 31-68.  If the tensors are not close, the report indexes both with the
   mask of the broadcast shape: IndexError unless both have that shape. *)
Definition allclose_report (t1 t2 : tens) : res bool :=
  match bshape (rev (tshape t1)) (rev (tshape t2)) with
  | None => Err RuntimeError
  | Some out =>
      let close := all (fun e => isclose (nth None (tdata t1) (bidx out (rev (tshape t1)) e))
                                         (nth None (tdata t2) (bidx out (rev (tshape t2)) e)))
                       (iota 0 (numel out)) in
      if close then Ok true
      else if (tshape t1 == rev out) && (tshape t2 == rev out) then Ok false else Err IndexError
  end.

(* if not allclose_report(..): raise RuntimeError *)
Definition expect_close (t1 t2 : tens) : res unit :=
  let! c := allclose_report t1 t2 in raise_if (~~ c) RuntimeError.

(* if any(not allclose_report(a, b) for a, b in zip(..)): raise RuntimeError *)
Fixpoint expect_all_close (s : seq (tens * tens)) : res unit :=
  match s with
  | [::] => Ok tt
  | p :: s' => let! c := allclose_report p.1 p.2 in
      if c then expect_all_close s' else Err RuntimeError
  end.

(* the data of a batch: a tensor or a dict-like with tensors and other values *)
Inductive dval := DTensor of tens | DOther.
Inductive xval := XTensor of tens | XDict of seq (nat * dval).

(* what data_prediction_loss_gradient (618-648) yields for a batch; loss and
   gradient are only used if there is a loss function *)
Record item := Item { it_X : xval; it_y : tens; it_pred : tens; it_loss : tens; it_grad : seq tens }.

(* X[k] for a dict-like X (_torch_base.py 791-800) *)
Definition lookup (k : nat) (d : seq (nat * dval)) : option dval :=
  ohead [seq p.2 | p <- d & p.1 == k].

(* _torch_base.py 791-800 *)
Definition check_X (X1 X2 : xval) : res unit :=
  match X1, X2 with
  | XDict d1, XDict d2 =>
      foldM (fun _ p =>
        match lookup p.1 d2 with
        | None => Err KeyError
        | Some v2 =>
            match p.2, v2 with
            | DOther, _ => Ok tt
            | DTensor v1, DTensor v2 => expect_close v1 v2
            | DTensor _, DOther => Err TypeError
            end
        end) tt d1
  | XTensor t1, XTensor t2 => expect_close t1 t2
  | XDict _, XTensor _ => Err AttributeError
  | XTensor _, XDict _ => Err TypeError
  end.

(* _torch_base.py 764-817 (__check_deterministic_batch) *)
Definition check_batch (has_loss : bool) (a b : item) : res unit :=
  let! _ := check_X (it_X a) (it_X b) in
  let! _ := expect_close (it_y a) (it_y b) in
  let! _ := expect_close (it_pred a) (it_pred b) in
  if has_loss then
    let! _ := expect_close (it_loss a) (it_loss b) in
    expect_all_close (zip (it_grad a) (it_grad b))
  else Ok tt.

(* one entry of total.add_(t) (_torch_base.py 728-751) *)
Definition num_add (a b : num) : num :=
  match a, b with Some x, Some y => Some (x + y) | _, _ => None end.
(* total.add_(t) for equal shapes; RuntimeError otherwise (broadcasting not modelled) *)
Definition tens_add (a b : tens) : res tens :=
  if tshape a == tshape b then
    Ok (Tensor (tshape a) (mkseq (fun e => num_add (nth None (tdata a) e) (nth None (tdata b) e)) (size (tdata a))))
  else Err RuntimeError.
(* for t, g in zip(ts, gs): t.add_(g) *)
Fixpoint all_add (ts gs : seq tens) : res (seq tens) :=
  match ts, gs with
  | t :: ts', g :: gs' => let! x := tens_add t g in let! xs := all_add ts' gs' in Ok (x :: xs)
  | _, _ => Ok ts
  end.

(* local variables of _check_deterministic: total losses and gradients of the two
   passes, and the loop variables loss1, loss2 *)
Record totals := Totals {
  tot_loss1 : tens; tot_loss2 : tens; tot_grad1 : seq tens; tot_grad2 : seq tens; cur : option (tens * tens) }.

Variables (has_loss fixed_order : bool).

(* body of the loop, _torch_base.py 728-751 *)
Definition check_step (st : totals) (a b : item) : res totals :=
  let! _ := if fixed_order then check_batch has_loss a b else Ok tt in
  if has_loss then
    let! l1 := tens_add (tot_loss1 st) (it_loss a) in
    let! l2 := tens_add (tot_loss2 st) (it_loss b) in
    let! g1 := all_add (tot_grad1 st) (it_grad a) in
    let! g2 := all_add (tot_grad2 st) (it_grad b) in
    Ok (Totals l1 l2 g1 g2 (Some (it_loss a, it_loss b)))
  else Ok (Totals (tot_loss1 st) (tot_loss2 st) (tot_grad1 st) (tot_grad2 st) (Some (it_loss a, it_loss b))).

(* for (..), (..) in zip(pass 1, pass 2): the first generator is advanced first;
   the loop ends as soon as one of them is exhausted *)
Fixpoint check_loop (st : totals) (p1 p2 : seq (res item)) : res totals :=
  match p1 with
  | [::] => Ok st
  | r1 :: p1' =>
      let! a := r1 in
      match p2 with
      | [::] => Ok st
      | r2 :: p2' =>
          let! b := r2 in
          let! st' := check_step st a b in
          check_loop st' p1' p2'
      end
  end.

(* zeros_like(p) for the parameters and tensor(0.0): the initial totals
   (_torch_base.py 718-726) *)
Definition zeros (S : seq (seq nat)) : seq tens := [seq Tensor s (nseq (numel s) (Some 0)) | s <- S].
Definition scalar (x : num) : tens := Tensor [::] [:: x].

(* _torch_base.py 714-760: the comparison of the two passes.  [S]: the parameters'
   shapes *)
Definition check_passes (S : seq (seq nat)) (p1 p2 : seq (res item)) : res unit :=
  let! st := check_loop (Totals (scalar (Some 0)) (scalar (Some 0)) (zeros S) (zeros S) None) p1 p2 in
  if has_loss then
      match cur st with
      | None => Err NameError          (* loss1 is unbound *)
      | Some (l1, l2) =>
          let! _ := expect_close l1 l2 in
          expect_all_close (zip (tot_grad1 st) (tot_grad2 st))
      end
    else Ok tt.

(* _torch_base.py 693-762 and 819-835.  [probe]: the results of the two products
   with a random vector. *)
Definition check_deterministic (S : seq (seq nat)) (p1 p2 : seq (res item)) (probe : res tens * res tens) : res unit :=
  let! _ := check_passes S p1 p2 in
  let! Av1 := probe.1 in
  let! Av2 := probe.2 in
  expect_close Av1 Av2.
End Det.

Section Devices.
Variable dev : eqType.
Variable cpu : dev.

(* Parameters are objects: the device of each is in the heap.  A torch.nn.Module
   (here: the list of the parameters it owns) is moved in place; Tensor.to returns
   the tensor itself if it already is on the device and a new tensor otherwise. *)
Record dev_state := DevState {
  d_dev : dev;                       (* self._device *)
  d_params : seq nat;                (* self._params: objects *)
  d_heap : seq dev }.                (* device of object i *)

(* p.to(d) *)
Definition tensor_to (d : dev) (h : seq dev) (p : nat) : nat * seq dev :=
  if nth d h p == d then (p, h) else (size h, rcons h d).
Fixpoint tensors_to (d : dev) (h : seq dev) (ps : seq nat) : seq nat * seq dev :=
  match ps with
  | [::] => ([::], h)
  | p :: ps' =>
      let '(q, h1) := tensor_to d h p in
      let '(qs, h2) := tensors_to d h1 ps' in
      (q :: qs, h2)
  end.
(* module.to(d) *)
Definition module_to (d : dev) (h : seq dev) (owned : seq nat) : seq dev :=
  mkseq (fun i => if i \in owned then d else nth d h i) (size h).

(* _torch_base.py 678-691; [model]: None if model_func is not a Module.  The loss
   function's module has no parameters and is left out. *)
Definition to_device (model : option (seq nat)) (d : dev) (s : dev_state) : dev_state :=
  let h := if model is Some owned then module_to d (d_heap s) owned else d_heap s in
  let '(ps, h') := tensors_to d h (d_params s) in
  DevState d ps h'.

(* _torch_base.py 493-508: the end of the constructor.  [check] is
   _check_deterministic as a function of the operator's state; it may raise
   anything.  The objects' devices are not changed by it. *)
Definition init_check (model : option (seq nat)) (do_check : bool) (check : dev_state -> res unit) (s : dev_state)
    : res unit * dev_state :=
  if do_check then
    let old_device := d_dev s in
    let s1 := to_device model cpu s in
    let r := check s1 in
    (r, to_device model old_device s1)
  else (Ok tt, s).
End Devices.
