(* The data source of an operator as an object with state: what iterating over
   `data` yields the first, second, ... time.  /repo/curvlinops/_torch_base.py
   463-508 (constructor), 533-547 and 568-596 (products), 618-676, 714-762 and
   819-835 (determinism check).

   A list or a torch DataLoader starts anew whenever it is iterated over; what it
   yields may depend on its state (the random order of a DataLoader with
   shuffle=True).  A generator or another iterator yields every batch once. *)
From Coq Require Import Reals.
From mathcomp Require Import all_ssreflect all_algebra.
From Verif Require Import PyPrelude Tensor Spec TorchBase RInst ROrd Curvature Determinism.
Set Implicit Arguments.
Unset Strict Implicit.
Unset Printing Implicit Defensive.
Import GRing.Theory.
Local Open Scope ring_scope.

Section Source.
Variables (batch : Type) (St : Type).
(* iter(data) for a re-iterable: its batches, and its next state *)
Variable fresh : St -> seq batch * St.

Inductive source := Reiterable of St | Iterator of seq batch.

(* for X, y in data: ... (lines 588-596).  Simplification: if the body raises, a
   re-iterable is in the same state, of an iterator the code would have consumed
   only the batches so far. *)
Definition pass (d : source) : seq batch * source :=
  match d with
  | Reiterable s => let '(l, s') := fresh s in (l, Reiterable s')
  | Iterator l => (l, Iterator [::])
  end.
(* next(iter(data)) (line 463) *)
Definition peek (d : source) : res batch * source :=
  match d with
  | Reiterable s => let '(l, s') := fresh s in (if l is b :: _ then Ok b else Err StopIteration, Reiterable s')
  | Iterator (b :: l) => (Ok b, Iterator l)
  | Iterator [::] => (Err StopIteration, d)
  end.
(* zip of two loops over data (lines 730-732): a re-iterable is iterated over
   twice, but only once if the first iteration is empty; the two loops over an
   iterator take its batches in turns *)
Fixpoint take_turns (l : seq batch) : seq batch * seq batch :=
  match l with
  | [::] => ([::], [::])
  | [:: a] => ([:: a], [::])
  | a :: b :: l' => let '(p, q) := take_turns l' in (a :: p, b :: q)
  end.
Definition two_passes (d : source) : (seq batch * seq batch) * source :=
  match d with
  | Reiterable s => let '(l1, s1) := fresh s in
      if l1 is [::] then (([::], [::]), Reiterable s1) else
      let '(l2, s2) := fresh s1 in ((l1, l2), Reiterable s2)
  | Iterator l => (take_turns l, Iterator [::])
  end.

(* ---- an operator of some class ---- *)
Variable batch_size : batch -> nat.
Variables (supports has_loss fixed_order : bool) (S : seq (seq nat)).
(* the class's _matmat with number of data, block sizes and the batches of a pass *)
Variable mm : nat -> seq int -> seq batch -> seq (tensor R) -> res (seq (tensor R)).
(* what data_prediction_loss_gradient yields for a batch (lines 636-648), with the
   number of data; the probe vector of the check (line 830) *)
Variable evaluate : nat -> batch -> res (item [realFieldType of R]).
Variable probe : pyval R.

Record operator := Operator { o_N : nat; o_bs : seq int; o_data : source }.

(* A @ V: the input is checked before the data are touched (lines 78-109) *)
Definition product (o : operator) (V : pyval R) : res (pyval R) * operator :=
  match check_input_and_preprocess (LinOp S S (fun M => Ok M)) V with
  | Err e => (Err e, o)
  | Ok _ => let '(l, d) := pass (o_data o) in
      (op_matmul (LinOp S S (mm (o_N o) (o_bs o) l)) V, Operator (o_N o) (o_bs o) d)
  end.

(* the entries of a result of the probe product *)
Definition as_numbers (r : res (pyval R)) : res (tensor (option R)) :=
  match r with
  | Ok (VTensor t) => Ok (Tensor (tshape t) [seq Some x | x <- tdata t])
  | Ok _ => Err AttributeError
  | Err e => Err e
  end.

(* lines 693-762 and 819-835 *)
Definition check (o : operator) : res unit * operator :=
  let '((l1, l2), d) := two_passes (o_data o) in
  let o1 := Operator (o_N o) (o_bs o) d in
  match check_passes has_loss fixed_order S [seq evaluate (o_N o) b | b <- l1] [seq evaluate (o_N o) b | b <- l2] with
  | Err e => (Err e, o1)
  | Ok _ =>
      let '(r1, o2) := product o1 probe in
      match as_numbers r1 with
      | Err e => (Err e, o2)
      | Ok Av1 =>
          let '(r2, o3) := product o2 probe in
          (let! Av2 := as_numbers r2 in expect_close Av1 Av2, o3)
      end
  end.

(* lines 463-508.  The second component is the state the user's data source is left in.
   Tensor data (no batch_size_fn needed); the parameters are on one device. *)
Definition construct (d : source) (num_data : option nat) (block_sizes : option (seq int)) (check_it : bool)
    : res operator * source :=
  let '(first, d1) := peek d in
  match first with
  | Err e => (Err e, d1)
  | Ok _ =>
    match check_block_sizes supports (size S) block_sizes with
    | Err e => (Err e, d1)
    | Ok bs =>
      let '(N, d2) := match num_data with
                      | Some n => (n, d1)
                      | None => let '(l, d') := pass d1 in (sumn [seq batch_size b | b <- l], d')
                      end in
      let o := Operator N bs d2 in
      if check_it then
        match check o with
        | (Err e, o') => (Err e, o_data o')
        | (Ok _, o') => (Ok o', o_data o')
        end
      else (Ok o, d2)
    end
  end.

(* products one after the other *)
Fixpoint products (o : operator) (Vs : seq (pyval R)) : seq (res (pyval R)) * operator :=
  match Vs with
  | [::] => ([::], o)
  | V :: Vs' => let '(r, o1) := product o V in
                let '(rs, o2) := products o1 Vs' in (r :: rs, o2)
  end.
End Source.
