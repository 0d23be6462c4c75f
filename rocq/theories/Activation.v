(* Model of the activation Hessian and of the hooks it installs:
   /repo/curvlinops/experimental/activation_hessian.py with the base class
   /repo/curvlinops/_torch_base.py 404-547.

   A forward pass is a program that records tensors on autograd's tape, announces
   the end of every module call (where torch runs the module's forward hooks, which
   may raise or replace the output) and may raise at any point; exceptions of hooks
   are passed on to the program, which may catch them. *)
From Coq Require Import Reals String.
From Coquelicot Require Import Coquelicot.
From mathcomp Require Import all_ssreflect all_algebra.
From Verif Require Import PyPrelude Tensor Spec TorchBase Submatrix RInst Calculus Curvature HessGGN.
Set Implicit Arguments.
Unset Strict Implicit.
Unset Printing Implicit Defensive.
Import GRing.Theory.
Local Open Scope ring_scope.

Local Notation tens := (tensor R).

(* ---- autograd's tape ---- *)

(* One recorded tensor: its shape, the earlier tensors it is computed from (by
   position on the tape), whether derivatives pass through the operation (not for
   detach, integer operations, no_grad), and its value.  A tensor without arguments
   is a leaf; it requires grad iff its flag is set. *)
Record op := Op { o_shape : seq nat; o_args : seq nat; o_diff : bool; o_fun : seq tens -> seq R }.

(* default for positions outside the tape *)
Definition no_tensor : tens := Tensor [::] [::].
Definition node_val (vs : seq tens) (o : op) : tens :=
  Tensor (o_shape o) (o_fun o [seq nth no_tensor vs i | i <- o_args o]).
(* the values of all tensors *)
Definition values (t : seq op) : seq tens := foldl (fun vs o => rcons vs (node_val vs o)) [::] t.
(* Tensor.requires_grad of all tensors *)
Definition requires_grad (t : seq op) : seq bool :=
  foldl (fun fs o => rcons fs (o_diff o && (nilp (o_args o) || has (nth false fs) (o_args o)))) [::] t.
(* whether derivatives of a tensor with respect to tensor a exist in the graph *)
Definition depends_on (a : nat) (t : seq op) : seq bool :=
  foldl (fun fs o => rcons fs ((size fs == a) || o_diff o && has (nth false fs) (o_args o))) [::] t.
(* the values when the entries of tensor a are z and everything computed from it
   with derivatives is recomputed *)
Definition values_at (t : seq op) (a : nat) (z : point) : seq tens :=
  foldl (fun vs o => rcons vs
    (if size vs == a then Tensor (o_shape o) (mkseq z (numel (o_shape o)))
     else if o_diff o then node_val vs o else nth no_tensor (values t) (size vs))) [::] t.

(* a scalar tensor l of the tape as a function of the entries of tensor a *)
Definition scalar_of (t : seq op) (l a : nat) (z : point) : R := nth 0 (tdata (nth no_tensor (values_at t a z) l)) 0.
(* the current entries of tensor a *)
Definition entries_of (t : seq op) (a : nat) : point := nth 0 (tdata (nth no_tensor (values t) a)).
Definition shape_of (t : seq op) (a : nat) : seq nat := tshape (nth no_tensor (values t) a).

(* torch.autograd.grad(loss, activation, create_graph=True): RuntimeError if the
   loss is no scalar, if one of the two does not require grad, or if the activation
   was not used for the loss *)
Definition tape_grad (t : seq op) (l a : nat) : res (seq (tensor (point -> R))) :=
  let! _ := raise_if (numel (shape_of t l) != 1%N) RuntimeError in
  let! _ := raise_if (~~ nth false (requires_grad t) l) RuntimeError in
  let! _ := raise_if (~~ nth false (requires_grad t) a) RuntimeError in
  let! _ := raise_if (~~ nth false (depends_on a t) l) RuntimeError in
  Ok (autograd [:: Param 0 (shape_of t a)] (scalar_of t l a)).

(* ---- forward passes and hooks ---- *)

(* what is passed to and returned from modules: tensors and other objects *)
Inductive arg := ATens of nat | AOther.
(* a single tensor, a tuple, or something that raises when indexed with a number *)
Inductive outval := OTens of nat | OTuple of seq arg | OOther of exn.

(* a forward pass of self._model_func and self._loss_func
   (activation_hessian.py 182-189): operations, calls of modules, and a result *)
Inductive prog (A : Type) :=
  | Ret of A
  | Throw of exn
  | Compute of op & (nat -> prog A)
  | Leave of nat & seq arg & outval & (res outval -> prog A).
Arguments Throw {A}.

(* A forward hook: one of the user's, or one of store_activation, with its
   io_type, io_idx and destination list. *)
Inductive hook :=
  | User of (seq arg -> outval -> res outval)
  | Store of string & int & nat.

(* All forward hooks of the model's modules in the order of registration, with the
   identifiers of their handles; torch's counter for these; all Python lists used as
   destination. *)
Record world := World { w_hooks : seq (nat * (nat * hook)); w_next : nat; w_lists : seq (seq arg) }.

(* l[i] for Python lists and tuples *)
Definition py_get (T : Type) (s : seq T) (i : int) : res T :=
  match i with
  | Posz n => if ohead (drop n s) is Some x then Ok x else Err IndexError
  | Negz n => if (n < size s)%N then (if ohead (drop (size s - n.+1) s) is Some x then Ok x else Err IndexError)
              else Err IndexError
  end.

(* activation_hessian.py 283-314 (store_activation.hook): what is appended *)
Definition hook_item (io : string) (idx : int) (ins : seq arg) (out : outval) : res arg :=
  let! _ := raise_if (String.eqb io "output" && (if out is OTens _ then true else false) && (idx != 0)) ValueError in
  if String.eqb io "input" then py_get ins idx
  else match out with
       | OTens n => Ok (ATens n)
       | OTuple s => py_get s idx
       | OOther e => Err e
       end.

(* torch.nn.Module.__call__ after forward: the module's hooks in order *)
Fixpoint run_hooks (hs : seq (nat * (nat * hook))) (m : nat) (ins : seq arg) (out : outval) (w : world) : world * res outval :=
  match hs with
  | [::] => (w, Ok out)
  | (_, (m', h)) :: hs' =>
      if m' == m then
        match h with
        | User f =>
            match f ins out with Ok out' => run_hooks hs' m ins out' w | Err e => (w, Err e) end
        | Store io idx d =>
            match hook_item io idx ins out with
            | Ok x => run_hooks hs' m ins out
                (World (w_hooks w) (w_next w) (set_nth [::] (w_lists w) d (rcons (nth [::] (w_lists w) d) x)))
            | Err e => (w, Err e)
            end
        end
      else run_hooks hs' m ins out w
  end.

(* execution of a forward pass, from the tape t *)
Fixpoint run (A : Type) (p : prog A) (w : world) (t : seq op) : world * seq op * res A :=
  match p with
  | Ret a => (w, t, Ok a)
  | Throw e => (w, t, Err e)
  | Compute o k => run (k (size t)) w (rcons t o)
  | Leave m ins out k => let '(w', r) := run_hooks (w_hooks w) m ins out w in run (k r) w' t
  end.

(* ---- store_activation ---- *)

(* The paths of all modules in the order of named_modules, a shared module once per
   path; Module.named_modules skips modules that were already listed. *)
Definition named_modules (paths : seq (string * nat)) : seq (string * nat) :=
  foldl (fun acc p => if p.2 \in [seq q.2 | q <- acc] then acc else rcons acc p) [::] paths.
(* Module.get_submodule *)
Definition get_submodule (paths : seq (string * nat)) (name : string) : res nat :=
  if ohead [seq p.2 | p <- paths & String.eqb p.1 name] is Some m then Ok m else Err AttributeError.

(* activation_hessian.py 213-258: the constructor's checks, in order; [dest] is the
   content of the destination *)
Definition store_init (paths : seq (string * nat)) (name io : string) (dest : seq arg) : res unit :=
  let! _ := raise_if (~~ has (fun p => String.eqb p.1 name) (named_modules paths)) ValueError in
  let! _ := raise_if (~~ (String.eqb io "input" || String.eqb io "output")) ValueError in
  raise_if (~~ nilp dest) ValueError.

(* handle = module.register_forward_hook(h); handle.remove() *)
Definition register (w : world) (m : nat) (h : hook) : world :=
  World (rcons (w_hooks w) (w_next w, (m, h))) (w_next w).+1 (w_lists w).
Definition remove_handle (w : world) (id : nat) : world :=
  World [seq p <- w_hooks w | p.1 != id] (w_next w) (w_lists w).

(* with store_activation(model, name, io, idx, dest): body
   (activation_hessian.py 213-281).  __exit__ runs whether the body raises or not
   and does not suppress exceptions.  The destination is list d of the world. *)
Definition with_store (T : Type) (w : world) (paths : seq (string * nat)) (name io : string) (idx : int) (d : nat)
    (body : world -> world * res T) : world * res T :=
  match store_init paths name io (nth [::] (w_lists w) d) with
  | Err e => (w, Err e)
  | Ok _ =>
    match get_submodule paths name with
    | Err e => (w, Err e)
    | Ok m =>
        let id := w_next w in
        let '(w', r) := body (register w m (Store io idx d)) in
        (remove_handle w' id, r)
    end
  end.

(* activation_storage = []  *)
Definition new_list (w : world) : world * nat := (World (w_hooks w) (w_next w) (rcons (w_lists w) [::]), size (w_lists w)).
(* activation_storage.pop() *)
Definition pop (w : world) (d : nat) : res arg :=
  if rev (nth [::] (w_lists w) d) is x :: _ then Ok x else Err IndexError.

(* ---- the operator ---- *)
Section Operator.
Variables (X Y : Type).
Variables (batch_size : X -> nat) (is_mapping : X -> bool).
Variable paths : seq (string * nat).           (* the model's modules *)
Variable model_func : X -> prog arg.           (* model_func(X) *)
Variable loss_func : arg -> Y -> prog arg.     (* loss_func(prediction, y) *)
Variable red : reduction.                      (* loss_func.reduction *)

(* activation_hessian.py 62 (parameter activation): module name, "input" or
   "output", and the position in the tuple *)
Definition activation := (string * string * int)%type.

(* activation_hessian.py 137-157: the shape of the activation in a forward pass of
   the first batch (devices are in Determinism.v) *)
Definition get_out_shape (w : world) (act : activation) (data : seq (X * Y)) : world * res (seq (seq nat)) :=
  match data with
  | [::] => (w, Err StopIteration)
  | b :: _ =>
      let '(w1, d) := new_list w in
      let '(w2, r) := with_store w1 paths act.1.1 act.1.2 act.2 d
        (fun w => let '(w', t, r) := run (model_func b.1) w [::] in (w', let! _ := r in Ok t)) in
      (w2, let! t := r in
           let! x := pop w2 d in
           if x is ATens a then Ok [:: shape_of t a] else Err AttributeError)
  end.

(* activation_hessian.py 167-201.  The objects a model can return and store that are
   no tensors make autograd raise TypeError. *)
Definition act_batch (w : world) (act : activation) (b : X * Y) (M : seq tens) : world * res (seq tens) :=
  let '(w1, d) := new_list w in
  let '(w2, r) := with_store w1 paths act.1.1 act.1.2 act.2 d
    (fun w =>
       let '(w', t, r) := run (model_func b.1) w [::] in
       match r with
       | Err e => (w', Err e)
       | Ok out => let '(w'', t', r') := run (loss_func out b.2) w' t in (w'', let! l := r' in Ok (t', l))
       end) in
  (w2, let! tl := r in
       let! x := pop w2 d in
       match tl.2, x with
       | ATens l, ATens a =>
           let! g := tape_grad tl.1 l a in
           column_loop (hvp (entries_of tl.1 a) [:: Param 0 (shape_of tl.1 a)] g) M
       | _, _ => Err TypeError
       end).

(* _torch_base.py 526-547 *)
Fixpoint act_loop (w : world) (act : activation) (N : nat) (data : seq (X * Y)) (M AM : seq tens) : world * res (seq tens) :=
  match data with
  | [::] => (w, Ok AM)
  | b :: data' =>
      match normalization_factor red (batch_size b.1) N with
      | Err e => (w, Err e)
      | Ok nf =>
          let '(w', r) := act_batch w act b M in
          match (let! BM := r in adds_alpha nf AM BM) with
          | Err e => (w', Err e)
          | Ok AM' => act_loop w' act N data' M AM'
          end
      end
  end.
Definition act_matmat (w : world) (act : activation) (N : nat) (data : seq (X * Y)) (M : seq tens) : world * res (seq tens) :=
  act_loop w act N data M [seq zeros_like m | m <- M].

(* an operator: what it needs for products *)
Record act_operator := ActOp { ao_act : activation; ao_N : nat; ao_shape : seq (seq nat) }.

(* activation_hessian.py 117-135 and _torch_base.py 459-491.  The class has no
   batch_size_fn argument, so mappings are always rejected.  Without the determinism
   check (Determinism.v). *)
Definition act_init (w : world) (act : activation) (data : seq (X * Y)) : world * res act_operator :=
  match data with
  | [::] => (w, Err StopIteration)
  | [:: b] =>
      if is_mapping b.1 then (w, Err ValueError)
      else let '(w', r) := get_out_shape w act data in
           (w', let! S := r in Ok (ActOp act (batch_size b.1) S))
  | _ => (w, Err ValueError)
  end.

(* A @ V (_torch_base.py 78-109 for an object with state) *)
Definition act_matmul (w : world) (A : act_operator) (data : seq (X * Y)) (V : pyval R) : world * res (pyval R) :=
  let S := ao_shape A in
  match check_input_and_preprocess (LinOp S S (fun M => Ok M)) V with
  | Err e => (w, Err e)
  | Ok q =>
      let '(w', r) := act_matmat w (ao_act A) (ao_N A) data q.1.1.1 in
      (w', let! AX := r in check_output_and_postprocess (LinOp S S (fun M => Ok M)) AX q.1.1.2 q.1.2 q.2)
  end.
End Operator.
