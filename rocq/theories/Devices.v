(* Where tensors live: _infer_device/_infer_dtype, to_device of the operators and
   the devices seen by products, inverse KFAC operators, SciPy exports and loaded
   states.  Contents of tensors are opaque (V); moving a tensor keeps them.  PyTorch
   raises RuntimeError for operations on tensors of different devices. *)
From mathcomp Require Import all_ssreflect.
From Verif Require Import PyPrelude Kfac.
Set Implicit Arguments. Unset Strict Implicit. Unset Printing Implicit Defensive.

(* _torch_base.py 841-853 (devices) and 855-867 (data types): the set of values
   must have exactly one element *)
Definition infer_unique (T : eqType) (s : seq T) : res T :=
  match undup s with [:: x] => Ok x | _ => Err RuntimeError end.

(* torch.device; the number 0 is the CPU *)
Definition dev := nat.
Definition cpu : dev := 0.

Section Devices.
Variable V : Type.
(* a tensor: its device and its contents (_torch_base.py 841-853 reads .device) *)
Record tens := Tens { t_dev : dev; t_val : V }.
Variable v0 : V.
Local Notation t0 := (Tens cpu v0).

(* A model: a torch.nn.Module with its parameters, or another callable with the
   tensors its body refers to.  Tensors are objects, identified by a number. *)
Record model := Model { m_module : bool; m_refs : seq nat }.
(* An operator: its model, _device, _params and, for KFAC, the place of its factor
   dictionaries.  (The loss function has no tensors.) *)
Record cop := Cop { c_model : nat; c_dev : dev; c_params : seq nat; c_facs : option nat }.
(* A KFACInverseLinearOperator: the operator A, cache=..., and the cached inverses *)
Record inv := Inv { i_A : nat; i_keep : bool; i_cache : option tens }.
Inductive target := TOp of nat | TInv of nat.
(* to_scipy(): the operator and the device stored in the closure *)
Record exported := Exported { e_target : target; e_dev : dev }.
Record world := World {
  w_heap : seq tens; w_models : seq model; w_facs : seq (option tens);
  w_ops : seq cop; w_invs : seq inv; w_exps : seq exported }.

(* values of products, as functions of the contents: of a curvature matrix of
   operator i (model parameters, which of them it differentiates, matrix); KFAC's
   factors and products; inverses and their products.  All factors of an operator
   are computed and moved together; one tensor stands for all of them. *)
Variable curv : nat -> seq V -> seq nat -> V -> V.
Variable factors : nat -> seq V -> seq nat -> V.
Variable kprod : V -> V -> V.
Variable invert : V -> V.
Variable iprod : V -> V -> V.

(* the tensor object p *)
Definition tens_at (h : seq tens) (p : nat) : tens := nth t0 h p.
(* p.to(d): the same object if it is on the device, else a new one *)
Definition tensor_to (d : dev) (h : seq tens) (p : nat) : nat * seq tens :=
  if t_dev (tens_at h p) == d then (p, h) else (size h, rcons h (Tens d (t_val (tens_at h p)))).
Fixpoint tensors_to (d : dev) (h : seq tens) (ps : seq nat) : seq nat * seq tens :=
  match ps with
  | [::] => ([::], h)
  | p :: ps' =>
      let '(q, h1) := tensor_to d h p in
      let '(qs, h2) := tensors_to d h1 ps' in (q :: qs, h2)
  end.
(* module.to(d): in place *)
Definition module_to (d : dev) (h : seq tens) (refs : seq nat) : seq tens :=
  mkseq (fun i => if i \in refs then Tens d (t_val (tens_at h i)) else tens_at h i) (size h).

(* assignment to attributes of operator i and to its factor dictionaries
   (kfac.py 323-333, 399-440) *)
Definition upd_op (w : world) (i : nat) (o : cop) : world :=
  World (w_heap w) (w_models w) (w_facs w) (set_nth o (w_ops w) i o) (w_invs w) (w_exps w).
Definition set_facs (w : world) (l : nat) (f : option tens) : world :=
  World (w_heap w) (w_models w) (set_nth None (w_facs w) l f) (w_ops w) (w_invs w) (w_exps w).
Definition get_facs (w : world) (l : nat) : option tens := nth None (w_facs w) l.

(* _torch_base.py 678-691; kfac.py 323-333 *)
Definition to_device (w : world) (i : nat) (d : dev) : world * res unit :=
  match lget (w_ops w) i with
  | Err e => (w, Err e)
  | Ok o =>
      match lget (w_models w) (c_model o) with
      | Err e => (w, Err e)
      | Ok m =>
          let h := if m_module m then module_to d (w_heap w) (m_refs m) else w_heap w in
          let '(ps, h') := tensors_to d h (c_params o) in
          let w1 := World h' (w_models w) (w_facs w) (set_nth o (w_ops w) i (Cop (c_model o) d ps (c_facs o)))
                          (w_invs w) (w_exps w) in
          (match c_facs o with
           | Some l => if get_facs w l is Some f then set_facs w1 l (Some (Tens d (t_val f))) else w1
           | None => w1
           end, Ok tt)
      end
  end.

(* a loop over the data, e.g. _torch_base.py 568-596 and 526-547: X and y are
   loaded to _device, the model is called, and its output differentiated w.r.t. the
   operator's parameters.  Returns the contents of the model's tensors and the
   positions of the parameters. *)
Definition differentiate (w : world) (o : cop) : res (seq V * seq nat) :=
  let! m := lget (w_models w) (c_model o) in
  let! _ := raise_if (~~ all (fun r => t_dev (tens_at (w_heap w) r) == c_dev o) (m_refs m)) RuntimeError in
  let! _ := raise_if (~~ all (fun p => p \in m_refs m) (c_params o)) RuntimeError in   (* not in the graph *)
  Ok ([seq t_val (tens_at (w_heap w) r) | r <- m_refs m], [seq index p (m_refs m) | p <- c_params o]).

(* kfac.py 355-356 and 399-440: computed factors are on _device *)
Definition ensure_factors (w : world) (i : nat) (o : cop) (l : nat) : world * res tens :=
  match get_facs w l with
  | Some f => (w, Ok f)
  | None =>
      match differentiate w o with
      | Err e => (w, Err e)
      | Ok (vs, ps) => let f := Tens (c_dev o) (factors i vs ps) in (set_facs w l (Some f), Ok f)
      end
  end.

(* operator i @ M: _torch_base.py 526-547 and the other classes' _matmat;
   kfac.py 335-397 *)
Definition mul (w : world) (i : nat) (M : tens) : world * res tens :=
  match lget (w_ops w) i with
  | Err e => (w, Err e)
  | Ok o =>
      match c_facs o with
      | None =>
          (w, let! vp := differentiate w o in
              if t_dev M == c_dev o then Ok (Tens (c_dev o) (curv i vp.1 vp.2 (t_val M))) else Err RuntimeError)
      | Some l =>
          match ensure_factors w i o l with
          | (w', Err e) => (w', Err e)
          | (w', Ok f) => (w', if t_dev M == t_dev f then Ok (Tens (t_dev f) (kprod (t_val f) (t_val M))) else Err RuntimeError)
          end
      end
  end.

(* inverse.py 305-366, for an operator A that is a KFACLinearOperator *)
Definition new_inverse (w : world) (i : nat) (keep : bool) : world * res unit :=
  match lget (w_ops w) i with
  | Err e => (w, Err e)
  | Ok o => if c_facs o is None then (w, Err ValueError) else
      (World (w_heap w) (w_models w) (w_facs w) (w_ops w) (rcons (w_invs w) (Inv i keep None)) (w_exps w), Ok tt)
  end.
Definition upd_inv (w : world) (j : nat) (v : inv) : world :=
  World (w_heap w) (w_models w) (w_facs w) (w_ops w) (set_nth v (w_invs w) j v) (w_exps w).
(* inverse.py 492-518, 620-663 *)
Definition mul_inv (w : world) (j : nat) (M : tens) : world * res tens :=
  match lget (w_invs w) j with
  | Err e => (w, Err e)
  | Ok v =>
      match lget (w_ops w) (i_A v) with
      | Err e => (w, Err e)
      | Ok o =>
          match c_facs o with
          | None => (w, Err ValueError)
          | Some l =>
              match ensure_factors w (i_A v) o l with
              | (w1, Err e) => (w1, Err e)
              | (w1, Ok f) =>
                  let g := if i_cache v is Some g then g else Tens (t_dev f) (invert (t_val f)) in
                  (if i_keep v then upd_inv w1 j (Inv (i_A v) true (Some g)) else w1,
                   if t_dev M == t_dev g then Ok (Tens (t_dev g) (iprod (t_val g) (t_val M))) else Err RuntimeError)
              end
          end
      end
  end.

(* the operator whose parameters decide the device: inverse.py 361 *)
Definition owner (w : world) (t : target) : res cop :=
  match t with TOp i => lget (w_ops w) i | TInv j => let! v := lget (w_invs w) j in lget (w_ops w) (i_A v) end.
(* _torch_base.py 300-326 *)
Definition export (w : world) (t : target) : world * res unit :=
  match (let! o := owner w t in infer_unique [seq t_dev (tens_at (w_heap w) p) | p <- c_params o]) with
  | Err e => (w, Err e)
  | Ok d => (World (w_heap w) (w_models w) (w_facs w) (w_ops w) (w_invs w) (rcons (w_exps w) (Exported t d)), Ok tt)
  end.
(* _torch_base.py 365-382: NumPy arrays are loaded to the stored device *)
Definition mul_export (w : world) (k : nat) (x : V) : world * res V :=
  match lget (w_exps w) k with
  | Err e => (w, Err e)
  | Ok ex =>
      let '(w', r) := match e_target ex with TOp i => mul w i (Tens (e_dev ex) x) | TInv j => mul_inv w j (Tens (e_dev ex) x) end in
      (w', let! y := r in Ok (t_val y))
  end.

(* the end of the constructors: _torch_base.py 480-508; kfac.py 259-281.  [x]: the
   contents of the random vector of the determinism check; of the check only the
   product is modelled (Determinism.v has the rest).  An object whose constructor
   raised is not part of the result. *)
Definition construct (w : world) (m : nat) (ps : seq nat) (kfac check : bool) (x : V) : world * res unit :=
  match infer_unique [seq t_dev (tens_at (w_heap w) p) | p <- ps] with
  | Err e => (w, Err e)
  | Ok d =>
      let i := size (w_ops w) in
      let w1 := World (w_heap w) (w_models w) (if kfac then rcons (w_facs w) None else w_facs w)
                  (rcons (w_ops w) (Cop m d ps (if kfac then Some (size (w_facs w)) else None))) (w_invs w) (w_exps w) in
      if check then
        let w2 := (to_device w1 i cpu).1 in
        let '(w3, r) := mul w2 i (Tens cpu x) in
        let w4 := (to_device w3 i d).1 in
        match r with
        | Err e => (World (w_heap w4) (w_models w4) (w_facs w4) (take i (w_ops w4)) (w_invs w4) (w_exps w4), Err e)
        | Ok _ => (w4, Ok tt)
        end
      else (w1, Ok tt)
  end.

(* kfac.py 965-1027 with the state of operator j: the parameters' contents are
   copied, the dictionaries taken over as they are *)
Definition load_from (w : world) (i j : nat) : world * res unit :=
  match (let! o := lget (w_ops w) i in let! o' := lget (w_ops w) j in
         let! m := lget (w_models w) (c_model o) in let! m' := lget (w_models w) (c_model o') in Ok (o, o', m, m')) with
  | Err e => (w, Err e)
  | Ok (o, o', m, m') =>
      if (c_facs o, c_facs o') is (Some _, Some l') then
        if size (m_refs m) != size (m_refs m') then (w, Err RuntimeError) else
        let h := mkseq (fun r => let t := tens_at (w_heap w) r in
                   if r \in m_refs m then Tens (t_dev t) (t_val (tens_at (w_heap w) (nth 0 (m_refs m') (index r (m_refs m))))) else t)
                   (size (w_heap w)) in
        (World h (w_models w) (w_facs w) (set_nth o (w_ops w) i (Cop (c_model o) (c_dev o) (c_params o) (Some l')))
               (w_invs w) (w_exps w), Ok tt)
      else (w, Err AttributeError)
  end.

(* what a user can do, in any order: construct an operator, to_device, product,
   construct an inverse, its product, to_scipy, its product, load_state_dict *)
Inductive action :=
  | ANew of nat & seq nat & bool & bool & V
  | AMove of nat & dev
  | AMul of nat & tens
  | AInv of nat & bool
  | AMulInv of nat & tens
  | AExport of target
  | AMulExport of nat & V
  | ALoad of nat & nat.
Definition step (w : world) (a : action) : world :=
  match a with
  | ANew m ps kfac check x => (construct w m ps kfac check x).1
  | AMove i d => (to_device w i d).1
  | AMul i M => (mul w i M).1
  | AInv i keep => (new_inverse w i keep).1
  | AMulInv j M => (mul_inv w j M).1
  | AExport t => (export w t).1
  | AMulExport k x => (mul_export w k x).1
  | ALoad i j => (load_from w i j).1
  end.
Definition run (w : world) (acts : seq action) : world := foldl step w acts.
End Devices.
