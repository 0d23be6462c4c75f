(* Workflows of the documentation: natural gradients (docs/examples/basic_usage/
   example_inverses.py 79-126) and Fisher-weighted averaging of models
   (docs/examples/basic_usage/example_model_merging.py 131-196). *)
From mathcomp Require Import all_ssreflect all_algebra.
From Verif Require Import PyPrelude Tensor Numpy Inverse Cg Props_Cg Props_CgGgn.
Set Implicit Arguments.
Unset Strict Implicit.
Unset Printing Implicit Defensive.
Import GRing.Theory.
Local Open Scope ring_scope.

Section Workflow.
Variable R : realFieldType.
Local Notation arr := (tensor R).
Variables (objs : nat -> arr) (precs : nat -> scipy_op R)
  (zero_division : arr -> arr -> arr -> res (arr * nat)) (strict : bool).
Local Notation event := (solver_event R (cg_dict (option pyobj))).

(* aslinearoperator(delta * sparse.eye(dim)): example_inverses.py 86, example_model_merging.py 175-178 *)
Definition damping_op (dim : nat) (delta : R) : scipy_op R := diag_op (nseq dim delta).

(* example_inverses.py 88, 95 and 116: the inverse of GGN + damping, multiplied onto the
   gradient; h: calls of set_cg_hyperparameters and products before *)
Definition natural_gradient (GGN : scipy_op R) (delta : R) (h : seq event) (gradient : arr) : res arr :=
  let! damped := sp_sum GGN (damping_op (sp_rows GGN) delta) in
  sp_dot (cg_inverse objs precs zero_division strict damped h) gradient.

(* example_model_merging.py 164: sum(fisher @ theta for ...), from the left; Python's sum
   starts with the integer 0 (None: nothing to add, the result stays 0), and 0 + array is
   the array *)
Definition weighted_sum (fishers : seq (scipy_op R)) (thetas : seq arr) : res (option arr) :=
  let! ps := mapM (fun p : scipy_op R * arr => sp_dot p.1 p.2) (zip fishers thetas) in
  match ps with [::] => Ok None | p :: ps' => let! s := foldM (ew +%R) p ps' in Ok (Some s) end.

(* example_model_merging.py 164-196; fishers[0] fails without tasks, and SciPy's @ rejects
   the integer 0 *)
Definition merge (fishers : seq (scipy_op R)) (thetas : seq arr) (damping : R) (h : seq event) : res arr :=
  let! rhs := weighted_sum fishers thetas in
  match fishers with
  | [::] => Err IndexError
  | F0 :: _ =>
      let! fisher_sum := foldM (@sp_sum R) (damping_op (sp_rows F0) damping) fishers in
      match rhs with
      | None => Err ValueError
      | Some b => sp_dot (cg_inverse objs precs zero_division strict fisher_sum h) b
      end
  end.
End Workflow.
