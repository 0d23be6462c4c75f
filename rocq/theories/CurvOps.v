(* Constructors of the curvature-matrix operators that loop over a data loader:
   /repo/curvlinops/_torch_base.py 404-508 with hessian.py, ggn.py,
   gradient_moments.py and fisher.py 112-183. *)
From Coq Require Import Reals.
From Coquelicot Require Import Coquelicot.
From mathcomp Require Import all_ssreflect all_algebra.
From Verif Require Import PyPrelude Tensor Spec TorchBase Submatrix RInst Calculus Curvature HessGGN Risk Losses Fisher FisherMC.
From Verif Require Export OpSpec.
Set Implicit Arguments.
Unset Strict Implicit.
Unset Printing Implicit Defensive.
Import GRing.Theory.
Local Open Scope ring_scope.

(* _torch_base.py 404-508, without the determinism check (check_deterministic =
   False; see Determinism.v).  [mm bs] is the class's matrix-multiplication code
   with the accepted block sizes. *)
Definition curvature_init (A : Type) (supports_blocks : bool) (loader : seq A) (S : seq (seq nat))
    (block_sizes : option (seq int)) (mm : seq int -> seq (tensor R) -> res (seq (tensor R))) : res (linop R) :=
  let! _ := raise_if (nilp loader) StopIteration in           (* next(iter(data)) *)
  let! bs := check_block_sizes supports_blocks (size S) block_sizes in
  Ok (LinOp S S (mm bs)).

Section Ops.
Variables (X Y : Type) (O : nat) (net : X -> point -> seq R) (lossd : seq R -> Y -> R).
Local Notation batch := (seq (X * Y)).

(* HessianLinearOperator: SUPPORTS_BLOCKS = True (hessian.py 43) *)
Definition hessian_operator red num_data (loader : seq batch) S block_sizes th : res (linop R) :=
  curvature_init true loader S block_sizes (fun bs => hessian_matmat O net lossd red num_data loader S bs th).

(* GGNLinearOperator: no blocks *)
Definition ggn_operator red num_data (loader : seq batch) S block_sizes th : res (linop R) :=
  curvature_init false loader S block_sizes (fun _ => ggn_matmat O net lossd red num_data loader S th).
End Ops.

(* EFLinearOperator: gradient_moments.py 50-112 (None: a loss that is not
   supported) *)
Definition ef_operator (X Y : Type) T C (kind : option loss_kind) (net : X -> point -> seq R)
    (tgt : Y -> nat -> target) red num_data (loader : seq (seq (X * Y))) S th : res (linop R) :=
  match kind with
  | None => Err NotImplementedError
  | Some k => curvature_init false loader S None
      (fun _ => ef_matmat T C k net tgt (torch_row k C) red num_data loader S th)
  end.

Lemma same_block_one (S : seq (seq nat)) i j : (i < total S)%N -> (j < total S)%N ->
  same_block (block_dims [:: size S] S) i j.
Proof. by move=> hi hj; rewrite /block_dims /= take_size hi. Qed.

