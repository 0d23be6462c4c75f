(* Model of loss_hessian_matrix_sqrt: /repo/curvlinops/kfac_utils.py 15-141.
   Reals are exact; sqrt, exp are the standard library's. *)
From Coq Require Import Reals.
From Coquelicot Require Import Coquelicot.
From mathcomp Require Import all_ssreflect all_algebra.
From Verif Require Import PyPrelude Tensor Spec TorchBase Submatrix RInst Calculus Curvature Losses Fisher.
Set Implicit Arguments.
Unset Strict Implicit.
Unset Printing Implicit Defensive.
Import GRing.Theory.
Local Open Scope ring_scope.

Local Notation tens := (tensor R).

(* {"sum": 1.0, "mean": 1.0 / output_dim}[reduction]: both values are computed
   before the lookup (kfac_utils.py 116 and 136) *)
Definition c_factor (red : reduction) (C : nat) : res R :=
  let! m := py_div 1 C%:R in
  match red with RSum => Ok 1 | RMean => Ok m | ROther => Err KeyError end.

(* a C x C tensor by its entries *)
Definition mk2 (C : nat) (f : nat -> nat -> R) : tens :=
  Tensor [:: C; C] (mkseq (fun e => f (e %/ C) (e %% C))%N (C * C)).

(* set(y.unique().flatten().tolist()).issubset({0, 1}) *)
Definition binary (y : seq R) : bool := all (fun v => (v == 0) || (v == 1)) y.

(* output_one_datum: [o]; target_one_datum: its shape and, as numbers, its entries.
   For cross-entropy, softmax(..).squeeze() of a [1, 1] tensor is 0d, which diag
   refuses. *)
Definition loss_hessian_matrix_sqrt (k : loss_kind) (red : reduction) (o : tens) (yshape : seq nat) (y : seq R) : res tens :=
  match tshape o with
  | [:: 1%N; C] =>
      match yshape with
      | [::] => Err IndexError
      | n :: _ =>
          if n != 1%N then Err ValueError else
          match k with
          | LMSE => let! c := c_factor red C in
                    Ok (mk2 C (fun i j => (i == j)%:R * sqrt (2 * c)))
          | LCE =>
              if C == 1%N then Err RuntimeError else
              let p := softmax C (nth 0 (tdata o)) in
              Ok (mk2 C (fun i j => ((i == j)%:R * sqrt (p i) - p i * sqrt (p j)) * sqrt 1))
          | LBCE =>
              if ~~ binary y then Err NotImplementedError else
              let! c := c_factor red C in
              let p i := sigmoid (nth 0 (tdata o) i) in
              Ok (mk2 C (fun i j => (i == j)%:R * (sqrt c * sqrt (p i * (1 - p i)))))
          end
      end
  | _ => Err ValueError
  end.
