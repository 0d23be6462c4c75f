(* C01-C04: the matrix-product interface of every operator. *)
From mathcomp Require Import all_ssreflect all_algebra.
From Verif Require Import PyPrelude Tensor Spec TorchBase.
Set Implicit Arguments.
Unset Strict Implicit.
Unset Printing Implicit Defensive.

(* An operator from the space [2,2]x[3] (N = 7) to [2] (M = 2) used in the
   examples below: multiplication with the matrix M i j = i + j. *)
Definition exM (i j : nat) : int := (i + j)%:Z%R.
Definition exin := [:: [:: 2; 2]; [:: 3]].
Definition exout := [:: [:: 2]].
Definition exA : linop int_Ring := @LinOp int_Ring exin exout (dense_matmat exM exin exout).
Definition ex_tvec : pyval int := VTensor (Tensor [:: 7] [:: 1; 0; 2; 0; 0; 3; 1]%Z).
Definition ex_lmat : pyval int :=
  VList [:: Tensor [:: 2; 2; 2] [:: 1; 0; 2; 0; 0; 3; 1; 1]%Z; Tensor [:: 3; 2] [:: 1; 1; 2; 2; 3; 3]%Z].

(* C01: every input in a documented format is passed on (as a valid list matrix
   with the same content) to the operator's own multiplication code ... *)
Theorem C01_documented_inputs_are_multiplied T inS outS l cols (X : pyval T) :
  inS <> [::] -> has_format inS l cols X ->
  exists Xl, [/\ valid_mat inS (ncols cols) Xl, flat Xl = content X &
    forall mm e, mm Xl = Err e -> op_matmul (LinOp inS outS mm) X = Err e].
Proof. exact: matmul_accepts. Qed.
Print Assumptions C01_documented_inputs_are_multiplied.

Example C01_ex1 : has_format exin false None ex_tvec /\ has_format exin true (Some 2) ex_lmat.
Proof. by []. Qed.

(* ... a well-formed input is documented iff it has one of the formats ... *)
Theorem C01_formats T inS (X : pyval T) :
  (wf_val X /\ documented_format inS X) <-> exists l cols, has_format inS l cols X.
Proof.
split=> [[h1 h2]|[l [cols h]]]; [exact: documented_has_format | exact: has_format_documented h].
Qed.
Print Assumptions C01_formats.

(* ... anything else is a ValueError whatever the multiplication code would do
   (so it is not run); a zero-dimensional tensor is an IndexError ... *)
Theorem C01_other_inputs_are_rejected T inS outS mm (X : pyval T) :
  ~ documented_format inS X ->
  op_matmul (LinOp inS outS mm) X =
    Err (if X is VTensor (Tensor [::] _) then IndexError else ValueError).
Proof.
case: X => [[[|n s] d]|ts||] h; try exact: matmul_rejects.
exact: matmul_zero_dim.
Qed.
Print Assumptions C01_other_inputs_are_rejected.

Example C01_ex2 : ~ documented_format exin (VTensor (Tensor [:: 2; 7] [::]) : pyval int) /\
  ~ documented_format exin (VList [:: Tensor [:: 2; 2] [::]; Tensor [:: 3; 1] [::]] : pyval int).
Proof. by split=> /= -[|[K]] // [] _. Qed.

(* ... and no input is both a vector and a matrix, or has two column counts. *)
Theorem C01_formats_exclusive T inS l cols cols' (X : pyval T) : inS <> [::] ->
  has_format inS l cols X -> has_format inS l cols' X -> cols = cols'.
Proof. exact: format_exclusive. Qed.
Print Assumptions C01_formats_exclusive.

(* C02: the result mirrors the argument's format; its content is the content of
   what the multiplication code computed from the argument's content. *)
Theorem C02_result_format T (A : linop T) l cols (X Y : pyval T) :
  in_shape A <> [::] -> out_shape A <> [::] ->
  (forall Xl AX, valid_mat (in_shape A) (ncols cols) Xl -> matmat A Xl = Ok AX -> all (@wf T) AX) ->
  has_format (in_shape A) l cols X -> op_matmul A X = Ok Y ->
  has_format (out_shape A) l cols Y /\
  exists Xl AX, [/\ valid_mat (in_shape A) (ncols cols) Xl, flat Xl = content X,
     matmat A Xl = Ok AX, valid_mat (out_shape A) (ncols cols) AX & content Y = flat AX].
Proof. exact: matmul_ok_inv. Qed.
Print Assumptions C02_result_format.

Example C02_ex : op_matmul exA ex_tvec = Ok (VTensor (Tensor [:: 2] [:: 25; 32]%Z)) /\
  op_matmul exA ex_lmat = Ok (VList [:: Tensor [:: 2; 2] [:: 37; 41; 47; 51]%Z]).
Proof. by split; vm_compute. Qed.

(* C03: one and the same matrix in every format. *)
Theorem C03_formats_agree (R : ringType) (A : linop R) k0 M l cols (X : pyval R) :
  in_shape A <> [::] -> out_shape A <> [::] ->
  multiplies k0 (matmat A) (in_shape A) (out_shape A) M ->
  has_format (in_shape A) l cols X -> k0 <= ncols cols ->
  exists Y, [/\ op_matmul A X = Ok Y, has_format (out_shape A) l cols Y &
    is_product M (total (out_shape A)) (total (in_shape A)) (ncols cols) (content X) (content Y)].
Proof. exact: matmul_product. Qed.
Print Assumptions C03_formats_agree.

Example C03_ex : multiplies 0 (matmat exA) (in_shape exA) (out_shape exA) exM.
Proof. exact: dense_multiplies. Qed.

(* C04: wrong number of tensors or wrong shapes from a subclass: ValueError. *)
Theorem C04_bad_output_rejected T (A : linop T) l cols (X : pyval T) : in_shape A <> [::] ->
  has_format (in_shape A) l cols X ->
  (forall Xl, valid_mat (in_shape A) (ncols cols) Xl -> exists2 AX, matmat A Xl = Ok AX &
     map (@tshape T) AX <> [seq rcons s (ncols cols) | s <- out_shape A]) ->
  op_matmul A X = Err ValueError.
Proof. exact: matmul_bad_output. Qed.
Print Assumptions C04_bad_output_rejected.

Example C04_ex : op_matmul (LinOp exin exout (fun X => Ok X)) ex_lmat = Err ValueError.
Proof. by []. Qed.
