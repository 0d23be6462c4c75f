(* Model of KFACLinearOperator's constructor and from_state_dict with
   check_deterministic=True (the default): /repo/curvlinops/kfac.py 273-281 and
   1080-1091, /repo/curvlinops/_torch_base.py 693-762 and 819-835.  The check first
   loops over the data twice and then multiplies twice with a random vector; the
   first of these products computes the Kronecker factors, which stay.
   Simplified: moving the operator to the CPU and back changes no value (C28, C77,
   C78 have the devices).  The hooks that fire while the two loops run are
   collected before the loops are compared. *)
From Coq Require Import Reals String ZArith.
From Coquelicot Require Import Coquelicot.
From mathcomp Require Import all_ssreflect all_algebra.
From Verif Require Import PyPrelude Tensor Spec RInst ROrd Calculus Curvature HessGGN Risk Losses Fisher Kfac KfacScalar Conv KfacCov KfacState Determinism.
Set Implicit Arguments.
Unset Strict Implicit.
Unset Printing Implicit Defensive.
Import GRing.Theory.
Local Open Scope ring_scope.
Local Notation tens := (tensor R).

Section Checked.
Variable Theta : Type.
Variable arch : Theta -> nat.
Variable partial_load : Theta -> Theta -> Theta.
Variable passes : kop -> Theta -> nat -> seq (res firing).
Variable mconv : nat -> nat -> option conv.
Local Notation world := (world Theta).

(* what the two loops over the data see (data_prediction_loss_gradient,
   _torch_base.py 618-648), as functions of the operator, the parameters and the
   number of factor computations before *)
Variable shapes : kop -> seq (seq nat).                             (* the parameters' shapes *)
Variables pass1 pass2 : kop -> Theta -> nat -> seq (res (item R_realFieldType)).
Variable fired : kop -> Theta -> nat -> seq firing.                 (* forward and backward passes of these loops *)
Variable vec : kop -> nat -> seq tens.                              (* rand(...) split into parameters, one column *)

(* The loops of the check install no hooks; hooks that are on the model fire.  An
   assignment of a gradient factor (FSet) is no effect of a hook. *)
Fixpoint run_check (w : world) (hs : seq nat) (fs : seq firing) : world * res unit :=
  match fs with
  | [::] => (w, Ok tt)
  | f :: fs' => match run_hooks mconv w f hs with
                | (w', Err e) => (w', Err e)
                | (w', Ok _) => run_check w' hs fs'
                end
  end.

(* self @ v, flattened (_torch_base.py 831-833) *)
Definition column (Y : seq tens) : tensor (option R) := Tensor [:: size (flat Y)] [seq Some x | x <- flat Y].
Definition probe (w : world) (i : nat) (v : seq tens) : world * res (tensor (option R)) :=
  match matmat passes mconv w i v with
  | (w', Err e) => (w', Err e)
  | (w', Ok Y) => (w', Ok (column Y))
  end.

(* _check_deterministic: _torch_base.py 714-762 (KFAC does not demand a fixed data
   order: FIXED_DATA_ORDER = False, line 402), then 819-835 *)
Definition check (w : world) (i : nat) : world * res unit :=
  match getn (w_ops w) i with
  | Err e => (w, Err e)
  | Ok o =>
      match getn (w_models w) (o_model o) with
      | Err e => (w, Err e)
      | Ok m =>
          let t := w_tick w in
          match run_check w (m_hooks m) (fired o (m_theta m) t) with
          | (w1, Err e) => (w1, Err e)
          | (w1, Ok _) =>
              match check_passes true false (shapes o) (pass1 o (m_theta m) t) (pass2 o (m_theta m) t) with
              | Err e => (w1, Err e)
              | Ok _ =>
                  match probe w1 i (vec o t) with
                  | (w2, Err e) => (w2, Err e)
                  | (w2, Ok y1) =>
                      match probe w2 i (vec o t) with
                      | (w3, Err e) => (w3, Err e)
                      | (w3, Ok y2) => (w3, expect_close y1 y2)
                      end
                  end
              end
          end
      end
  end.

(* KFACLinearOperator(..., check_deterministic=b): kfac.py 130-281.  The object of a
   constructor that raises stays in w_ops: hooks may refer to it. *)
Definition construct_checked (b : bool) (w : world) (m : nat) (lo : loss_obj) (ids : seq nat) (mods : seq module)
    (s : settings) : world * res unit :=
  match construct w m lo ids mods s with
  | (w', Err e) => (w', Err e)
  | (w', Ok _) => if b then check w' (size (w_ops w)) else (w', Ok tt)
  end.

(* KFACLinearOperator.from_state_dict(..., check_deterministic=b): kfac.py 1029-1093.
   The constructor inside is called without the check. *)
Definition from_checked (b : bool) (w : world) (s : saved) (m : nat) (ids : seq nat) (mods : seq module) : world * res unit :=
  match from_state_dict arch partial_load w s m ids mods with
  | (w', Err e) => (w', Err e)
  | (w', Ok _) => if b then check w' (size (w_ops w)) else (w', Ok tt)
  end.
End Checked.
