(* Model of KFACInverseLinearOperator as an object: construction, cached inverses,
   saving and loading, /repo/curvlinops/inverse.py 305-377, 620-728, on top of the
   KFAC operators of KfacState.v.

   The two dictionaries of inverses of an operator are created, saved and loaded
   together: one location of a heap holds both.  Simplified: all factors have the
   same precision [dbl]. *)
From Coq Require Import Reals String ZArith.
From Coquelicot Require Import Coquelicot.
From mathcomp Require Import all_ssreflect all_algebra.
From Verif Require Import PyPrelude Tensor Spec RInst ROrd Calculus Curvature HessGGN Risk Losses Fisher Kfac KfacScalar Conv KfacCov KfacState KfacInverse.
Set Implicit Arguments.
Unset Strict Implicit.
Unset Printing Implicit Defensive.
Import GRing.Theory.
Local Open Scope ring_scope.
Local Notation tens := (tensor R).
Local Notation RF := R_rcfType.

Section Object.
Variables (Theta : Type) (arch : Theta -> nat) (partial_load : Theta -> Theta -> Theta).
Variables (passes : kop -> Theta -> nat -> seq (res firing)) (mconv : nat -> nat -> option conv).
Variables (chol : bool -> tens -> res tens) (chol_nonfinite : bool -> tens -> ext RF -> res tens).
Variables (cholesky_inverse : tens -> res tens) (eigh : tens -> res (tens * tens)).
Variable dbl : bool.

(* an inverse operator: the KFAC operator it holds, settings, its dictionaries *)
Record iop := IOp { v_A : nat; v_set : iset RF; v_loc : nat }.
(* state_dict(): the state of the KFAC operator, settings, the operator's own
   dictionaries *)
Record isaved := ISaved { is_A : saved; is_set : iset RF; is_loc : nat }.
Record iworld := IWorld { iw_k : world Theta; iw_caches : seq (icache RF); iw_invs : seq iop; iw_saved : seq isaved }.
Definition no_inverses : icache RF := ([::], [::]).

(* an action on a KFAC operator leaves the inverse operators as they are *)
Definition with_k (w : iworld) (k : world Theta) : iworld := IWorld k (iw_caches w) (iw_invs w) (iw_saved w).

(* inverse.py 305-377 for a KFAC operator *)
Definition iconstruct (w : iworld) (i : nat) (s : iset RF) : iworld * res unit :=
  match (let! _ := getn (w_ops (iw_k w)) i in inverse_checks true s) with
  | Err e => (w, Err e)
  | Ok _ => (IWorld (iw_k w) (rcons (iw_caches w) no_inverses) (rcons (iw_invs w) (IOp i s (size (iw_caches w)))) (iw_saved w), Ok tt)
  end.

(* inverse.py 620-663: what happens along the way, the list X afterwards, outcome *)
Definition imatmat (w : iworld) (v : nat) (X : seq tens) : iworld * seq event * lst RF :=
  match getn (iw_invs w) v with
  | Err e => (w, [::], (X, Err e))
  | Ok o =>
      match ensure passes mconv (iw_k w) (v_A o) with
      | (k, Err e) => (with_k w k, [::], (X, Err e))
      | (k, Ok _) =>
          match getn (w_ops k) (v_A o) with
          | Err e => (with_k w k, [::], (X, Err e))
          | Ok a =>
              let d := get_dicts k (o_dicts a) in
              let '(c, ev, r) := inverse_matmat chol chol_nonfinite cholesky_inverse eigh (v_set o) dbl (s_sep (o_set a)) d.1 d.2
                                   (o_mapping a) (nth no_inverses (iw_caches w) (v_loc o)) X in
              (IWorld k (set_nth no_inverses (iw_caches w) (v_loc o) c) (iw_invs w) (iw_saved w), ev, r)
          end
      end
  end.

(* inverse.py 665-683 *)
Definition istate_dict (w : iworld) (v : nat) : res isaved :=
  let! o := getn (iw_invs w) v in
  let! a := getn (w_ops (iw_k w)) (v_A o) in
  let! s := state_dict a in
  Ok (ISaved s (v_set o) (v_loc o)).

(* inverse.py 685-703: an exception from the KFAC operator's load_state_dict leaves
   the inverse operator as it was *)
Definition iload (w : iworld) (v : nat) (s : isaved) : iworld * res unit :=
  match getn (iw_invs w) v with
  | Err e => (w, Err e)
  | Ok o =>
      match load arch partial_load (iw_k w) (v_A o) (is_A s) with
      | (k, Err e) => (with_k w k, Err e)
      | (k, Ok _) =>
          let o' := IOp (v_A o) (is_set s) (is_loc s) in
          (IWorld k (iw_caches w) (set_nth o' (iw_invs w) v o') (iw_saved w), Ok tt)
      end
  end.

(* inverse.py 705-728 *)
Definition ifrom (w : iworld) (s : isaved) (i : nat) : iworld * res unit :=
  match iconstruct w i (is_set s) with
  | (w', Err e) => (w', Err e)
  | (w', Ok _) =>
      match iload w' (size (iw_invs w)) s with
      | (w'', Err e) => (with_k w (iw_k w''), Err e)   (* nobody refers to the new object *)
      | r => r
      end
  end.

(* torch.load of a torch.save'd state: new dictionaries *)
Definition icopy (w : iworld) (s : isaved) : iworld * res unit :=
  match copy_saved (iw_k w) (is_A s) with
  | (k, Err e) => (with_k w k, Err e)
  | (k, Ok _) =>
      (IWorld k (rcons (iw_caches w) (nth no_inverses (iw_caches w) (is_loc s))) (iw_invs w)
         (rcons (iw_saved w) (ISaved (last (is_A s) (w_saved k)) (is_set s) (size (iw_caches w)))), Ok tt)
  end.

(* ---- histories ---- *)
Inductive iaction :=
  | IKfac of action Theta                    (* anything done to a model or KFAC operator *)
  | INew of nat & iset RF                    (* KFACInverseLinearOperator(A, ...) *)
  | IMatmat of nat & seq tens                (* inv @ X *)
  | ISave of nat                             (* inv.state_dict() *)
  | ILoad of nat & nat                       (* inv.load_state_dict(saved) *)
  | IFrom of nat & nat                       (* from_state_dict(saved, A) *)
  | ICopy of nat.
(* what the caller sees: an outcome, or the list after the product and its outcome *)
Inductive obs := Done of res unit | Product of lst RF.

(* the effect of one action and what its caller sees (inverse.py 305-728) *)
Definition istep (w : iworld) (a : iaction) : iworld * obs :=
  match a with
  | IKfac a => let '(k, r) := step arch partial_load passes mconv (iw_k w) a in (with_k w k, Done r)
  | INew i s => let '(w', r) := iconstruct w i s in (w', Done r)
  | IMatmat v X => let '(w', _, r) := imatmat w v X in (w', Product r)
  | ISave v =>
      match istate_dict w v with
      | Err e => (w, Done (Err e))
      | Ok s => (IWorld (iw_k w) (iw_caches w) (iw_invs w) (rcons (iw_saved w) s), Done (Ok tt))
      end
  | ILoad v j =>
      match getn (iw_saved w) j with
      | Err e => (w, Done (Err e))
      | Ok s => let '(w', r) := iload w v s in (w', Done r)
      end
  | IFrom j i =>
      match getn (iw_saved w) j with
      | Err e => (w, Done (Err e))
      | Ok s => let '(w', r) := ifrom w s i in (w', Done r)
      end
  | ICopy j =>
      match getn (iw_saved w) j with
      | Err e => (w, Done (Err e))
      | Ok s => let '(w', r) := icopy w s in (w', Done r)
      end
  end.
Definition irun (w : iworld) (acts : seq iaction) : iworld := foldl (fun w a => (istep w a).1) w acts.
(* everything the caller sees *)
Fixpoint seen (w : iworld) (acts : seq iaction) : seq obs :=
  if acts is a :: acts' then (istep w a).2 :: seen (istep w a).1 acts' else [::].

(* the same program, creating inverse operators with cache=False *)
Definition nocache (s : iset RF) : iset RF := ISet (i_damping s) (i_heur s) (i_min s) (i_exact s) false (i_retry s).
Definition uncached (a : iaction) : iaction := if a is INew i s then INew i (nocache s) else a.
End Object.
