(* Specification vocabulary used in theorem statements.  It does not mention any
   definition of the code model: only tensors, their row-major content, and
   matrices given by their entries. *)
From mathcomp Require Import all_ssreflect all_algebra.
From Verif Require Import PyPrelude Tensor.
Set Implicit Arguments.
Unset Strict Implicit.
Unset Printing Implicit Defensive.
Import GRing.Theory.
Local Open Scope ring_scope.

(* What a caller can put to the right of '@', and what comes back. *)
Inductive pyval (T : Type) :=
  | VTensor of tensor T            (* a torch.Tensor *)
  | VList of seq (tensor T)        (* a list of tensors *)
  | VMixed                         (* a list with a non-tensor in it *)
  | VOther.                        (* anything else *)
Arguments VMixed {T}.
Arguments VOther {T}.

(* total number of entries described by a list of shapes *)
Definition total (S : seq (seq nat)) : nat := sumn [seq numel s | s <- S].

(* the list has the shapes [*s, K] for s in S and every tensor is well formed *)
Definition valid_mat T (S : seq (seq nat)) (K : nat) (X : seq (tensor T)) : Prop :=
  [seq tshape t | t <- X] = [seq rcons s K | s <- S] /\ all (@wf T) X.

(* The documented formats: [N], [N,K], lists [*N1],[*N2],.. and
   [*N1,K],[*N2,K],... *)
Definition documented_format T (S : seq (seq nat)) (X : pyval T) : Prop :=
  match X with
  | VTensor t => tshape t = [:: total S] \/ exists K, tshape t = [:: total S; K]
  | VList ts => [seq tshape t | t <- ts] = S \/
                exists K, [seq tshape t | t <- ts] = [seq rcons s K | s <- S]
  | _ => False
  end.

Definition wf_val T (X : pyval T) : Prop :=
  match X with VTensor t => wf t | VList ts => all (@wf T) ts | _ => True end.

(* [has_format S is_list cols X]: X is a vector (cols = None) or a matrix with K
   columns (cols = Some K) on the space with shapes S, as a list or a tensor. *)
Definition has_format T (S : seq (seq nat)) (is_list : bool) (cols : option nat)
    (X : pyval T) : Prop :=
  match X, is_list with
  | VTensor t, false => tshape t = (if cols is Some K then [:: total S; K] else [:: total S])
                        /\ wf t
  | VList ts, true => [seq tshape t | t <- ts] =
                        (if cols is Some K then [seq rcons s K | s <- S] else S)
                      /\ all (@wf T) ts
  | _, _ => False
  end.

(* concatenated row-major entries *)
Definition content T (X : pyval T) : seq T :=
  match X with VTensor t => tdata t | VList ts => flat ts | _ => [::] end.

Definition ncols (cols : option nat) : nat := if cols is Some K then K else 1%N.

Section Ring.
Variable R : ringType.

(* entry (i,k) of a row-major matrix with K columns *)
Definition entry (K : nat) (c : seq R) (i k : nat) : R := nth 0 c (i * K + k).

(* [times M n c K d]: d is (the row-major content of) M times c, M having n
   columns and m rows. *)
Definition is_product (M : nat -> nat -> R) (m n K : nat) (c d : seq R) : Prop :=
  forall i k, (i < m)%N -> (k < K)%N ->
    entry K d i k = \sum_(j < n) M i j * entry K c j k.

(* A function on list matrices multiplies with M (for at least k0 columns). *)
Definition multiplies (k0 : nat) (f : seq (tensor R) -> res (seq (tensor R)))
    (inS outS : seq (seq nat)) (M : nat -> nat -> R) : Prop :=
  forall K X, (k0 <= K)%N -> valid_mat inS K X ->
    exists Y, [/\ f X = Ok Y, valid_mat outS K Y &
                  is_product M (total outS) (total inS) K (flat X) (flat Y)].

(* Executable finite sum, used by the model so that examples compute. *)
Definition sumr (n : nat) (f : nat -> R) : R := foldr (fun i s => f i + s) 0 (iota 0 n).

Lemma sumrE n f : sumr n f = \sum_(i < n) f i.
Proof.
rewrite /sumr -[RHS](big_mkord xpredT f) /index_iota subn0.
by elim: (iota 0 n) => [|i s IH] /=; rewrite ?big_nil // big_cons IH.
Qed.

End Ring.
