(* Specification vocabulary for Kronecker-factored matrices: the flat coordinates
   of a parameter list and the matrix described by a list of layers with their
   Kronecker factors.  Does not mention the model of kfac.py. *)
From mathcomp Require Import all_ssreflect all_algebra.
From Verif Require Import PyPrelude Tensor Spec.
Set Implicit Arguments.
Unset Strict Implicit.
Unset Printing Implicit Defensive.
Import GRing.Theory.
Local Open Scope ring_scope.

(* Flat coordinate i belongs to parameter [param_of S i], at row-major position
   [within S i]. *)
Fixpoint param_of (S : seq (seq nat)) (i : nat) : nat :=
  match S with
  | [::] => 0%N
  | s :: S' => if (i < numel s)%N then 0%N else (param_of S' (i - numel s)).+1
  end.
Fixpoint within (S : seq (seq nat)) (i : nat) : nat :=
  match S with
  | [::] => i
  | s :: S' => if (i < numel s)%N then i else within S' (i - numel s)
  end.
Definition pshape (S : seq (seq nat)) (p : nat) : seq nat := nth [::] S p.
(* a weight of shape [c_out, ...] is a matrix with c_out rows and this many columns *)
Definition ncol (S : seq (seq nat)) (p : nat) : nat := numel (behead (pshape S p)).

Section Layers.
Variable F : comRingType.

(* a layer: positions of its weight and bias in the parameter list (None: not
   among the operator's parameters), input-based factor A, gradient-based factor B *)
Record layer := Layer { l_w : option nat; l_b : option nat; l_A : nat -> nat -> F; l_B : nat -> nat -> F }.

Definition l_mem (l : layer) (p : nat) : bool := (l_w l == Some p) || (l_b l == Some p).
Definition joint (sep : bool) (l : layer) : bool := [&& ~~ sep, l_w l != None & l_b l != None].
(* the layer's parameters as one matrix [W b]: row and column of an entry *)
Definition lrow S (p r : nat) : nat := (r %/ ncol S p)%N.
Definition lcol S (l : layer) (p r : nat) : nat :=
  if l_w l == Some p then (r %% ncol S p)%N else if l_w l is Some w then ncol S w else 0%N.

(* entry of the layer's block: B (x) A on W, B on b, B (x) A on [W b] *)
Definition layer_entry sep S (l : layer) (p r q s : nat) : F :=
  if l_mem l p && l_mem l q then
    l_B l (lrow S p r) (lrow S q s) *
    (if joint sep l || ((l_w l == Some p) && (l_w l == Some q)) then l_A l (lcol S l p r) (lcol S l q s)
     else (p == q)%:R)
  else 0.

Definition kfac_matrix sep S (ls : seq layer) (i j : nat) : F :=
  \sum_(l <- ls) layer_entry sep S l (param_of S i) (within S i) (param_of S j) (within S j).

(* all parameter positions of the layers *)
Definition l_pos (l : layer) : seq nat := oapp (cons^~ [::]) [::] (l_w l) ++ oapp (cons^~ [::]) [::] (l_b l).
(* every parameter belongs to exactly one layer *)
Definition unshared (S : seq (seq nat)) (ls : seq layer) : Prop :=
  perm_eq (flatten (map l_pos ls)) (iota 0 (size S)).
End Layers.

(* ---- coordinates ---- *)
Section Coord.
Definition off (S : seq (seq nat)) (p : nat) : nat := total (take p S).
Arguments off : simpl never.

Lemma off0 S : off S 0 = 0%N. Proof. by rewrite /off take0. Qed.
Lemma offS s S p : off (s :: S) p.+1 = (numel s + off S p)%N. Proof. by []. Qed.

Lemma locate_off S p r : (p < size S)%N -> (r < numel (pshape S p))%N ->
  param_of S (off S p + r) = p /\ within S (off S p + r) = r.
Proof.
elim: S p => // s S IH [|p] /=; first by rewrite off0 add0n => _ ->.
move=> hp hr; rewrite offS -addnA ltnNge leq_addr /= addKn.
by have [-> ->] := IH p hp hr.
Qed.

Lemma locate_bound S i : (i < total S)%N ->
  [/\ (param_of S i < size S)%N, (within S i < numel (pshape S (param_of S i)))%N &
      i = (off S (param_of S i) + within S i)%N].
Proof.
elim: S i => // s S IH i; rewrite /total /= => hi.
case: (ltnP i (numel s)) => h; first by rewrite off0; split.
have hi' : (i - numel s < total S)%N by rewrite ltn_subLR.
by have [h1 h2 h3] := IH _ hi'; split=> //; rewrite offS -addnA -h3 subnKC.
Qed.

Lemma off_bound S p r : (p < size S)%N -> (r < numel (pshape S p))%N -> (off S p + r < total S)%N.
Proof.
elim: S p => // s S IH [|p] /= hp hr; first by rewrite off0 add0n /total /= ltn_addr.
by rewrite offS /total /= -addnA ltn_add2l; apply: IH.
Qed.

Lemma sum_coord (R : zmodType) S (f : nat -> R) :
  \sum_(j < total S) f j = \sum_(p < size S) \sum_(r < numel (pshape S p)) f (off S p + r)%N.
Proof.
elim: S f => [|s S IH] f; first by rewrite /total /= !big_ord0.
rewrite /total /= [LHS]big_split_ord [RHS]big_ord_recl /pshape /=; congr (_ + _).
rewrite -/(total S) (IH (fun j => f (numel s + j)%N)); apply: eq_bigr => p _; rewrite /bump /= add1n /=; apply: eq_bigr => r _.
by rewrite offS addnA.
Qed.

Lemma flat_coord (R : ringType) S K (X : seq (tensor R)) p r k : valid_mat S K X ->
  (p < size S)%N -> (r < numel (pshape S p))%N -> (k < K)%N ->
  entry K (flat X) (off S p + r) k = entry K (tdata (nth (Tensor [::] [::]) X p)) r k.
Proof.
move=> [hs hw]; elim: S X p hs hw => // s S IH [|x X] // [|p] /= [hx hs] /andP[/eqP wx hw] hp hr hk.
  rewrite off0 add0n /entry /flat /= nth_cat wx hx numel_rcons.
  suff -> : (r * K + k < numel s * K)%N by [].
  by apply: leq_trans (_ : (r.+1 * K <= _)%N); rewrite ?leq_mul2r ?hr ?orbT // mulSn addnC ltn_add2r.
rewrite -IH // offS /entry /flat /= nth_cat wx hx numel_rcons.
rewrite -addnA mulnDl -addnA ltnNge leq_addr /=.
by rewrite addKn.
Qed.

(* a product, coordinate by coordinate *)
Lemma product_coord (R : ringType) S K (X Y : seq (tensor R)) (M : nat -> nat -> R) :
  valid_mat S K X -> valid_mat S K Y ->
  (forall p r k, (p < size S)%N -> (r < numel (pshape S p))%N -> (k < K)%N ->
     entry K (tdata (nth (Tensor [::] [::]) Y p)) r k =
     \sum_(q < size S) \sum_(s < numel (pshape S q)) M (off S p + r)%N (off S q + s)%N *
        entry K (tdata (nth (Tensor [::] [::]) X q)) s k) ->
  is_product M (total S) (total S) K (flat X) (flat Y).
Proof.
move=> hX hY h i k hi hk; have [h1 h2 h3] := locate_bound hi.
rewrite {1}h3 (flat_coord hY) // h // (sum_coord S (fun j => M i j * entry K (flat X) j k)).
apply: eq_bigr => q _; apply: eq_bigr => s _.
by rewrite (flat_coord hX) // -h3.
Qed.
End Coord.

(* sums over matricized indices *)
Lemma sum_divmod (R : zmodType) m n (f : nat -> nat -> R) :
  \sum_(s < m * n) f (s %/ n)%N (s %% n)%N = \sum_(a < m) \sum_(c < n) f a c.
Proof.
elim: m => [|m IH]; first by rewrite !big_ord0.
rewrite mulSnr big_split_ord /= IH big_ord_recr /=; congr (_ + _).
apply: eq_bigr => c _; have hn : (0 < n)%N by apply: leq_ltn_trans (ltn_ord c).
by rewrite divnMDl // modnMDl divn_small // addn0 modn_small.
Qed.
