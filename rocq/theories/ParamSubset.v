(* Specification side of C80: an operator for some of the parameters, in any order.
   The operators take the list of parameters as an argument (_torch_base.py
   404-508); everything else the model function depends on stays as it is.  Given a
   network as a function of all its parameters, the network an operator for a
   sub-list sees is the composition with [embed]. *)
From Coq Require Import Reals FunctionalExtensionality.
From Coquelicot Require Import Coquelicot.
From mathcomp Require Import all_ssreflect all_algebra.
From Verif Require Import PyPrelude Tensor Spec TorchBase Submatrix RInst Calculus Curvature HessGGN Risk.
Set Implicit Arguments.
Unset Strict Implicit.
Unset Printing Implicit Defensive.
Import GRing.Theory.
Local Open Scope ring_scope.

Section Subset.
(* shapes of all parameters; positions of the chosen ones, in the order given *)
Variables (S : seq (seq nat)) (sel : seq nat).

(* a list of different parameters *)
Definition sublist : bool := [&& uniq sel, all (fun k => k < size S)%N sel & (0 < size sel)%N].
Definition sub_shapes : seq (seq nat) := [seq nth [::] S k | k <- sel].
(* the entries of parameter k among all entries *)
Definition entries_of (k : nat) : seq nat := mkseq (addn (total (take k S))) (numel (nth [::] S k)).
(* entry number i of the chosen parameters among all entries *)
Definition coords : seq nat := flatten [seq entries_of k | k <- sel].
Definition coord (i : nat) : nat := nth 0%N coords i.

(* all parameters, the chosen ones with entries z *)
Definition embed (th z : point) : point := fun c => if c \in coords then z (index c coords) else th c.
Definition chosen (th : point) : point := fun i => th (coord i).

Lemma size_coords : size coords = total sub_shapes.
Proof.
rewrite size_flatten /shape -map_comp /total /sub_shapes -map_comp; congr sumn.
by apply: eq_map => k; rewrite /= size_mkseq.
Qed.
Lemma total_take k : (k < size S)%N -> (total (take k S) + numel (nth [::] S k) = total (take k.+1 S))%N.
Proof. by move=> hk; rewrite (take_nth [::] hk) -cats1 total_cat /total /= addn0. Qed.
Lemma total_take_le k k' : (k <= k')%N -> (total (take k S) <= total (take k' S))%N.
Proof. by move=> h; rewrite -(cat_take_drop k (take k' S)) total_cat take_take // leq_addr. Qed.
Lemma mem_entries k c : (k < size S)%N -> c \in entries_of k -> (total (take k S) <= c < total (take k.+1 S))%N.
Proof.
move=> hk /mapP[j]; rewrite mem_iota add0n => /andP[_ hj] ->.
by rewrite leq_addr -total_take // ltn_add2l.
Qed.
Lemma entries_disjoint k k' c : (k < size S)%N -> (k' < size S)%N -> c \in entries_of k -> c \in entries_of k' -> k = k'.
Proof.
move=> hk hk' /(mem_entries hk)/andP[a1 a2] /(mem_entries hk')/andP[b1 b2].
case: (ltngtP k k') => // h.
  by have := leq_ltn_trans (leq_trans (total_take_le h) b1) a2; rewrite ltnn.
by have := leq_ltn_trans (leq_trans (total_take_le h) a1) b2; rewrite ltnn.
Qed.
Lemma coords_lt c : all (fun k => k < size S)%N sel -> c \in coords -> (c < total S)%N.
Proof.
move=> /allP h /flatten_mapP[k /h hk /(mem_entries hk)/andP[_ hc]].
by apply: leq_trans hc _; rewrite -{2}(take_size S); apply: total_take_le.
Qed.
Lemma coords_uniq : sublist -> uniq coords.
Proof.
move=> /and3P[+ + _]; rewrite /coords; elim: (sel) => //= k s IH /andP[hk hs] /andP[lk ls].
rewrite cat_uniq IH // andbT; apply/andP; split.
  by rewrite map_inj_uniq ?iota_uniq // => a b /addnI.
apply/negP => /hasP[c hc hck]; case/flatten_mapP: hc => k' hk' hck'.
by move: hk; rewrite (@entries_disjoint k k' c) ?hk' //; exact: (allP ls).
Qed.
Hypothesis hsel : sublist.
Lemma coord_lt i : (i < total sub_shapes)%N -> (coord i < total S)%N.
Proof.
move=> hi; apply: coords_lt; first by case/and3P: hsel.
by apply: mem_nth; rewrite size_coords.
Qed.
Lemma sub_shapes_neq0 : sub_shapes <> [::].
Proof. by case/and3P: hsel => _ _; rewrite /sub_shapes; case: sel. Qed.

Lemma embed_coord th z i : (i < total sub_shapes)%N -> embed th z (coord i) = z i.
Proof. by rewrite -size_coords => hi; rewrite /embed mem_nth // index_uniq // coords_uniq. Qed.
Lemma embed_upd th z i t : (i < total sub_shapes)%N -> embed th (upd z i t) = upd (embed th z) (coord i) t.
Proof.
rewrite -size_coords => hi; apply: functional_extensionality => c; rewrite /embed /upd.
case: (c =P coord i) => [->|ne]; first by rewrite mem_nth // index_uniq ?coords_uniq // eqxx.
by case: ifP => // hc; case: eqP => // e; case: ne; rewrite -e /coord nth_index.
Qed.
Lemma embed_chosen th : embed th (chosen th) = th.
Proof. by apply: functional_extensionality => c; rewrite /embed /chosen /coord; case: ifP => // h; rewrite nth_index. Qed.

Lemma pd_embed th F i z : (i < total sub_shapes)%N -> pd i (fun w => F (embed th w)) z = pd (coord i) F (embed th z).
Proof. by move=> hi; rewrite /pd embed_coord //; apply: Derive_ext => t; rewrite embed_upd. Qed.
Lemma pd2_embed th F i j z : (i < total sub_shapes)%N -> (j < total sub_shapes)%N ->
  pd j (pd i (fun w => F (embed th w))) z = pd (coord j) (pd (coord i) F) (embed th z).
Proof. by move=> hi hj; rewrite -(pd_embed th (pd (coord i) F)) //; apply: pd_ext => w; rewrite pd_embed. Qed.
Lemma ex_pd_embed th F i z : (i < total sub_shapes)%N -> ex_pd (coord i) F (embed th z) -> ex_pd i (fun w => F (embed th w)) z.
Proof. by move=> hi; rewrite /ex_pd embed_coord //; apply: ex_derive_ext => t; rewrite embed_upd. Qed.
Lemma twice_diff_embed th F z : twice_diff (total S) F (embed th z) -> twice_diff (total sub_shapes) (fun w => F (embed th w)) z.
Proof.
move=> h i j hi hj; have [h1 h2] := h _ _ (coord_lt hi) (coord_lt hj); split.
  rewrite embed_coord // in h1; apply: filter_imp h1 => t ht; apply: ex_pd_embed => //; by rewrite embed_upd.
apply: (@ex_pd_ext (fun w => pd (coord i) F (embed th w))); first by move=> w; rewrite pd_embed.
exact: ex_pd_embed.
Qed.
End Subset.
