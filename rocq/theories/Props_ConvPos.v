(* C46: the positions the patches are taken from are those where the dilated kernel fits into
   the padded image. *)
From mathcomp Require Import all_ssreflect all_algebra.
From Verif Require Import PyPrelude Tensor Spec Conv Props_Conv.
Set Implicit Arguments.
Unset Strict Implicit.
Unset Printing Implicit Defensive.
Import GRing.Theory.
Local Open Scope ring_scope.

(* output position y of an axis with I entries, padded by p and q: the kernel covers the
   padded entries y * s, y * s + d, ..., y * s + d * (k - 1) *)
Definition covers (I k s p q d y : nat) : bool := (y * s + d * (k - 1) < I + p + q)%N.

Lemma out_sizeP i k s p q d o : out_size i k s p q d = Some o ->
  [/\ 0 < k, 0 < s, 0 < d & 0 < o]%N /\ forall y, (y < o)%N = covers i k s p q d y.
Proof.
rewrite /out_size; case: ifP => // /andP[/andP[/andP[k0 s0] d0] hlt] [<-]; split=> // y.
rewrite /covers subn1 ltnS leq_divRL // leq_subRL // addSn addnC //.
Qed.

Lemma out_size_of i k s p q d o : (0 < k)%N -> (0 < s)%N -> (0 < d)%N -> (0 < o)%N ->
  (forall y, (y < o)%N = covers i k s p q d y) -> out_size i k s p q d = Some o.
Proof.
move=> k0 s0 d0 o0 h; have h0 := h 0%N; rewrite o0 /covers mul0n add0n subn1 in h0.
case e : (out_size i k s p q d) => [o'|]; last by move: e; rewrite /out_size k0 s0 d0 -h0.
have [_ h'] := out_sizeP e; congr Some; case: (ltngtP o' o) => // hlt.
  by have := h o'; rewrite hlt -h' ltnn.
by have := h' o; rewrite hlt -h ltnn.
Qed.

Section Positions.
Variable F : fieldType.
Local Notation tens := (tensor F).

Theorem C46_positions (x : tens) c P : extract_patches x c = Ok P -> exists n C I1 I2 O1 O2 p1 p2,
  [/\ tshape x = [:: n; C; I1; I2], uses_padding c p1 p2, tshape P = [:: n; O1 * O2; C %/ c_groups c * c_k1 c * c_k2 c]%N,
   forall y, (y < O1)%N = covers I1 (c_k1 c) (c_s1 c) p1 p1 (c_d1 c) y &
   forall z, (z < O2)%N = covers I2 (c_k2 c) (c_s2 c) p2 p2 (c_d2 c) z].
Proof.
case/C46_patch_content=> n [C [I1 [I2 [O1 [O2 [p1 [p2 [h1 h2 [h3 h4] h5 _]]]]]]]].
by exists n, C, I1, I2, O1, O2, p1, p2; split=> //; [apply: (out_sizeP h3).2|apply: (out_sizeP h4).2].
Qed.

(* the averages are over these positions *)
Theorem C46_average_positions (x : tens) c n C i1 i2 p1 q1 p2 q2 o1 o2 :
  tshape x = [:: n; C; i1; i2] -> (0 < c_groups c)%N -> (c_groups c %| C)%N -> paddings c p1 q1 p2 q2 ->
  [/\ 0 < c_k1 c, 0 < c_s1 c, 0 < c_d1 c & 0 < o1]%N -> [/\ 0 < c_k2 c, 0 < c_s2 c, 0 < c_d2 c & 0 < o2]%N ->
  (forall y, (y < o1)%N = covers i1 (c_k1 c) (c_s1 c) p1 q1 (c_d1 c) y) ->
  (forall z, (z < o2)%N = covers i2 (c_k2 c) (c_s2 c) p2 q2 (c_d2 c) z) ->
  let E := (C %/ c_groups c)%N in
  exists Q, [/\ extract_averaged_patches x c = Ok Q, tshape Q = [:: n; E * c_k1 c * c_k2 c]%N &
   forall b e a1 a2, (b < n)%N -> (e < E)%N -> (a1 < c_k1 c)%N -> (a2 < c_k2 c)%N ->
     nth 0 (tdata Q) (b * (E * c_k1 c * c_k2 c) + ((e * c_k1 c + a1) * c_k2 c + a2)) =
     (\sum_(y < o1) \sum_(z < o2)
        group_pixel (c_groups c) C i1 i2 x b e (hpos (c_s1 c) (c_d1 c) p1 y a1) (hpos (c_s2 c) (c_d2 c) p2 z a2)) / (o1 * o2)%:R].
Proof.
move=> sx g0 gC hpad [k1 s1 d1 o1p] [k2 s2 d2 o2p] h1 h2.
exact: C46_average_content sx g0 gC hpad (out_size_of k1 s1 d1 o1p h1) (out_size_of k2 s2 d2 o2p h2).
Qed.
End Positions.
Print Assumptions C46_positions.
Print Assumptions C46_average_positions.

(* stride 2 on four entries with kernel 2 and padding 1: positions 0, 1, 2 *)
Example C46_ex_positions : [/\ covers 4 2 2 1 1 1 2, ~~ covers 4 2 2 1 1 1 3, ~~ covers 4 3 2 1 1 1 2 &
  exists P, extract_patches (Tensor [:: 1; 1; 4; 4]%N (nseq 16 (1 : rat))) (Conv 2 2 2 2 (PInt 1 1) 1 1 1) = Ok P /\ tshape P = [:: 1; 9; 4]%N].
Proof. by split=> //; eexists; split; vm_compute. Qed.
