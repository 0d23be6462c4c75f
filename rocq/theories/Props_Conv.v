(* C46: patches of convolution layers. *)
From mathcomp Require Import all_ssreflect all_algebra ring.
From Verif Require Import PyPrelude Tensor Spec Conv.
Set Implicit Arguments.
Unset Strict Implicit.
Unset Printing Implicit Defensive.
Import GRing.Theory.
Local Open Scope ring_scope.

Lemma dm n a b : (b < n)%N -> ((a * n + b) %/ n = a)%N /\ ((a * n + b) %% n = b)%N.
Proof.
move=> h; have n0 : (0 < n)%N by apply: leq_ltn_trans h.
by rewrite divnMDl // divn_small // addn0 modnMDl modn_small.
Qed.

Lemma idx_lt m n i j : (i < m)%N -> (j < n)%N -> (i * n + j < m * n)%N.
Proof.
move=> hi hj; apply: (@leq_trans (i.+1 * n)%N); first by rewrite mulSn addnC ltn_add2r.
by rewrite leq_mul2r hi orbT.
Qed.

Lemma regroup2 Q o1 o2 y z : (Q * (o1 * o2) + (y * o2 + z) = (Q * o1 + y) * o2 + z)%N.
Proof. by rewrite mulnDl -mulnA addnA. Qed.

Section Proofs.
Variable F : fieldType.
Local Notation tens := (tensor F).

Lemma nth_mk4 a b c d (f : nat -> nat -> nat -> nat -> F) n i j k :
  (n < a)%N -> (i < b)%N -> (j < c)%N -> (k < d)%N ->
  nth 0 (mk4 a b c d f) (((n * b + i) * c + j) * d + k) = f n i j k.
Proof.
move=> hn hi hj hk; rewrite /mk4 nth_mkseq; last by do 3 apply: idx_lt => //.
have [-> ->] := dm ((n * b + i) * c + j) hk; have [-> ->] := dm (n * b + i) hj.
by have [-> ->] := dm n hi.
Qed.

Lemma size_mk4 a b c d (f : nat -> nat -> nat -> nat -> F) : size (mk4 a b c d f) = (a * b * c * d)%N.
Proof. by rewrite size_mkseq. Qed.

(* ---- independent description, with integer coordinates ---- *)
(* pixel (h, w) of channel e of datum b; zero outside the image *)
Definition pixel (C I1 I2 : nat) (x : tens) (b e : nat) (h w : int) : F :=
  match h, w with
  | Posz h, Posz w => if (h < I1)%N && (w < I2)%N then nth 0 (tdata x) (((b * C + e) * I1 + h) * I2 + w) else 0
  | _, _ => 0
  end.
(* where kernel element (a1, a2) looks for output (u, v) *)
Definition hpos (s d p : nat) (u a : nat) : int := u%:Z * s%:Z + a%:Z * d%:Z - p%:Z.
(* mean over the g groups of channels *)
Definition group_pixel (g C I1 I2 : nat) (x : tens) (b e : nat) (h w : int) : F :=
  (\sum_(t < g) pixel C I1 I2 x b (t * (C %/ g) + e) h w) / g%:R.

Lemma pixel_nat C I1 I2 (x : tens) b e h w : (h < I1)%N -> (w < I2)%N ->
  pixel C I1 I2 x b e h w = at4 C I1 I2 x b e h w.
Proof. by move=> h1 h2; rewrite /pixel h1 h2. Qed.

Lemma hposE s d p u a : (p <= u * s + a * d)%N -> hpos s d p u a = (u * s + a * d - p)%N.
Proof. by move=> h; rewrite /hpos -!PoszM -PoszD subzn. Qed.
Lemma hposN s d p u a : (u * s + a * d < p)%N -> exists k, hpos s d p u a = Negz k.
Proof.
move=> h; exists (p - (u * s + a * d)).-1%N; rewrite /hpos -!PoszM -PoszD NegzE prednK ?subn_gt0 //.
by rewrite -subzn ?opprB // ltnW.
Qed.

Lemma pixel_out C I1 I2 (x : tens) b e s1 d1 p1 u a s2 d2 p2 v c :
  ~~ ((p1 <= u * s1 + a * d1 < p1 + I1)%N && (p2 <= v * s2 + c * d2 < p2 + I2)%N) ->
  pixel C I1 I2 x b e (hpos s1 d1 p1 u a) (hpos s2 d2 p2 v c) = 0.
Proof.
case: (leqP p1 (u * s1 + a * d1)) => [h1|/hposN[k ->]] //.
case: (leqP p2 (v * s2 + c * d2)) => [h2|/hposN[k ->]]; last by rewrite /pixel; case: hpos.
rewrite (hposE h1) (hposE h2) /= /pixel.
by rewrite !ltn_subLR // => /negbTE ->.
Qed.

Lemma group_meanP g x x' : group_mean g x = Ok x' -> exists n C i1 i2,
  [/\ tshape x = [:: n; C; i1; i2], (0 < g)%N, (g %| C)%N, tshape x' = [:: n; C %/ g; i1; i2]%N &
   forall b e h w, (b < n)%N -> (e < C %/ g)%N -> (h < i1)%N -> (w < i2)%N ->
     at4 (C %/ g) i1 i2 x' b e h w = group_pixel g C i1 i2 x b e h w].
Proof.
rewrite /group_mean; case: tshape => [|n [|C [|i1 [|i2 []]]]] //.
case: ifP => // /andP[g0 gC] [<-]; exists n, C, i1, i2; split=> // b e h w hb he hh hw.
rewrite /at4 /= nth_mk4 // sumrE /group_pixel; congr (_ / _); apply: eq_bigr => t _.
by rewrite pixel_nat.
Qed.

Lemma group_pixel_out g C I1 I2 (x : tens) b e s1 d1 p1 u a s2 d2 p2 v c :
  ~~ ((p1 <= u * s1 + a * d1 < p1 + I1)%N && (p2 <= v * s2 + c * d2 < p2 + I2)%N) ->
  group_pixel g C I1 I2 x b e (hpos s1 d1 p1 u a) (hpos s2 d2 p2 v c) = 0.
Proof. by move=> h; rewrite /group_pixel big1 ?mul0r // => t _; apply: pixel_out. Qed.

(* the integer paddings of a convolution, the same for both functions *)
Definition uses_padding (c : conv) (p1 p2 : nat) : Prop :=
  match c_pad c with
  | PInt q1 q2 => p1 = q1 /\ p2 = q2
  | PValid => p1 = 0%N /\ p2 = 0%N
  | PSame => [/\ c_s1 c = 1%N, c_s2 c = 1%N, (2 * p1 = c_d1 c * (c_k1 c).-1)%N & (2 * p2 = c_d2 c * (c_k2 c).-1)%N]
  end.
Lemma half_eq t : (t %/ 2 == t - t %/ 2)%N -> (2 * (t %/ 2) = t)%N.
Proof. by move=> /eqP h; rewrite mul2n -addnn {1}h subnK // leq_div. Qed.

Lemma int_paddingP c p1 p2 : int_padding c = Ok (p1, p2) -> uses_padding c p1 p2 /\
  axis_paddings (c_pad c) true (c_k1 c) (c_s1 c) (c_d1 c) = Ok (p1, p1) /\
  axis_paddings (c_pad c) false (c_k2 c) (c_s2 c) (c_d2 c) = Ok (p2, p2).
Proof.
rewrite /int_padding /uses_padding; case: (c_pad c) => [q1 q2|//|]; first by case=> <- <-.
  rewrite /pad_axis /conv_paddings.
  case: (c_s1 c =P 1%N) => //= s1; case: (c_s2 c =P 1%N) => //= s2; last by case: ifP.
  case: ifP => //= /negbFE e1; case: ifP => //= /negbFE e2 [<- <-].
  by split; [split=> //; exact: half_eq|rewrite s1 eqxx -(eqP e1) -(eqP e2)].
by case=> <- <-.
Qed.

Lemma unfoldP (x : tens) k1 k2 d1 d2 p1 p2 s1 s2 u n c i1 i2 : tshape x = [:: n; c; i1; i2] ->
  unfold x k1 k2 d1 d2 p1 p2 s1 s2 = Ok u -> exists o1 o2,
  [/\ out_size i1 k1 s1 p1 p1 d1 = Some o1, out_size i2 k2 s2 p2 p2 d2 = Some o2,
      tshape u = [:: n; c * k1 * k2; o1 * o2]%N &
   forall b e a1 a2 y z, (b < n)%N -> (e < c)%N -> (a1 < k1)%N -> (a2 < k2)%N -> (y < o1)%N -> (z < o2)%N ->
     nth 0 (tdata u) ((b * (c * k1 * k2) + ((e * k1 + a1) * k2 + a2)) * (o1 * o2) + (y * o2 + z)) =
     (if (p1 <= y * s1 + a1 * d1 < p1 + i1)%N && (p2 <= z * s2 + a2 * d2 < p2 + i2)%N
      then at4 c i1 i2 x b e (y * s1 + a1 * d1 - p1) (z * s2 + a2 * d2 - p2) else 0)].
Proof.
rewrite /unfold => ->; case e1 : out_size => [o1|//]; case e2 : out_size => [o2|//] [<-]; exists o1, o2; split=> //.
move=> b e a1 a2 y z hb he ha1 ha2 hy hz /=.
rewrite regroup2.
rewrite nth_mk4 //; last by do 2 apply: idx_lt => //.
have [-> ->] := dm (e * k1 + a1) ha2.
by have [-> ->] := dm e ha1.
Qed.

Lemma swap12P (x : tens) n q o u : tshape x = [:: n; q; o] -> swap12 x = Ok u -> tshape u = [:: n; o; q] /\
  forall b s j, (b < n)%N -> (s < o)%N -> (j < q)%N ->
    nth 0 (tdata u) ((b * o + s) * q + j) = nth 0 (tdata x) ((b * q + j) * o + s).
Proof.
rewrite /swap12 => -> [<-]; split=> // b s j hb hs hj /=.
by rewrite -[((b * o + s) * q + j)%N]muln1 -[(_ * 1)%N]addn0 nth_mk4.
Qed.

(* what a patch contains: feature (e, a1, a2) of the patch of output (y, z) is the
   pixel under kernel element (a1, a2), averaged over channel groups, zero outside *)
Theorem C46_patch_content (x : tens) c P : extract_patches x c = Ok P -> exists n C I1 I2 O1 O2 p1 p2,
  let E := (C %/ c_groups c)%N in
  [/\ tshape x = [:: n; C; I1; I2], uses_padding c p1 p2,
      out_size I1 (c_k1 c) (c_s1 c) p1 p1 (c_d1 c) = Some O1 /\ out_size I2 (c_k2 c) (c_s2 c) p2 p2 (c_d2 c) = Some O2,
      tshape P = [:: n; O1 * O2; E * c_k1 c * c_k2 c]%N &
   forall b e a1 a2 y z, (b < n)%N -> (e < E)%N -> (a1 < c_k1 c)%N -> (a2 < c_k2 c)%N -> (y < O1)%N -> (z < O2)%N ->
     nth 0 (tdata P) ((b * (O1 * O2) + (y * O2 + z)) * (E * c_k1 c * c_k2 c) + ((e * c_k1 c + a1) * c_k2 c + a2)) =
     group_pixel (c_groups c) C I1 I2 x b e (hpos (c_s1 c) (c_d1 c) p1 y a1) (hpos (c_s2 c) (c_d2 c) p2 z a2)].
Proof.
rewrite /extract_patches; case hp : int_padding => [[p1 p2]|//] /=.
case hx : group_mean => [x'|//] /=; case hu : unfold => [u|//] /= hs.
have [n [C [i1 [i2 [sx g0 gC sx' vx]]]]] := group_meanP hx.
have [o1 [o2 [ho1 ho2 su vu]]] := unfoldP sx' hu.
have [sP vP] := swap12P su hs; have [hp1 _] := int_paddingP hp.
exists n, C, i1, i2, o1, o2, p1, p2; split=> // b e a1 a2 y z hb he ha1 ha2 hy hz.
rewrite vP //; [|exact: idx_lt|by do 2 apply: idx_lt => //].
rewrite vu //; case: ifP => h; last by rewrite group_pixel_out ?h.
have /andP[/andP[h1 h2] /andP[h3 h4]] := h.
by rewrite vx ?ltn_subLR // !hposE.
Qed.

Lemma index_patternP i k s pl pr d (t : tens) : index_pattern i k s pl pr d = Ok t -> exists o,
  [/\ out_size i k s pl pr d = Some o, tshape t = [:: k; o; i] &
   forall e u h, (e < k)%N -> (u < o)%N -> (h < i)%N ->
     nth 0 (tdata t) ((e * o + u) * i + h) = (u * s + e * d == h + pl)%N%:R].
Proof.
rewrite /index_pattern; case e : out_size => [o|//] [<-]; exists o; split=> // a u h ha hu hh.
by rewrite -[((a * o + u) * i + h)%N]muln1 -[(_ * 1)%N]addn0 /= nth_mk4.
Qed.

Lemma mean_midP (t : tens) k o i t' : tshape t = [:: k; o; i] -> mean_mid t = Ok t' -> tshape t' = [:: k; i] /\
  forall e h, (e < k)%N -> (h < i)%N ->
    nth 0 (tdata t') (e * i + h) = (\sum_(u < o) nth 0 (tdata t) ((e * o + u) * i + h)) / o%:R.
Proof.
rewrite /mean_mid => -> [<-]; split=> // e h he hh.
rewrite (_ : e * i + h = ((e * i + h) * 1 + 0) * 1 + 0)%N; last by rewrite !muln1 !addn0.
by rewrite /= nth_mk4 // sumrE.
Qed.

Lemma axis_patternP pad first i k s d p q (t : tens) o :
  axis_paddings pad first k s d = Ok (p, q) -> out_size i k s p q d = Some o ->
  axis_pattern pad first i k s d = Ok t -> tshape t = [:: k; i] /\
  forall e h, (e < k)%N -> (h < i)%N ->
    nth 0 (tdata t) (e * i + h) = (\sum_(u < o) (u * s + e * d == h + p)%N%:R) / o%:R.
Proof.
rewrite /axis_pattern => -> ho /=; case ht : index_pattern => [t'|//] /=.
have [o' [ho' st vt]] := index_patternP ht; move: ho'; rewrite ho => -[eo]; rewrite -eo in st vt.
move=> /(mean_midP st)[-> vm]; split=> // e h he hh.
rewrite vm //; congr (_ / _); apply: eq_bigr => u _; exact: vt.
Qed.

Lemma axis_pattern_ok pad first i k s d p q o :
  axis_paddings pad first k s d = Ok (p, q) -> out_size i k s p q d = Some o ->
  exists t : tens, axis_pattern pad first i k s d = Ok t.
Proof. by rewrite /axis_pattern /index_pattern => -> /= -> /=; eexists. Qed.

(* selecting the pixel that output u looks at *)
Lemma pick (I : nat) (p u s a d : nat) (f : nat -> F) :
  \sum_(h < I) f h * (u * s + a * d == h + p)%N%:R =
  if (p <= u * s + a * d < p + I)%N then f (u * s + a * d - p)%N else 0.
Proof.
case: ifP => [/andP[h1 h2]|hf].
  have hI : (u * s + a * d - p < I)%N by rewrite ltn_subLR.
  rewrite (bigD1 (Ordinal hI)) //= subnK // eqxx mulr1 big1 ?addr0 // => h hne.
  case: eqP => [e|_]; last by rewrite mulr0.
  by case/eqP: hne; apply: val_inj; rewrite /= e addnK.
rewrite big1 // => h _; case: eqP => [e|_]; last by rewrite mulr0.
by rewrite e leq_addl /= addnC ltn_add2l ltn_ord in hf.
Qed.

Lemma pair_mean n m (f : nat -> nat -> F) :
  \sum_(s < n * m) f (s %/ m)%N (s %% m)%N = \sum_(y < n) \sum_(z < m) f y z.
Proof.
elim: n => [|n IH]; first by rewrite mul0n !big_ord0.
rewrite mulSnr big_split_ord /= IH big_ord_recr /=; congr (_ + _).
by apply: eq_bigr => z _; have [-> ->] := dm n (ltn_ord z).
Qed.

(* paddings on both sides of both axes *)
Definition paddings (c : conv) (p1 q1 p2 q2 : nat) : Prop :=
  match c_pad c with
  | PInt a1 a2 => [/\ p1 = a1, q1 = a1, p2 = a2 & q2 = a2]
  | PValid => [/\ p1 = 0, q1 = 0, p2 = 0 & q2 = 0]%N
  | PSame => c_s1 c = 1%N /\ c_s2 c = 1%N /\
             let t1 := (c_d1 c * (c_k1 c).-1)%N in let t2 := (c_d2 c * (c_k2 c).-1)%N in
             [/\ p1 = (t1 %/ 2)%N, q1 = (t1 - p1)%N, p2 = (t2 %/ 2)%N & q2 = (t2 - p2)%N]
  end.
Lemma axis_paddingsP c p1 q1 p2 q2 : paddings c p1 q1 p2 q2 ->
  axis_paddings (c_pad c) true (c_k1 c) (c_s1 c) (c_d1 c) = Ok (p1, q1) /\
  axis_paddings (c_pad c) false (c_k2 c) (c_s2 c) (c_d2 c) = Ok (p2, q2).
Proof.
rewrite /paddings /axis_paddings /conv_paddings; case: (c_pad c) => [a1 a2|/=|] //=.
- by case=> -> -> -> ->.
- by case=> -> [-> [-> -> -> ->]].
by case=> -> -> -> ->.
Qed.

(* what the averaged patches contain: the mean over all output positions of the
   patches' entries, also for paddings that differ between the two sides *)
Theorem C46_average_content (x : tens) c n C i1 i2 p1 q1 p2 q2 o1 o2 :
  tshape x = [:: n; C; i1; i2] -> (0 < c_groups c)%N -> (c_groups c %| C)%N -> paddings c p1 q1 p2 q2 ->
  out_size i1 (c_k1 c) (c_s1 c) p1 q1 (c_d1 c) = Some o1 -> out_size i2 (c_k2 c) (c_s2 c) p2 q2 (c_d2 c) = Some o2 ->
  let E := (C %/ c_groups c)%N in
  exists Q, [/\ extract_averaged_patches x c = Ok Q, tshape Q = [:: n; E * c_k1 c * c_k2 c]%N &
   forall b e a1 a2, (b < n)%N -> (e < E)%N -> (a1 < c_k1 c)%N -> (a2 < c_k2 c)%N ->
     nth 0 (tdata Q) (b * (E * c_k1 c * c_k2 c) + ((e * c_k1 c + a1) * c_k2 c + a2)) =
     (\sum_(y < o1) \sum_(z < o2)
        group_pixel (c_groups c) C i1 i2 x b e (hpos (c_s1 c) (c_d1 c) p1 y a1) (hpos (c_s2 c) (c_d2 c) p2 z a2)) / (o1 * o2)%:R].
Proof.
move=> sx g0 gC hpad ho1 ho2 E; have [ha1 ha2] := axis_paddingsP hpad.
rewrite /extract_averaged_patches.
have [x' hx] : exists x', group_mean (c_groups c) x = Ok x' by rewrite /group_mean sx g0 gC; eexists.
have [n' [C' [i1' [i2' [sx1 _ _ sx' vx]]]]] := group_meanP hx.
move: sx1; rewrite sx => -[? ? ? ?]; subst n' C' i1' i2'.
rewrite hx /= sx' /=.
have [t1 ht1] := axis_pattern_ok ha1 ho1; have [t2 ht2] := axis_pattern_ok ha2 ho2.
rewrite ht1 ht2 /= /contract sx'.
have [s1 v1] := axis_patternP ha1 ho1 ht1; have [s2 v2] := axis_patternP ha2 ho2 ht2.
rewrite s1 s2 !eqxx /=; rewrite -/E in vx sx' *.
set Q := Tensor _ _; exists Q; split=> // b e a1 a2 hb le l1 l2.
rewrite /Q /= (_ : b * _ + _ = ((b * E + e) * c_k1 c + a1) * c_k2 c + a2)%N; last first.
  by rewrite addnA !mulnA -mulnDl addnA -mulnDl.
rewrite nth_mk4 // sumrE.
transitivity ((\sum_(y < o1) \sum_(z < o2) \sum_(h < i1) \sum_(w < i2)
    at4 E i1 i2 x' b e h w * (y * c_s1 c + a1 * c_d1 c == h + p1)%N%:R * (z * c_s2 c + a2 * c_d2 c == w + p2)%N%:R) / (o1%:R * o2%:R)).
  rewrite (eq_bigr (fun h : 'I_i1 => \sum_(w < i2) (\sum_(y < o1) \sum_(z < o2) at4 E i1 i2 x' b e h w *
     (y * c_s1 c + a1 * c_d1 c == h + p1)%N%:R * (z * c_s2 c + a2 * c_d2 c == w + p2)%N%:R) / (o1%:R * o2%:R))); last first.
    move=> h _; rewrite sumrE; apply: eq_bigr => w _; rewrite v1 // v2 // invfM.
    set A := \sum_(u0 < o1) _; set B := \sum_(u0 < o2) _.
    have -> : \sum_(y < o1) \sum_(z < o2) at4 E i1 i2 x' b e h w *
       (y * c_s1 c + a1 * c_d1 c == h + p1)%N%:R * (z * c_s2 c + a2 * c_d2 c == w + p2)%N%:R = at4 E i1 i2 x' b e h w * A * B.
      rewrite -mulrA big_distrlr mulr_sumr; apply: eq_bigr => y _ /=; rewrite mulr_sumr; apply: eq_bigr => z _; by rewrite mulrA.
    by move: (at4 _ _ _ _ _ _ _ _) A B (o1%:R^-1) (o2%:R^-1) => a A B p q; ring.
  under eq_bigr => h _ do rewrite -mulr_suml.
  rewrite -mulr_suml; congr (_ / _).
  under eq_bigr => h _ do rewrite exchange_big.
  rewrite exchange_big; apply: eq_bigr => y _ /=.
  under eq_bigr => h _ do rewrite exchange_big.
  by rewrite exchange_big.
rewrite natrM; congr (_ / _); apply: eq_bigr => y _; apply: eq_bigr => z _.
under eq_bigr => h _ do rewrite (pick i2 p2 z (c_s2 c) a2 (c_d2 c) (fun w => at4 E i1 i2 x' b e h w * (y * c_s1 c + a1 * c_d1 c == h + p1)%N%:R)).
case: (boolP (p2 <= z * c_s2 c + a2 * c_d2 c < p2 + i2)%N) => h2; last first.
  by rewrite big1 // group_pixel_out // (negbTE h2) andbF.
rewrite (pick i1 p1 y (c_s1 c) a1 (c_d1 c) (fun h => at4 E i1 i2 x' b e h (z * c_s2 c + a2 * c_d2 c - p2))).
case: (boolP (p1 <= y * c_s1 c + a1 * c_d1 c < p1 + i1)%N) => h1; last by rewrite group_pixel_out // (negbTE h1).
have /andP[k1 k2] := h1; have /andP[k3 k4] := h2.
by rewrite !hposE // vx // ltn_subLR.
Qed.

(* the averaged patches are the mean of the patches *)
Theorem C46_mean (x : tens) c P : extract_patches x c = Ok P -> exists n o q Q,
  [/\ extract_averaged_patches x c = Ok Q, tshape P = [:: n; o; q], tshape Q = [:: n; q], (0 < o)%N &
   forall b j, (b < n)%N -> (j < q)%N ->
     nth 0 (tdata Q) (b * q + j) = (\sum_(s < o) nth 0 (tdata P) ((b * o + s) * q + j)) / o%:R].
Proof.
move=> hP; have [n [C [i1 [i2 [o1 [o2 [p1 [p2 [sx hp [ho1 ho2] sP vP]]]]]]]]] := C46_patch_content hP.
have [g0 gC] : (0 < c_groups c)%N /\ (c_groups c %| C)%N.
  move: hP; rewrite /extract_patches; case: int_padding => [[? ?]|//] /=.
  case hx : group_mean => [x'|//] _; have [? [? [? [? [e h1 h2 _ _]]]]] := group_meanP hx.
  by move: e h2; rewrite sx => -[_ <- _ _].
have hpad : paddings c p1 p1 p2 p2.
  move: hp; rewrite /uses_padding /paddings; case: (c_pad c) => [a1 a2 [-> ->]|[-> -> <- <-]|[-> ->]] //.
  by rewrite !mulKn // !mul2n -!addnn !addnK.
have [Q [hQ sQ vQ]] := C46_average_content sx g0 gC hpad ho1 ho2.
have o1p : (0 < o1)%N by move: ho1; rewrite /out_size; case: ifP => // _ [<-].
have o2p : (0 < o2)%N by move: ho2; rewrite /out_size; case: ifP => // _ [<-].
set E := (C %/ c_groups c)%N in sP vP sQ vQ *.
exists n, (o1 * o2)%N, (E * c_k1 c * c_k2 c)%N, Q; split=> //; first by rewrite muln_gt0 o1p.
move=> b j hb hj.
have k2p : (0 < c_k2 c)%N by move: hj; case: (c_k2 c) => //; rewrite muln0.
have k1p : (0 < c_k1 c)%N by move: hj; case: (c_k1 c) => //; rewrite muln0 mul0n.
pose a2 := (j %% c_k2 c)%N; pose a1 := (j %/ c_k2 c %% c_k1 c)%N; pose e := (j %/ c_k2 c %/ c_k1 c)%N.
have ej : j = ((e * c_k1 c + a1) * c_k2 c + a2)%N by rewrite /a2 /a1 /e -!divn_eq.
have l2 : (a2 < c_k2 c)%N by rewrite ltn_mod.
have l1 : (a1 < c_k1 c)%N by rewrite ltn_mod.
have le : (e < E)%N by rewrite /e !ltn_divLR.
rewrite {1}ej vQ //; congr (_ / _).
rewrite -(pair_mean o1 o2 (fun y z => group_pixel (c_groups c) C i1 i2 x b e (hpos (c_s1 c) (c_d1 c) p1 y a1) (hpos (c_s2 c) (c_d2 c) p2 z a2))).
apply: eq_bigr => s _; rewrite -vP //; first by rewrite -ej -divn_eq.
  by rewrite ltn_divLR.
by rewrite ltn_mod.
Qed.

(* the convolution of a one-group layer is the product of patches and kernel *)
Definition conv2d_at (C I1 I2 : nat) (c : conv) (p1 p2 : nat) (x : tens) (W : nat -> nat -> nat -> nat -> F) (b co y z : nat) : F :=
  \sum_(e < C) \sum_(a1 < c_k1 c) \sum_(a2 < c_k2 c)
    pixel C I1 I2 x b e (hpos (c_s1 c) (c_d1 c) p1 y a1) (hpos (c_s2 c) (c_d2 c) p2 z a2) * W co e a1 a2.

Theorem C46_convolution (x : tens) c P (Wd : seq F) : extract_patches x c = Ok P -> c_groups c = 1%N ->
  exists n C I1 I2 O1 O2 p1 p2, let q := (C * c_k1 c * c_k2 c)%N in
  [/\ tshape x = [:: n; C; I1; I2], uses_padding c p1 p2, tshape P = [:: n; O1 * O2; q]%N &
   forall b co y z, (b < n)%N -> (y < O1)%N -> (z < O2)%N ->
     conv2d_at C I1 I2 c p1 p2 x (fun co e a1 a2 => nth 0 Wd (((co * C + e) * c_k1 c + a1) * c_k2 c + a2)) b co y z =
     \sum_(j < q) nth 0 (tdata P) ((b * (O1 * O2) + (y * O2 + z)) * q + j) * nth 0 Wd (co * q + j)].
Proof.
move=> hP hg; have [n [C [i1 [i2 [o1 [o2 [p1 [p2 [sx hp _ sP vP]]]]]]]]] := C46_patch_content hP.
move: sP vP; rewrite hg divn1 => sP vP; exists n, C, i1, i2, o1, o2, p1, p2; split=> // b co y z hb hy hz.
set q := (C * _ * _)%N.
have k2p j : (j < q)%N -> (0 < c_k2 c)%N by rewrite /q; case: (c_k2 c) => //; rewrite muln0.
have k1p j : (j < q)%N -> (0 < c_k1 c)%N by rewrite /q; case: (c_k1 c) => //; rewrite muln0 mul0n.
pose f m a2 := pixel C i1 i2 x b (m %/ c_k1 c) (hpos (c_s1 c) (c_d1 c) p1 y (m %% c_k1 c)%N) (hpos (c_s2 c) (c_d2 c) p2 z a2) *
    nth 0 Wd (((co * C + m %/ c_k1 c) * c_k1 c + m %% c_k1 c) * c_k2 c + a2).
transitivity (\sum_(m < C * c_k1 c) \sum_(a2 < c_k2 c) f m a2).
  rewrite /conv2d_at -(pair_mean C (c_k1 c) (fun e a1 => \sum_(a2 < c_k2 c) pixel C i1 i2 x b e (hpos (c_s1 c) (c_d1 c) p1 y a1)
     (hpos (c_s2 c) (c_d2 c) p2 z a2) * nth 0 Wd (((co * C + e) * c_k1 c + a1) * c_k2 c + a2))).
  by apply: eq_bigr => m _.
rewrite -pair_mean; apply: eq_bigr => j _; have hk2 := k2p _ (ltn_ord j); have hk1 := k1p _ (ltn_ord j).
have le : (j %/ c_k2 c %/ c_k1 c < C)%N by rewrite !ltn_divLR // ltn_ord.
have := vP b (j %/ c_k2 c %/ c_k1 c)%N (j %/ c_k2 c %% c_k1 c)%N (j %% c_k2 c)%N y z hb le.
rewrite !ltn_mod hk1 hk2 => /(_ isT isT hy hz); rewrite -!divn_eq -/q => ->.
rewrite /f /group_pixel big_ord1 mul0n add0n divr1; congr (_ * nth _ _ _).
by rewrite /q (mulnDl (co * C)%N) -(addnA (co * C * _)%N) -divn_eq mulnDl -addnA -divn_eq !mulnA.
Qed.
End Proofs.
Print Assumptions C46_patch_content.
Print Assumptions C46_average_content.
Print Assumptions C46_mean.
Print Assumptions C46_convolution.

(* unequal 'same' padding: patches are refused, averaged patches are not *)
Theorem C46_uneven_same_padding (F : fieldType) (x : tensor F) c : c_pad c = PSame -> c_s1 c = 1%N ->
  odd (c_d1 c * (c_k1 c).-1) -> extract_patches x c = Err NotImplementedError.
Proof.
move=> hp hs ho; rewrite /extract_patches /int_padding hp /pad_axis /conv_paddings hs /=.
case: eqP => //= e; move: ho; rewrite -(half_eq (introT eqP e)) oddM //.
Qed.
Print Assumptions C46_uneven_same_padding.

(* a 2x2 image, 2x2 kernel, stride 1, padding 1: nine outputs; 2 groups *)
Definition exq (n : nat) : rat := n%:R.
Definition ex_x : tensor rat_fieldType := Tensor [:: 1; 2; 2; 2]%N [seq exq n | n <- [:: 1; 2; 3; 4; 5; 6; 7; 8]%N].
Definition ex_c : conv := Conv 2 2 1 1 (PInt 1 1) 1 1 2.
Example C46_ex : exists P, extract_patches ex_x ex_c = Ok P /\ tshape P = [:: 1; 9; 4]%N /\
  take 8 (tdata P) = [seq exq n | n <- [:: 0; 0; 0; 3; 0; 0; 3; 4]%N].
Proof. by eexists; split; [reflexivity|vm_compute]. Qed.
Example C46_ex_mean : exists Q, extract_averaged_patches ex_x ex_c = Ok Q /\ tshape Q = [:: 1; 4]%N /\
  tdata Q = nseq 4 (2%:R : rat).
Proof. by eexists; split; [reflexivity|vm_compute]. Qed.
Example C46_ex_conv : exists P, extract_patches ex_x (Conv 2 2 1 1 PValid 1 1 1) = Ok P.
Proof. by eexists. Qed.
Example C46_ex_uneven : extract_patches ex_x (Conv 2 2 1 1 PSame 1 1 1) = Err NotImplementedError /\
  is_ok (extract_averaged_patches ex_x (Conv 2 2 1 1 PSame 1 1 1)).
Proof. by split; [apply: C46_uneven_same_padding|vm_compute]. Qed.
Example C46_ex_average_content : paddings (Conv 2 2 1 1 PSame 1 1 1) 0 1 0 1 /\
  out_size 2 2 1 0 1 1 = Some 2%N /\ (exists Q, extract_averaged_patches ex_x (Conv 2 2 1 1 PSame 1 1 1) = Ok Q).
Proof. by split; [|split; [|eexists; vm_compute]]. Qed.
