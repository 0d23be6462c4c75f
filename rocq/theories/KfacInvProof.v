(* Lemmas: what the loop of the inverse KFAC operator's product computes. *)
From mathcomp Require Import all_ssreflect all_algebra.
From Verif Require Import PyPrelude Tensor Spec Kfac KfacScalar KfacSpec KfacProof KfacMap KfacInverse.
Set Implicit Arguments.
Unset Strict Implicit.
Unset Printing Implicit Defensive.
Import GRing.Theory Num.Theory.
Local Open Scope ring_scope.

Section Algebra.
Variable F : fieldType.

(* Q (S o (Q^T X P)) P^T solves B Y A + d Y = X in the eigenbases of B and A *)
Lemma eig_solve m n (Q : 'M[F]_m) (P : 'M[F]_n) (lg : 'I_m -> F) (la : 'I_n -> F) (d : F) (B : 'M[F]_m) (A : 'M[F]_n)
    (X Z : 'M[F]_(m, n)) :
  Q^T *m Q = 1%:M -> P^T *m P = 1%:M ->
  B = Q *m \matrix_(i, j) (if i == j then lg i else 0) *m Q^T ->
  A = P *m \matrix_(i, j) (if i == j then la i else 0) *m P^T ->
  (forall i j, lg i * la j + d != 0) ->
  (forall i j, Z i j = (Q^T *m X *m P) i j * (lg i * la j + d)^-1) ->
  B *m (Q *m Z *m P^T) *m A + d *: (Q *m Z *m P^T) = X.
Proof.
move=> hQ hP -> -> hne hZ.
have hQ' : Q *m Q^T = 1%:M by apply: mulmx1C.
have hP' : P *m P^T = 1%:M by apply: mulmx1C.
have e1 : Q *m (\matrix_(i, j) (if i == j then lg i else 0)) *m Q^T *m (Q *m Z *m P^T) *m
     (P *m \matrix_(i, j) (if i == j then la i else 0) *m P^T) = Q *m (\matrix_(i, j) (lg i * Z i j * la j)) *m P^T.
  rewrite !mulmxA -[_ *m Q^T *m Q]mulmxA hQ mulmx1 -[_ *m P^T *m P]mulmxA hP mulmx1.
  congr (_ *m _); rewrite -!mulmxA; congr (_ *m _); apply/matrixP => i j; rewrite !mxE.
  rewrite (bigD1 i) //= big1 ?addr0; last by move=> k hk; rewrite !mxE eq_sym (negbTE hk) mul0r.
  rewrite mxE eqxx -mulrA; congr (_ * _); rewrite mxE (bigD1 j) //= big1 ?addr0.
    by rewrite mxE eqxx.
  by move=> k hk; rewrite !mxE (negbTE hk) mulr0.
rewrite e1 scalemxAl scalemxAr -mulmxDl -mulmxDr.
have -> : (\matrix_(i, j) (lg i * Z i j * la j)) + d *: Z = Q^T *m X *m P.
  apply/matrixP => i j; rewrite mxE [(d *: Z) i j]mxE [(\matrix_(_, _) (lg _ * _ * _)) i j]mxE.
  by rewrite [lg i * Z i j]mulrC -mulrA [d * _]mulrC -mulrDr hZ -mulrA mulVf ?mulr1.
by rewrite !mulmxA hQ' mul1mx -mulmxA hP' mulmx1.
Qed.

Lemma eig_solve1 m (Q : 'M[F]_m) (lg : 'I_m -> F) (d : F) (B : 'M[F]_m) (X Z : 'M[F]_(m, 1)) :
  Q^T *m Q = 1%:M -> B = Q *m \matrix_(i, j) (if i == j then lg i else 0) *m Q^T ->
  (forall i, lg i + d != 0) -> (forall i j, Z i j = (Q^T *m X) i j * (lg i + d)^-1) ->
  B *m (Q *m Z) + d *: (Q *m Z) = X.
Proof.
move=> hQ hB hne hZ.
have := @eig_solve m 1 Q 1%:M lg (fun=> 1) d B 1%:M X Z hQ.
rewrite trmx1 !mulmx1; apply=> //.
- by rewrite mul1mx; apply/matrixP => i j; rewrite !mxE; case: eqP.
- by move=> i _; rewrite mulr1.
by move=> i j; rewrite mulr1 hZ.
Qed.
End Algebra.

Section Views.
Variable F : rcfType.
Local Notation tens := (tensor F).
Local Notation t0 := (Tensor [::] [::] : tens).

(* column k of a tensor with shape [m, n, K], and a matrix with shape [m, n] *)
Definition cmx m n K (d : seq F) (k : nat) : 'M[F]_(m, n) := \matrix_(i, j) entry K d (i * n + j) k.
Definition tmx m n (t : tens) : 'M[F]_(m, n) := \matrix_(i, j) entry n (tdata t) i j.

Lemma sandwich_mx (G A : tens) (X : tens) m n K : tshape G = [:: m; m] -> tshape A = [:: n; n] -> tshape X = [:: m; n; K] ->
  exists2 Y, sandwich G X A = Ok Y & [/\ tshape Y = [:: m; n; K], size (tdata Y) = (m * n * K)%N &
    forall k, (k < K)%N -> cmx m n K (tdata Y) k = tmx m m G *m cmx m n K (tdata X) k *m tmx n n A].
Proof.
move=> hG hA hX; rewrite /sandwich hG hA hX !eqxx /=; eexists; first reflexivity.
split=> //; first by rewrite size_mk3.
move=> k hk; apply/matrixP => i j; rewrite mxE nth_mk3 // sumrE mxE.
rewrite (eq_bigr (fun u : 'I_m => \sum_(j0 < n) e2 m G i u * e3 n K X u j0 k * e2 n A j0 j)); last by move=> u _; rewrite sumrE.
rewrite exchange_big /=; apply: eq_bigr => u _; rewrite !mxE mulr_suml; apply: eq_bigr => t _.
by rewrite !mxE.
Qed.

Lemma mm_right_mx (A X : tens) m n K : tshape A = [:: n; n] -> tshape X = [:: m; n; K] ->
  exists2 Y, mm_right X A = Ok Y & [/\ tshape Y = [:: m; n; K], size (tdata Y) = (m * n * K)%N &
    forall k, (k < K)%N -> cmx m n K (tdata Y) k = cmx m n K (tdata X) k *m tmx n n A].
Proof.
move=> hA hX; rewrite /mm_right hA hX !eqxx /=; eexists; first reflexivity.
split=> //; first by rewrite size_mk3.
move=> k hk; apply/matrixP => i j; rewrite mxE nth_mk3 // sumrE mxE; apply: eq_bigr => u _.
by rewrite !mxE.
Qed.

Lemma mm_left_mx (G X : tens) m n K : tshape G = [:: m; m] -> tshape X = [:: m; n; K] ->
  exists2 Y, mm_left G X = Ok Y & [/\ tshape Y = [:: m; n; K], size (tdata Y) = (m * n * K)%N &
    forall k, (k < K)%N -> cmx m n K (tdata Y) k = tmx m m G *m cmx m n K (tdata X) k].
Proof.
move=> hG hX; rewrite /mm_left hG hX !eqxx /=; eexists; first reflexivity.
split=> //; first by rewrite size_mk3 !muln1 mulnA.
move=> k hk; apply/matrixP => i j; rewrite mxE -entry_regroup.
have hj := idx2_bound (ltn_ord j) hk.
rewrite muln1 -[in LHS](addn0 i) -[in LHS](muln1 i) addn0 -[(i * 1)%N]addn0 nth_mk3 // sumrE mxE.
by apply: eq_bigr => u _; rewrite /e2 entry_regroup !mxE.
Qed.

Lemma mm_left_mx1 (G X : tens) m K : tshape G = [:: m; m] -> tshape X = [:: m; K] ->
  exists2 Y, mm_left G X = Ok Y & [/\ tshape Y = [:: m; K], size (tdata Y) = (m * 1 * K)%N &
    forall k, (k < K)%N -> cmx m 1 K (tdata Y) k = tmx m m G *m cmx m 1 K (tdata X) k].
Proof.
move=> hG hX; rewrite /mm_left hG hX !eqxx /=; eexists; first reflexivity.
split=> //; first by rewrite size_mk3 !muln1.
move=> k hk; apply/matrixP => i j; rewrite !mxE !muln1 ord1 /= -[in LHS](muln1 i) nth_mk3 // sumrE.
by apply: eq_bigr => u _; rewrite /e2 !mxE muln1 addn0.
Qed.

Lemma ttr_mx (Q : tens) n : tshape Q = [:: n; n] -> tshape (ttr Q) = [:: n; n] /\ tmx n n (ttr Q) = (tmx n n Q)^T.
Proof.
move=> hQ; rewrite /ttr hQ; split=> //; apply/matrixP => i j; rewrite !mxE /entry nth_mkseq; last exact: idx2_bound.
have n0 : (0 < n)%N by apply: leq_ltn_trans (ltn_ord i).
by rewrite /= divnMDl // modnMDl divn_small // modn_small // addn0.
Qed.

Lemma scale_grid_mx (g a X : tens) d m n K : tshape g = [:: m] -> tshape a = [:: n] -> tshape X = [:: m; n; K] ->
  exists2 Y, scale_grid d g a X = Ok Y & [/\ tshape Y = [:: m; n; K], size (tdata Y) = (m * n * K)%N &
    forall k, (k < K)%N -> forall i j, cmx m n K (tdata Y) k i j =
      cmx m n K (tdata X) k i j * (nth 0 (tdata g) i * nth 0 (tdata a) j + d)^-1].
Proof.
move=> hg ha hX; rewrite /scale_grid hg ha hX !eqxx /=; eexists; first reflexivity.
split=> //; first by rewrite size_mk3.
by move=> k hk i j; rewrite !mxE nth_mk3.
Qed.

Lemma scale_rows_mx (g X : tens) d m K : tshape g = [:: m] -> tshape X = [:: m; K] ->
  exists2 Y, scale_rows d g X = Ok Y & [/\ tshape Y = [:: m; K], size (tdata Y) = (m * 1 * K)%N &
    forall k, (k < K)%N -> forall i j, cmx m 1 K (tdata Y) k i j =
      cmx m 1 K (tdata X) k i j * (nth 0 (tdata g) i + d)^-1].
Proof.
move=> hg hX; rewrite /scale_rows hg hX !eqxx /=; eexists; first reflexivity.
split=> //; first by rewrite size_mk3 !muln1.
move=> k hk i j; rewrite !mxE ord1 /= !muln1 addn0.
by rewrite -[in LHS](muln1 i) -[in LHS](addn0 (i * 1)%N) nth_mk3.
Qed.

(* ---- the decompositions of a layer's factors ----
   Bd (Ad) is the matrix to be inverted: the damped factor, or with exact damping
   the factor itself and d the damping. *)
Definition diagl m (l : tens) : 'M[F]_m := \matrix_(i, j) (if i == j then nth 0 (tdata l) i else 0).
Definition eig_of n (M : 'M[F]_n) (Q l : tens) : Prop :=
  [/\ tshape Q = [:: n; n], tshape l = [:: n], (tmx n n Q)^T *m tmx n n Q = 1%:M &
      M = tmx n n Q *m diagl n l *m (tmx n n Q)^T].
(* gradient factor alone *)
Definition good1 (s : iset F) (gi : ientry F) m (Bd : 'M[F]_m) (d : F) : Prop :=
  if i_exact s then i_damping s = DOne d /\ exists Q l, [/\ gi = IEig (Some Q) (Some l), eig_of Bd Q l &
     forall i : 'I_m, nth 0 (tdata l) i + d != 0]
  else d = 0 /\ exists G, [/\ gi = IMat (Some G), tshape G = [:: m; m] & Bd *m tmx m m G = 1%:M].
(* both factors *)
Definition good2 (s : iset F) (ai gi : ientry F) m n (Bd : 'M[F]_m) (Ad : 'M[F]_n) (d : F) : Prop :=
  if i_exact s then i_damping s = DOne d /\ exists Q l P u,
     [/\ gi = IEig (Some Q) (Some l), ai = IEig (Some P) (Some u), eig_of Bd Q l, eig_of Ad P u &
     forall (i : 'I_m) (j : 'I_n), nth 0 (tdata l) i * nth 0 (tdata u) j + d != 0]
  else d = 0 /\ exists G A, [/\ gi = IMat (Some G), ai = IMat (Some A), tshape G = [:: m; m], tshape A = [:: n; n] &
     Bd *m tmx m m G = 1%:M /\ Ad *m tmx n n A = 1%:M].

Definition solves m n (Bd : 'M[F]_m) (Ad : 'M[F]_n) (d : F) K (x y : seq F) : Prop :=
  forall k, (k < K)%N -> Bd *m cmx m n K y k *m Ad + d *: cmx m n K y k = cmx m n K x k.

Lemma eig_step m n K (Bd : 'M[F]_m) (Ad : 'M[F]_n) d Q l P u (x1 x2 y : seq F) (x : seq F) :
  eig_of Bd Q l -> eig_of Ad P u -> (forall (i : 'I_m) (j : 'I_n), nth 0 (tdata l) i * nth 0 (tdata u) j + d != 0) ->
  (forall k, (k < K)%N -> cmx m n K x1 k = (tmx m m Q)^T *m cmx m n K x k *m tmx n n P) ->
  (forall k, (k < K)%N -> forall i j, cmx m n K x2 k i j = cmx m n K x1 k i j * (nth 0 (tdata l) i * nth 0 (tdata u) j + d)^-1) ->
  (forall k, (k < K)%N -> cmx m n K y k = tmx m m Q *m cmx m n K x2 k *m (tmx n n P)^T) ->
  solves Bd Ad d K x y.
Proof.
move=> [q1 q2 q3 q4] [p1 p2 p3 p4] hne h1 h2 h3 k hk; rewrite h3 //.
apply: (@eig_solve _ _ _ _ _ (fun i => nth 0 (tdata l) i) (fun j => nth 0 (tdata u) j)) => //.
by move=> i j; rewrite h2 // h1.
Qed.

Lemma joint_solve s ai gi m n (Bd : 'M[F]_m) (Ad : 'M[F]_n) d K X : good2 s ai gi Bd Ad d -> tshape X = [:: m; n; K] ->
  exists2 Y, left_and_right_multiply s X ai gi = Ok Y &
    [/\ tshape Y = [:: m; n; K], size (tdata Y) = (m * n * K)%N & solves Bd Ad d K (tdata X) (tdata Y)].
Proof.
rewrite /good2 /left_and_right_multiply; case: (i_exact s).
  move=> [hd [Q [l [P [u [-> -> hQ hP hne]]]]]] hX /=; have [q1 q2 _ _] := hQ; have [p1 p2 _ _] := hP.
  have [tq1 tq2] := ttr_mx q1; have [tp1 tp2] := ttr_mx p1.
  have [X1 -> [a1 a2 a3]] := sandwich_mx tq1 p1 hX; rewrite /= /single hd /=.
  have [X2 -> [b1 b2 b3]] := scale_grid_mx d q2 p2 a1; rewrite /=.
  have [Y -> [c1 c2 c3]] := sandwich_mx q1 tp1 b1; exists Y => //; split=> //.
  apply: (eig_step hQ hP hne) b3 _ => [k hk|k hk]; by rewrite ?a3 ?c3 // ?tq2 ?tp2.
move=> [-> [G [A [-> -> hG hA [iG iA]]]]] hX /=.
have [Y -> [c1 c2 c3]] := sandwich_mx hG hA hX; exists Y => //; split=> // k hk.
by rewrite c3 // scale0r addr0 !mulmxA iG mul1mx -mulmxA (mulmx1C iA) mulmx1.
Qed.

Lemma upd_atE pos f (X : seq tens) t : (pos < size X)%N -> f (nth t0 X pos) = Ok t ->
  upd_at pos f X = (set_nth t X pos t, Ok tt).
Proof. by move=> h e; rewrite /upd_at (lget_nth t0 h) e. Qed.
Lemma size_set (T : Type) (t : T) X pos : (pos < size X)%N -> size (set_nth t X pos t) = size X.
Proof. by move=> h; rewrite size_set_nth; apply/maxn_idPr. Qed.
Lemma nth_set (X : seq tens) t pos : nth t0 (set_nth t X pos t) pos = t.
Proof. by rewrite (set_nth_default t) ?nth_set_nth /= ?eqxx // size_set_nth leq_maxl. Qed.
Lemma set_set (X : seq tens) t u pos : (pos < size X)%N -> set_nth u (set_nth t X pos t) pos u = set_nth u X pos u.
Proof. by elim: X pos => [|x X IH] [|pos] //= h; congr cons; apply: IH. Qed.
Lemma nth_set_ne (X : seq tens) t pos p : (pos < size X)%N -> p != pos -> nth t0 (set_nth t X pos t) p = nth t0 X p.
Proof. by elim: X pos p => [|x X IH] [|pos] [|p] //= h ne; apply: IH. Qed.

Lemma weight_solve s ai gi m rest (Bd : 'M[F]_m) (Ad : 'M[F]_(numel rest)) d K w X : good2 s ai gi Bd Ad d ->
  (w < size X)%N -> tshape (nth t0 X w) = rcons (m :: rest) K ->
  exists2 Y, separate_one s ai gi (Weight, w) X = (set_nth Y X w Y, Ok tt) &
    [/\ tshape Y = [:: m; numel rest; K], size (tdata Y) = (m * numel rest * K)%N & solves Bd Ad d K (tdata (nth t0 X w)) (tdata Y)].
Proof.
set n := numel rest; move=> + hw hsh; have hre := rearr_wE hsh.
have {hsh} hX : tshape (Tensor [:: m; n; K] (tdata (nth t0 X w))) = [:: m; n; K] by [].
rewrite /good2 /separate_one /=; case: (i_exact s).
  move=> [hd [Q [l [P [u [-> -> hQ hP hne]]]]]] /=; have [q1 q2 _ _] := hQ; have [p1 p2 _ _] := hP.
  have [tq1 tq2] := ttr_mx q1; have [tp1 tp2] := ttr_mx p1.
  have [X0 e0 [z1 z2 z3]] := mm_right_mx p1 hX.
  rewrite (@upd_atE w _ X X0) ?hre //=.
  have [X1 e1 [a1 a2 a3]] := mm_left_mx tq1 z1.
  rewrite (@upd_atE w _ _ X1) ?nth_set ?size_set //= set_set // /single hd /=.
  have [X2 e2' [b1 b2 b3]] := scale_grid_mx d q2 p2 a1.
  rewrite (@upd_atE w _ _ X2) ?nth_set ?size_set //= set_set //.
  have [X3 e3' [y1 y2 y3]] := mm_right_mx tp1 b1.
  rewrite (@upd_atE w _ _ X3) ?nth_set ?size_set //= set_set //.
  have [Y e4 [c1 c2 c3]] := mm_left_mx q1 y1.
  rewrite (@upd_atE w _ _ Y) ?nth_set ?size_set //= set_set //; exists Y => //; split=> //.
  apply: (eig_step hQ hP hne) b3 _ => [k hk|k hk]; first by rewrite a3 // z3 // tq2 mulmxA.
  by rewrite c3 // y3 // tp2 mulmxA.
move=> [-> [G [A [-> -> hG hA [iG iA]]]]] /=.
have [X0 e0 [z1 z2 z3]] := mm_right_mx hA hX.
rewrite (@upd_atE w _ X X0) ?hre //=.
have [Y e1 [c1 c2 c3]] := mm_left_mx hG z1.
rewrite (@upd_atE w _ _ Y) ?nth_set ?size_set //= set_set //; exists Y => //; split=> // k hk.
by rewrite c3 // z3 // scale0r addr0 !mulmxA iG mul1mx -mulmxA (mulmx1C iA) mulmx1.
Qed.

Lemma bias_solve s ai gi m (Bd : 'M[F]_m) d K b X : good1 s gi Bd d ->
  (b < size X)%N -> tshape (nth t0 X b) = [:: m; K] ->
  exists2 Y, separate_one s ai gi (Bias, b) X = (set_nth Y X b Y, Ok tt) &
    [/\ tshape Y = [:: m; K], size (tdata Y) = (m * 1 * K)%N & solves Bd (1%:M : 'M_1) d K (tdata (nth t0 X b)) (tdata Y)].
Proof.
move=> + hb hX; rewrite /good1 /separate_one /=; case: (i_exact s).
  move=> [hd [Q [l [-> hQ hne]]]] /=; have [q1 q2 _ _] := hQ; have [tq1 tq2] := ttr_mx q1.
  have [X1 e1 [a1 a2 a3]] := mm_left_mx1 tq1 hX.
  rewrite (@upd_atE b _ X X1) //= /single hd /=.
  have [X2 e2' [b1 b2 b3]] := scale_rows_mx d q2 a1.
  rewrite (@upd_atE b _ _ X2) ?nth_set ?size_set //= set_set //.
  have [Y e4 [c1 c2 c3]] := mm_left_mx1 q1 b1.
  rewrite (@upd_atE b _ _ Y) ?nth_set ?size_set //= set_set //; exists Y => //; split=> // k hk.
  rewrite mulmx1 c3 //; case: hQ => _ _ q3 q4; apply: eig_solve1 q3 q4 hne _ => i j.
  by rewrite b3 // a3 // tq2.
move=> [-> [G [-> hG iG]]] /=.
have [Y e1 [c1 c2 c3]] := mm_left_mx1 hG hX.
rewrite (@upd_atE b _ _ Y) //=; exists Y => //; split=> // k hk.
by rewrite c3 // scale0r addr0 mulmx1 !mulmxA iG mul1mx.
Qed.
End Views.

Section Layers.
Variable F : rcfType.
Local Notation tens := (tensor F).
Local Notation t0 := (Tensor [::] [::] : tens).
Variables (sep : bool) (S : seq (seq nat)) (K : nat).

Definition lmx n (f : nat -> nat -> F) : 'M[F]_n := \matrix_(i, j) f i j.
Definition sym_on n (f : nat -> nat -> F) : Prop := forall i j, (i < n)%N -> (j < n)%N -> f i j = f j i.

(* row r of parameter p: (block of layer l + d I) Y = X *)
Definition solved (l : layer F) (d : F) (x : seq F) (Y : seq tens) (p : nat) : Prop :=
  forall r k, (r < numel (pshape S p))%N -> (k < K)%N ->
  entry K x r k = \sum_(q < size S) \sum_(s < numel (pshape S q)) layer_entry sep S l p r q s * entry K (tdata (nth t0 Y q)) s k
                  + d * entry K (tdata (nth t0 Y p)) r k.

Lemma solves_entry m n (B A : nat -> nat -> F) d (x y : seq F) a c k : solves (lmx m B) (lmx n A) d K x y ->
  (a < m)%N -> (c < n)%N -> (k < K)%N ->
  entry K x (a * n + c) k = \sum_(t < m) \sum_(j < n) B a t * A j c * entry K y (t * n + j) k + d * entry K y (a * n + c) k.
Proof.
move=> h ha hc hk; have := h k hk => /matrixP /(_ (Ordinal ha) (Ordinal hc)); rewrite !mxE /= => <-; congr (_ + _).
rewrite exchange_big /=; apply: eq_bigr => j _; rewrite !mxE mulr_suml; apply: eq_bigr => t _.
by rewrite !mxE mulrAC.
Qed.

Lemma weight_solved (l : layer F) d w m rest (x : seq F) (Y : seq tens) : ~~ joint sep l -> l_w l = Some w -> (w < size S)%N ->
  pshape S w = m :: rest -> sym_on (numel rest) (l_A l) ->
  solves (lmx m (l_B l)) (lmx (numel rest) (l_A l)) d K x (tdata (nth t0 Y w)) -> solved l d x Y w.
Proof.
move=> hj hw hlt hs hsym hsol r k hr hk; rewrite (sep_sum r (fun q s => entry K (tdata (nth t0 Y q)) s k) hj hlt).
move: hr; rewrite hs /= => hr; have [hr1 hr2] := modn_ltn hr.
rewrite [in LHS](divn_eq r (numel rest)) (solves_entry hsol) // -divn_eq; congr (_ + _).
rewrite -(sum_divmod m (numel rest) (fun t j => l_B l (r %/ numel rest) t * l_A l j (r %% numel rest) *
   entry K (tdata (nth t0 Y w)) (t * numel rest + j) k)).
apply: eq_bigr => s _; have [hs1 hs2] := modn_ltn (ltn_ord s); rewrite -divn_eq; congr (_ * _).
rewrite /layer_entry /l_mem /lrow /lcol hw !eqxx /= orbT /ncol hs /=.
by rewrite hsym.
Qed.

Lemma bias_solved (l : layer F) d b m (x : seq F) (Y : seq tens) : ~~ joint sep l -> l_b l = Some b -> l_w l != Some b ->
  (b < size S)%N -> pshape S b = [:: m] ->
  solves (lmx m (l_B l)) (1%:M : 'M_1) d K x (tdata (nth t0 Y b)) -> solved l d x Y b.
Proof.
move=> hj hb hwb hlt hs hsol r k hr hk; rewrite (sep_sum r (fun q s => entry K (tdata (nth t0 Y q)) s k) hj hlt).
move: hr; rewrite hs /= muln1 => hr.
have hsol' : solves (lmx m (l_B l)) (lmx 1 (fun _ _ => 1)) d K x (tdata (nth t0 Y b)).
  by move=> k' hk'; rewrite -hsol // (_ : lmx 1 _ = 1%:M) //; apply/matrixP => i j; rewrite !mxE !ord1 eqxx.
have := solves_entry hsol' hr (ltnSn 0) hk; rewrite muln1 addn0 => ->; congr (_ + _).
apply: eq_bigr => s _; rewrite big_ord1 muln1 addn0; congr (_ * _).
by rewrite /layer_entry /l_mem /lrow hb eqxx orbT /= (negbTE hwb) (negbTE hj) eqxx !mulr1 /ncol hs /= !divn1.
Qed.

(* joint treatment: x and y are the data of [W b] *)
Definition glue m n (dw db : seq F) : seq F :=
  mk3 m (n + 1) K (fun i j k => if (j < n)%N then entry K dw (i * n + j) k else entry K db i k).

Lemma glue_w m n dw db a j k : (a < m)%N -> (j < n)%N -> (k < K)%N -> entry K (glue m n dw db) (a * (n + 1) + j) k = entry K dw (a * n + j) k.
Proof. by move=> ha hj hk; rewrite nth_mk3 ?hj // addn1 ltnS ltnW. Qed.
Lemma glue_b m n dw db a k : (a < m)%N -> (k < K)%N -> entry K (glue m n dw db) (a * (n + 1) + n) k = entry K db a k.
Proof. by move=> ha hk; rewrite nth_mk3 ?ltnn // addn1. Qed.

Lemma joint_solved (l : layer F) d w b m rest (dw db : seq F) (Y : seq tens) : joint sep l -> l_w l = Some w -> l_b l = Some b -> w != b ->
  (w < size S)%N -> (b < size S)%N -> pshape S w = m :: rest -> pshape S b = [:: m] ->
  let n := numel rest in sym_on (n + 1) (l_A l) ->
  solves (lmx m (l_B l)) (lmx (n + 1) (l_A l)) d K (glue m n dw db) (glue m n (tdata (nth t0 Y w)) (tdata (nth t0 Y b))) ->
  solved l d dw Y w /\ solved l d db Y b.
Proof.
move=> hj hw hb hwb hlw hlb hsw hsb n hsym hsol.
have hsum a c k p r : (a < m)%N -> (c < n + 1)%N -> (k < K)%N -> l_mem l p -> lrow S p r = a -> lcol S l p r = c ->
  \sum_(q < size S) \sum_(s < numel (pshape S q)) layer_entry sep S l p r q s * entry K (tdata (nth t0 Y q)) s k =
  \sum_(t < m) \sum_(j < n + 1) l_B l a t * l_A l j c * entry K (glue m n (tdata (nth t0 Y w)) (tdata (nth t0 Y b))) (t * (n + 1) + j) k.
  move=> ha hc hk hp hr hcol.
  rewrite (joint_sum sep r p (fun q s => entry K (tdata (nth t0 Y q)) s k) hw hb hwb hlw hlb).
  under [RHS]eq_bigr => t _ do rewrite big_split_ord /= big_ord1 addn0 glue_b //.
  rewrite big_split /=; congr (_ + _).
    rewrite hsw /= -/n.
    transitivity (\sum_(t < m) \sum_(j < n) l_B l a t * l_A l j c * entry K (tdata (nth t0 Y w)) (t * n + j) k).
      rewrite -(sum_divmod m n (fun t j => l_B l a t * l_A l j c * entry K (tdata (nth t0 Y w)) (t * n + j) k)).
      apply: eq_bigr => s _; have [hs1 hs2] := modn_ltn (ltn_ord s); rewrite -divn_eq; congr (_ * _).
      rewrite /layer_entry hp hj {1}/l_mem hw eqxx /= hr hcol /lrow /lcol hw eqxx /ncol hsw /= -/n.
      by rewrite hsym // ltn_addr.
    by apply: eq_bigr => t _; apply: eq_bigr => j _; rewrite glue_w.
  rewrite hsb /= muln1; apply: eq_bigr => s _; congr (_ * _).
  have hwb' : (Some w == Some b) = false by apply/eqP => -[e]; rewrite e eqxx in hwb.
  rewrite /layer_entry hp hj {1}/l_mem hb eqxx orbT /= hr hcol /lrow /lcol hw hwb' /ncol hsb hsw /= divn1 -/n.
  by rewrite hsym // addn1.
split=> r k hr hk.
  move: hr; rewrite hsw /= => hr; have [hr1 hr2] := modn_ltn hr.
  have hc : (r %% n < n + 1)%N by rewrite ltn_addr.
  rewrite (hsum (r %/ n)%N (r %% n)%N) //.
  + have := solves_entry hsol hr2 hc hk; rewrite !glue_w // -!divn_eq => ->; by [].
  + by rewrite /l_mem hw eqxx.
  + by rewrite /lrow /ncol hsw.
  + by rewrite /lcol hw eqxx /ncol hsw.
move: hr; rewrite hsb /= muln1 => hr; have hc : (n < n + 1)%N by rewrite addn1.
rewrite (hsum r n) //.
+ by have := solves_entry hsol hr hc hk; rewrite !glue_b // => ->.
+ by rewrite /l_mem hb eqxx orbT.
+ by rewrite /lrow /ncol hsb /= divn1.
by rewrite /lcol hw; case: eqP => [[e]|_]; [rewrite e eqxx in hwb|rewrite /ncol hsw].
Qed.

(* only the layer's own parameters matter *)
Lemma solved_ext (l : layer F) d x Y Y' (p : nat) : p \in l_pos l -> (forall q, q \in l_pos l -> nth t0 Y q = nth t0 Y' q) ->
  solved l d x Y p -> solved l d x Y' p.
Proof.
move=> hp h hs r k hr hk; rewrite hs // (h _ hp); congr (_ + _); apply: eq_bigr => q _; apply: eq_bigr => s _.
case hq : ((q : nat) \in l_pos l); first by rewrite h.
by rewrite /layer_entry (l_memE _ q) hq andbF !mul0r.
Qed.

(* entry e of the mapping belongs to layer l, whose matrices ai and gi invert *)
Definition inverts (s : iset F) (ai gi : ientry F) (e : nat * dict pname_eqType nat) (l : layer F) (d : F) : Prop :=
  [/\ [/\ uniq (dkeys e.2), e.2 <> [::] & i_exact s -> exists v u, ai = IEig v u], all (fun p => (p.1 == Weight) || (p.1 == Bias)) e.2,
      dget Weight e.2 = l_w l, dget Bias e.2 = l_b l &
  exists m,
   (forall w, l_w l = Some w -> exists rest, pshape S w = m :: rest /\
      let n := (numel rest + joint sep l)%N in
      sym_on n (l_A l) /\ good2 s ai gi (lmx m (l_B l)) (lmx n (l_A l)) d) /\
   (forall b, l_b l = Some b -> pshape S b = [:: m] /\ (~~ joint sep l -> good1 s gi (lmx m (l_B l)) d))].

Lemma good_unpack s ai gi m n (Bd : 'M[F]_m) (Ad : 'M[F]_n) d : good2 s ai gi Bd Ad d ->
  (if i_exact s then (let! _ := unpack ai in let! _ := unpack gi in Ok tt) else Ok tt) = Ok tt.
Proof. by rewrite /good2; case: (i_exact s) => // -[_ [Q [l [P [u [-> -> _ _ _]]]]]]. Qed.

Lemma valid_of_nth (X : seq tens) : size X = size S ->
  (forall p, (p < size S)%N -> tshape (nth t0 X p) = rcons (pshape S p) K /\ wf (nth t0 X p)) -> valid_mat S K X.
Proof.
move=> hsz h; split.
  apply: (@eq_from_nth _ [::]); first by rewrite !size_map.
  by move=> i; rewrite size_map hsz => hi; rewrite (nth_map t0) ?hsz // (nth_map [::]) //; case: (h i hi).
by apply/(all_nthP t0) => i; rewrite hsz => hi; case: (h i hi).
Qed.

Lemma joint_glue (xw xb : tens) m n : tshape xw = [:: m; n; K] -> tshape xb = [:: m; K] ->
  exists xb' xj, [/\ unsqueeze_mid xb = Ok xb', cat_mid xw xb' = Ok xj, tshape xj = [:: m; n + 1; K]%N & tdata xj = glue m n (tdata xw) (tdata xb)].
Proof.
move=> hw hb; rewrite /unsqueeze_mid hb; do 2 eexists; split; first reflexivity.
- by rewrite /cat_mid hw /= !eqxx /=; reflexivity.
- by [].
rewrite /glue /mk3 /=; apply: (@eq_from_nth _ 0); first by rewrite !size_mkseq.
move=> e; rewrite size_mkseq => he; rewrite !nth_mkseq //; case: ifP => // hj; rewrite /e3 /=.
have K0 : (0 < K)%N by case: (K) he => //; rewrite muln0.
have -> : (e %/ K %% (n + 1) = n)%N.
  by apply/eqP; rewrite eqn_leq [(n <= _)%N]leqNgt hj andbT -ltnS -[X in (_ < X)%N]addn1 ltn_mod addn1.
by rewrite subnn addn0 muln1.
Qed.

Lemma joint_unglue (y : tens) m n : tshape y = [:: m; n + 1; K]%N -> size (tdata y) = (m * (n + 1) * K)%N ->
  exists yw yb, [/\ split_mid n y = Ok (yw, yb), tshape yw = [:: m; n; K] /\ size (tdata yw) = (m * n * K)%N,
    tshape yb = [:: m; K] /\ size (tdata yb) = (m * 1 * K)%N &
    forall k, (k < K)%N -> cmx m (n + 1) K (glue m n (tdata yw) (tdata yb)) k = cmx m (n + 1) K (tdata y) k].
Proof.
move=> hy hsz; rewrite /split_mid hy eqxx; do 2 eexists; split; first reflexivity.
- by split=> //; rewrite size_mk3.
- by split=> //; rewrite size_mk3.
move=> k hk; apply/matrixP => i j; rewrite !mxE nth_mk3 //; case: ifP => hj; first by rewrite nth_mk3.
have -> : (j = n :> nat)%N.
  by apply/eqP; rewrite eqn_leq [(n <= j)%N]leqNgt hj andbT -ltnS -[X in (_ < X)%N]addn1 ltn_ord.
by rewrite -[in LHS](muln1 i) -[in LHS](addn0 (i * 1)%N) nth_mk3.
Qed.

Lemma multiply_layer_ok s ai gi e (l : layer F) d (X : seq tens) : valid_mat S K X ->
  all (fun p => p < size S)%N (l_pos l) -> uniq (l_pos l) -> inverts s ai gi e l d ->
  exists X', [/\ multiply_layer s sep ai gi e.2 X = (X', Ok tt), valid_mat S K X',
    (forall p, p \notin l_pos l -> nth t0 X' p = nth t0 X p) &
    forall p, p \in l_pos l -> solved l d (tdata (nth t0 X p)) X' p].
Proof.
move=> hX hpos hu [[hk hne hai] hn hw hb [m [hA hB]]].
have hsz : size X = size S by case: hX => h _; rewrite -(size_map (@tshape F)) h size_map.
have hval := valid_nth hX.
(* the weight's shape is restored *)
have hview X1 w rest (Y : tens) : size X1 = size S -> (w < size S)%N -> pshape S w = m :: rest -> nth t0 X1 w = Y ->
    size (tdata Y) = (m * numel rest * K)%N ->
    upd_at w (treshape (tshape (nth t0 X w))) X1 =
      (set_nth (Tensor (rcons (pshape S w) K) (tdata Y)) X1 w (Tensor (rcons (pshape S w) K) (tdata Y)), Ok tt).
  move=> s1 s2 s3 s4 s5; apply: upd_atE; rewrite ?s1 // s4 /treshape; have [_ -> _] := hval _ s2.
  by rewrite numel_rcons s3 s5 /= eqxx.
(* validity from the entries *)
have hfin X' : size X' = size S -> (forall p, p \notin l_pos l -> nth t0 X' p = nth t0 X p) ->
    (forall p, p \in l_pos l -> tshape (nth t0 X' p) = rcons (pshape S p) K /\ wf (nth t0 X' p)) -> valid_mat S K X'.
  move=> s1 h1 h2; apply: valid_of_nth => // p hp; case hin : (p \in l_pos l); first exact: h2.
  by rewrite h1 ?hin //; have [_ a b] := hval _ hp.
have close w b (Y' Z : tens) X' : (forall p, (p \in l_pos l) = (p == w) || (p == b)) -> b != w -> size X' = size S ->
       (forall p, nth t0 X' p = if p == w then Y' else if p == b then Z else nth t0 X p) ->
       tshape Y' = rcons (pshape S w) K -> wf Y' -> tshape Z = rcons (pshape S b) K -> wf Z ->
       solved l d (tdata (nth t0 X w)) X' w -> solved l d (tdata (nth t0 X b)) X' b ->
       [/\ valid_mat S K X', (forall p, p \notin l_pos l -> nth t0 X' p = nth t0 X p) &
           forall p, p \in l_pos l -> solved l d (tdata (nth t0 X p)) X' p].
  move=> hin hbw s1 eX' y1 y2 z1 z2 so1 so2.
  have hout p : p \notin l_pos l -> nth t0 X' p = nth t0 X p.
    by rewrite hin negb_or => /andP[n1 n2]; rewrite eX' (negbTE n1) (negbTE n2).
  split=> //; last by move=> p; rewrite hin => /orP[/eqP ->|/eqP ->].
  by apply: hfin => // p; rewrite hin => /orP[/eqP ->|/eqP ->]; rewrite eX' ?eqxx // (negbTE hbw).
have joint_case w b rest : l_w l = Some w -> l_b l = Some b -> w != b -> b != w ->
    (w < size S)%N -> (b < size S)%N -> pshape S w = m :: rest -> pshape S b = [:: m] ->
    (forall p, (p \in l_pos l) = (p == w) || (p == b)) ->
    sym_on (numel rest + joint sep l)%N (l_A l) -> good2 s ai gi (lmx m (l_B l)) (lmx (numel rest + joint sep l)%N (l_A l)) d ->
    joint sep l -> exists X',
       [/\ andthen (joint_multiply s ai gi w b X) (upd_at w (treshape (tshape (nth t0 X w)))) = (X', Ok tt), valid_mat S K X',
        (forall p, p \notin l_pos l -> nth t0 X' p = nth t0 X p) & forall p, p \in l_pos l -> solved l d (tdata (nth t0 X p)) X' p].
  move=> ew eb hwb hbw hwlt hblt hsw hsb hin hsym hg2 hj; move: hsym hg2; rewrite hj => hsym hg2.
  have [w1 w2 w3] := hval _ hwlt; have [b1 b2 b3] := hval _ hblt.
  have w2' := etrans w2 (congr1 (rcons^~ K) hsw); have b2' := etrans b2 (congr1 (rcons^~ K) hsb).
  have [xb [xj [g1 g2 g3 g4]]] := @joint_glue (Tensor [:: m; numel rest; K] (tdata (nth t0 X w))) (nth t0 X b) m (numel rest) erefl b2'.
  have [Yj j1 [j2 j3 j4]] := joint_solve hg2 g3.
  have [yw [yb [u1 [u2 u3] [u4 u5] u6]]] := joint_unglue j2 j3.
  rewrite /joint_multiply (lget_nth t0 w1) /= (rearr_wE w2') /= (lget_nth t0 b1) /= g1 /= g2 /= j1 /= u1 /=.
  have en : nth t0 (set_nth yb (set_nth yw X w yw) b yb) w = yw by rewrite nth_set_ne ?size_set // nth_set.
  rewrite (hview _ w rest yw) ?size_set ?size_set //.
  set Y' := Tensor _ _; set X' := set_nth Y' _ _ _.
  have eX' p : nth t0 X' p = if p == w then Y' else if p == b then yb else nth t0 X p.
    rewrite /X'; case: eqP => [->|/eqP ne]; first by rewrite nth_set.
    rewrite nth_set_ne ?size_set ?size_set //; case: eqP => [->|/eqP ne2]; first by rewrite nth_set.
    by rewrite !nth_set_ne ?size_set.
  have hso : solves (lmx m (l_B l)) (lmx (numel rest + 1) (l_A l)) d K (glue m (numel rest) (tdata (nth t0 X w)) (tdata (nth t0 X b)))
         (glue m (numel rest) (tdata (nth t0 X' w)) (tdata (nth t0 X' b))).
    by move=> k hk0; rewrite !eX' eqxx (negbTE hbw) eqxx /= u6 // j4 // g4.
  have [so1 so2] := joint_solved hj ew eb hwb hwlt hblt hsw hsb hsym hso.
  exists X'; have [] := @close w b Y' yb X' hin hbw _ eX' _ _ _ _ so1 so2;
    by rewrite ?size_set ?size_set ?hsb /wf /= ?numel_rcons ?u3 ?u4 ?u5 ?hsw //= ?muln1.
case: e hk hne hn hw hb => name ps /= hk hne hn hw hb.
have start1 (Bd : 'M[F]_m) d' : good1 s gi Bd d' ->
    (if i_exact s then (let! _ := unpack ai in let! _ := unpack gi in Ok tt) else Ok tt) = Ok tt.
  rewrite /good1; case: (i_exact s) hai => // /(_ isT)[v [u ->]] /= [_ [Q [u' [-> _ _]]]]; by [].
have [hd|[[w hd]|[[b hd]|[[w [b hd]]|[w [b hd]]]]]] := dict_forms hk hn; rewrite hd // in hw hb *; rewrite /dget /= in hw hb.
- (* weight only *)
  have hj : ~~ joint sep l by rewrite /joint -hb /= !andbF.
  have [rest [hs [hsym hg]]] := hA w (esym hw); move: hsym hg; rewrite (negbTE hj) addn0 => hsym hg.
  have hlt : (w < size S)%N by move: hpos; rewrite /l_pos -hw -hb /= andbT.
  have [h1 h2 h3] := hval _ hlt.
  have hin p : (p \in l_pos l) = (p == w) by rewrite /l_pos -hw -hb /= inE.
  have [Y e1 [y1 y2 y3]] := weight_solve hg h1 (etrans h2 (congr1 (rcons^~ K) hs)).
  have hm : separate_multiply s ai gi [:: (Weight, w)] X = (set_nth Y X w Y, Ok tt).
    by rewrite /separate_multiply (good_unpack hg) /= e1.
  rewrite /multiply_layer /= (lget_nth t0 h1) /=.
  have -> : (match sep with true | _ => separate_multiply s ai gi [:: (Weight, w)] X end) = (set_nth Y X w Y, Ok tt).
    by case: (sep).
  rewrite /= (hview _ w rest Y) ?size_set ?nth_set //.
  set Z := Tensor _ _; eexists; split; first reflexivity.
  + apply: hfin; rewrite ?size_set // => p; rewrite hin.
      by move=> ne; rewrite !nth_set_ne ?size_set.
    by move=> /eqP ->; rewrite nth_set; split=> //; rewrite /wf /= numel_rcons y2 hs.
  + by move=> p; rewrite hin => ne; rewrite !nth_set_ne ?size_set.
  move=> p; rewrite hin => /eqP ->; apply: (weight_solved hj (esym hw) hlt hs hsym).
  by rewrite nth_set.
- (* bias only *)
  have hj : ~~ joint sep l by rewrite /joint -hw /= !andbF.
  have [hs /(_ hj) hg] := hB b (esym hb).
  have hlt : (b < size S)%N by move: hpos; rewrite /l_pos -hw -hb /= andbT.
  have hnb : l_w l != Some b by rewrite -hw.
  have [h1 h2 h3] := hval _ hlt.
  have hin p : (p \in l_pos l) = (p == b) by rewrite /l_pos -hw -hb /= inE.
  have [Y e1 [y1 y2 y3]] := bias_solve ai hg h1 (etrans h2 (congr1 (rcons^~ K) hs)).
  have hm : separate_multiply s ai gi [:: (Bias, b)] X = (set_nth Y X b Y, Ok tt).
    by rewrite /separate_multiply (start1 _ _ hg) /= e1.
  rewrite /multiply_layer /=.
  have -> : (match sep with true | _ => separate_multiply s ai gi [:: (Bias, b)] X end) = (set_nth Y X b Y, Ok tt).
    by case: (sep).
  eexists; split; first reflexivity.
  + apply: hfin; rewrite ?size_set // => p; rewrite hin.
      by move=> ne; rewrite !nth_set_ne ?size_set.
    by move=> /eqP ->; rewrite nth_set y1 hs; split=> //; rewrite /wf y1 y2 /= !muln1.
  + by move=> p; rewrite hin => ne; rewrite !nth_set_ne ?size_set.
  move=> p; rewrite hin => /eqP ->; apply: (bias_solved hj (esym hb) hnb hlt hs).
  by rewrite nth_set.
all: have [rest [hsw [hsym hg2]]] := hA w (esym hw).
all: have [hsb hg1] := hB b (esym hb).
all: have hwlt : (w < size S)%N by move: hpos; rewrite /l_pos -hw -hb /= andbT => /andP[].
all: have hblt : (b < size S)%N by move: hpos; rewrite /l_pos -hw -hb /= andbT => /andP[].
all: have hwb : w != b by move: hu; rewrite /l_pos -hw -hb /= inE andbT.
all: have hbw : b != w by rewrite eq_sym.
all: have hnb : l_w l != Some b by rewrite -hw; apply: contra hwb => /eqP [->].
all: have [w1 w2 w3] := hval _ hwlt.
all: have [b1 b2 b3] := hval _ hblt.
all: have w2' := etrans w2 (congr1 (rcons^~ K) hsw).
all: have b2' := etrans b2 (congr1 (rcons^~ K) hsb).
all: have hin p : (p \in l_pos l) = (p == w) || (p == b) by rewrite /l_pos -hw -hb /= !inE.
all: rewrite /multiply_layer /= (lget_nth t0 w1) /=.
- case hj : (joint sep l); last first.
    move/negbT: hj hsym hg2 hg1 => hj; rewrite (negbTE hj) addn0 /= => hsym hg2 /(_ isT) hg1.
    have hsep : sep by move: hj; rewrite /joint -hw -hb /= !andbT negbK.
    rewrite (_ : (match sep with true => _ | false => _ end) = separate_multiply s ai gi [:: (Weight, w); (Bias, b)] X); last by rewrite hsep.
    rewrite /separate_multiply (good_unpack hg2) /=.
    have [Y e1 [y1 y2 y3]] := weight_solve hg2 w1 w2'; rewrite e1 /=.
    have [|Z f1 [z1 z2 z3]] := @bias_solve _ s ai gi m _ d K b (set_nth Y X w Y) hg1 (ltac:(by rewrite size_set)).
      by rewrite nth_set_ne.
    have en : nth t0 (set_nth Z (set_nth Y X w Y) b Z) w = Y by rewrite nth_set_ne ?size_set // nth_set.
    rewrite f1 /= (hview _ w rest Y) ?size_set ?size_set //.
    set Y' := Tensor _ _; set X' := set_nth Y' _ _ _.
    have eX' p : nth t0 X' p = if p == w then Y' else if p == b then Z else nth t0 X p.
      rewrite /X'; case: eqP => [->|/eqP ne]; first by rewrite nth_set.
      rewrite nth_set_ne ?size_set ?size_set //; case: eqP => [->|/eqP ne2]; first by rewrite nth_set.
      by rewrite !nth_set_ne ?size_set.
    have so1 : solved l d (tdata (nth t0 X w)) X' w.
      by apply: (weight_solved hj (esym hw) hwlt hsw hsym); rewrite eX' eqxx.
    have so2 : solved l d (tdata (nth t0 X b)) X' b.
      by apply: (bias_solved hj (esym hb) hnb hblt hsb); rewrite eX' (negbTE hbw) eqxx; move: z3; rewrite nth_set_ne.
    exists X'; have [] := @close w b Y' Z X' hin hbw _ eX' _ _ _ _ so1 so2;
      by rewrite ?size_set ?size_set ?hsb /wf /= ?numel_rcons ?y2 ?z1 ?z2 ?hsw //= ?muln1.
  have hsep : sep = false by move: hj; rewrite /joint; case: (sep) => //=; case: (l_w l); case: (l_b l).
  rewrite (_ : (match sep with true => _ | false => _ end) = joint_multiply s ai gi w b X); last by rewrite hsep.
  apply: (joint_case w b rest) => //.
case hj : (joint sep l); last first.
  move/negbT: hj hsym hg2 hg1 => hj; rewrite (negbTE hj) addn0 /= => hsym hg2 /(_ isT) hg1.
  have hsep : sep by move: hj; rewrite /joint -hw -hb /= !andbT negbK.
  rewrite (_ : (match sep with true => _ | false => _ end) = separate_multiply s ai gi [:: (Bias, b); (Weight, w)] X); last by rewrite hsep.
  rewrite /separate_multiply (good_unpack hg2) /=.
  have [Z f1 [z1 z2 z3]] := bias_solve ai hg1 b1 b2'; rewrite f1 /=.
  have [|Y e1 [y1 y2 y3]] := @weight_solve _ s ai gi m rest _ _ d K w (set_nth Z X b Z) hg2 (ltac:(by rewrite size_set)).
    by rewrite nth_set_ne.
  rewrite e1 /= (hview _ w rest Y) ?size_set ?size_set ?nth_set //.
  set Y' := Tensor _ _; set X' := set_nth Y' _ _ _.
  have eX' p : nth t0 X' p = if p == w then Y' else if p == b then Z else nth t0 X p.
    rewrite /X'; case: eqP => [->|/eqP ne]; first by rewrite nth_set.
    rewrite 2?nth_set_ne ?size_set ?size_set //; case: eqP => [->|/eqP ne2]; first by rewrite nth_set.
    by rewrite !nth_set_ne ?size_set.
  have so1 : solved l d (tdata (nth t0 X w)) X' w.
    by apply: (weight_solved hj (esym hw) hwlt hsw hsym); rewrite eX' eqxx; move: y3; rewrite nth_set_ne.
  have so2 : solved l d (tdata (nth t0 X b)) X' b.
    by apply: (bias_solved hj (esym hb) hnb hblt hsb); rewrite eX' (negbTE hbw) eqxx.
  exists X'; have [] := @close w b Y' Z X' hin hbw _ eX' _ _ _ _ so1 so2;
    by rewrite ?size_set ?size_set ?hsb /wf /= ?numel_rcons ?y2 ?z1 ?z2 ?hsw //= ?muln1.
have hsep : sep = false by move: hj; rewrite /joint; case: (sep) => //=; case: (l_w l); case: (l_b l).
rewrite (_ : (match sep with true => _ | false => _ end) = joint_multiply s ai gi w b X); last by rewrite hsep.
apply: (joint_case w b rest) => //.
Qed.
End Layers.

(* ---- the loop over the layers ---- *)
Section Loop.
Variable F : rcfType.
Local Notation tens := (tensor F).
Local Notation t0 := (Tensor [::] [::] : tens).
Local Notation cov := (dict nat_eqType tens).
Variables (chol : bool -> tens -> res tens) (chol_nf : bool -> tens -> ext F -> res tens).
Variables (chol_inv : tens -> res tens) (eigh : tens -> res (tens * tens)).
Variables (s : iset F) (dbl sep : bool) (inC grC : cov).
Local Notation factors name := (compute_inverse_factors chol chol_nf chol_inv eigh s dbl (dget name inC) (dget name grC)).
Local Notation get := (get_inverse chol chol_nf chol_inv eigh s dbl inC grC).
Local Notation mm := (inverse_matmat chol chol_nf chol_inv eigh s dbl sep inC grC).

(* every cached inverse is the one that would be computed now *)
Definition fits_cache (c : icache F) : Prop := forall name a, dget name c.1 = Some a ->
  exists2 g, dget name c.2 = Some g & (factors name).2 = Ok (a, g).

Lemma fits_nil : fits_cache ([::], [::]). Proof. by []. Qed.

Lemma dget_dset (K : eqType) V k k' (v : V) (d : dict K V) : dget k' (dset k v d) = if k == k' then Some v else dget k' d.
Proof.
elim: d => [|[a w] d IH] /=; rewrite /dget /=; first by case: ifP.
case: (a =P k) => [->|ne] /=; first by case: ifP.
rewrite -!/(dget _ _); case: (a =P k') => [e|_] /=; last exact: IH.
by case: eqP => // e'; case: ne; rewrite e e'.
Qed.

Lemma get_fits c name : fits_cache c ->
  (get c name).2 = (factors name).2 /\ fits_cache (get c name).1.1.
Proof.
move=> hc; rewrite /get_inverse; case hn : (dget name c.1) => [a|].
  by have [g hg hf] := hc _ _ hn; rewrite /= hg hf.
case hf : (factors name) => [ev [[a g]|e]] //=; split=> //; case: (i_cache s) => //.
move=> name' a' /=; rewrite !dget_dset; case: eqP => [<- [<-]|_ /hc //].
by exists g => //; rewrite hf.
Qed.

(* list and outcome do not depend on what is cached *)
Lemma matmat_fits mp c c' X : fits_cache c -> fits_cache c' ->
  (mm mp c X).2 = (mm mp c' X).2 /\ fits_cache (mm mp c X).1.1.
Proof.
elim: mp c c' X => [|e mp IH] c c' X hc hc' //=; rewrite /inverse_layer.
have [h1 h2] := get_fits e.1 hc; have [h3 h4] := get_fits e.1 hc'.
move: h1 h2 h3 h4; case: (get c e.1) => [[c1 ev1] r1]; case: (get c' e.1) => [[c2 ev2] r2] /= -> h2 -> h4.
case: (factors e.1).2 => [[ai gi]|err] //=.
case: (multiply_layer s sep ai gi e.2 X) => X' [u|err] //=.
have [h5 h6] := IH c1 c2 X' h2 h4; move: h5 h6.
by case: (mm mp c1 X') => [[c3 ev3] r3]; case: (mm mp c2 X') => [[c4 ev4] r4] /= ->.
Qed.

Definition inverts_all (d : F) S (mp : mapping) (ls : seq (layer F)) : Prop :=
  List.Forall2 (fun e l => exists ai gi, (factors e.1).2 = Ok (ai, gi) /\ inverts sep S s ai gi e l d) mp ls.

Lemma inverse_loop d S K mp (ls : seq (layer F)) c X : valid_mat S K X -> fits_cache c ->
  all (fun p => p < size S)%N (flatten (map (@l_pos F) ls)) -> uniq (flatten (map (@l_pos F) ls)) ->
  inverts_all d S mp ls ->
  exists X', [/\ (mm mp c X).2 = (X', Ok tt), valid_mat S K X',
    (forall l p, List.In l ls -> p \in l_pos l -> solved sep S K l d (tdata (nth t0 X p)) X' p) &
    (forall p, p \notin flatten (map (@l_pos F) ls) -> nth t0 X' p = nth t0 X p)].
Proof.
move=> + + + + hd; elim: hd X c => {mp ls} [|e l mp ls hd hds IH] X c hX hc hall hu; first by exists X.
rewrite /= all_cat cat_uniq in hall hu *; case/andP: hall => ha1 ha2; case/and3P: hu => u1 /hasPn u2 u3.
case: hd => ai [gi [hf hinv]]; rewrite /inverse_layer; have [h1 h2] := get_fits e.1 hc.
move: h1 h2; case: (get c e.1) => [[c1 ev1] r1] /= -> h2; rewrite hf.
have [X1 [-> v1 n1 s1]] := multiply_layer_ok hX ha1 u1 hinv.
have [X2 [e2' v2 s2 n2]] := IH X1 c1 v1 h2 ha2 u3.
exists X2; split=> //.
- by move: e2'; case: (mm mp c1 X1) => [[c3 ev3] r3] /= ->.
- move=> l' p [<-|hin] hp.
    apply: (solved_ext hp) (s1 _ hp) => q hq; rewrite n2 //.
    by apply/negP => h; move: (u2 _ h); rewrite /= hq.
  have -> : nth t0 X p = nth t0 X1 p by rewrite n1 //; exact: (u2 _ (in_pos hin hp)).
  exact: s2.
by move=> p; rewrite mem_cat negb_or => /andP[q1 q2]; rewrite n2 // n1.
Qed.
End Loop.

(* ---- from solving systems to multiplying with the inverse matrix ---- *)
(* M is the two-sided inverse of the N x N matrix D *)
Definition inverse_of (F : comRingType) (N : nat) (D M : nat -> nat -> F) : Prop :=
  forall i j, (i < N)%N -> (j < N)%N ->
    \sum_(k < N) D i k * M k j = (i == j)%:R /\ \sum_(k < N) M i k * D k j = (i == j)%:R.

Section Build.
Variable F : fieldType.
Local Notation tens := (tensor F).
Local Notation t0 := (Tensor [::] [::] : tens).

(* the list of tensors with the given entries *)
Definition build S K (g : nat -> nat -> nat -> F) : seq tens :=
  mkseq (fun p => Tensor (rcons (pshape S p) K) (mkseq (fun e => g p (e %/ K)%N (e %% K)%N) (numel (pshape S p) * K))) (size S).
Lemma nth_build S K g p : (p < size S)%N -> nth t0 (build S K g) p =
  Tensor (rcons (pshape S p) K) (mkseq (fun e => g p (e %/ K)%N (e %% K)%N) (numel (pshape S p) * K)).
Proof. by move=> hp; rewrite nth_mkseq. Qed.
Lemma build_valid S K g : valid_mat S K (build S K g).
Proof.
split.
  apply: (@eq_from_nth _ [::]); first by rewrite !size_map size_iota.
  by move=> p; rewrite size_map size_mkseq => hp; rewrite (nth_map t0) ?size_mkseq // nth_build // (nth_map [::]).
by apply/(all_nthP t0) => p; rewrite size_mkseq => hp; rewrite nth_build // /wf /= size_mkseq numel_rcons.
Qed.
Lemma build_entry S K g p r k : (p < size S)%N -> (r < numel (pshape S p))%N -> (k < K)%N ->
  entry K (tdata (nth t0 (build S K g) p)) r k = g p r k.
Proof.
move=> hp hr hk; rewrite nth_build //= /entry nth_mkseq; last exact: idx2_bound.
have K0 : (0 < K)%N by apply: leq_ltn_trans hk.
by rewrite divnMDl // modnMDl divn_small // modn_small // addn0.
Qed.

Variables (S : seq (seq nat)) (f : seq tens -> res (seq tens)) (D : nat -> nat -> F).
Hypothesis hf : forall K X, valid_mat S K X -> exists Y, [/\ f X = Ok Y, valid_mat S K Y &
   is_product D (total S) (total S) K (flat Y) (flat X)].
Local Notation N := (total S).
Let Dm : 'M[F]_N := \matrix_(i, j) D i j.

Lemma solve_acts : exists M, multiplies 0 f S S M /\ inverse_of N D M.
Proof.
pose I := build S N (fun p r k => (off S p + r == k)%N%:R).
have [Y [y1 y2 y3]] := hf (build_valid S N (fun p r k => (off S p + r == k)%N%:R)).
pose M i j := entry N (flat Y) i j.
pose Mm : 'M[F]_N := \matrix_(i, j) M i j.
have e1 : Dm *m Mm = 1%:M.
  apply/matrixP => i j; rewrite !mxE; have := y3 i j (ltn_ord i) (ltn_ord j).
  have [h1 h2 h3] := locate_bound (ltn_ord i).
  rewrite {1}h3 (flat_coord (build_valid _ _ _)) // build_entry // -h3 => ->.
  by apply: eq_bigr => k _; rewrite !mxE.
have e2 : Mm *m Dm = 1%:M by apply: mulmx1C.
exists M; split; last first.
  move=> i j hi hj; split.
    move/matrixP: e1 => /(_ (Ordinal hi) (Ordinal hj)); rewrite !mxE /= => <-.
    by apply: eq_bigr => k _; rewrite !mxE.
  move/matrixP: e2 => /(_ (Ordinal hi) (Ordinal hj)); rewrite !mxE /= => <-.
  by apply: eq_bigr => k _; rewrite !mxE.
move=> K X _ hX; have [Z [z1 z2 z3]] := hf hX; exists Z; split=> // i k hi hk.
pose x : 'cV[F]_N := \col_j entry K (flat X) j k; pose z : 'cV[F]_N := \col_j entry K (flat Z) j k.
have hx : x = Dm *m z by apply/matrixP => a b; rewrite !mxE z3 //; apply: eq_bigr => j _; rewrite !mxE.
have : z = Mm *m x by rewrite hx mulmxA e2 mul1mx.
move/matrixP => /(_ (Ordinal hi) ord0); rewrite !mxE /= => ->; apply: eq_bigr => j _; by rewrite !mxE.
Qed.
End Build.

Section Acts.
Variable F : rcfType.
Local Notation tens := (tensor F).
Local Notation t0 := (Tensor [::] [::] : tens).
Local Notation cov := (dict nat_eqType tens).
Variables (chol : bool -> tens -> res tens) (chol_nf : bool -> tens -> ext F -> res tens).
Variables (chol_inv : tens -> res tens) (eigh : tens -> res (tens * tens)).
Variables (s : iset F) (dbl sep : bool) (inC grC : cov).

Theorem inverse_multiplies d S mp (ls : seq (layer F)) c : unshared S ls ->
  fits_cache chol chol_nf chol_inv eigh s dbl inC grC c ->
  inverts_all chol chol_nf chol_inv eigh s dbl sep inC grC d S mp ls ->
  exists M, multiplies 0 (inverse_product chol chol_nf chol_inv eigh s dbl sep inC grC mp c) S S M /\
    inverse_of (total S) (fun i j => kfac_matrix sep S ls i j + (if i == j then d else 0)) M.
Proof.
move=> hun hc hall; apply: solve_acts => K X hX.
have hu : uniq (flatten (map (@l_pos F) ls)) by rewrite (perm_uniq hun) iota_uniq.
have hm p : (p \in flatten (map (@l_pos F) ls)) = (p < size S)%N by rewrite (perm_mem hun) mem_iota add0n.
have ha : all (fun p => p < size S)%N (flatten (map (@l_pos F) ls)) by apply/allP => p; rewrite hm.
have [Y [e1 v1 s1 _]] := inverse_loop hX hc ha hu hall.
exists Y; split=> //; first by rewrite /inverse_product e1.
apply: product_coord => // p r k hp hr hk.
have [l hl hpl] : exists2 l, List.In l ls & p \in l_pos l by apply: pos_in; rewrite hm.
rewrite (s1 l p hl hpl r k hr hk).
have -> : d * entry K (tdata (nth t0 Y p)) r k = \sum_(q < size S) \sum_(t < numel (pshape S q))
    (if (off S p + r == off S q + t)%N then d else 0) * entry K (tdata (nth t0 Y q)) t k.
  rewrite (bigD1 (Ordinal hp)) //= [X in _ + X]big1 ?addr0 => [|q hq].
    rewrite (bigD1 (Ordinal hr)) //= eqxx [X in _ + X]big1 ?addr0 // => t ht.
    rewrite eqn_add2l (_ : (r == t) = false) ?mul0r //; apply/eqP => e; case/eqP: ht; exact: val_inj.
  apply: big1 => t _; case: eqP => [e|_]; last by rewrite mul0r.
  have [a1 _] := locate_off hp hr; have [a2 _] := locate_off (ltn_ord q) (ltn_ord t).
  by case/eqP: hq; apply: val_inj; rewrite /= -a2 -e a1.
rewrite -big_split; apply: eq_bigr => q _; rewrite -big_split; apply: eq_bigr => t _ /=.
rewrite mulrDl; congr (_ * _ + _).
rewrite /kfac_matrix; have [-> ->] := locate_off hp hr; have [-> ->] := locate_off (ltn_ord q) (ltn_ord t).
by rewrite (sum_owner _ _ _ _ _ hu hl hpl).
Qed.
End Acts.

(* ---- eigenvectors of a singular damped matrix ---- *)
Section Kernel.
Variable F : fieldType.
Lemma col_mul a b c (U : 'M[F]_(a, b)) (V : 'M[F]_(b, c)) k : col k (U *m V) = U *m col k V.
Proof. by apply/matrixP => x y; rewrite !mxE; apply: eq_bigr => z _; rewrite !mxE. Qed.
Variables (m n : nat) (Q : 'M[F]_m) (P : 'M[F]_n) (lg : 'I_m -> F) (la : 'I_n -> F) (d : F) (B : 'M[F]_m) (A : 'M[F]_n).
Hypothesis hQ : Q^T *m Q = 1%:M.
Hypothesis hP : P^T *m P = 1%:M.
Hypothesis hB : B = Q *m \matrix_(i, j) (if i == j then lg i else 0) *m Q^T.
Hypothesis hA : A = P *m \matrix_(i, j) (if i == j then la i else 0) *m P^T.
Variables (i : 'I_m) (j : 'I_n).
Definition ker_vec : 'M[F]_(m, n) := \matrix_(a, b) (Q a i * P b j).

Lemma ker_vecE : ker_vec = col i Q *m (col j P)^T.
Proof. by apply/matrixP => a b; rewrite !mxE big_ord1 !mxE. Qed.

Lemma ker_solves : lg i * la j + d = 0 -> B *m ker_vec *m A + d *: ker_vec = 0.
Proof.
move=> h0; rewrite ker_vecE.
have e1 : B *m col i Q = lg i *: col i Q.
  rewrite -col_mul hB -!mulmxA hQ mulmx1; apply/matrixP => a b; rewrite !mxE (bigD1 i) //= big1 ?addr0.
    by rewrite mxE eqxx mulrC.
  by move=> k hk; rewrite mxE (negbTE hk) mulr0.
have e2 : (col j P)^T *m A = la j *: (col j P)^T.
  apply: trmx_inj; rewrite trmx_mul trmxK linearZ /= trmxK.
  have -> : A^T = A.
    rewrite hA !trmx_mul trmxK mulmxA; congr (_ *m _ *m _); apply/matrixP => a b; rewrite !mxE.
    by rewrite eq_sym; case: eqP => // ->.
  rewrite -col_mul hA -!mulmxA hP mulmx1; apply/matrixP => a b; rewrite !mxE (bigD1 j) //= big1 ?addr0.
    by rewrite mxE eqxx mulrC.
  by move=> k hk; rewrite mxE (negbTE hk) mulr0.
rewrite mulmxA e1 -mulmxA e2 -scalemxAl -scalemxAr scalerA -scalerDl.
by rewrite h0 scale0r.
Qed.

Lemma ker_nonzero : ker_vec != 0.
Proof.
apply/eqP => h; have : Q^T *m ker_vec *m P = 0 by rewrite h mulmx0 mul0mx.
rewrite ker_vecE !mulmxA -col_mul hQ -mulmxA.
have -> : (col j P)^T *m P = row j (1%:M : 'M[F]_n) by rewrite -hP row_mul tr_col.
move/matrixP => /(_ i j); rewrite !mxE big_ord1 !mxE !eqxx mulr1 => /eqP.
by rewrite oner_eq0.
Qed.
End Kernel.

Section Exact.
Variable F : rcfType.
Local Notation tens := (tensor F).
Local Notation t0 := (Tensor [::] [::] : tens).
Variables (sep : bool) (S : seq (seq nat)) (ls : seq (layer F)) (d : F) (M : nat -> nat -> F).
Hypothesis hun : unshared S ls.
Hypothesis hM : inverse_of (total S) (fun i j => kfac_matrix sep S ls i j + (if i == j then d else 0)) M.

Lemma no_kernel l (g : nat -> nat -> F) : List.In l ls ->
  (forall p r, p \notin l_pos l -> g p r = 0) ->
  (forall p, p \in l_pos l -> solved sep S 1 l d [::] (build S 1 (fun p r _ => g p r)) p) ->
  forall p r, (p < size S)%N -> (r < numel (pshape S p))%N -> g p r = 0.
Proof.
move=> hl hout hsol p r hp hr; set Y := build _ _ _ in hsol.
have hY : valid_mat S 1 Y := build_valid _ _ _.
have hu : uniq (flatten (map (@l_pos F) ls)) by rewrite (perm_uniq hun) iota_uniq.
have hm q : (q \in flatten (map (@l_pos F) ls)) = (q < size S)%N by rewrite (perm_mem hun) mem_iota add0n.
have ent q t : (q < size S)%N -> (t < numel (pshape S q))%N -> entry 1 (tdata (nth t0 Y q)) t 0 = g q t.
  by move=> hq ht; rewrite /Y build_entry.
pose N := total S; pose D i j := kfac_matrix sep S ls i j + (if i == j then d else 0).
have hD i : (i < N)%N -> \sum_(j < N) D i j * entry 1 (flat Y) j 0 = 0.
  move=> hi; have [h1 h2 h3] := locate_bound hi; set q := param_of S i in h1 h2 h3; set t := within S i in h2 h3.
  have [l' hl' hq] : exists2 l', List.In l' ls & q \in l_pos l' by apply: pos_in; rewrite hm.
  have -> : \sum_(j < N) D i j * entry 1 (flat Y) j 0 =
     \sum_(v < size S) \sum_(u < numel (pshape S v)) layer_entry sep S l' q t v u * entry 1 (tdata (nth t0 Y v)) u 0 + d * g q t.
    rewrite (sum_coord S (fun j => D i j * entry 1 (flat Y) j 0)).
    have -> : d * g q t = \sum_(v < size S) \sum_(u < numel (pshape S v)) (if (i == off S v + u)%N then d else 0) * entry 1 (tdata (nth t0 Y v)) u 0.
      rewrite h3 (bigD1 (Ordinal h1)) //= [X in _ + X]big1 ?addr0 => [|v hv].
        rewrite (bigD1 (Ordinal h2)) //= eqxx [X in _ + X]big1 ?addr0 ?ent // => u hu'.
        by rewrite eqn_add2l (_ : (t == u) = false) ?mul0r //; apply/eqP => e; case/eqP: hu'; exact: val_inj.
      apply: big1 => u _; case: eqP => [e|_]; last by rewrite mul0r.
      have [a1 _] := locate_off h1 h2; have [a2 _] := locate_off (ltn_ord v) (ltn_ord u).
      by case/eqP: hv; apply: val_inj; rewrite /= -a2 -e a1.
    rewrite -big_split; apply: eq_bigr => v _; rewrite -big_split; apply: eq_bigr => u _ /=.
    rewrite (flat_coord hY) // -mulrDl; congr (_ * _); congr (_ + _).
    rewrite /kfac_matrix h3; have [-> ->] := locate_off h1 h2; have [-> ->] := locate_off (ltn_ord v) (ltn_ord u).
    by rewrite (sum_owner _ _ _ _ _ hu hl' hq).
  case hql : (q \in l_pos l).
    have := hsol q hql t 0%N h2 (ltnSn 0); rewrite ent // {1}/entry nth_nil => h; apply: esym; rewrite {1}h.
    congr (_ + _); apply: eq_bigr => v _; apply: eq_bigr => u _; congr (_ * _).
    have := sum_owner sep S t v u hu hl hql; by rewrite (sum_owner sep S t v u hu hl' hq).
  rewrite hout ?hql // mulr0 addr0; apply: big1 => v _; apply: big1 => u _.
  rewrite ent //; case hv : ((v : nat) \in l_pos l); last by rewrite hout ?hv // mulr0.
  rewrite [X in X * _](_ : _ = 0) ?mul0r // /layer_entry (l_memE _ v).
  case hv' : ((v : nat) \in l_pos l'); last by rewrite andbF.
  case/negP: (negbT hql); rewrite -(_ : l' = l) //.
  have : forall ls', uniq (flatten (map (@l_pos F) ls')) -> List.In l ls' -> List.In l' ls' -> l' = l.
    elim=> //= a ls' IH; rewrite cat_uniq => /and3P[_ /hasPn h5 h6] [ea|ha] [eb|hb].
    - by rewrite -eb.
    - by subst a; have := h5 _ (in_pos hb hv'); rewrite /= hv.
    - by subst a; have := h5 _ (in_pos ha hv); rewrite /= hv'.
    - exact: IH.
  by apply; first exact: hu.
have hz : entry 1 (flat Y) (off S p + r) 0 = 0.
  set i0 := (off S p + r)%N; have hi0 : (i0 < N)%N by apply: off_bound.
  have hR k : (k < N)%N -> \sum_(j < N) M i0 j * D j k = (i0 == k)%:R by move=> hk; exact: (hM hi0 hk).2.
  have E : entry 1 (flat Y) i0 0 = \sum_(k < N) (\sum_(j < N) M i0 j * D j k) * entry 1 (flat Y) k 0.
    rewrite (bigD1 (Ordinal hi0)) // big1 ?addr0 => [|k hk].
      by rewrite hR //= eqxx mul1r addr0.
    rewrite hR // (_ : (i0 == k) = false) ?mul0r //.
    by apply/eqP => e; case/eqP: hk; exact: val_inj.
  rewrite E; under eq_bigr => k _ do rewrite mulr_suml.
  rewrite exchange_big big1 // => j _; under eq_bigr => k _ do rewrite -mulrA.
  by rewrite -mulr_sumr hD ?mulr0.
by rewrite -ent // -(flat_coord hY).
Qed.

(* no eigenvalue of a layer's damped block is zero *)
Section OneLayer.
Variables (l : layer F) (m : nat).
Hypothesis hl : List.In l ls.
Lemma cmx_nil a b K k : cmx a b K ([::] : seq F) k = 0.
Proof. by apply/matrixP => i j; rewrite !mxE /entry nth_nil. Qed.
Lemma zero_solves a b (B : 'M[F]_a) (A : 'M[F]_b) (y : seq F) : (forall r, (r < a * b)%N -> entry 1 y r 0 = 0) -> solves B A d 1 [::] y.
Proof.
move=> h k; rewrite ltnS leqn0 => /eqP ->; rewrite cmx_nil.
have -> : cmx a b 1 y 0 = 0 by apply/matrixP => i j; rewrite !mxE h //; apply: idx2_bound.
by rewrite mulmx0 mul0mx scaler0 addr0.
Qed.
Let lpos p : (p \in l_pos l) = (l_w l == Some p) || (l_b l == Some p). Proof. by rewrite -l_memE. Qed.
Let pos_lt p : p \in l_pos l -> (p < size S)%N.
Proof. by move=> h; have := in_pos hl h; rewrite (perm_mem hun) mem_iota add0n. Qed.
Let uniq_l : uniq (l_pos l).
Proof.
have hu : uniq (flatten (map (@l_pos F) ls)) by rewrite (perm_uniq hun) iota_uniq.
by elim: (ls) hl hu => //= a ls' IH [->|h]; rewrite cat_uniq => /and3P[u1 _ u3] //; apply: IH.
Qed.
Let w_ne_b w b : l_w l = Some w -> l_b l = Some b -> w != b.
Proof. by move=> hw hb; move: uniq_l; rewrite /l_pos hw hb /= inE andbT. Qed.

Lemma nonzero_bias b Q u (i : 'I_m) : ~~ joint sep l -> l_b l = Some b -> pshape S b = [:: m] ->
  eig_of (lmx m (l_B l)) Q u -> nth 0 (tdata u) i + d != 0.
Proof.
move=> hj hb hsb [q1 q2 q3 q4]; apply/eqP => h0.
have hblt : (b < size S)%N by apply: pos_lt; rewrite lpos hb eqxx orbT.
pose g p r := if p == b then entry m (tdata Q) r i else 0.
have hker := @ker_solves F m 1 (tmx m m Q) 1%:M (fun i => nth 0 (tdata u) i) (fun=> 1) d (lmx m (l_B l)) 1%:M q3.
have {hker} hk : lmx m (l_B l) *m @ker_vec F m 1 (tmx m m Q) 1%:M i ord0 *m 1%:M + d *: @ker_vec F m 1 (tmx m m Q) 1%:M i ord0 = 0.
  apply: hker => //; rewrite ?trmx1 ?mulmx1 ?mul1mx ?mulr1 //.
  by apply/matrixP => x y; rewrite !mxE !ord1 eqxx.
have hz : forall p r, (p < size S)%N -> (r < numel (pshape S p))%N -> g p r = 0.
  apply: (no_kernel hl) => [p r hp|p hp]; rewrite /g.
    by case: eqP hp => // ->; rewrite lpos hb eqxx orbT.
  have hplt := pos_lt hp; move: hp; rewrite lpos => /orP[/eqP hw|/eqP hb'].
    have wb := w_ne_b hw hb; move=> r k hr; rewrite ltnS leqn0 => /eqP ->; rewrite /entry nth_nil -/(entry _ _ _ _).
    rewrite (sep_sum r (fun q s => entry 1 (tdata (nth t0 (build S 1 _) q)) s 0) hj hplt) big1 ?add0r.
      by rewrite -/(entry 1 _ r 0) build_entry // (negbTE wb) mulr0.
    by move=> t _; rewrite build_entry // (negbTE wb) mulr0.
  have eb : p = b by move: hb'; rewrite hb => -[].
  subst p; apply: (bias_solved hj hb _ hplt hsb).
    by apply/eqP => hw; have := w_ne_b hw hb; rewrite eqxx.
  move=> k; rewrite ltnS leqn0 => /eqP ->; rewrite cmx_nil -[RHS]hk.
  suff -> : cmx m 1 1 (tdata (nth t0 (build S 1 (fun p r _ => if p == b then entry m (tdata Q) r i else 0)) b)) 0 = ker_vec (tmx m m Q) 1%:M i ord0 by [].
  apply/matrixP => x y; rewrite !mxE ord1 muln1 addn0 build_entry //; last by rewrite hsb /= muln1.
  by rewrite eqxx mulr1n mulr1.
have := @ker_nonzero F m 1 (tmx m m Q) 1%:M q3 _ i ord0; rewrite trmx1 mulmx1 => /(_ erefl) /eqP; apply.
apply/matrixP => x y; rewrite !mxE ord1 eqxx mulr1.
by have := hz b x hblt; rewrite /g eqxx hsb /= muln1; apply.
Qed.

Lemma nonzero_weight w rest Q u P v (i : 'I_m) (j : 'I_(numel rest)) : ~~ joint sep l -> l_w l = Some w -> pshape S w = m :: rest ->
  sym_on (numel rest) (l_A l) -> (forall b, l_b l = Some b -> pshape S b = [:: m]) ->
  eig_of (lmx m (l_B l)) Q u -> eig_of (lmx (numel rest) (l_A l)) P v -> nth 0 (tdata u) i * nth 0 (tdata v) j + d != 0.
Proof.
set n := numel rest in j *; move=> hj hw hsw hsym hsb [q1 q2 q3 q4] [p1 p2 p3 p4]; apply/eqP => h0.
have hwlt : (w < size S)%N by apply: pos_lt; rewrite lpos hw eqxx.
pose g p r := if p == w then entry m (tdata Q) (r %/ n) i * entry n (tdata P) (r %% n) j else 0.
have hk := @ker_solves F m n (tmx m m Q) (tmx n n P) _ _ d _ _ q3 p3 q4 p4 i j h0.
have hz : forall p r, (p < size S)%N -> (r < numel (pshape S p))%N -> g p r = 0.
  apply: (no_kernel hl) => [p r hp|p hp]; rewrite /g.
    by case: eqP hp => // ->; rewrite lpos hw eqxx.
  have hplt := pos_lt hp; move: hp; rewrite lpos => /orP[/eqP hw'|/eqP hb].
    have ew : p = w by move: hw'; rewrite hw => -[].
    subst p; apply: (weight_solved hj hw hplt hsw hsym) => k; rewrite ltnS leqn0 => /eqP ->; rewrite cmx_nil -[RHS]hk.
    suff -> : cmx m n 1 (tdata (nth t0 (build S 1 (fun p r _ => if p == w then entry m (tdata Q) (r %/ n) i * entry n (tdata P) (r %% n) j else 0)) w)) 0
       = ker_vec (tmx m m Q) (tmx n n P) i j by [].
    apply/matrixP => x y; have n0 : (0 < n)%N by apply: leq_ltn_trans (ltn_ord y).
    rewrite !mxE build_entry // ?hsw /=; last exact: idx2_bound.
    by rewrite eqxx divnMDl // modnMDl divn_small // modn_small // addn0.
  have wb := w_ne_b hw hb; have bw : p != w by rewrite eq_sym.
  apply: (bias_solved hj hb _ hplt (hsb _ hb)); first by rewrite hw; apply: contra bw => /eqP[->].
  by apply: zero_solves => r; rewrite muln1 => hr; rewrite build_entry // ?(negbTE bw) // (hsb _ hb) /= muln1.
have := @ker_nonzero F m n (tmx m m Q) (tmx n n P) q3 p3 i j => /eqP; apply.
apply/matrixP => x y; have n0 : (0 < n)%N by apply: leq_ltn_trans (ltn_ord y).
rewrite !mxE; have := hz w (x * n + y)%N hwlt; rewrite /g eqxx hsw /= divnMDl // modnMDl divn_small // modn_small // addn0.
by apply; apply: idx2_bound.
Qed.

Lemma nonzero_joint w b rest Q u P v (i : 'I_m) (j : 'I_(numel rest + 1)) : joint sep l -> l_w l = Some w -> l_b l = Some b ->
  pshape S w = m :: rest -> pshape S b = [:: m] -> sym_on (numel rest + 1) (l_A l) ->
  eig_of (lmx m (l_B l)) Q u -> eig_of (lmx (numel rest + 1) (l_A l)) P v -> nth 0 (tdata u) i * nth 0 (tdata v) j + d != 0.
Proof.
set n := numel rest in j *; move=> hj hw hb hsw hsb hsym [q1 q2 q3 q4] [p1 p2 p3 p4]; apply/eqP => h0.
have hwlt : (w < size S)%N by apply: pos_lt; rewrite lpos hw eqxx.
have hblt : (b < size S)%N by apply: pos_lt; rewrite lpos hb eqxx orbT.
have wb := w_ne_b hw hb; have bw : b != w by rewrite eq_sym.
pose x a c := entry m (tdata Q) a i * entry (n + 1) (tdata P) c j.
pose g p r := if p == w then x (r %/ n)%N (r %% n)%N else if p == b then x r n else 0.
have hk := @ker_solves F m (n + 1) (tmx m m Q) (tmx (n + 1) (n + 1) P) _ _ d _ _ q3 p3 q4 p4 i j h0.
pose Y := build S 1 (fun p r _ => g p r).
have glue_ker : cmx m (n + 1) 1 (glue 1 m n (tdata (nth t0 Y w)) (tdata (nth t0 Y b))) 0 = ker_vec (tmx m m Q) (tmx (n + 1) (n + 1) P) i j.
  apply/matrixP => a c; rewrite !mxE; case: (ltnP c n) => hc.
    have n0 : (0 < n)%N by apply: leq_ltn_trans hc.
    rewrite glue_w // /Y build_entry // ?hsw /=; last exact: idx2_bound.
    by rewrite /g eqxx divnMDl // modnMDl divn_small // modn_small // addn0.
  have ec : (c : nat) = n by apply/eqP; rewrite eqn_leq hc andbT -ltnS -[X in (_ < X)%N]addn1.
  by rewrite ec glue_b // /Y build_entry // ?hsb /= ?muln1 // /g (negbTE bw) eqxx.
have hz : forall p r, (p < size S)%N -> (r < numel (pshape S p))%N -> g p r = 0.
  apply: (no_kernel hl) => [p r hp|p hp].
    rewrite /g; case: eqP hp => [->|_]; first by rewrite lpos hw eqxx.
    by case: eqP => // ->; rewrite lpos hb eqxx orbT.
  rewrite -/Y; have [|so1 so2] := @joint_solved F sep S 1 l d w b m rest [::] [::] Y hj hw hb wb hwlt hblt hsw hsb hsym.
    move=> k; rewrite ltnS leqn0 => /eqP ->; rewrite -/n glue_ker hk.
    apply/matrixP => a c; rewrite !mxE; case: (ltnP c n) => hc; first by rewrite glue_w // /entry nth_nil.
    have ec : (c : nat) = n by apply/eqP; rewrite eqn_leq hc andbT -ltnS -[X in (_ < X)%N]addn1.
    by rewrite ec glue_b // /entry nth_nil.
  move: hp; rewrite lpos => /orP[/eqP h|/eqP h]; first by move: h; rewrite hw => -[<-].
  by move: h; rewrite hb => -[<-].
have := @ker_nonzero F m (n + 1) (tmx m m Q) (tmx (n + 1) (n + 1) P) q3 p3 i j => /eqP; apply.
rewrite -glue_ker; apply/matrixP => a c; rewrite !mxE; case: (ltnP c n) => hc.
  by rewrite glue_w // /Y build_entry // ?hsw /= ?hz ?hsw //=; apply: idx2_bound.
have ec : (c : nat) = n by apply/eqP; rewrite eqn_leq hc andbT -ltnS -[X in (_ < X)%N]addn1.
by rewrite ec glue_b // /Y build_entry // ?hsb /= ?muln1 // hz // hsb /= muln1.
Qed.
End OneLayer.
End Exact.
