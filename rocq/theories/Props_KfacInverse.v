(* The inverse KFAC operator: what it multiplies with (C48, C49), heuristic damping
   (C50), constructor checks (C52, first part), failing decompositions (C53). *)
From Coq Require Import Reals.
From Coquelicot Require Import Coquelicot.
From mathcomp Require Import all_ssreflect all_algebra ring.
From Verif Require Import PyPrelude Tensor Spec TorchBase OpSpec KfacSpec Kfac KfacProof KfacMap KfacBlocks KfacScalar KfacScalarProof Props_Kfac KfacInverse KfacInvProof RInst ROrd.
Set Implicit Arguments.
Unset Strict Implicit.
Unset Printing Implicit Defensive.
Import GRing.Theory Order.TTheory Num.Theory.
Local Open Scope ring_scope.

Lemma forall2_map (T U V : Type) (P : U -> V -> Prop) (f : T -> U) (g : T -> V) (s : seq T) :
  List.Forall2 P (map f s) (map g s) <-> (forall x, List.In x s -> P (f x) (g x)).
Proof.
split.
  elim: s => //= x s IH h y; inversion h as [|? ? ? ? h1 h2]; subst; case=> [<- //|]; exact: IH.
elim: s => [|x s IH] h /=; first by constructor.
by constructor; [apply: h; left|apply: IH => y hy; apply: h; right].
Qed.

(* a layer with symmetric factors has a symmetric block *)
Lemma layer_entry_sym (F : comRingType) sep S (l : layer F) m p q r s :
  (forall i j, (i < m)%N -> (j < m)%N -> l_B l i j = l_B l j i) ->
  (forall w, l_w l = Some w -> exists rest, pshape S w = m :: rest /\
     forall i j, (i < numel rest + joint sep l)%N -> (j < numel rest + joint sep l)%N -> l_A l i j = l_A l j i) ->
  (forall b, l_b l = Some b -> pshape S b = [:: m]) ->
  (r < numel (pshape S p))%N -> (s < numel (pshape S q))%N ->
  layer_entry sep S l p r q s = layer_entry sep S l q s p r.
Proof.
move=> hB hA hb r1 s1; rewrite /layer_entry andbC; case: ifP => // /andP[hq hp].
have row x y : l_mem l x -> (y < numel (pshape S x))%N -> (lrow S x y < m)%N.
  rewrite /l_mem /lrow /ncol => /orP[/eqP h|/eqP h].
    by have [rest [-> _]] /= := hA x h => /modn_ltn[].
  by rewrite (hb x h) /= muln1 divn1.
rewrite hB; [|exact: row|exact: row]; congr (_ * _).
rewrite andbC [(q == p)]eq_sym; case: ifP => // hj'.
have [w hw] : exists w, l_w l = Some w.
  by case/orP: hj' => [/and3P[_ h _]|/andP[/eqP -> _]]; [case: (l_w l) h => // w _; exists w|eexists].
have [rest [e1 hs]] := hA w hw.
have col x y : l_mem l x -> (y < numel (pshape S x))%N -> joint sep l || (l_w l == Some x) ->
   (lcol S l x y < numel rest + joint sep l)%N.
  rewrite /l_mem /lcol hw => hx hy; case: eqP => [[ex]|ne] /=.
    by subst x => _; rewrite /ncol e1 /= ltn_addr //; move: hy; rewrite e1 /= => /modn_ltn[].
  by rewrite orbF => ->; rewrite /ncol e1 /= addn1.
by apply: hs; apply: col => //; case/orP: hj' => [->|/andP[h5 h6]] //; rewrite ?h5 ?h6 orbT.
Qed.

(* the inverse of a symmetric matrix is symmetric *)
Lemma inverse_of_sym (F : comRingType) N (D M : nat -> nat -> F) : inverse_of N D M ->
  (forall i j, (i < N)%N -> (j < N)%N -> D i j = D j i) ->
  forall i j, (i < N)%N -> (j < N)%N -> M i j = M j i.
Proof.
move=> h hD i j hi hj.
have hl a b : (a < N)%N -> (b < N)%N -> \sum_(k < N) M a k * D k b = (a == b)%:R by move=> ha hb; case: (h a b ha hb).
(* M i j = sum_kl M i k D k l M j l *)
transitivity (\sum_(k < N) M i k * \sum_(l < N) M j l * D l k).
  under eq_bigr => k _ do rewrite hl //.
  rewrite (bigD1 (Ordinal hj)) //= eqxx mulr1 big1 ?addr0 // => k /eqP ne.
  by case: eqP => [e|_]; [case: ne; apply: val_inj|rewrite mulr0].
under eq_bigr => k _ do rewrite mulr_sumr.
rewrite exchange_big /=.
transitivity (\sum_(l < N) M j l * \sum_(k < N) M i k * D k l).
  by apply: eq_bigr => l _; rewrite mulr_sumr; apply: eq_bigr => k _; rewrite hD // mulrCA.
under eq_bigr => l _ do rewrite hl //.
rewrite (bigD1 (Ordinal hi)) //= eqxx mulr1 big1 ?addr0 // => k /eqP ne.
by case: eqP => [e|_]; [case: ne; apply: val_inj|rewrite mulr0].
Qed.

Section Inverse.
Variable F : rcfType.
Local Notation tens := (tensor F).
Local Notation cov := (dict nat_eqType tens).
Variables (chol : bool -> tens -> res tens) (chol_nf : bool -> tens -> ext F -> res tens).
Variables (chol_inv : tens -> res tens) (eigh : tens -> res (tens * tens)).

(* ---- contracts of the external functions ---- *)
Definition square_sym (t : tens) : Prop := exists2 n, tshape t = [:: n; n] & sym_on n (entry n (tdata t)).
(* lower triangular with positive diagonal *)
Definition triangular n (L : tens) : Prop :=
  [/\ tshape L = [:: n; n], (forall i j, (i < j)%N -> (j < n)%N -> entry n (tdata L) i j = 0) &
      forall i, (i < n)%N -> 0 < entry n (tdata L) i i].
(* if torch.linalg.cholesky returns, it returns the decomposition *)
Definition chol_sound : Prop := forall b t n L, tshape t = [:: n; n] -> sym_on n (entry n (tdata t)) ->
  chol b t = Ok L -> triangular n L /\ tmx n n L *m (tmx n n L)^T = tmx n n t.
(* torch.cholesky_inverse: the inverse of L L^T *)
Definition chol_inv_sound : Prop := forall L n, triangular n L ->
  exists P, [/\ chol_inv L = Ok P, tshape P = [:: n; n] & tmx n n L *m (tmx n n L)^T *m tmx n n P = 1%:M].
(* if torch.linalg.eigh returns, it returns orthonormal eigenvectors and their eigenvalues *)
Definition eigh_sound : Prop := forall t n vals vecs, tshape t = [:: n; n] -> sym_on n (entry n (tdata t)) ->
  eigh t = Ok (vals, vecs) -> eig_of (tmx n n t) vecs vals.

(* ---- the damped KFAC matrix ---- *)
Definition damp (dA dB : F) (l : layer F) : layer F :=
  Layer (l_w l) (l_b l) (fun i j => l_A l i j + (if i == j then dA else 0)) (fun i j => l_B l i j + (if i == j then dB else 0)).

Section Net.
Variables (s : iset F) (dbl sep : bool) (S : seq (seq nat)) (ids : seq nat) (mods : seq module) (inC grC : cov).
Local Notation factors name := (compute_inverse_factors chol chol_nf chol_inv eigh s dbl (dget name inC) (dget name grC)).
(* the operator, with a cache that holds nothing but inverses of the factors *)
Local Notation op mp c := (LinOp S S (inverse_product chol chol_nf chol_inv eigh s dbl sep inC grC mp c)).
Local Notation fits_cache := (fits_cache chol chol_nf chol_inv eigh s dbl inC grC).
Local Notation used := [seq m <- mods | relevant ids m].

(* the KFAC matrix with a damping pair for each layer *)
Definition damped_layers (dmp : nat -> F * F) : seq (layer F) :=
  [seq damp (dmp (m_name m)).1 (dmp (m_name m)).2 (net_layer ids inC grC m) | m <- used].

Section Used.
(* factors are symmetric (C33) *)
Hypothesis hsym : forall name t, dget name inC = Some t \/ dget name grC = Some t -> square_sym t.
Hypothesis hwn : well_named mods.
Hypothesis hfits : forall m, List.In m mods -> relevant ids m -> fits sep S ids inC grC m.

Lemma used_entries m : List.In m used ->
  describes sep S inC grC (m_name m, positions ids m) (net_layer ids inC grC m) /\ positions ids m <> [::].
Proof.
move=> hm; split.
  by have := net_describes hwn hfits; rewrite /describes_all forall2_map; apply.
case/in_filter: hm => _ /andP[_ /hasP[p hp1 hp2]]; rewrite /positions /kept => e.
have : p \in [seq p <- m_params m | p.2 \in ids] by rewrite mem_filter hp2.
by move/(map_f (fun p : pname * nat => (p.1, index p.2 ids))); rewrite e.
Qed.

Lemma lmx_damp n (f : nat -> nat -> F) (t : tens) d : (forall i j, (i < n)%N -> (j < n)%N -> f i j = entry n (tdata t) i j) ->
  lmx n (fun i j => f i j + (if i == j then d else 0)) = tmx n n t + d%:M.
Proof.
move=> h; apply/matrixP => i j; rewrite !mxE h //; congr (_ + _).
by rewrite -val_eqE /= mulrb.
Qed.
Lemma lmx_plain n (f : nat -> nat -> F) (t : tens) : (forall i j, (i < n)%N -> (j < n)%N -> f i j = entry n (tdata t) i j) ->
  lmx n f = tmx n n t.
Proof. by move=> h; apply/matrixP => i j; rewrite !mxE h. Qed.

Lemma add_diag_ok (t : tens) n d : tshape t = [:: n; n] -> sym_on n (entry n (tdata t)) ->
  exists t', [/\ add_diag t d = Ok t', tshape t' = [:: n; n], sym_on n (entry n (tdata t')) & tmx n n t' = tmx n n t + d%:M].
Proof.
move=> ht hs; rewrite /add_diag ht eqxx; set t' := Tensor _ _; exists t'.
have e i j : (i < n)%N -> (j < n)%N -> entry n (tdata t') i j = entry n (tdata t) i j + (if i == j then d else 0).
  move=> hi hj; have n0 : (0 < n)%N by apply: leq_ltn_trans hi.
  rewrite /entry nth_mkseq; last exact: idx2_bound.
  by rewrite divnMDl // modnMDl divn_small // modn_small // addn0.
split=> //.
  by move=> i j hi hj; rewrite !e // hs // eq_sym.
by apply/matrixP => i j; rewrite !mxE e //; congr (_ + _); rewrite -val_eqE /= mulrb.
Qed.

(* the decomposition of a damped factor succeeds, possibly in the second attempt *)
Definition decomposes (t : tens) (d : F) : Prop :=
  exists L, (cholesky_with_retry chol chol_nf (i_retry s) dbl t (Fin d)).2 = Ok L.

Lemma invert_one t n d : chol_sound -> chol_inv_sound -> tshape t = [:: n; n] -> sym_on n (entry n (tdata t)) -> decomposes t d ->
  exists P, [/\ (invert_factor chol chol_nf chol_inv (i_retry s) dbl (Some t) (Fin d)).2 = Ok (Some P), tshape P = [:: n; n] &
    (tmx n n t + d%:M) *m tmx n n P = 1%:M].
Proof.
move=> hc hi ht hs [L hL]; have [t' [a1 a2 a3 a4]] := add_diag_ok d ht hs.
have hL' : exists b, chol b t' = Ok L.
  move: hL; rewrite /cholesky_with_retry /damped_cholesky a1 /=.
  case h : (chol dbl t') => [L'|e] /=; first by move=> [<-]; exists dbl.
  case: e h => h //=; case: ifP => //= _ h'; by exists true.
have [b hb] := hL'; have [h1 h2] := hc _ _ _ _ a2 a3 hb; have [P [p1 p2 p3]] := hi _ _ h1.
exists P; split=> //; last by rewrite -a4 -h2.
rewrite /invert_factor; move: hL; case: (cholesky_with_retry _ _ _ _ _ _) => ev r /= ->; by rewrite /= p1.
Qed.

Lemma damped_inverts m (dA dB : F) : chol_sound -> chol_inv_sound -> ~~ i_exact s -> List.In m used ->
  compute_damping s (dget (m_name m) inC) (dget (m_name m) grC) = Ok (Fin dA, Fin dB) ->
  (forall t, dget (m_name m) inC = Some t -> decomposes t dA) ->
  (forall t, dget (m_name m) grC = Some t -> decomposes t dB) ->
  exists ai gi, (factors (m_name m)).2 = Ok (ai, gi) /\
    inverts sep S s ai gi (m_name m, positions ids m) (damp dA dB (net_layer ids inC grC m)) 0.
Proof.
move=> hc hi hex hm hd hA hB; have [[e1 e2 e3 e4 [o [G [g1 g2 g3 g4 g5]]]] e5] := used_entries hm.
rewrite /compute_inverse_factors (negbTE hex) hd /=.
have [n2 hn2 hs2] := hsym (or_intror g1).
have en : n2 = o by move: hn2; rewrite g2 => -[].
subst n2; have [Pg [p1 p2 p3]] := invert_one hc hi g2 hs2 (hB _ g1).
have [ai hai] : exists ai, (invert_factor chol chol_nf chol_inv (i_retry s) dbl (dget (m_name m) inC) (Fin dA)).2 = Ok ai.
  case ha : (dget (m_name m) inC) => [t|]; last by exists None.
  have [n hn hs] := hsym (or_introl ha); have [P [q1 _ _]] := invert_one hc hi hn hs (hA _ ha).
  by exists (Some P).
exists (IMat ai), (IMat (Some Pg)); split.
  move: hai p1; rewrite g1; set u := invert_factor _ _ _ _ _ (dget _ inC) _; set v := invert_factor _ _ _ _ _ (Some G) _.
  by case: u => ev r; case: v => ev' r' /= -> ->.
have hgB : lmx o (fun i j => stored grC (m_name m) i j + (if i == j then dB else 0)) *m tmx o o Pg = 1%:M by rewrite (lmx_damp _ g3).
split=> //=; first by rewrite (negbTE hex).
exists o; split.
  move=> w hw; have [rest [r1 [A [a1 a2 a3 a4]]]] := g4 w hw; exists rest; split=> //.
  set n := (numel rest + joint sep (damp _ _ _))%N.
  have [n3 hn3 hs3] := hsym (or_introl a1).
  have en : n3 = n by move: hn3; rewrite a2 => -[].
  subst n3; have [P [q1 q2 q3]] := invert_one hc hi a2 hs3 (hA _ a1).
  have ea : ai = Some P by move: hai; rewrite a1 q1 => -[].
  split; first by move=> i j hi' hj' /=; rewrite [stored _ _ i j]a4 // eq_sym.
  rewrite /good2 (negbTE hex); split=> //; exists Pg, P; split=> //; first by rewrite ea.
  by split=> //; rewrite (lmx_damp _ a3).
move=> b hb; split; first exact: g5.
by move=> _; rewrite /good1 (negbTE hex); split=> //; exists Pg.
Qed.
End Used.

Hypothesis hnet : kfac_net sep S ids mods inC grC.
Hypothesis hS : S <> [::].
(* factors are symmetric (C33) *)
Hypothesis hsym : forall name t, dget name inC = Some t \/ dget name grC = Some t -> square_sym t.

Lemma net_entries : exists mp, [/\ compute_parameter_mapping ids mods = Ok mp,
  mp = [seq (m_name m, positions ids m) | m <- used], unshared S (net_layers ids inC grC mods) &
  forall m, List.In m used -> describes sep S inC grC (m_name m, positions ids m) (net_layer ids inC grC m) /\ positions ids m <> [::]].
Proof.
case: hnet => h1 h2 h3 h4; exists [seq (m_name m, positions ids m) | m <- mods & relevant ids m].
split=> //; first exact: net_mapping.
  by apply: net_unshared => // m hm hr; case: (h4 m hm hr).
by move=> m hm; exact: used_entries.
Qed.

Lemma damped_pos dmp : map (@l_pos F) (damped_layers dmp) = map (@l_pos F) (net_layers ids inC grC mods).
Proof. by rewrite /damped_layers /net_layers -!map_comp; apply: eq_map. Qed.

(* ---------- C48 ---------- *)
(* Whatever the dampings are: the operator multiplies with the inverse of the KFAC
   matrix whose factors are damped, if the decompositions succeed *)
Theorem C48_inverts_damped_factors (dmp : nat -> F * F) c : chol_sound -> chol_inv_sound -> ~~ i_exact s -> fits_cache c ->
  (forall m, List.In m used -> [/\
     compute_damping s (dget (m_name m) inC) (dget (m_name m) grC) = Ok (Fin (dmp (m_name m)).1, Fin (dmp (m_name m)).2),
     (forall t, dget (m_name m) inC = Some t -> decomposes t (dmp (m_name m)).1) &
     (forall t, dget (m_name m) grC = Some t -> decomposes t (dmp (m_name m)).2)]) ->
  exists mp M, [/\ compute_parameter_mapping ids mods = Ok mp, acts_as (op mp c) S M &
    inverse_of (total S) (kfac_matrix sep S (damped_layers dmp)) M].
Proof.
move=> hc hi hex hfit hd; have [mp [m1 m2 m3 m4]] := net_entries.
have hun : unshared S (damped_layers dmp) by rewrite /unshared damped_pos.
have hall : inverts_all chol chol_nf chol_inv eigh s dbl sep inC grC 0 S mp (damped_layers dmp).
  rewrite m2; apply/forall2_map => m hm /=; have [d1 d2 d3] := hd m hm.
  by case: hnet => w1 _ _ w2; exact: damped_inverts.
have [M [h1 h2]] := inverse_multiplies hun hfit hall.
exists mp, M; split=> //; first exact: acts_as_multiplies.
move=> i j hi' hj'; have [h3 h4] := h2 i j hi' hj'; split; [rewrite -{}h3|rewrite -{}h4]; apply: eq_bigr => k _; congr (_ * _);
  by case: eqP; rewrite addr0.
Qed.

(* ---- damping values and factors for which this is always so ---- *)
Definition quad n (f : nat -> nat -> F) (x : 'cV[F]_n) : F := (x^T *m lmx n f *m x) 0 0.
Definition psd n (t : tens) : Prop := forall x : 'cV[F]_n, 0 <= quad (entry n (tdata t)) x.
Definition posdef n (t : tens) : Prop := forall x : 'cV[F]_n, x != 0 -> 0 < quad (entry n (tdata t)) x.
(* torch.linalg.cholesky succeeds in the given precision for positive definite matrices *)
Definition chol_complete (b : bool) : Prop := forall t n, tshape t = [:: n; n] -> sym_on n (entry n (tdata t)) ->
  posdef n t -> exists L, chol b t = Ok L.

Lemma psd_posdef n (A : 'M[F]_n) : A^T = A -> A \in unitmx -> (forall x : 'cV[F]_n, 0 <= (x^T *m A *m x) 0 0) ->
  forall x : 'cV[F]_n, x != 0 -> 0 < (x^T *m A *m x) 0 0.
Proof.
move=> hs hu hp x hx; rewrite lt_neqAle hp andbT eq_sym; apply/eqP => h0.
set y := A *m x; pose c := (y^T *m A *m y) 0 0; pose r := (y^T *m y) 0 0.
have r0 : 0 <= r by rewrite /r mxE sumr_ge0 // => i _; rewrite mxE -expr2 sqr_ge0.
have mD (U V : 'M[F]_1) : (U + V) 0 0 = U 0 0 + V 0 0 by rewrite mxE.
have mZ a (U : 'M[F]_1) : (a *: U) 0 0 = a * U 0 0 by rewrite mxE.
have key t : 0 <= 2%:R * t * r + t ^+ 2 * c.
  have := hp (x + t *: y); have -> : (x + t *: y)^T = x^T + t *: y^T by apply/matrixP => i j; rewrite !mxE.
  rewrite !mulmxDl !mulmxDr -!scalemxAl -!scalemxAr.
  rewrite !(mD, mZ).
  rewrite h0 add0r.
  have -> : (x^T *m A *m y) 0 0 = r by rewrite /r /y trmx_mul hs.
  have -> : (y^T *m A *m x) 0 0 = r by rewrite /r -mulmxA.
  by rewrite -/c; have -> : t * r + (t * r + t * (t * c)) = 2%:R * t * r + t ^+ 2 * c by ring.
have c0 : 0 <= c by exact: hp.
have hr : r = 0.
  apply/eqP; rewrite eq_le r0 andbT; apply/idPn; rewrite -ltNge => rp.
  have cp : 0 < c + 1 by rewrite ltr_paddl ?ltr01.
  have := key (- r / (c + 1)); rewrite leNgt => /negP[].
  have -> : 2%:R * (- r / (c + 1)) * r + (- r / (c + 1)) ^+ 2 * c = - (r ^+ 2 / (c + 1)) * (2%:R - c / (c + 1)).
    by field; rewrite (gt_eqF cp).
  rewrite mulNr oppr_lt0 mulr_gt0 //; first by rewrite divr_gt0 // exprn_gt0.
  rewrite subr_gt0 ltr_pdivr_mulr // mulrDr mulr1.
  by rewrite (le_lt_trans (_ : c <= 2%:R * c)) ?ltr_addl ?ltr0n // mulr_natl mulr2n ler_addl.
have y0 : y = 0.
  apply/matrixP => i j; rewrite ord1 [RHS]mxE; move: hr; rewrite /r mxE => /eqP.
  rewrite psumr_eq0 => [|k _]; last by rewrite mxE -expr2 sqr_ge0.
  by move/allP => /(_ i (mem_index_enum _)); rewrite mxE -expr2 sqrf_eq0 => /eqP.
by case/eqP: hx; rewrite -(mulKmx hu x) -/y y0 mulmx0.
Qed.

Lemma psd_decomposes t n d : chol_complete dbl -> tshape t = [:: n; n] -> sym_on n (entry n (tdata t)) -> psd n t -> 0 <= d ->
  tmx n n t + d%:M \in unitmx -> decomposes t d.
Proof.
move=> hc ht hs hp hd hu; have [t' [a1 a2 a3 a4]] := add_diag_ok d ht hs.
have eT : lmx n (entry n (tdata t')) = tmx n n t' by [].
have hpd : posdef n t'.
  move=> x hx; rewrite /quad eT a4; apply: psd_posdef => //.
    apply/matrixP => i j; rewrite !mxE hs // [in RHS]eq_sym; by [].
  move=> y; rewrite mulmxDr mulmxDl mxE addr_ge0 //; first exact: hp.
  rewrite mul_mx_scalar -scalemxAl mxE mulr_ge0 // mxE sumr_ge0 // => i _; by rewrite mxE -expr2 sqr_ge0.
have [L hL] := hc _ _ a2 a3 hpd; exists L.
by rewrite /cholesky_with_retry /damped_cholesky a1 /= hL.
Qed.

(* A plain damping: a number, or one for the input and one for the gradient factors. *)
Definition damping_pair (a b : F) : Prop := (i_damping s = DOne a /\ b = a) \/ i_damping s = DTuple [:: a; b].

(* positive semi-definite factors, non-negative damping, invertible damped factors *)
Theorem C48_inverse a b c : chol_sound -> chol_complete dbl -> chol_inv_sound -> ~~ i_exact s -> ~~ i_heur s -> fits_cache c ->
  damping_pair a b -> 0 <= a -> 0 <= b ->
  (forall name t n, dget name inC = Some t -> tshape t = [:: n; n] -> psd n t /\ tmx n n t + a%:M \in unitmx) ->
  (forall name t n, dget name grC = Some t -> tshape t = [:: n; n] -> psd n t /\ tmx n n t + b%:M \in unitmx) ->
  exists mp M, [/\ compute_parameter_mapping ids mods = Ok mp, acts_as (op mp c) S M &
    inverse_of (total S) (kfac_matrix sep S (damped_layers (fun=> (a, b)))) M].
Proof.
move=> hc hcc hi hex hh hfit hab ha hb hA hB; apply: C48_inverts_damped_factors => // m hm; split.
- rewrite /compute_damping (negbTE hh) /plain_damping; by case: hab => [[-> ->]|->].
- move=> t ht; have [n hn hs] := hsym (or_introl ht); have [p1 p2] := hA _ _ _ ht hn.
  exact: (psd_decomposes hcc hn hs p1 ha p2).
move=> t ht; have [n hn hs] := hsym (or_intror ht); have [p1 p2] := hB _ _ _ ht hn.
exact: (psd_decomposes hcc hn hs p1 hb p2).
Qed.

(* ---------- C49 ---------- *)
Lemma exact_inverts m d M : eigh_sound -> i_exact s -> i_damping s = DOne d -> List.In m used ->
  (forall t, dget (m_name m) inC = Some t \/ dget (m_name m) grC = Some t -> exists r, eigh t = Ok r) ->
  inverse_of (total S) (fun i j => kfac_matrix sep S (net_layers ids inC grC mods) i j + (if i == j then d else 0)) M ->
  exists ai gi, (factors (m_name m)).2 = Ok (ai, gi) /\
    inverts sep S s ai gi (m_name m, positions ids m) (net_layer ids inC grC m) d.
Proof.
move=> he hex hd hm hok hM; have [_ [_ _ hun /(_ m hm)[[e1 e2 e3 e4 [o [G [g1 g2 g3 g4 g5]]]] e5]]] := net_entries.
have hin : List.In (net_layer ids inC grC m) (net_layers ids inC grC mods) by apply/in_map; exists m.
have [[gu gv] hg] := hok _ (or_intror g1).
have [n2 hn2 hs2] := hsym (or_intror g1).
have en : n2 = o by move: hn2; rewrite g2 => -[].
subst n2; have eG := he _ _ _ _ g2 hs2 hg; rewrite -(lmx_plain g3) in eG.
rewrite /compute_inverse_factors hex /= g1 /= hg /=.
have [ai [hai hfa]] : exists ai, eig_factor eigh (dget (m_name m) inC) = Ok ai /\ exists v u, ai = IEig v u.
  case ha : (dget (m_name m) inC) => [t|] /=; last by eexists; split; [reflexivity|do 2 eexists].
  have [[tu tv] ->] := hok _ (or_introl ha); eexists; split; [reflexivity|by do 2 eexists].
rewrite hai /=; exists ai, (IEig (Some gv) (Some gu)); split=> //.
split=> //=; exists o; split.
  move=> w hw; have [rest [r1 [A [a1 a2 a3 a4]]]] := g4 w hw; exists rest; split=> //.
  set n := (numel rest + joint sep _)%N in a2 a3 a4 *.
  have [n3 hn3 hs3] := hsym (or_introl a1).
  have en : n3 = n by move: hn3; rewrite a2 => -[].
  subst n3; have [[au av] ha] := hok _ (or_introl a1).
  have eA := he _ _ _ _ a2 hs3 ha; rewrite -(lmx_plain a3) in eA.
  split; first exact: a4.
  rewrite /good2 hex; split=> //; exists gv, gu, av, au; split=> //.
    by move: hai; rewrite a1 /= ha /= => -[<-].
  move=> i j; case hj : (joint sep (net_layer ids inC grC m)).
    have [b hb] : exists b, l_b (net_layer ids inC grC m) = Some b.
      by case/and3P: hj => _ _; case: (l_b _) => // b _; exists b.
    move: a4 eA j; rewrite /n hj => a4 eA j.
    exact: (nonzero_joint hun hM hin i j hj hw hb r1 (g5 b hb) a4 eG eA).
  move/negbT: (hj) => hj'; move: a4 eA j; rewrite /n hj addn0 => a4 eA j.
  exact: (nonzero_weight hun hM hin i j hj' hw r1 a4 g5 eG eA).
move=> b hb; split; first exact: g5.
move=> hj; rewrite /good1 hex; split=> //; exists gv, gu; split=> // i.
exact: (nonzero_bias hun hM hin i hj hb (g5 b hb) eG).
Qed.

(* Whenever KFAC + d I is invertible, the operator multiplies with the inverse *)
Theorem C49_exact_damping d c : eigh_sound -> i_exact s -> i_damping s = DOne d -> fits_cache c ->
  (forall name t, dget name inC = Some t \/ dget name grC = Some t -> exists r, eigh t = Ok r) ->
  let D i j := kfac_matrix sep S (net_layers ids inC grC mods) i j + (if i == j then d else 0) in
  (exists M, inverse_of (total S) D M) ->
  exists mp M, [/\ compute_parameter_mapping ids mods = Ok mp, acts_as (op mp c) S M & inverse_of (total S) D M].
Proof.
move=> he hex hd hfit hok D [M0 hM0]; have [mp [m1 m2 m3 m4]] := net_entries.
have hall : inverts_all chol chol_nf chol_inv eigh s dbl sep inC grC d S mp (net_layers ids inC grC mods).
  rewrite m2; apply/forall2_map => m hm /=; apply: exact_inverts hM0 => // t ht; exact: hok ht.
have [M [h1 h2]] := inverse_multiplies m3 hfit hall.
by exists mp, M; split=> //; exact: acts_as_multiplies.
Qed.

(* ---------- C05: the inverse KFAC operator may return itself as its adjoint ---------- *)
Lemma damped_sym dmp i j : (i < total S)%N -> (j < total S)%N ->
  kfac_matrix sep S (damped_layers dmp) i j = kfac_matrix sep S (damped_layers dmp) j i.
Proof.
move=> hi hj; have [i1 i2 _] := locate_bound hi; have [j1 j2 _] := locate_bound hj.
rewrite /kfac_matrix !big_map; apply: eq_big_In => m hm.
have [_ [_ _ _ /(_ m hm)[[e1 e2 e3 e4 [o [G [g1 g2 g3 g4 g5]]]] e5]]] := net_entries.
apply: (@layer_entry_sym _ _ _ _ o) => //= [x y hx hy|w hw].
  have [n hn hs] := hsym (or_intror g1); have en : n = o by move: hn; rewrite g2 => -[].
  by subst n; rewrite [stored _ _ x y]g3 // [stored _ _ y x]g3 // hs // eq_sym.
have [rest [r1 [A [a1 a2 a3 a4]]]] := g4 w hw; exists rest; split=> // x y hx hy.
by rewrite [stored _ _ x y]a4 // eq_sym.
Qed.

Theorem C05_kfac_inverse_self_adjoint (dmp : nat -> F * F) c : chol_sound -> chol_inv_sound -> ~~ i_exact s -> fits_cache c ->
  (forall m, List.In m used -> [/\
     compute_damping s (dget (m_name m) inC) (dget (m_name m) grC) = Ok (Fin (dmp (m_name m)).1, Fin (dmp (m_name m)).2),
     (forall t, dget (m_name m) inC = Some t -> decomposes t (dmp (m_name m)).1) &
     (forall t, dget (m_name m) grC = Some t -> decomposes t (dmp (m_name m)).2)]) ->
  exists2 mp, compute_parameter_mapping ids mods = Ok mp & self_adjoint_op (op mp c) S.
Proof.
move=> hc hi hex hfit hd; have [mp [M [h1 h2 h3]]] := C48_inverts_damped_factors hc hi hex hfit hd.
exists mp => //; apply: acts_as_self_adjoint h2 _; apply: inverse_of_sym h3 _; exact: damped_sym.
Qed.

Theorem C05_kfac_exact_inverse_self_adjoint d c : eigh_sound -> i_exact s -> i_damping s = DOne d -> fits_cache c ->
  (forall name t, dget name inC = Some t \/ dget name grC = Some t -> exists r, eigh t = Ok r) ->
  (exists M, inverse_of (total S) (fun i j => kfac_matrix sep S (net_layers ids inC grC mods) i j + (if i == j then d else 0)) M) ->
  exists2 mp, compute_parameter_mapping ids mods = Ok mp & self_adjoint_op (op mp c) S.
Proof.
move=> he hex hd hfit hok hM; have [mp [M [h1 h2 h3]]] := C49_exact_damping he hex hd hfit hok hM.
exists mp => //; apply: acts_as_self_adjoint h2 _; apply: inverse_of_sym h3 _ => i j hi hj.
have e0 a b : kfac_matrix sep S (net_layers ids inC grC mods) a b = kfac_matrix sep S (damped_layers (fun=> (0, 0))) a b.
  rewrite /kfac_matrix !big_map; apply: eq_bigr => m _; rewrite /layer_entry /=.
  by do 2 (case: ifP => _ //); rewrite ?if_same ?addr0 //; case: eqP; rewrite ?addr0.
by rewrite !e0 damped_sym // eq_sym.
Qed.
End Net.
End Inverse.
Print Assumptions C48_inverts_damped_factors.
Print Assumptions C48_inverse.
Print Assumptions C49_exact_damping.
Print Assumptions C05_kfac_inverse_self_adjoint.
Print Assumptions C05_kfac_exact_inverse_self_adjoint.
