(* Concrete cases for the theorems about the inverse KFAC operator (C08, C48-C50, C53),
   with a Cholesky decomposition that exists for every positive definite matrix. *)
From Coq Require Import Reals ClassicalEpsilon Lra.
From Coquelicot Require Import Coquelicot.
From mathcomp Require Import all_ssreflect all_algebra ring.
From Verif Require Import PyPrelude Tensor Spec TorchBase OpSpec KfacSpec Kfac KfacProof KfacMap KfacBlocks KfacScalar KfacScalarProof Props_Kfac KfacInverse KfacInvProof Props_KfacInverse Props_KfacInvMore RInst ROrd.
Set Implicit Arguments.
Unset Strict Implicit.
Unset Printing Implicit Defensive.
Import GRing.Theory Order.TTheory Num.Theory.
Local Open Scope ring_scope.

Section Cholesky.
Variable F : rcfType.
(* every positive definite symmetric matrix has a Cholesky decomposition *)
Lemma cholesky_exists n (A : 'M[F]_n) : A^T = A -> (forall x : 'cV[F]_n, x != 0 -> 0 < (x^T *m A *m x) 0 0) ->
  exists L : 'M[F]_n, [/\ is_trig_mx L, (forall i, 0 < L i i) & L *m L^T = A].
Proof.
elim: n A => [|n IH] A hs hp.
  by exists 0; split; [apply/is_trig_mxP => -[]|case|apply/matrixP => -[]].
pose A' : 'M[F]_(1 + n) := A.
pose a := A' 0 0; pose v : 'cV[F]_n := dlsubmx A'; pose B : 'M[F]_n := drsubmx A'.
have hA' : A' = block_mx a%:M v^T v B.
  rewrite -[A']submxK -/v -/B; congr block_mx.
    by apply/matrixP => i j; rewrite !ord1 !mxE /a mulr1n; congr (A' _ _); apply: val_inj.
  by rewrite /v /dlsubmx /ursubmx; apply/matrixP => i j; rewrite !mxE -[in LHS](_ : A'^T = A') // mxE.
have a0 : 0 < a.
  have h : (delta_mx 0 0 : 'cV[F]_n.+1) != 0.
    by apply/eqP => /matrixP/(_ 0 0); rewrite !mxE !eqxx => /eqP; rewrite oner_eq0.
  by have := hp _ h; rewrite trmx_delta -rowE -colE !mxE.
pose C := B - a^-1 *: (v *m v^T).
have hC : C^T = C.
  rewrite /C linearB linearZ /= trmx_mul trmxK; congr (_ - _).
  by rewrite /B trmx_drsub; congr drsubmx.
have pC (x : 'cV[F]_n) : x != 0 -> 0 < (x^T *m C *m x) 0 0.
  move=> hx; set w := v^T *m x; pose z : 'cV[F]_(1 + n) := col_mx (- (a^-1 *: w)) x.
  have z0 : z != 0 by apply/eqP => h; case/eqP: hx; rewrite -(col_mxKd (- (a^-1 *: w)) x) -/z h linear0.
  have := hp z z0; congr (0 < _); congr (_ 0 0).
  have -> : z^T *m A *m z = z^T *m A' *m z by [].
  have hw : x^T *m v = w^T by rewrite /w trmx_mul trmxK.
  rewrite hA' /z tr_col_mx mul_row_block mul_row_col.
  have -> : (- (a^-1 *: w))^T *m a%:M + x^T *m v = 0.
    by rewrite linearN linearZ /= mulNmx mul_mx_scalar scalerA mulfV ?gt_eqF // scale1r hw addNr.
  rewrite mul0mx add0r /C mulmxBr mulmxBl mulmxDl addrC.
  have -> : (- (a^-1 *: w))^T *m v^T *m x = - (x^T *m (a^-1 *: (v *m v^T)) *m x).
    by rewrite -scalemxAr mulmxA hw -scalemxAl linearN linearZ /= !mulNmx -!scalemxAl.
  by [].
have [L [l1 l2 l3]] := IH C hC pC.
pose r := Num.sqrt a; have r0 : 0 < r by rewrite sqrtr_gt0.
have rr : r * r = a by rewrite -expr2 sqr_sqrtr // ltW.
pose L' : 'M[F]_(1 + n) := block_mx r%:M 0 (r^-1 *: v) L; exists L'; split.
- have h : is_trig_mx L' by rewrite /L' is_trig_block_mx // eqxx l1 andbT /=; exact: scalar_mx_is_trig.
  exact: h.
- have h (i : 'I_(1 + n)) : 0 < L' i i.
    by rewrite -[i](splitK i) /L'; case: (split i) => k; rewrite /= ?block_mxEul ?block_mxEdr // ord1 mxE eqxx mulr1n.
  exact: h.
suff : L' *m L'^T = A' by [].
rewrite hA' /L' tr_block_mx mulmx_block trmx0 !mulmx0 !mul0mx !addr0 tr_scalar_mx linearZ /=.
congr block_mx.
- by rewrite -scalar_mxM rr.
- by rewrite mul_scalar_mx scalerA mulfV ?gt_eqF // scale1r.
- by rewrite mul_mx_scalar scalerA mulfV ?gt_eqF // scale1r.
rewrite l3 /C -scalemxAl -scalemxAr scalerA -invfM rr addrC subrK; by [].
Qed.
End Cholesky.

(* ---- matrices as tensors, and decompositions that meet the contracts ---- *)
Section Oracles.
Variable F : rcfType.
Local Notation tens := (tensor F).
Definition mxt n (A : 'M[F]_n) : tens :=
  Tensor [:: n; n] (mkseq (fun e => if (insub (e %/ n)%N, insub (e %% n)%N) is (Some i, Some j) then A i j else 0) (n * n)).
Lemma mxtE n (A : 'M[F]_n) (i j : 'I_n) : entry n (tdata (mxt A)) i j = A i j.
Proof.
have n0 : (0 < n)%N by apply: leq_ltn_trans (ltn_ord i).
rewrite /entry nth_mkseq; last exact: idx2_bound.
by rewrite divnMDl // modnMDl divn_small // modn_small // addn0 !valK.
Qed.
Lemma tmx_mxt n (A : 'M[F]_n) : tmx n n (mxt A) = A.
Proof. by apply/matrixP => i j; rewrite mxE mxtE. Qed.

Definition chol_inv (L : tens) : res tens :=
  if tshape L is [:: n; _] then Ok (mxt (invmx (tmx n n L *m (tmx n n L)^T))) else Err RuntimeError.
Lemma chol_inv_ok : chol_inv_sound chol_inv.
Proof.
move=> L n [h1 h2 h3]; exists (mxt (invmx (tmx n n L *m (tmx n n L)^T))); split=> //; first by rewrite /chol_inv h1.
rewrite tmx_mxt mulmxV //.
have hu : tmx n n L \in unitmx.
  rewrite unitmxE unitfE det_trig; last by apply/is_trig_mxP => i j hij; rewrite mxE h2.
  by apply/prodf_neq0 => i _; rewrite mxE gt_eqF // h3.
by rewrite unitmx_mul hu unitmx_tr.
Qed.

(* eigen-decompositions of 1x1 matrices and of [a b; b a] *)
Definition eigh2 (t : tens) : res (tens * tens) :=
  match tshape t, tdata t with
  | [:: 1; 1]%N, [:: a] => Ok (Tensor [:: 1]%N [:: a], Tensor [:: 1; 1]%N [:: 1])
  | [:: 2; 2]%N, [:: a; b; c; d] =>
      let h := (Num.sqrt 2%:R)^-1 in
      if (c == b) && (d == a) then Ok (Tensor [:: 2]%N [:: a - b; a + b], Tensor [:: 2; 2]%N [:: h; h; - h; h]) else Err RuntimeError
  | _, _ => Err RuntimeError
  end.
Lemma eigh2_ok : eigh_sound eigh2.
Proof.
move=> t n vals vecs ht hs; rewrite /eigh2 ht.
case: n ht hs => [|[|[|n]]] // ht hs; case ed : (tdata t) => [|a [|b [|c [|d [|x r]]]]] //.
  move=> [<- <-]; split=> //.
  - by apply/matrixP => i j; rewrite !mxE big_ord1 !mxE !ord1 /entry /= mulr1.
  - by apply/matrixP => i j; rewrite !mxE big_ord1 !mxE big_ord1 !mxE !ord1 eqxx /entry ed /= mulr1 mul1r.
case: andP => // -[/eqP ec /eqP ed'] [<- <-]; set h := _^-1.
have hh : h * h * 2%:R = 1.
  by rewrite /h -invfM -expr2 sqr_sqrtr ?ler0n // mulVf // pnatr_eq0.
have h2 : h * h + h * h = 1 by rewrite -hh; ring.
split=> //.
- by apply/matrixP => -[[|[|i]] hi] -[[|[|j]] hj] //; rewrite !mxE !big_ord_recl big_ord0 !mxE /entry /= ?mulNr ?mulrN ?opprK addr0 ?h2 //; ring.
apply/matrixP => -[[|[|i]] hi] -[[|[|j]] hj] //; rewrite !mxE !big_ord_recl !big_ord0 !mxE !big_ord_recl !big_ord0 !mxE /entry ed /= ?ec ?ed'.
- by rewrite -[LHS]mulr1 -hh; ring.
- by rewrite -[LHS]mulr1 -hh; ring.
- by rewrite -[LHS]mulr1 -hh; ring.
- by rewrite -[LHS]mulr1 -hh; ring.
Qed.

Lemma gram_psd (t : tens) n : gram n (entry n (tdata t)) -> psd n t.
Proof.
move=> [vs v0 hv] x; rewrite /quad.
have -> : (x^T *m lmx n (entry n (tdata t)) *m x) 0 0 = \sum_(v <- vs) v.1 * (\sum_(i < n) v.2 i * x i 0) ^+ 2.
  transitivity (\sum_(i < n) \sum_(j < n) x j 0 * entry n (tdata t) j i * x i 0).
    by rewrite mxE; apply: eq_bigr => i _; rewrite mxE mulr_suml; apply: eq_bigr => j _; rewrite !mxE.
  transitivity (\sum_(i < n) \sum_(j < n) \sum_(v <- vs) v.1 * ((v.2 j * x j 0) * (v.2 i * x i 0))).
    apply: eq_bigr => i _; apply: eq_bigr => j _; rewrite hv // mulr_sumr mulr_suml; apply: eq_bigr => v _.
    by move: v.1 (v.2 _) (v.2 _) (x _ _) (x _ _) => p q r u w; ring.
  transitivity (\sum_(i < n) \sum_(v <- vs) \sum_(j < n) v.1 * ((v.2 j * x j 0) * (v.2 i * x i 0))).
    by apply: eq_bigr => i _; apply: exchange_big.
  rewrite exchange_big; apply: eq_bigr => v _; rewrite expr2 mulr_suml exchange_big mulr_sumr.
  by apply: eq_bigr => i _; rewrite !mulr_sumr.
by apply: sum_ge0_In => v hv'; rewrite mulr_ge0 ?v0 ?sqr_ge0.
Qed.
End Oracles.

Definition chol_R (b : bool) (t : tensor R) : res (tensor R) :=
  match tshape t with
  | [:: n; m] =>
      match excluded_middle_informative (exists L : 'M[R]_n, [/\ is_trig_mx L, (forall i, 0 < L i i) & L *m L^T = tmx n n t]) with
      | left h => Ok (mxt (proj1_sig (constructive_indefinite_description _ h)))
      | right _ => Err RuntimeError
      end
  | _ => Err RuntimeError
  end.
Lemma chol_R_sound : chol_sound chol_R.
Proof.
move=> b t n L ht hs; rewrite /chol_R ht; case: excluded_middle_informative => // h [<-].
case: constructive_indefinite_description => M /= [/is_trig_mxP h1 h2 h3]; rewrite tmx_mxt; split=> //; split=> //.
  by move=> i j hij hj; have hi := ltn_trans hij hj; rewrite (mxtE M (Ordinal hi) (Ordinal hj)) h1.
by move=> i hi; rewrite (mxtE M (Ordinal hi) (Ordinal hi)).
Qed.
Lemma chol_R_complete b : chol_complete chol_R b.
Proof.
move=> t n ht hs hp; rewrite /chol_R ht; case: excluded_middle_informative => [h|[]]; first by eexists; reflexivity.
apply: cholesky_exists; last exact: hp.
by apply/matrixP => i j; rewrite !mxE hs.
Qed.

(* ---- a network with two layers, weight and bias together ---- *)
Local Notation RF := [comRingType of R].
Section Examples.
Variables (chol_nf : bool -> tensor R -> ext [rcfType of R] -> res (tensor R)) (eigh : tensor R -> res (tensor R * tensor R)).
Local Notation inp := (ex_in RF).
Local Notation grd := (ex_gr RF).
Lemma ex_sym name t : dget name inp = Some t \/ dget name grd = Some t -> @square_sym [rcfType of R] t.
Proof.
case=> h; have /= := dget_in h; case=> [[_ <-]|[[_ <-]|//]]; eexists; try reflexivity; by move=> [|[|i]] [|[|j]].
Qed.
Lemma ex_unit (d : R) name t n : 0 < d -> dget name inp = Some t \/ dget name grd = Some t -> tshape t = [:: n; n] ->
  psd n t /\ tmx n n t + d%:M \in unitmx.
Proof.
move=> hd ht hn; have hp := gram_psd (ex_gram ht hn); split=> //.
by apply: posdef_unit; apply: psd_damped hd.
Qed.

Example C48_ex dbl (a b : R) : 0 < a -> 0 < b ->
  exists M, acts_as (LinOp ex_S ex_S (inverse_product chol_R chol_nf (@chol_inv [rcfType of R]) eigh
      (ISet (DTuple [:: a; b]) false 0 false true true) dbl false inp grd ex_mp ([::], [::]))) ex_S M /\
    inverse_of (total ex_S) (kfac_matrix false ex_S (damped_layers ex_ids ex_mods inp grd (fun=> (a, b)))) M.
Proof.
move=> ha hb; have [||mp [M [h1 h2 h3]]] := @C48_inverse [rcfType of R] chol_R chol_nf (@chol_inv _) eigh (ISet (DTuple [:: a; b]) false 0 false true true)
  dbl false ex_S ex_ids ex_mods inp grd (ex_net RF) (ltac:(by [])) ex_sym a b ([::], [::]) chol_R_sound (chol_R_complete dbl) (@chol_inv_ok _) isT isT
  (fits_nil _ _ _ _ _ _ _ _) (or_intror erefl) (ltW ha) (ltW hb).
- move=> name t n ht hn; exact: (ex_unit ha (or_introl ht) hn).
- move=> name t n ht hn; exact: (ex_unit hb (or_intror ht) hn).
by exists M; have em : mp = ex_mp by [case: h1]; rewrite em in h2.
Qed.
Example C05_ex_kfac_inverse dbl (a b : R) : 0 < a -> 0 < b ->
  self_adjoint_op (LinOp ex_S ex_S (inverse_product chol_R chol_nf (@chol_inv [rcfType of R]) eigh
      (ISet (DTuple [:: a; b]) false 0 false true true) dbl false inp grd ex_mp ([::], [::]))) ex_S.
Proof.
move=> ha hb; have [|mp h1 h2] := @C05_kfac_inverse_self_adjoint [rcfType of R] chol_R chol_nf (@chol_inv _) eigh (ISet (DTuple [:: a; b]) false 0 false true true)
  dbl false ex_S ex_ids ex_mods inp grd (ex_net RF) (ltac:(by [])) ex_sym (fun=> (a, b)) ([::], [::]) chol_R_sound (@chol_inv_ok _) isT
  (fits_nil _ _ _ _ _ _ _ _); last by have em : mp = ex_mp by [case: h1]; rewrite em in h2.
move=> m hm; split=> // t ht.
  have [n hn hs] := ex_sym (or_introl ht); have [p1 p2] := ex_unit ha (or_introl ht) hn.
  exact: (psd_decomposes _ _ (chol_R_complete dbl) hn hs p1 (ltW ha) p2).
have [n hn hs] := ex_sym (or_intror ht); have [p1 p2] := ex_unit hb (or_intror ht) hn.
exact: (psd_decomposes _ _ (chol_R_complete dbl) hn hs p1 (ltW hb) p2).
Qed.
Example C50_ex dbl (d m : R) : 0 < d ->
  exists dmp M, acts_as (LinOp ex_S ex_S (inverse_product chol_R chol_nf (@chol_inv [rcfType of R]) eigh
      (ISet (DOne d) true m false true true) dbl false inp grd ex_mp ([::], [::]))) ex_S M /\
    inverse_of (total ex_S) (kfac_matrix false ex_S (damped_layers ex_ids ex_mods inp grd dmp)) M.
Proof.
move=> hd; have [||dmp [mp [M [h1 h2 h3 _ _]]]] := @C50_inverse [rcfType of R] chol_R chol_nf (@chol_inv _) eigh (ISet (DOne d) true m false true true)
  dbl false ex_S ex_ids ex_mods inp grd (ex_net RF) (ltac:(by [])) ex_sym d ([::], [::]) chol_R_sound (chol_R_complete dbl) (@chol_inv_ok _) isT isT
  (fits_nil _ _ _ _ _ _ _ _) erefl hd.
- by move=> name t n ht hn; apply: (proj1 (ex_unit hd ht hn)).
- move=> name t t' n k hA _ hn _ _; have /= := dget_in hA; case=> [[_ e]|[[_ e]|//]]; subst t; case: hn => <- _.
    by rewrite /mean_eig !big_ord_recl big_ord0 /entry /= addr0 -natrD divr_gt0 ?ltr0n.
  by rewrite /mean_eig !big_ord_recl big_ord0 /entry /= addr0 -[1]/(1%:R) -natrD divr_gt0 ?ltr0n.
by exists dmp, M; have em : mp = ex_mp by [case: h1]; rewrite em in h2.
Qed.

(* With damping -10 every damped factor is invertible, but no product succeeds,
   whatever Cholesky decomposition is used. *)
Theorem C48_indefinite_refuted chol chinv dbl X : @chol_sound [rcfType of R] chol ->
  (forall name t n, dget name inp = Some t \/ dget name grd = Some t -> tshape t = [:: n; n] -> tmx n n t + (- 10%:R)%:M \in unitmx) /\
  exists e, inverse_product chol chol_nf chinv eigh (ISet (DOne (- 10%:R)) false 0 false true true) dbl false inp grd ex_mp ([::], [::]) X = Err e.
Proof.
move=> hc; split.
  have u2 (a b c d : R) : (a - 10%:R) * (d - 10%:R) - b * c != 0 -> tmx 2 2 (Tensor [:: 2; 2]%N [:: a; b; c; d] : tensor [rcfType of R]) + (- 10%:R)%:M \in unitmx.
    move=> h; rewrite unitmxE unitfE; set A := _ + _.
    have -> : A = \matrix_(i < 2, j < 2) entry 2 [:: a - 10%:R; b; c; d - 10%:R] i j; last by rewrite det22.
    by apply/matrixP => -[[|[|i]] hi] -[[|[|j]] hj] //; rewrite /A !mxE /entry /= ?mulr1n ?mulr0n ?addr0.
  have ne (x : R) (k : nat) : x = k.+1%:R -> x != 0 by move=> ->; rewrite pnatr_eq0.
  move=> name t n ht; case: ht => h; have /= := dget_in h; case=> [[_ e]|[[_ e]|//]]; subst t; case=> <- _.
  - by apply: u2; apply: (@ne _ 54%N); ring.
  - by apply: u2; apply: (@ne _ 40%N); ring.
  - rewrite unitmxE unitfE det_mx11 !mxE /entry /= mulr1n.
    have -> : 3%:R - 10%:R = - 7%:R :> R by ring.
    by rewrite oppr_eq0 pnatr_eq0.
  by apply: u2; apply: (@ne _ 46%N); ring.
apply: (@C48_indefinite_raises [rcfType of R] chol chol_nf chinv eigh (ISet (DOne (- 10%:R)) false 0 false true true) dbl false ex_S ex_ids ex_mods inp grd
  (ex_net RF) ex_sym (- 10%:R) (- 10%:R) ([::], [::]) ex_mp (Module 0 true [:: (Weight, 10); (Bias, 11)]%N)
  (Tensor [:: 1; 1]%N [:: 3%:R]) 1%N (- 10%:R) X hc isT isT (fits_nil _ _ _ _ _ _ _ _) (or_introl (conj erefl erefl)) erefl).
- by left.
- by right.
- by [].
move=> /(_ 1); have n1 : (1 : 'cV[R]_1) != 0 by rewrite oner_eq0.
move/(_ n1); rewrite trmx1 mulmx1 mul1mx !mxE /entry /= mulr1n.
have -> : 3%:R - 10%:R = - 7%:R :> R by ring.
by rewrite oppr_gt0 ltrn0.
Qed.
End Examples.
Print Assumptions C48_indefinite_refuted.

(* ---- singular factors and exact damping ---- *)
Section Singular.
Variable F : rcfType.
Variables (chol : bool -> tensor F -> res (tensor F)) (chol_nf : bool -> tensor F -> ext F -> res (tensor F)).
Variable chinv : tensor F -> res (tensor F).
Definition sg_in : dict nat_eqType (tensor F) :=
  [:: (0%N, Tensor [:: 2; 2]%N [:: 1; 1; 1; 1]); (1%N, Tensor [:: 2; 2]%N [:: 2%:R; 1; 1; 2%:R])].
Definition sg_gr : dict nat_eqType (tensor F) :=
  [:: (0%N, Tensor [:: 1; 1]%N [:: 3%:R]); (1%N, Tensor [:: 2; 2]%N [:: 1; 1; 1; 1])].
Lemma sg_net : kfac_net false ex_S ex_ids ex_mods sg_in sg_gr.
Proof.
split; [exact: ex_named|by []|by []|].
move=> m /=; case=> [<- //|[<-|[<-|//]]] _; split=> //.
  exists 1%N, (Tensor [:: 1; 1]%N [:: 3%:R]); split=> // [w|b]; rewrite /at_pos /= => -[<-]; last by [].
  exists [:: 1%N], (Tensor [:: 2; 2]%N [:: 1; 1; 1; 1]); split=> //; split=> //.
  by move=> [|[|i]] [|[|j]].
exists 2%N, (Tensor [:: 2; 2]%N [:: 1; 1; 1; 1]); split=> // [w]; rewrite /at_pos //= => -[<-].
exists [:: 2%N], (Tensor [:: 2; 2]%N [:: 2%:R; 1; 1; 2%:R]); split=> //; split=> //.
by move=> [|[|i]] [|[|j]].
Qed.
Lemma sg_sym name t : dget name sg_in = Some t \/ dget name sg_gr = Some t -> square_sym t.
Proof.
case=> h; have /= := dget_in h; case=> [[_ <-]|[[_ <-]|//]]; eexists; try reflexivity; by move=> [|[|i]] [|[|j]].
Qed.
Lemma sg_gram name t n : dget name sg_in = Some t \/ dget name sg_gr = Some t -> tshape t = [:: n; n] -> gram n (entry n (tdata t)).
Proof.
pose v (a b : F) (i : nat) : F := nth 0 [:: a; b] i.
case=> h; have /= := dget_in h; case=> [[_ <-]|[[_ <-]|//]] [<- _].
- exists [:: (1, v 1 1)]; first by move=> u [<-|//]; exact: ler01.
  by move=> [|[|i]] [|[|j]] // _ _; rewrite big_seq1 /entry /= /v /=; ring.
- exists [:: (1, v 1 1); (1, v 1 0); (1, v 0 1)]; first by move=> u [<-|[<-|[<-|//]]]; exact: ler01.
  by move=> [|[|i]] [|[|j]] // _ _; rewrite !big_cons big_nil /entry /= /v /=; ring.
- exists [:: (3%:R, fun=> 1)]; first by move=> u [<-|//]; exact: ler0n.
  by move=> [|i] [|j] // _ _; rewrite big_seq1 /entry /=; ring.
exists [:: (1, v 1 1)]; first by move=> u [<-|//]; exact: ler01.
by move=> [|[|i]] [|[|j]] // _ _; rewrite big_seq1 /entry /= /v /=; ring.
Qed.
Example C49_ex dbl (d : F) : 0 < d ->
  exists M, acts_as (LinOp ex_S ex_S (inverse_product chol chol_nf chinv (@eigh2 F)
      (ISet (DOne d) false 0 true true true) dbl false sg_in sg_gr ex_mp ([::], [::]))) ex_S M /\
    inverse_of (total ex_S) (fun i j => kfac_matrix false ex_S (net_layers ex_ids sg_in sg_gr ex_mods) i j + (if i == j then d else 0)) M.
Proof.
move=> hd; have [||mp [M [h1 h2 h3]]] := @C49_psd F chol chol_nf chinv (@eigh2 F) (ISet (DOne d) false 0 true true true)
  dbl false ex_S ex_ids ex_mods sg_in sg_gr sg_net (ltac:(by [])) sg_sym d ([::], [::]) (@eigh2_ok F) isT erefl hd (fits_nil _ _ _ _ _ _ _ _).
- exact: sg_gram.
- by move=> name t [] h; have /= := dget_in h; case=> [[_ <-]|[[_ <-]|//]]; rewrite /eigh2 /= ?eqxx; eexists; reflexivity.
by exists M; have em : mp = ex_mp by [case: h1]; rewrite em in h2.
Qed.

(* ---- failing decompositions ---- *)
(* the decomposition fails in single precision and succeeds in double precision *)
Example C53_ex t L d : let ch b := fun=> if b then Ok L else Err RuntimeError in
  tshape t = [:: 1; 1]%N ->
  cholesky_with_retry ch chol_nf true false t (Fin d) = ([:: Attempt false; Warned; Attempt true], Ok L) /\
  cholesky_with_retry ch chol_nf false false t (Fin d) = ([:: Attempt false], Err RuntimeError).
Proof. by move=> ch ht; rewrite !C53_attempts /damped_cholesky /add_diag ht /=. Qed.
Example C53_ex_cache c X : let ch b := fun t : tensor F => if tdata t == [:: 3%:R + 1] then Err RuntimeError else Ok t in
  let r := inverse_matmat ch chol_nf (fun t => Ok t) (@eigh2 F) (ISet (DOne 1) false 0 false true true) false false sg_in sg_gr ex_mp c X in
  dget 0%N c.1 = None -> dget 0%N r.1.1.1 = None /\ exists e, r.2.2 = Err e.
Proof.
move=> ch r hc; have [|h1 _ h3] := @C53_nothing_cached F ch chol_nf (fun t => Ok t) (@eigh2 F) (ISet (DOne 1) false 0 false true true) false false
  sg_in sg_gr ex_mp c X 0%N RuntimeError hc; last by split=> //; exact: h3.
rewrite /compute_inverse_factors /= /cholesky_with_retry /damped_cholesky /add_diag /= /ch /=.
have e4 (x y z u : F) : ([:: x; y; z; u] == [:: 3%:R + 1]) = false by rewrite eqseq_cons andbF.
by rewrite /mkseq e4 /= eqxx /=.
Qed.

(* ---- constructor ---- *)
Example C52_ex_checks : inverse_checks true (ISet (DTuple [:: 1; 2%:R : F]) false 0 false true true) = Ok tt /\
  inverse_checks true (ISet (DTuple [:: 1; 2%:R : F]) true 0 false true true) = Err ValueError /\
  inverse_checks true (ISet (DOne (1 : F)) true 0 true true true) = Err ValueError.
Proof. by []. Qed.

(* ---- heuristic damping ---- *)
Example C50_ex_values min : compute_damping (ISet (DOne 4%:R) true min false true true)
    (Some (Tensor [:: 2; 2]%N [:: 3%:R; 1; 1; 5%:R])) (Some (Tensor [:: 1; 1]%N [:: 1 : F])) =
  Ok (Fin (Num.max 4%:R min), Fin (Num.max 1 min)).
Proof.
set A := Tensor _ _; set G := Tensor [:: 1; 1]%N _.
have mA : mean_eig 2 A = 4%:R.
  rewrite /mean_eig !big_ord_recl big_ord0 /entry /= addr0.
  have -> : 3%:R + 5%:R = 4%:R * 2%:R :> F by ring.
  by rewrite mulfK ?pnatr_eq0.
have mG : mean_eig 1 G = 1 by rewrite /mean_eig big_ord1 /entry /= divr1.
have [|||p [r [da [dg [-> [p1 p2 p3 p4] -> -> _]]]]] := @C50_values F (ISet (DOne 4%:R) true min false true true) 4%:R A G 2%N 1%N isT erefl erefl erefl.
- by rewrite mA ltr0n.
- by rewrite mG ltr01.
- exact: ler0n.
have sq (x : F) : 0 <= x -> x ^+ 2 = 4%:R -> x = 2%:R.
  move=> x0 hx; apply/eqP; rewrite -(eqr_expn2 (n := 2)) ?ler0n // hx -natrX; by [].
have -> : p = 2%:R by apply: sq; [exact: ltW|rewrite p2 mA mG divr1].
have -> : r = 2%:R by exact: sq.
by rewrite divff ?pnatr_eq0 // -natrM.
Qed.
Example C50_ex_zero_inputs min : compute_damping (ISet (DOne 4%:R) true min false true true)
    (Some (Tensor [:: 2; 2]%N [:: 0; 0; 0; 0])) (Some (Tensor [:: 1; 1]%N [:: 1 : F])) = Ok (Fin (Num.max 0 min), PInf F).
Proof.
rewrite (@C50_zero_inputs_refuted F (ISet (DOne 4%:R) true min false true true) 4%:R _ _ 2%N 1%N) // ?pnatr_eq0 //.
- by rewrite /mean_eig !big_ord_recl big_ord0 /entry /= !addr0 mul0r.
- by rewrite /mean_eig big_ord1 /entry /= divr1 ltr01.
exact: ler0n.
Qed.
End Singular.
