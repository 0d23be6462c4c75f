(* The inverse of KFAC with parameters that belong to several layers (C31): the
   inverses of all layers are applied one after the other. *)
From Coq Require Import Reals.
From Coquelicot Require Import Coquelicot.
From mathcomp Require Import all_ssreflect all_algebra.
From Verif Require Import PyPrelude Tensor Spec TorchBase OpSpec KfacSpec Kfac KfacProof KfacMap KfacBlocks KfacScalar KfacScalarProof Props_Kfac KfacInverse KfacInvProof Props_KfacInverse Props_KfacInvEx Props_KfacShared RInst ROrd.
Set Implicit Arguments.
Unset Strict Implicit.
Unset Printing Implicit Defensive.
Import GRing.Theory Order.TTheory Num.Theory.
Local Open Scope ring_scope.

Section Sequence.
Variable F : comRingType.
(* product of two N x N matrices; product of a list of matrices, first one leftmost *)
Definition mat_mul N (A B : nat -> nat -> F) (i j : nat) : F := \sum_(k < N) A i k * B k j.
Definition mat_id (i j : nat) : F := (i == j)%:R.
Definition mat_prod N (ms : seq (nat -> nat -> F)) : nat -> nat -> F := foldr (mat_mul N) mat_id ms.

(* the block of one layer, and the identity for the parameters it does not have *)
Definition layer_or_id sep S (l : layer F) (i j : nat) : F :=
  if l_mem l (param_of S i) then layer_entry sep S l (param_of S i) (within S i) (param_of S j) (within S j)
  else mat_id i j.

Lemma is_product_id N K (x : seq F) : is_product mat_id N N K x x.
Proof.
move=> i k hi hk; rewrite (bigD1 (Ordinal hi)) //= /mat_id eqxx mul1r big1 ?addr0 // => j /eqP ne.
by case: eqP => [e|_]; [case: ne; apply: val_inj|rewrite mul0r].
Qed.

Lemma is_product_mul N K (A B : nat -> nat -> F) (x y z : seq F) :
  is_product A N N K y z -> is_product B N N K x y -> is_product (mat_mul N A B) N N K x z.
Proof.
move=> hA hB i k hi hk; rewrite hA //.
transitivity (\sum_(j < N) \sum_(l < N) A i j * (B j l * entry K x l k)).
  by apply: eq_bigr => j _; rewrite hB // mulr_sumr.
rewrite exchange_big; apply: eq_bigr => l _; rewrite mulr_suml; apply: eq_bigr => j _; by rewrite mulrA.
Qed.
End Sequence.

Section Inverse.
Variable F : rcfType.
Local Notation tens := (tensor F).
Local Notation t0 := (Tensor [::] [::] : tens).
Local Notation cov := (dict nat_eqType tens).
Variables (chol : bool -> tens -> res tens) (chol_nf : bool -> tens -> ext F -> res tens).
Variables (chol_inv : tens -> res tens) (eigh : tens -> res (tens * tens)).
Variables (s : iset F) (dbl sep : bool) (S : seq (seq nat)) (inC grC : cov).
Local Notation mm := (inverse_matmat chol chol_nf chol_inv eigh s dbl sep inC grC).
Local Notation factors name := (compute_inverse_factors chol chol_nf chol_inv eigh s dbl (dget name inC) (dget name grC)).
Local Notation fits_cache := (fits_cache chol chol_nf chol_inv eigh s dbl inC grC).
Local Notation N := (total S).

Lemma layer_solved K (l : layer F) (X Y : seq tens) : valid_mat S K X -> valid_mat S K Y ->
  (forall p, p \notin l_pos l -> nth t0 Y p = nth t0 X p) ->
  (forall p, p \in l_pos l -> solved sep S K l 0 (tdata (nth t0 X p)) Y p) ->
  is_product (layer_or_id sep S l) N N K (flat Y) (flat X).
Proof.
move=> hX hY h1 h2; apply: product_coord => // p r k hp hr hk.
have E q t : (q < size S)%N -> (t < numel (pshape S q))%N -> layer_or_id sep S l (off S p + r) (off S q + t) =
    if p \in l_pos l then layer_entry sep S l p r q t else mat_id F (off S p + r) (off S q + t).
  by move=> hq ht; rewrite /layer_or_id; have [-> ->] := locate_off hp hr; have [-> ->] := locate_off hq ht; rewrite l_memE.
case hin : (p \in l_pos l).
  rewrite (h2 p hin r k hr hk) mul0r addr0; apply: eq_bigr => q _; apply: eq_bigr => t _.
  by rewrite E // hin.
rewrite -h1 ?hin // -(flat_coord hY) //.
rewrite (@is_product_id _ N K (flat Y) (off S p + r)%N k (off_bound hp hr) hk).
rewrite (sum_coord S (fun j => mat_id F (off S p + r)%N j * entry K (flat Y) j k)).
apply: eq_bigr => q _; apply: eq_bigr => t _.
by rewrite E // hin (flat_coord hY).
Qed.

Lemma shared_inverse_loop K mp (ls : seq (layer F)) c X : valid_mat S K X -> fits_cache c ->
  (forall l, List.In l ls -> all (fun p => p < size S)%N (l_pos l) /\ uniq (l_pos l)) ->
  inverts_all chol chol_nf chol_inv eigh s dbl sep inC grC 0 S mp ls ->
  exists Y, [/\ (mm mp c X).2 = (Y, Ok tt), valid_mat S K Y &
    is_product (mat_prod N (map (layer_or_id sep S) ls)) N N K (flat Y) (flat X)].
Proof.
move=> + + + hd; elim: hd X c => {mp ls} [|e l mp ls hd hds IH] X c hX hc hall.
  by exists X; split=> //; exact: is_product_id.
have [ha hu] := hall l (or_introl erefl).
case: hd => ai [gi [hf hinv]] /=; rewrite /inverse_layer; have [h1 h2] := get_fits e.1 hc.
move: h1 h2; case: (get_inverse _ _ _ _ _ _ _ _ c e.1) => [[c1 ev1] r1] /= -> h2; rewrite hf.
have [X1 [-> v1 n1 s1]] := multiply_layer_ok hX ha hu hinv.
have [X2 [e2' v2 p2]] := IH X1 c1 v1 h2 (fun l' h => hall l' (or_intror h)).
exists X2; split=> //.
  by move: e2'; case: (mm mp c1 X1) => [[c3 ev3] r3] /= ->.
apply: is_product_mul p2; exact: layer_solved.
Qed.

Variables (ids : seq nat) (mods : seq module).
Local Notation op mp c := (LinOp S S (inverse_product chol chol_nf chol_inv eigh s dbl sep inC grC mp c)).
Local Notation used := [seq m <- mods | relevant ids m].
Local Notation decomposes := (decomposes chol chol_nf s dbl).

(* With D_m the damped block of layer m (identity for the other parameters) and the
   layers m1, ..., mk in the order of the modules, the operator inverts
   D_m1 D_m2 ... D_mk: a parameter of several layers is divided by all of them. *)
Theorem C31_inverse_sequence_partial (dmp : nat -> F * F) c : shared_net sep S ids mods inC grC -> S <> [::] ->
  (forall name t, dget name inC = Some t \/ dget name grC = Some t -> square_sym t) ->
  chol_sound chol -> chol_inv_sound chol_inv -> ~~ i_exact s -> fits_cache c ->
  (forall m, List.In m used -> [/\
     compute_damping s (dget (m_name m) inC) (dget (m_name m) grC) = Ok (Fin (dmp (m_name m)).1, Fin (dmp (m_name m)).2),
     (forall t, dget (m_name m) inC = Some t -> decomposes t (dmp (m_name m)).1) &
     (forall t, dget (m_name m) grC = Some t -> decomposes t (dmp (m_name m)).2)]) ->
  exists mp M, [/\ compute_parameter_mapping ids mods = Ok mp, acts_as (op mp c) S M &
    inverse_of N (mat_prod N [seq layer_or_id sep S (damp (dmp (m_name m)).1 (dmp (m_name m)).2 (net_layer ids inC grC m)) | m <- used]) M].
Proof.
move=> hnet hS hsym hc hi hex hfit hd.
have [mp h1 _] := shared_mapping hnet.
have emp : mp = [seq (m_name m, positions ids m) | m <- used].
  case: (hnet) => -[w1 w2] _ _ _ _; move: h1; have [done [_ _ ->]] := mapping_closed ids w1 w2.
  by case: ifP => // _ [<-].
have hall : inverts_all chol chol_nf chol_inv eigh s dbl sep inC grC 0 S mp
   [seq damp (dmp (m_name m)).1 (dmp (m_name m)).2 (net_layer ids inC grC m) | m <- used].
  rewrite emp; apply/forall2_map => m hm /=; have [d1 d2 d3] := hd m hm.
  by case: hnet => w1 _ _ _ w2; exact: (damped_inverts eigh hsym w1 w2 hc hi hex hm d1 d2 d3).
have [M [m1 m2]] : exists M, multiplies 0 (inverse_product chol chol_nf chol_inv eigh s dbl sep inC grC mp c) S S M /\
    inverse_of N (mat_prod N (map (layer_or_id sep S) [seq damp (dmp (m_name m)).1 (dmp (m_name m)).2 (net_layer ids inC grC m) | m <- used])) M.
  apply: solve_acts => K X hX.
  have [|Y [y1 y2 y3]] := shared_inverse_loop hX hfit _ hall.
    move=> l /in_map[m hm ->].
    have [g1 g2] := @layer_good F sep S ids mods inC grC hnet (net_layer ids inC grC m) (ltac:(by apply/in_map; exists m)).
    by [].
  by exists Y; split=> //; rewrite /inverse_product y1.
exists mp, M; split=> //; first exact: acts_as_multiplies.
by move: m2; rewrite -map_comp.
Qed.
End Inverse.
Print Assumptions C31_inverse_sequence_partial.

(* Two bias-free linear layers R -> R with a common weight, damping d: KFAC's damped
   matrix uses the second layer only, the inverse operator inverts both. *)
Section Tied.
Variable F : rcfType.
Local Notation tens := (tensor F).
Variables (chol : bool -> tens -> res tens) (chol_nf : bool -> tens -> ext F -> res tens).
Variables (chol_inv : tens -> res tens) (eigh : tens -> res (tens * tens)).
Variables (a1 g1 a2 g2 d : F) (dbl sep cache retry : bool).
Hypotheses (ha1 : 0 < a1) (hg1 : 0 < g1) (ha2 : 0 < a2) (hg2 : 0 < g2) (hd : 0 <= d).
Let inC : dict nat_eqType tens := [:: (0%N, s1 a1); (1%N, s1 a2)].
Let grC : dict nat_eqType tens := [:: (0%N, s1 g1); (1%N, s1 g2)].
Let S : seq (seq nat) := [:: [:: 1; 1]%N].
Let s := ISet (DOne d) false 0 false cache retry.

Lemma tied_net : shared_net sep S [:: 7%N] tied_mods inC grC.
Proof.
split=> //.
- by split=> // m /= [<-|[<-|//]].
- split=> // -[|p] //= _; exists (Module 0 true [:: (Weight, 7)]%N) => //=; by left.
- by move=> m /= [<-|[<-|//]].
by move=> m /= [<-|[<-|//]] _; split=> //; [exists 1%N, (s1 g1)|exists 1%N, (s1 g2)]; split=> //= w [<-];
  exists [:: 1%N]; [exists (s1 a1)|exists (s1 a2)]; rewrite /= andbF; split=> //; split=> // -[|i] [|j].
Qed.

Theorem C31_inverse_refuted : chol_sound chol -> chol_complete chol dbl -> chol_inv_sound chol_inv ->
  exists mp M Mi, [/\ compute_parameter_mapping [:: 7%N] tied_mods = Ok mp,
    acts_as (LinOp S S (kfac_matmat sep inC grC mp)) S M /\ M 0%N 0%N = g2 * a2,
    acts_as (LinOp S S (inverse_product chol chol_nf chol_inv eigh s dbl sep inC grC mp ([::], [::]))) S Mi &
    Mi 0%N 0%N = ((g1 + d) * (a1 + d) * ((g2 + d) * (a2 + d)))^-1].
Proof.
move=> hc hcc hi; have hS : S <> [::] by [].
have [mp [M [h1 h2 h3]]] := C31_last_layer_partial tied_net hS.
have pos name t : dget name inC = Some t \/ dget name grC = Some t -> exists2 x, t = s1 x & 0 < x.
  case=> h; have /= := dget_in h; case=> [[_ <-]|[[_ <-]|//]]; by eexists.
have hsym name t : dget name inC = Some t \/ dget name grC = Some t -> square_sym t.
  by move=> /pos[x -> _]; exists 1%N => // -[|i] [|j].
have dec t : (exists name, dget name inC = Some t \/ dget name grC = Some t) -> decomposes chol chol_nf s dbl t d.
  move=> [name /pos[x -> hx]]; apply: (@psd_decomposes F chol chol_nf s dbl (s1 x) 1) => //; first by move=> [|i] [|j].
    move=> v; rewrite /quad mxE big_ord1 mxE big_ord1 !mxE /entry /=.
    by rewrite mulrAC -expr2 mulr_ge0 ?sqr_ge0 // ltW.
  have -> : tmx 1 1 (s1 x) + d%:M = (x + d)%:M.
    by apply/matrixP => i j; rewrite !mxE !ord1 eqxx /entry /= !mulr1n.
  by rewrite unitmxE det_scalar1 unitfE gt_eqF // ltr_paddr.
have [|mp' [Mi [i1 i2 i3]]] := @C31_inverse_sequence_partial F chol chol_nf chol_inv eigh s dbl sep S inC grC [:: 7%N] tied_mods (fun=> (d, d)) _ tied_net hS hsym hc hi (isT : ~~ i_exact s) (fits_nil chol chol_nf chol_inv eigh s dbl inC grC).
  move=> m hm; split=> // t ht; apply: dec; exists (m_name m); [by left|by right].
exists mp, M, Mi; have emp : mp' = mp by move: i1; rewrite h1 => -[].
split=> //.
- split=> //; rewrite (h3 0%N 0%N [:: nth (Module 0 true [::]) tied_mods 0] (nth (Module 0 true [::]) tied_mods 1) [::]) //=.
  by rewrite /layer_entry /= orbT.
- by rewrite -emp.
have [+ _] := i3 0%N 0%N isT isT; rewrite /mat_prod /= big_ord1 /mat_mul !big_ord1 /layer_or_id /layer_entry /= !orbT /stored /=.
rewrite /entry /= mulr1 => e.
have n0 x : 0 < x -> x + d != 0 by move=> hx; rewrite gt_eqF // ltr_paddr.
by apply: (mulfI (_ : (g1 + d) * (a1 + d) * ((g2 + d) * (a2 + d)) != 0)); rewrite ?mulf_neq0 ?n0 // e mulfV // ?mulf_neq0 ?n0.
Qed.
End Tied.
Print Assumptions C31_inverse_refuted.

(* with KFAC's matrix equal to 12 and no damping, the inverse operator multiplies with 1/24 *)
Example C31_ex_inverse dbl chol_nf eigh : exists mp M Mi,
  [/\ compute_parameter_mapping [:: 7%N] tied_mods = Ok mp,
    acts_as (LinOp [:: [:: 1; 1]%N] [:: [:: 1; 1]%N] (kfac_matmat true [:: (0%N, s1 (1%:R : [rcfType of R])); (1%N, s1 3%:R)] [:: (0%N, s1 (2%:R : [rcfType of R])); (1%N, s1 4%:R)] mp)) [:: [:: 1; 1]%N] M,
    acts_as (LinOp [:: [:: 1; 1]%N] [:: [:: 1; 1]%N] (inverse_product chol_R chol_nf (@chol_inv [rcfType of R]) eigh (ISet (DOne (0 : [rcfType of R])) false 0 false true true) dbl true
      [:: (0%N, s1 (1%:R : [rcfType of R])); (1%N, s1 3%:R)] [:: (0%N, s1 (2%:R : [rcfType of R])); (1%N, s1 4%:R)] mp ([::], [::]))) [:: [:: 1; 1]%N] Mi &
    M 0%N 0%N = 12%:R /\ Mi 0%N 0%N = 24%:R^-1].
Proof.
have [mp [M [Mi [h1 [h2 h3] h4 h5]]]] := @C31_inverse_refuted [rcfType of R] chol_R chol_nf (@chol_inv _) eigh 1%:R 2%:R 3%:R 4%:R 0 dbl true true true
  ltr01 (ltr0Sn _ _) (ltr0Sn _ _) (ltr0Sn _ _) (lexx _) chol_R_sound (chol_R_complete dbl) (@chol_inv_ok _).
exists mp, M, Mi; split=> //; split; first by rewrite h3 -natrM.
by rewrite h5 !addr0 -!natrM.
Qed.
