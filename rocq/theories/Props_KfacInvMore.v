(* The inverse KFAC operator: heuristic damping (C50), constructor checks (C52, first
   part), failing decompositions (C53), and what C48 and C50 do not cover. *)
From mathcomp Require Import all_ssreflect all_algebra ring.
From Verif Require Import PyPrelude Tensor Spec TorchBase OpSpec KfacSpec Kfac KfacProof KfacMap KfacBlocks KfacScalar KfacScalarProof Props_Kfac KfacInverse KfacInvProof Props_KfacInverse.
Set Implicit Arguments.
Unset Strict Implicit.
Unset Printing Implicit Defensive.
Import GRing.Theory Order.TTheory Num.Theory.
Local Open Scope ring_scope.

Section Inverse.
Variable F : rcfType.
Local Notation tens := (tensor F).
Local Notation cov := (dict nat_eqType tens).

(* ---------- C50: the damping values ---------- *)
(* the mean of the eigenvalues of a square matrix: its trace over its dimension *)
Definition mean_eig n (t : tens) : F := (\sum_(i < n) entry n (tdata t) i i) / n%:R.

Lemma eig_meanE t n : tshape t = [:: n; n] -> (0 < n)%N -> eig_mean t = Ok (Some (mean_eig n t)).
Proof. by move=> ht hn; rewrite /eig_mean (mtraceE ht) /mrows ht /= (gtn_eqF hn). Qed.

Lemma damping_formula s d A G n m : i_heur s -> i_damping s = DOne d ->
  tshape A = [:: n; n] -> tshape G = [:: m; m] -> (0 < n)%N -> (0 < m)%N -> 0 <= mean_eig n A -> 0 < mean_eig m G -> 0 <= d ->
  compute_damping s (Some A) (Some G) =
  Ok (ext_max (Fin (Num.sqrt d * Num.sqrt (mean_eig n A / mean_eig m G))) (i_min s),
      ext_max (ext_div (Num.sqrt d) (Num.sqrt (mean_eig n A / mean_eig m G))) (i_min s)).
Proof.
move=> hh hd hA hG hn hm ha hg hd0.
by rewrite /compute_damping hh (eig_meanE hA hn) (eig_meanE hG hm) /= ha hg hd ltNge hd0.
Qed.

(* positive traces: pi = sqrt(mean of A / mean of G) *)
Theorem C50_values s d A G n m : i_heur s -> i_damping s = DOne d ->
  tshape A = [:: n; n] -> tshape G = [:: m; m] -> 0 < mean_eig n A -> 0 < mean_eig m G -> 0 <= d ->
  exists p r da dg, [/\ compute_damping s (Some A) (Some G) = Ok (Fin da, Fin dg),
    [/\ 0 < p, p ^+ 2 = mean_eig n A / mean_eig m G, 0 <= r & r ^+ 2 = d],
    da = Num.max (r * p) (i_min s), dg = Num.max (r / p) (i_min s) &
    [/\ i_min s <= da, i_min s <= dg, (0 < d -> 0 < da /\ 0 < dg) &
        (i_min s <= r * p -> i_min s <= r / p -> da * dg = d)]].
Proof.
move=> hh hd hA hG ha hg hd0.
have pos k t : 0 < mean_eig k t -> (0 < k)%N.
  by case: k => // h; move: h; rewrite /mean_eig invr0 mulr0 ltxx.
set p := Num.sqrt (mean_eig n A / mean_eig m G); set r := Num.sqrt d.
have hr : 0 < mean_eig n A / mean_eig m G by rewrite divr_gt0.
have p0 : 0 < p by rewrite sqrtr_gt0.
have emax x : ext_max (Fin x) (i_min s) = Fin (Num.max x (i_min s)).
  by rewrite /ext_max; case: ltP.
exists p, r, (Num.max (r * p) (i_min s)), (Num.max (r / p) (i_min s)); split=> //.
- rewrite (damping_formula hh hd hA hG (pos _ _ ha) (pos _ _ hg) (ltW ha) hg hd0) -/p -/r.
  by rewrite /ext_div (gt_eqF p0) !emax.
- by split=> //; rewrite ?sqrtr_ge0 // sqr_sqrtr // ltW.
split; rewrite ?le_maxr ?lexx ?orbT //.
  by move=> dp; have r0 : 0 < r by [rewrite sqrtr_gt0]; rewrite !lt_maxr mulr_gt0 // divr_gt0.
move=> h1 h2; rewrite !max_l //; have -> : r * p * (r / p) = r ^+ 2 by field; rewrite (gt_eqF p0).
by rewrite sqr_sqrtr.
Qed.

(* Without an input factor (a layer of which only the bias is trained), or if the
   gradient factor's trace is not positive, both dampings are [damping], whatever
   min_damping is. *)
Theorem C50_plain s d A G : i_damping s = DOne d ->
  ~~ i_heur s \/ A = None \/ G = None \/
  (exists t t' n m, [/\ A = Some t, tshape t = [:: n; n], G = Some t', tshape t' = [:: m; m] & (mean_eig n t < 0) \/ (mean_eig m t' <= 0)]) ->
  compute_damping s A G = Ok (Fin d, Fin d).
Proof.
move=> hd; have hp : plain_damping s = Ok (Fin d, Fin d) by rewrite /plain_damping hd.
case=> [/negbTE h|[->|[->|[t [t' [n [m [-> ht -> ht' h]]]]]]]].
- by rewrite /compute_damping h.
- by rewrite /compute_damping; case: (i_heur s).
- by rewrite /compute_damping; case: (i_heur s) => //; case: A.
rewrite /compute_damping; case: (i_heur s) => //.
rewrite /eig_mean (mtraceE ht) (mtraceE ht') /mrows ht ht' /=.
case: (n =P 0%N) => // hn; case: (m =P 0%N) => // hm.
rewrite -!/(mean_eig _ _); case: h => h; first by rewrite leNgt h.
by rewrite [0 < _]ltNge h andbF.
Qed.

(* Heuristic damping rejects a negative damping value, when it is used. *)
Theorem C50_negative s d A G n m : i_heur s -> i_damping s = DOne d ->
  tshape A = [:: n; n] -> tshape G = [:: m; m] -> (0 < n)%N -> 0 <= mean_eig n A -> 0 < mean_eig m G -> d < 0 ->
  compute_damping s (Some A) (Some G) = Err ValueError.
Proof.
move=> hh hd hA hG hn ha hg hd0.
have hm : (0 < m)%N by case: m hg {hG} => // h; move: h; rewrite /mean_eig invr0 mulr0 ltxx.
by rewrite /compute_damping hh (eig_meanE hA hn) (eig_meanE hG hm) /= ha hg hd hd0.
Qed.

(* An input factor with trace zero (all inputs zero): the gradient factor's damping is
   infinite, or not a number when damping is zero; the lower bound does not repair it. *)
Theorem C50_zero_inputs_refuted s d A G n m : i_heur s -> i_damping s = DOne d ->
  tshape A = [:: n; n] -> tshape G = [:: m; m] -> (0 < n)%N -> mean_eig n A = 0 -> 0 < mean_eig m G -> 0 <= d ->
  compute_damping s (Some A) (Some G) = Ok (Fin (Num.max 0 (i_min s)), if d == 0 then NaN F else PInf F).
Proof.
move=> hh hd hA hG hn ha hg hd0.
have hm : (0 < m)%N by case: m hg {hG} => // h; move: h; rewrite /mean_eig invr0 mulr0 ltxx.
have ha' : 0 <= mean_eig n A by rewrite ha.
rewrite (damping_formula hh hd hA hG hn hm ha' hg hd0) ha mul0r sqrtr0 mulr0 /ext_div eqxx sqrtr_eq0.
have -> : (d <= 0) = (d == 0) by rewrite [RHS]eq_le hd0 andbT.
congr Ok; congr pair; last by case: (d == 0).
by rewrite /ext_max; case: ltP.
Qed.

(* Trace zero of the gradient factor: the dampings can be below min_damping. *)
Theorem C50_below_minimum_refuted s A G n m : i_heur s -> i_damping s = DOne 0 -> 0 < i_min s ->
  tshape A = [:: n; n] -> tshape G = [:: m; m] -> mean_eig m G = 0 ->
  exists da dg, [/\ compute_damping s (Some A) (Some G) = Ok (Fin da, Fin dg), da < i_min s & dg < i_min s].
Proof.
move=> hh hd h0 hA hG hg; exists 0, 0; split=> //; apply: C50_plain => //; do 3 right.
by exists A, G, n, m; split=> //; right; rewrite hg.
Qed.

(* ---------- C52: constructor checks ---------- *)
Theorem C52_accepted_iff is_kfac (s : iset F) : inverse_checks is_kfac s = Ok tt <->
  [/\ is_kfac, ~~ (i_heur s && i_exact s) & (i_heur s || i_exact s) -> exists d, i_damping s = DOne d].
Proof.
rewrite /inverse_checks; case: is_kfac; last by split=> //; case.
case: (i_heur s); case: (i_exact s) => //=; try by split=> //; case.
all: case: (i_damping s) => [d|l] /=; split=> //; try by case.
all: try by case=> _ _ /(_ isT)[].
all: by move=> _; split=> // _; exists d.
Qed.
Theorem C52_rejected is_kfac (s : iset F) : inverse_checks is_kfac s <> Ok tt -> inverse_checks is_kfac s = Err ValueError.
Proof.
rewrite /inverse_checks; case: is_kfac; case: (i_heur s); case: (i_exact s) => //=.
all: by case: (i_damping s).
Qed.

(* ---------- C53 ---------- *)
Variables (chol : bool -> tens -> res tens) (chol_nf : bool -> tens -> ext F -> res tens).
Variables (chol_inv : tens -> res tens) (eigh : tens -> res (tens * tens)).
(* one decomposition of the factor [t] with damping [d] in a precision (true: double) *)
Local Notation attempt := (damped_cholesky chol chol_nf).
Local Notation run := (cholesky_with_retry chol chol_nf).

(* which decompositions are attempted, in which precision, and what the outcome is *)
Theorem C53_attempts retry dbl t d :
  run retry dbl t d =
    if attempt dbl t d is Err RuntimeError then
      if retry && ~~ dbl then ([:: Attempt dbl; Warned; Attempt true], attempt true t d)
      else ([:: Attempt dbl], Err RuntimeError)
    else ([:: Attempt dbl], attempt dbl t d).
Proof. by rewrite /cholesky_with_retry; case: (attempt dbl t d) => // -[]. Qed.

Section Factors.
Variables (s : iset F) (dbl sep : bool) (inC grC : cov).
Local Notation factors name := (compute_inverse_factors chol chol_nf chol_inv eigh s dbl (dget name inC) (dget name grC)).
Local Notation mm := (inverse_matmat chol chol_nf chol_inv eigh s dbl sep inC grC).
Local Notation get := (get_inverse chol chol_nf chol_inv eigh s dbl inC grC).

(* the error of a factor that cannot be decomposed is the layer's error *)
Theorem C53_error_of_factor name e : ~~ i_exact s -> (exists d, i_damping s = DOne d /\ ~~ i_heur s) ->
  (exists t d, [/\ i_damping s = DOne d, dget name inC = Some t & (run (i_retry s) dbl t (Fin d)).2 = Err e]) \/
  (exists t d, [/\ i_damping s = DOne d, dget name grC = Some t & (run (i_retry s) dbl t (Fin d)).2 = Err e] /\
     forall t', dget name inC = Some t' -> exists L P, (run (i_retry s) dbl t' (Fin d)).2 = Ok L /\ chol_inv L = Ok P) ->
  (factors name).2 = Err e.
Proof.
move=> hex [d0 [hd0 hh]]; rewrite /compute_inverse_factors (negbTE hex) /compute_damping (negbTE hh) /plain_damping hd0.
case=> [[t [d [hd ht hr]]]|[t [d [[hd ht hr] ho]]]]; case: hd => ed; subst d.
  by rewrite ht /=; move: hr; case: (run _ _ t _) => ev r /= ->.
rewrite ht; case hi : (dget name inC) => [t'|] /=; last by move: hr; case: (run _ _ t _) => ev r /= ->.
have [L [P [h1 h2]]] := ho _ hi; move: h1 hr; case: (run _ _ t' _) => ev r /= ->; rewrite /= h2 /=.
by case: (run _ _ t _) => ev' r' /= ->.
Qed.

Lemma get_cached c name name' : dget name c.1 = None -> (forall a g, (factors name).2 <> Ok (a, g)) ->
  dget name (get c name').1.1.1 = None /\ dget name (get c name').1.1.2 = dget name c.2.
Proof.
move=> hn hf; rewrite /get_inverse; case: (dget name' c.1) => [a|] //=.
case hf' : (factors name') => [ev [[a g]|e]] //=; case: (i_cache s) => //=.
rewrite !dget_dset; case: eqP => // en; subst name'; by case: (hf a g); rewrite hf'.
Qed.

(* After a product, whatever its outcome, nothing is cached for a layer whose factors
   cannot be inverted, and if the product had to use them, it raised. *)
Theorem C53_nothing_cached mp c X name e : dget name c.1 = None -> (factors name).2 = Err e ->
  let r := mm mp c X in
  [/\ dget name r.1.1.1 = None, dget name r.1.1.2 = dget name c.2 &
      name \in map fst mp -> exists e', r.2.2 = Err e'].
Proof.
move=> hn he; have hf a g : (factors name).2 <> Ok (a, g) by rewrite he.
elim: mp c X hn => [|[nm ps] mp IH] c X hn //=; rewrite /inverse_layer /=.
have [g1 g2] := get_cached nm hn hf.
case hg : (get c nm) => [[c1 ev] [[ai gi]|err]] /=; rewrite hg /= in g1 g2; last by split=> //; exists err.
case hm : (multiply_layer s sep ai gi ps X) => [X1 [u|err]] /=; last by split=> //; exists err.
case hr : (mm mp c1 X1) => [[c2 ev2] r2] /=; have := IH c1 X1 g1; rewrite hr /= g2 => -[-> -> h3]; split=> //.
rewrite in_cons => /orP[/eqP en|/h3 //]; subst nm; exfalso.
move: hg; rewrite /get_inverse hn; case hf' : (factors name) => [ev' [[a g]|e']] //=.
by case: (hf a g); rewrite hf'.
Qed.

(* The error that is raised is the first layer's that fails. *)
Theorem C53_first_error nm ps mp c X e : dget nm c.1 = None -> (factors nm).2 = Err e ->
  mm ((nm, ps) :: mp) c X = (c, (factors nm).1, (X, Err e)).
Proof. by move=> hn he; rewrite /= /inverse_layer /get_inverse /= hn; move: he; case: (factors nm) => ev r /= ->. Qed.
End Factors.

(* ---------- what C48 does not cover ---------- *)
Lemma mxs n (A : 'M[F]_n) (x : 'cV[F]_n) : ((A^T *m x)^T *m (A^T *m x)) 0 0 = (x^T *m (A *m A^T) *m x) 0 0.
Proof. by rewrite trmx_mul trmxK !mulmxA. Qed.

Lemma chol_posdef b (t L : tens) n : chol_sound chol -> tshape t = [:: n; n] -> sym_on n (entry n (tdata t)) -> chol b t = Ok L ->
  posdef n t.
Proof.
move=> hc ht hs hL x hx; have [[t1 t2 t3] e] := hc _ _ _ _ ht hs hL.
rewrite /quad; have -> : lmx n (entry n (tdata t)) = tmx n n L *m (tmx n n L)^T by [].
rewrite -mxs; set y := _ *m x.
have hu : (tmx n n L)^T \in unitmx.
  rewrite unitmx_tr unitmxE unitfE det_trig; last by apply/is_trig_mxP => i j hij; rewrite mxE t2.
  by apply/prodf_neq0 => i _; rewrite mxE gt_eqF // t3.
have y0 : y != 0 by apply/eqP => h; case/eqP: hx; rewrite -(mulKmx hu x) -/y h mulmx0.
rewrite mxE; rewrite lt_neqAle sumr_ge0 ?andbT; last by move=> i _; rewrite mxE -expr2 sqr_ge0.
apply/eqP => /esym/eqP; rewrite psumr_eq0 => [/allP h|i _]; last by rewrite mxE -expr2 sqr_ge0.
case/eqP: y0; apply/matrixP => i j; rewrite ord1 [RHS]mxE; apply/eqP.
by have := h i (mem_index_enum _); rewrite mxE -expr2 sqrf_eq0.
Qed.

Lemma posdef_unit n (A : 'M[F]_n) : (forall x : 'cV[F]_n, x != 0 -> 0 < (x^T *m A *m x) 0 0) -> A \in unitmx.
Proof.
move=> h; rewrite unitmxE unitfE; apply/negP => /det0P [v v0 hv].
have : v^T != 0 by rewrite -(inj_eq (@trmx_inj _ _ _)) trmxK trmx0.
by move/h; rewrite trmxK hv mul0mx mxE ltxx.
Qed.
Lemma psd_damped n (A : 'M[F]_n) d : (forall x : 'cV[F]_n, 0 <= (x^T *m A *m x) 0 0) -> 0 < d ->
  forall x : 'cV[F]_n, x != 0 -> 0 < (x^T *m (A + d%:M) *m x) 0 0.
Proof.
move=> hp hd x hx; rewrite mulmxDr mulmxDl mxE ltr_paddl ?hp //.
rewrite mul_mx_scalar -scalemxAl mxE mulr_gt0 //.
have nn : 0 <= (x^T *m x) 0 0 by rewrite mxE sumr_ge0 // => i _; rewrite mxE -expr2 sqr_ge0.
rewrite lt_neqAle nn andbT; apply/eqP => /esym/eqP; rewrite mxE psumr_eq0 => [/allP h|i _]; last by rewrite mxE -expr2 sqr_ge0.
case/eqP: hx; apply/matrixP => i j; rewrite ord1 [RHS]mxE; apply/eqP.
by have := h i (mem_index_enum _); rewrite mxE -expr2 sqrf_eq0.
Qed.

Section Net.
Variables (s : iset F) (dbl sep : bool) (S : seq (seq nat)) (ids : seq nat) (mods : seq module) (inC grC : cov).
Local Notation factors name := (compute_inverse_factors chol chol_nf chol_inv eigh s dbl (dget name inC) (dget name grC)).
Local Notation prod mp c := (inverse_product chol chol_nf chol_inv eigh s dbl sep inC grC mp c).
Local Notation op mp c := (LinOp S S (prod mp c)).
Local Notation fits_cache := (fits_cache chol chol_nf chol_inv eigh s dbl inC grC).
Local Notation used := [seq m <- mods | relevant ids m].
Hypothesis hnet : kfac_net sep S ids mods inC grC.
Hypothesis hS : S <> [::].
Hypothesis hsym : forall name t, dget name inC = Some t \/ dget name grC = Some t -> square_sym t.

Lemma indefinite_fails t n d : chol_sound chol -> tshape t = [:: n; n] -> sym_on n (entry n (tdata t)) ->
  ~ (forall x : 'cV[F]_n, x != 0 -> 0 < (x^T *m (tmx n n t + d%:M) *m x) 0 0) ->
  exists e, (invert_factor chol chol_nf chol_inv (i_retry s) dbl (Some t) (Fin d)).2 = Err e.
Proof.
move=> hc ht hs hn; have [t' [a1 a2 a3 a4]] := add_diag_ok d ht hs.
have no b L : chol b t' <> Ok L.
  move=> hL; apply: hn => x hx; have := chol_posdef hc a2 a3 hL hx; rewrite /quad.
  by have -> : lmx n (entry n (tdata t')) = tmx n n t + d%:M by rewrite -a4.
rewrite /invert_factor /cholesky_with_retry /damped_cholesky a1 /=.
case h1 : (chol dbl t') => [L|e] /=; first by case: (no _ _ h1).
case: e h1 => h1 /=; try by eexists; reflexivity.
case: (i_retry s && ~~ dbl) => /=; last by eexists; reflexivity.
by case h2 : (chol true t') => [L|e] /=; [case: (no _ _ h2)|exists e].
Qed.

(* A damped factor that is not positive definite makes every product raise, also if it
   is invertible. *)
Theorem C48_indefinite_raises a b c mp m t n d X : chol_sound chol -> ~~ i_exact s -> ~~ i_heur s -> fits_cache c ->
  damping_pair s a b -> compute_parameter_mapping ids mods = Ok mp -> List.In m used ->
  (dget (m_name m) inC = Some t /\ d = a) \/ (dget (m_name m) grC = Some t /\ d = b) -> tshape t = [:: n; n] ->
  ~ (forall x : 'cV[F]_n, x != 0 -> 0 < (x^T *m (tmx n n t + d%:M) *m x) 0 0) ->
  exists e, prod mp c X = Err e.
Proof.
move=> hc hex hh hfit hab hmp hm ht hn hpd.
have hs : sym_on n (entry n (tdata t)).
  have [|n' e h] := hsym (name := m_name m) (t := t); first by case: ht => -[]; [left|right].
  by move: e; rewrite hn => -[en _]; subst n'.
have [e0 he0] := indefinite_fails hc hn hs hpd.
have [e he] : exists e, (factors (m_name m)).2 = Err e.
  rewrite /compute_inverse_factors (negbTE hex) /compute_damping (negbTE hh).
  have -> : plain_damping s = Ok (Fin a, Fin b) by rewrite /plain_damping; case: hab => [[-> ->]|->].
  case: ht he0 => -[ht ->] he0; rewrite ht.
    by move: he0; case: (invert_factor _ _ _ _ _ (Some t) _) => ev r /= ->; exists e0.
  move: he0; set u := invert_factor _ _ _ _ _ (Some t) _.
  case: (invert_factor _ _ _ _ _ (dget _ inC) _) => ev [r|r]; last by exists r.
  by case: u => ev' r' /= ->; exists e0.
have hn0 : dget (m_name m) c.1 = None.
  by case h : (dget (m_name m) c.1) => [u|] //; have [g _] := hfit _ _ h; rewrite he.
have [mp' [m1 m2 _ _]] := net_entries hnet.
have emp : mp = mp' by move: m1; rewrite hmp => -[].
have hin : m_name m \in map fst mp.
  by rewrite emp m2 -map_comp; apply/In_mem; apply/in_map; exists m.
have [_ _ h3] := C53_nothing_cached sep mp X hn0 he.
by have [e' he'] := h3 hin; exists e'; rewrite /inverse_product he'.
Qed.

(* ---- C50: what is inverted ---- *)
(* Positive damping and positive semi-definite factors, where no layer with gradients
   has inputs that are all zero. *)
Theorem C50_inverse d c : chol_sound chol -> chol_complete chol dbl -> chol_inv_sound chol_inv -> ~~ i_exact s -> i_heur s -> fits_cache c ->
  i_damping s = DOne d -> 0 < d ->
  (forall name t n, dget name inC = Some t \/ dget name grC = Some t -> tshape t = [:: n; n] -> psd n t) ->
  (forall name t t' n m, dget name inC = Some t -> dget name grC = Some t' -> tshape t = [:: n; n] -> tshape t' = [:: m; m] ->
     0 < mean_eig m t' -> 0 < mean_eig n t) ->
  exists dmp mp M, [/\ compute_parameter_mapping ids mods = Ok mp, acts_as (op mp c) S M,
    inverse_of (total S) (kfac_matrix sep S (damped_layers ids mods inC grC dmp)) M,
    (forall name, dget name inC = None -> dmp name = (d, d)) &
    forall name t t' n m, dget name inC = Some t -> dget name grC = Some t' -> tshape t = [:: n; n] -> tshape t' = [:: m; m] ->
      if 0 < mean_eig m t' then
        exists p r, [/\ 0 < p, p ^+ 2 = mean_eig n t / mean_eig m t', 0 <= r, r ^+ 2 = d &
          dmp name = (Num.max (r * p) (i_min s), Num.max (r / p) (i_min s))]
      else dmp name = (d, d)].
Proof.
move=> hc hcc hi hex hh hfit hd hd0 hpsd hz.
pose dmp name := if compute_damping s (dget name inC) (dget name grC) is Ok (Fin a, Fin b) then (a, b) else (0, 0) : F * F.
have plain A G : compute_damping s A G = Ok (Fin d, Fin d) -> exists a b, [/\ compute_damping s A G = Ok (Fin a, Fin b), 0 < a & 0 < b].
  by move=> ->; exists d, d.
have val name : exists a b, [/\ compute_damping s (dget name inC) (dget name grC) = Ok (Fin a, Fin b), 0 < a & 0 < b].
  case hA : (dget name inC) => [t|]; last by apply: plain; apply: C50_plain hd _; right; left.
  case hG : (dget name grC) => [t'|]; last by apply: plain; apply: C50_plain hd _; do 2 right; left.
  have [n hn _] := hsym (or_introl hA); have [m hm _] := hsym (or_intror hG).
  case: (ltP 0 (mean_eig m t')) => h.
    have [p [r [da [dg [h1 _ _ _ [_ _ h3 _]]]]]] := C50_values hh hd hn hm (hz _ _ _ _ _ hA hG hn hm h) h (ltW hd0).
    by have [q1 q2] := h3 hd0; exists da, dg.
  by apply: plain; apply: C50_plain hd _; do 3 right; exists t, t', n, m; split=> //; right.
have dec name t a : dget name inC = Some t \/ dget name grC = Some t -> 0 < a -> decomposes chol chol_nf s dbl t a.
  move=> ht ha; have [n hn hs] := hsym ht.
  apply: (psd_decomposes _ _ hcc hn hs (hpsd _ _ _ ht hn) (ltW ha)).
  apply: posdef_unit; apply: psd_damped ha; exact: (hpsd _ _ _ ht hn).
have [|mp [M [h1 h2 h3]]] := @C48_inverts_damped_factors F chol chol_nf chol_inv eigh s dbl sep S ids mods inC grC hnet hS hsym dmp c hc hi hex hfit.
  move=> m hm; have [a [b [e1 e2 e3]]] := val (m_name m); split; rewrite /dmp e1 //= => t ht; apply: (dec (m_name m)) => //; by [left|right].
exists dmp, mp, M; split=> //.
  by move=> name hA; rewrite /dmp (C50_plain (s := s) (d := d)) // hA; right; left.
move=> name t t' n m hA hG hn hm; rewrite /dmp hA hG; case: (ltP 0 (mean_eig m t')) => h.
  have [p [r [da [dg [q1 [q2 q3 q4 q5] q8 q9 _]]]]] := C50_values hh hd hn hm (hz _ _ _ _ _ hA hG hn hm h) h (ltW hd0).
  by exists p, r; split=> //; rewrite q1 q8 q9.
rewrite (C50_plain (s := s) (d := d)) //; do 3 right; exists t, t', n, m; split=> //; by right.
Qed.

(* ---- C49: positive semi-definite factors and positive damping ---- *)
Theorem C49_psd d c : eigh_sound eigh -> i_exact s -> i_damping s = DOne d -> 0 < d -> fits_cache c ->
  (forall name t n, dget name inC = Some t \/ dget name grC = Some t -> tshape t = [:: n; n] -> gram n (entry n (tdata t))) ->
  (forall name t, dget name inC = Some t \/ dget name grC = Some t -> exists r, eigh t = Ok r) ->
  let D i j := kfac_matrix sep S (net_layers ids inC grC mods) i j + (if i == j then d else 0) in
  exists mp M, [/\ compute_parameter_mapping ids mods = Ok mp, acts_as (op mp c) S M & inverse_of (total S) D M].
Proof.
move=> he hex hd hd0 hfit hg hok D; apply: (C49_exact_damping hnet hS hsym he hex hd hfit hok).
set N := total S; pose K : 'M[F]_N := \matrix_(i, j) kfac_matrix sep S (net_layers ids inC grC mods) i j.
have hu : K + d%:M \in unitmx.
  apply: posdef_unit; apply: psd_damped hd0 => x.
  pose y i := if (i < N)%N =P true is ReflectT h then x (Ordinal h) 0 else 0.
  have yE (i : 'I_N) : y i = x i 0.
    rewrite /y; case: eqP => [h|h]; last by case: h; exact: ltn_ord.
    by congr (x _ 0); apply: val_inj.
  have := kfac_quad_ge0 y hnet hS hg; congr (0 <= _); rewrite -mulmxA mxE; apply: eq_bigr => i _.
  rewrite !mxE mulr_sumr -yE; apply: eq_bigr => j _; by rewrite !mxE -yE.
pose M i j := if (insub i, insub j) is (Some i', Some j') then invmx (K + d%:M) i' j' else 0 : F.
have ME (i j : 'I_N) : M i j = invmx (K + d%:M) i j by rewrite /M !valK.
have DE (i j : 'I_N) : D i j = (K + d%:M) i j by rewrite /D !mxE -val_eqE /= mulrb.
exists M => i j hi hj.
have eM (A B : 'M[F]_N) : A *m B = 1%:M -> \sum_(k < N) A (Ordinal hi) k * B k (Ordinal hj) = (i == j)%:R.
  by move=> h; have := congr1 (fun Z : 'M[F]_N => Z (Ordinal hi) (Ordinal hj)) h; rewrite !mxE -val_eqE.
split; [rewrite -(eM _ _ (mulmxV hu))|rewrite -(eM _ _ (mulVmx hu))]; apply: eq_bigr => k _.
  by rewrite -(DE (Ordinal hi)) -(ME k (Ordinal hj)).
by rewrite -(DE k (Ordinal hj)) -(ME (Ordinal hi)).
Qed.
End Net.
End Inverse.
Print Assumptions C50_values.
Print Assumptions C50_plain.
Print Assumptions C50_negative.
Print Assumptions C50_zero_inputs_refuted.
Print Assumptions C50_below_minimum_refuted.
Print Assumptions C50_inverse.
Print Assumptions C52_accepted_iff.
Print Assumptions C52_rejected.
Print Assumptions C53_attempts.
Print Assumptions C53_error_of_factor.
Print Assumptions C53_nothing_cached.
Print Assumptions C53_first_error.
Print Assumptions C48_indefinite_raises.
Print Assumptions C49_psd.
