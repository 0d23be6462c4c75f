(* C89: the workflows of the documentation. *)
From Coq Require Import Reals Lra.
From Coquelicot Require Import Coquelicot.
From mathcomp Require Import all_ssreflect all_algebra ring.
From Verif Require Import PyPrelude Tensor Spec TorchBase Numpy Submatrix Scipy RInst ROrd Calculus Curvature HessGGN Risk Losses
  Fisher FisherMC FisherExp CurvOps OpSpec Export HessSplit Inverse Cg
  Props_Curv Props_Fisher Props_Inverse Props_Split Props_Cg Props_EndToEnd Props_CgGgn Report Props_Report Workflow.
Set Implicit Arguments.
Unset Strict Implicit.
Unset Printing Implicit Defensive.
Import Order.Theory GRing.Theory Num.Theory.
Local Open Scope ring_scope.

Section Quadratic.
Variables (R : realFieldType) (n : nat).
Implicit Types (u v w b r : 'cV[R]_n) (M : 'M[R]_n).
Local Notation sq v := (\sum_(i < n) v i 0 ^+ 2).

Lemma sqE v : sq v = dot v v.
Proof. by apply: eq_bigr => i _; rewrite expr2. Qed.

(* strongly convex quadratic functions: a small residual gives a value near the minimum *)
Lemma near_minimum M delta b y w : M^T = M -> 0 < delta -> (forall u, delta * dot u u <= dot u (M *m u)) ->
  dot y (M *m y) - 2%:R * dot y b <= dot w (M *m w) - 2%:R * dot w b + dot (b - M *m y) (b - M *m y) / delta.
Proof.
move=> sym d0 hM.
have [r er] : exists r, b = M *m y + r by exists (b - M *m y); rewrite addrC subrK.
have [u eu] : exists u, w = y + u by exists (w - y); rewrite addrC subrK.
have -> : b - M *m y = r by rewrite er addrC addKr.
rewrite er eu mulmxDr !(dotDl, dotDr) (dot_sym u y sym).
have h1 := hM u; have h2 : 0 <= dot (delta *: u - r) (delta *: u - r) / delta by rewrite divr_ge0 ?dot_ge0 // ltW.
have e : dot (delta *: u - r) (delta *: u - r) / delta = delta * dot u u - 2%:R * dot u r + dot r r / delta.
  rewrite !(dotDl, dotDr, dotNl, dotNr, dotZl, dotZr) (dotC r u).
  by have ne : delta != 0; [rewrite gt_eqF|field].
rewrite e in h2; rewrite -subr_ge0.
rewrite (_ : _ - _ = (delta * dot u u - 2%:R * dot u r + dot r r / delta) + (dot u (M *m u) - delta * dot u u)); last by ring.
by rewrite addr_ge0 // subr_ge0.
Qed.
End Quadratic.

Section Generic.
Variables (R : realFieldType) (n : nat).
Local Notation arr := (tensor R).
Local Notation sq v := (\sum_(i < n) v i 0 ^+ 2).
Variables (objs : nat -> arr) (precs : nat -> scipy_op R)
  (zero_division : arr -> arr -> arr -> res (arr * nat)) (strict : bool).
Local Notation event := (solver_event R (cg_dict (option pyobj))).
Variables (delta : R) (h : seq event).
Hypotheses (delta0 : 0 < delta) (defaults : only_products h).

(* an operator that multiplies with a symmetric positive semi-definite matrix *)
Definition semidefinite (A : scipy_op R) (M : 'M[R]_n) : Prop :=
  [/\ sp_rows A = n /\ sp_cols A = n, vec_multiplies (sp_dot A) n n (mxfun M), M^T = M &
      forall v : 'cV[R]_n, 0 <= (v^T *m M *m v) 0 0].

Lemma matvec_dot A (M : nat -> nat -> R) : vec_multiplies (sp_dot A) n n M -> vec_multiplies (sp_matvec A) n n M.
Proof. by move=> hA x hx hw; have := hA x hx hw; rewrite {1}/sp_dot /ndim hx. Qed.

Lemma quadE (N : 'M[R]_n) (v : 'cV[R]_n) : (v^T *m N *m v) 0 0 = dot v (N *m v).
Proof. by rewrite -mulmxA mxE; apply: eq_bigr => i _; rewrite mxE. Qed.

Lemma damping_multiplies : vec_multiplies (sp_matvec (damping_op n delta)) n n (mxfun (delta%:M : 'M[R]_n)).
Proof.
have := @diag_op_multiplies R (nseq n delta).
set F := mxfun _; have FE i j : (i < n)%N -> (j < n)%N -> F i j = delta *+ (i == j).
  move=> hi hj; have si : (i < size (nseq n delta))%N by rewrite size_nseq.
  have sj : (j < size (nseq n delta))%N by rewrite size_nseq.
  by rewrite /F (mxfun_ord _ (Ordinal si) (Ordinal sj)) !mxE /= nth_nseq hi.
move: F FE => F FE; rewrite size_nseq => hm z hz wz.
have [y [h1 h2 h3 h4]] := hm z hz wz; exists y; split=> // i hi.
rewrite h4 //; apply: eq_bigr => j _; congr (_ * _).
by rewrite (mxfun_ord (delta%:M : 'M[R]_n) (Ordinal hi) j) mxE FE.
Qed.
Lemma damping_shape : sp_rows (damping_op n delta) = n /\ sp_cols (damping_op n delta) = n.
Proof. by rewrite /= size_nseq. Qed.

(* what CG needs, and what it gives for a damped operator *)
Lemma damped_solve A (M : 'M[R]_n) g : sp_rows A = n /\ sp_cols A = n -> vec_multiplies (sp_matvec A) n n (mxfun M) ->
  M^T = M -> (forall u : 'cV[R]_n, delta * dot u u <= dot u (M *m u)) -> tshape g = [:: n] -> wf g ->
  exists y, [/\ sp_dot (cg_inverse objs precs zero_division strict A h) g = Ok y, tshape y = [:: n], wf y &
    let b := \col_i nth 0 (tdata g) i in let v : 'cV[R]_n := \col_i nth 0 (tdata y) i in
    sq (b - M *m v) <= (1 / 10%:R ^+ 5) ^+ 2 * sq b /\ dot v (M *m v) <= 2%:R * dot v b].
Proof.
move=> sA mA sym hM hg hw.
have pd (v : 'cV[R]_n) : v != 0 -> 0 < (v^T *m M *m v) 0 0.
  move=> v0; rewrite quadE (lt_le_trans _ (hM v)) // mulr_gt0 //.
  by rewrite lt_def dot_ge0 andbT dot_eq0.
have [y [y1 y2 y3 y4]] := @C85_cg_default R n M A sA mA sym pd objs precs zero_division strict h g defaults hg hw.
have [|||y' [z1 _ _ z4]] := @C85_cg_energy R n M A sA mA sym pd objs precs zero_division strict h (CgDict None None None None None None) g _ _ _ hg hw.
- by left.
- by [].
- by rewrite /tolerance [cg_tol _]/= divr_gt0 ?ltr01 // exprn_gt0 // ltr0n.
exists y; split=> //; split=> //; set b : 'cV[R]_n := \col_i nth 0 (tdata g) i; set v : 'cV[R]_n := \col_i nth 0 (tdata y) i.
move: z1; rewrite y1 => -[e]; subst y'.
have uM : M \in unitmx.
  rewrite -unitmx_tr -row_free_unit -kermx_eq0; apply/eqP/row_matrixP => i; rewrite row0; apply/eqP/negPn/negP => ne.
  have := pd (row i (kermx M^T))^T; rewrite trmxK -mulmxA => hp.
  have ne' : (row i (kermx M^T))^T != 0 by apply: contra ne => /eqP e; rewrite -[row _ _]trmxK e trmx0.
  have e0 : row i (kermx M^T) *m M = 0 by rewrite -{2}sym -row_mul mulmx_ker row0.
  by have := hp ne'; rewrite mulmxA e0 mul0mx mxE ltxx.
have := z4 (invmx M *m b); rewrite mulKVmx // => /(_ erefl); rewrite /= !quadE /start /= subr0 -/v.
rewrite mulmxBr mulKVmx // !(dotDl, dotDr, dotNl, dotNr).
have -> : dot (invmx M *m b) (M *m v) = dot v b by rewrite (dot_sym _ _ sym) mulKVmx.
rewrite -[X in _ <= X]addr0 -addrA ler_add2l => hle; rewrite -subr_ge0.
rewrite (_ : _ - _ = - (- dot v b + (- dot v b - - dot v (M *m v)))); first by rewrite oppr_ge0.
by ring.
Qed.

Lemma damped_form (M : 'M[R]_n) : (forall v : 'cV[R]_n, 0 <= (v^T *m M *m v) 0 0) ->
  forall u : 'cV[R]_n, delta * dot u u <= dot u ((M + delta%:M) *m u).
Proof.
by move=> hM u; rewrite mulmxDl dotDr mul_scalar_mx dotZr ler_addr; have := hM u; rewrite quadE.
Qed.

Lemma colE (x : arr) : vec_of n x = \col_i nth 0 (tdata x) i.
Proof. by []. Qed.

(* the natural gradient solves the damped system up to the default tolerance and is a
   direction along which the gradient is positive *)
Theorem C89_natural_gradient A G g : semidefinite A G -> tshape g = [:: n] -> wf g ->
  exists y, [/\ natural_gradient objs precs zero_division strict A delta h g = Ok y, tshape y = [:: n], wf y,
    let b := \col_i nth 0 (tdata g) i in let v : 'cV[R]_n := \col_i nth 0 (tdata y) i in
    sq (b - (G *m v + delta *: v)) <= (1 / 10%:R ^+ 5) ^+ 2 * sq b &
    (exists2 i, (i < n)%N & nth 0 (tdata g) i != 0) -> 0 < \sum_(i < n) nth 0 (tdata g) i * nth 0 (tdata y) i].
Proof.
move=> [sA mA symG psd] hg hw; have sA' := sA; case: sA' => r1 r2.
have [E eE [sE hE]] := sp_sum_multiplies sA damping_shape (matvec_dot mA) damping_multiplies.
have sym : (G + delta%:M)^T = G + delta%:M by rewrite linearD /= tr_scalar_mx symG.
have [y [y1 y2 y3 [y4 y5]]] := damped_solve sE hE sym (damped_form psd) hg hw.
exists y; rewrite /natural_gradient r1 eE /=; split=> //.
  by move: y4; rewrite mulmxDl mul_scalar_mx.
case=> i hi gi; set b : 'cV[R]_n := \col_i nth 0 (tdata g) i; set v : 'cV[R]_n := \col_i nth 0 (tdata y) i.
have -> : \sum_(i < n) nth 0 (tdata g) i * nth 0 (tdata y) i = dot v b.
  by apply: eq_bigr => k _; rewrite !mxE mulrC.
have b0 : 0 < dot b b.
  rewrite lt_def dot_ge0 andbT dot_eq0; apply: contra gi => /eqP /matrixP /(_ (Ordinal hi) 0).
  by rewrite !mxE => ->.
have v0 : v != 0.
  apply/eqP => v0; move: y4; rewrite -/b -/v v0 mulmx0 subr0 !sqE; apply/negP; rewrite -ltNge.
  rewrite -[X in _ < X]mul1r ltr_pmul2r // expr_lt1 // ?divr_ge0 ?ler01 ?exprn_ge0 ?ler0n //.
  by rewrite div1r invf_lt1 ?exprn_gt0 ?ltr0n // exprn_egt1 // ltr1n.
have : 0 < 2%:R * dot v b.
  apply: lt_le_trans y5; apply: lt_le_trans (damped_form psd v).
  by rewrite mulr_gt0 // lt_def dot_ge0 andbT dot_eq0.
by rewrite pmulr_rgt0 // ltr0n.
Qed.

(* example_inverses.py 123-126: the comparison of damped_GGN @ natural_gradient with the
   gradient succeeds for gradients whose norm is at most 1 *)
Definition fin (t : arr) : tensor (num R) := Tensor (tshape t) [seq Num x | x <- tdata t].
Theorem C89_sanity_check A G g ndiv nmax nmin : semidefinite A G -> tshape g = [:: n] -> wf g ->
  \sum_(i < n) nth 0 (tdata g) i ^+ 2 <= 1 ->
  exists E y a, [/\ sp_sum A (damping_op n delta) = Ok E,
    natural_gradient objs precs zero_division strict A delta h g = Ok y, sp_dot E y = Ok a &
    (report_nonclose ndiv nmax nmin (fin a) (fin g) (1 / 10%:R ^+ 4) (1 / 10%:R ^+ 5) false).2 = Ok tt].
Proof.
move=> hA hg hw g1; have [y [y1 y2 y3 y4 _]] := C89_natural_gradient hA hg hw.
case: hA => sA mA symG psd.
have [E eE [sE hE]] := sp_sum_multiplies sA damping_shape (matvec_dot mA) damping_multiplies.
have [a [a1 a2 a3 a4]] := hE y y2 y3.
exists E, y, a; split=> //; first by rewrite /sp_dot /ndim y2.
have wa : wf (fin a) by rewrite /wf /= size_map.
have wg : wf (fin g) by rewrite /wf /= size_map.
have p10 k : 0 < 1 / 10%:R ^+ k :> R by rewrite divr_gt0 ?ltr01 // exprn_gt0 // ltr0n.
apply/(C88_outcome ndiv nmax nmin false wa wg (ltW (p10 4%N)) (ltW (p10 5%N))).1.
split=> [|k]; rewrite /= ?a2 ?hg // numel1 => hk; left.
have sa : size (tdata a) = n by move/eqP: a3; rewrite a2 numel1.
have sg : size (tdata g) = n by move/eqP: hw; rewrite hg numel1.
exists (nth 0 (tdata a) k), (nth 0 (tdata g) k).
split; [by rewrite (nth_map 0) ?sa|by rewrite (nth_map 0) ?sg|].
rewrite ler_paddr //; first by rewrite mulr_ge0 // ltW.
rewrite -(@ler_pexpn2r _ 2) ?nnegrE // ?(ltW (p10 _)) // real_normK ?num_real //.
set b : 'cV[R]_n := \col_i nth 0 (tdata g) i; set v : 'cV[R]_n := \col_i nth 0 (tdata y) i.
have -> : (nth 0 (tdata a) k - nth 0 (tdata g) k) ^+ 2 = (b - (G *m v + delta *: v)) (Ordinal hk) 0 ^+ 2.
  rewrite -sqrrN opprB; have subE (x z : 'cV[R]_n) i : (x - z) i 0 = x i 0 - z i 0 by rewrite !mxE.
  rewrite subE [b _ _]mxE; congr ((_ - _) ^+ 2).
  have <- : ((G + delta%:M) *m v) (Ordinal hk) 0 = (G *m v + delta *: v) (Ordinal hk) 0 by rewrite mulmxDl mul_scalar_mx.
  by rewrite mxE a4 //; apply: eq_bigr => j _; rewrite (mxfun_ord _ (Ordinal hk) j) [v _ _]mxE.
have := y4; rewrite -/b -/v => /= h4; apply: (le_trans (y := sq (b - (G *m v + delta *: v)))).
  by rewrite (bigD1 (Ordinal hk)) //= ler_addl sumr_ge0 // => i _; rewrite sqr_ge0.
apply: (le_trans h4); rewrite -[X in _ <= X]mulr1 ler_wpmul2l ?sqr_ge0 //.
by move: g1; congr (_ <= _); apply: eq_bigr => i _; rewrite mxE.
Qed.

(* ---- averaging ---- *)
(* tasks: the exported Fisher/GGN, its matrix and the parameters *)
Local Notation task := (scipy_op R * 'M[R]_n * arr)%type.
Definition task_ok (t : task) : Prop := [/\ semidefinite t.1.1 t.1.2, tshape t.2 = [:: n] & wf t.2].

Lemma fold_sums (tasks : seq task) E0 (M0 : 'M[R]_n) : Forall_in task_ok tasks ->
  sp_rows E0 = n /\ sp_cols E0 = n -> vec_multiplies (sp_matvec E0) n n (mxfun M0) ->
  exists2 E, foldM (@sp_sum R) E0 [seq t.1.1 | t <- tasks] = Ok E & (sp_rows E = n /\ sp_cols E = n) /\
    vec_multiplies (sp_matvec E) n n (mxfun (M0 + \sum_(t <- tasks) t.1.2)).
Proof.
elim: tasks E0 M0 => [|t l IH] E0 M0 /=; first by move=> _ sE mE; exists E0; rewrite ?big_nil ?addr0.
case=> -[[sA mA _ _] _ _] hl sE mE; have [E -> [sE' mE']] := sp_sum_multiplies sE sA mE (matvec_dot mA).
by have [E' eE' hE'] := IH E _ hl sE' mE'; exists E'; rewrite // big_cons addrA.
Qed.

Lemma products (tasks : seq task) : Forall_in task_ok tasks ->
  exists2 ps, mapM (fun p : scipy_op R * arr => sp_dot p.1 p.2) (zip [seq t.1.1 | t <- tasks] [seq t.2 | t <- tasks]) = Ok ps &
    size ps = size tasks /\ forall k, (k < size tasks)%N -> let p := nth (Tensor [::] [::]) ps k in
      [/\ tshape p = [:: n], wf p & vec_of n p = nth 0 [seq t.1.2 *m vec_of n t.2 | t <- tasks] k].
Proof.
elim: tasks => [|t l IH] /=; first by exists [::].
case=> -[[sA mA _ _] s2 w2] /IH [ps eps [sz hps]]; have [p [p1 p2 p3 p4]] := mA _ s2 w2.
exists (p :: ps); first by rewrite /= p1 /= eps.
split; first by rewrite /= sz.
case=> [|k] hk /=; last exact: hps.
split=> //; apply/colP => i; rewrite !mxE p4 //; apply: eq_bigr => j _.
by rewrite mxfun_ord mxE.
Qed.

Lemma fold_add (ps : seq arr) p : tshape p = [:: n] -> wf p ->
  (forall k, (k < size ps)%N -> tshape (nth (Tensor [::] [::]) ps k) = [:: n] /\ wf (nth (Tensor [::] [::]) ps k)) ->
  exists s, [/\ foldM (ew +%R) p ps = Ok s, tshape s = [:: n], wf s &
    vec_of n s = vec_of n p + \sum_(q <- ps) vec_of n q].
Proof.
elim: ps p => [|q ps IH] p hp wp h'; first by exists p; rewrite big_nil addr0.
have [hq wq] := h' 0%N isT.
have [c hc] := @ew_ok R [:: n] +%R p q hp hq.
have [c1 c2 c3] := vec_of_ew (numel1 n) hp hq wp wq hc.
have [|s [s1 s2 s3 s4]] := IH c c1 c2; first by move=> k hk; apply: (h' k.+1).
exists s; split=> //; first by rewrite /= hc.
rewrite s4 big_cons addrA; congr (_ + _); apply/colP => i; rewrite !mxE c3 //.
Qed.

Lemma weighted_sumP (tasks : seq task) : Forall_in task_ok tasks -> tasks <> [::] ->
  exists s, [/\ weighted_sum [seq t.1.1 | t <- tasks] [seq t.2 | t <- tasks] = Ok (Some s), tshape s = [:: n], wf s &
    vec_of n s = \sum_(t <- tasks) t.1.2 *m vec_of n t.2].
Proof.
move=> ht h0; have [ps eps [sz hps]] := products ht; rewrite /weighted_sum eps /=.
case: ps sz hps {eps} => [|p ps] sz hps; first by case: tasks h0 sz {ht hps}.
have [p1 p2 p3] : let q := nth (Tensor [::] [::]) (p :: ps) 0 in [/\ tshape q = [:: n], wf q & vec_of n q = nth 0 [seq t.1.2 *m vec_of n t.2 | t <- tasks] 0].
  by apply: hps; rewrite -sz.
have [|s [s1 s2 s3 s4]] := @fold_add ps p p1 p2.
  by move=> k hk; have [] := hps k.+1; [rewrite -sz|].
exists s; split=> //; first by rewrite s1.
rewrite s4.
have -> : vec_of n p + \sum_(q <- ps) vec_of n q = \sum_(q <- p :: ps) vec_of n q by rewrite big_cons.
rewrite -(big_map (vec_of n) xpredT id) -(big_map (fun t : task => t.1.2 *m vec_of n t.2) xpredT id).
congr bigop; apply: (@eq_from_nth _ 0); first by rewrite !size_map sz.
move=> k; rewrite size_map sz => hk; rewrite (nth_map (Tensor [::] [::])) ?sz //.
by have [_ _ ->] := hps k hk.
Qed.

(* the objective: distances to the parameters in the norms of the matrices, plus damping *)
Definition merge_cost (tasks : seq task) (v : 'cV[R]_n) : R :=
  \sum_(t <- tasks) (let u := v - \col_i nth 0 (tdata t.2) i in (u^T *m t.1.2 *m u) 0 0) + delta * sq v.

Lemma merge_costE (tasks : seq task) v : Forall_in task_ok tasks ->
  merge_cost tasks v = dot v ((delta%:M + \sum_(t <- tasks) t.1.2) *m v)
    - 2%:R * dot v (\sum_(t <- tasks) t.1.2 *m vec_of n t.2) + \sum_(t <- tasks) dot (vec_of n t.2) (t.1.2 *m vec_of n t.2).
Proof.
rewrite /merge_cost mulmxDl dotDr mul_scalar_mx dotZr sqE => ht.
suff -> : \sum_(t <- tasks) (let u := v - \col_i nth 0 (tdata t.2) i in (u^T *m t.1.2 *m u) 0 0) =
  dot v ((\sum_(t <- tasks) t.1.2) *m v) - 2%:R * dot v (\sum_(t <- tasks) t.1.2 *m vec_of n t.2)
  + \sum_(t <- tasks) dot (vec_of n t.2) (t.1.2 *m vec_of n t.2) by ring.
have d0 : dot v 0 = 0 by rewrite dotC dot0l.
elim: tasks ht => [|t l IH] /=; first by rewrite !big_nil mul0mx d0 mulr0 subr0 addr0.
case=> -[[_ _ sym _] _ _] /IH {}IH; rewrite !big_cons IH mulmxDl !dotDr quadE -colE.
rewrite mulmxBr !(dotDl, dotDr, dotNl, dotNr) (dot_sym (vec_of n t.2) v sym).
move: (dot v (t.1.2 *m v)) (dot v (t.1.2 *m vec_of n t.2)) (dot (vec_of n t.2) (t.1.2 *m vec_of n t.2))
  (dot v ((\sum_(t0 <- l) t0.1.2) *m v)) (dot v (\sum_(t0 <- l) t0.1.2 *m vec_of n t0.2))
  (\sum_(t0 <- l) dot (vec_of n t0.2) (t0.1.2 *m vec_of n t0.2)) => a1 a2 a3 a4 a5 a6 {IH}; ring.
Qed.

(* Merged parameters minimise the cost up to the tolerance of CG. *)
Theorem C89_merge (tasks : seq task) : Forall_in task_ok tasks -> tasks <> [::] ->
  exists y, [/\ merge objs precs zero_division strict [seq t.1.1 | t <- tasks] [seq t.2 | t <- tasks] delta h = Ok y,
    tshape y = [:: n], wf y & forall w,
    merge_cost tasks (\col_i nth 0 (tdata y) i) <= merge_cost tasks w +
      (1 / 10%:R ^+ 5) ^+ 2 * sq (\sum_(t <- tasks) t.1.2 *m \col_i nth 0 (tdata t.2) i) / delta].
Proof.
move=> ht h0; have [b [b1 b2 b3 b4]] := weighted_sumP ht h0.
have [E eE [sE mE]] := fold_sums ht damping_shape damping_multiplies.
set N := \sum_(t <- tasks) t.1.2 in mE.
have sym : (delta%:M + N)^T = delta%:M + N.
  rewrite linearD /= tr_scalar_mx; congr (_ + _); rewrite /N; move: ht; elim: (tasks) => [|t l IH] /=.
    by rewrite !big_nil trmx0.
  by case=> -[[_ _ st _] _ _] /IH e; rewrite !big_cons linearD /= st e.
have psd (v : 'cV[R]_n) : 0 <= (v^T *m N *m v) 0 0.
  rewrite /N; move: ht; elim: (tasks) => [|t l IH] /=; first by rewrite !big_nil mulmx0 mul0mx mxE.
  by case=> -[[_ _ _ pt] _ _] /IH e; rewrite !big_cons mulmxDr mulmxDl mxE addr_ge0.
have form (u : 'cV[R]_n) : delta * dot u u <= dot u ((delta%:M + N) *m u).
  by rewrite [delta%:M + N]addrC; apply: damped_form.
have [y [y1 y2 y3 [y4 _]]] := damped_solve sE mE sym form b2 b3.
exists y; split=> //.
  rewrite /merge b1 /=; case: (tasks) h0 ht eE => // t l _ [[[[e _] _ _ _] _ _] _] eE.
  by move: eE; rewrite map_cons e => ->.
move=> w; rewrite !merge_costE // -b4.
have := near_minimum (vec_of n b) (vec_of n y) w sym delta0 form; rewrite -/N -!colE => hle.
rewrite [X in _ <= X]addrAC ler_add2r; apply: le_trans hle _; rewrite ler_add2l ler_pmul2r ?invr_gt0 //.
Qed.

(* Without tasks, and without parameters to average, there is no result. *)
Theorem C89_no_tasks (thetas : seq arr) :
  merge objs precs zero_division strict [::] thetas delta h = Err IndexError.
Proof. by case: thetas. Qed.
Theorem C89_no_parameters (tasks : seq task) : Forall_in task_ok tasks -> tasks <> [::] ->
  merge objs precs zero_division strict [seq t.1.1 | t <- tasks] [::] delta h = Err ValueError.
Proof.
move=> ht h0; have [E eE _] := fold_sums ht damping_shape damping_multiplies.
rewrite /merge /weighted_sum; have -> : zip [seq t.1.1 | t <- tasks] [::] = [::] :> seq (scipy_op R * arr) by case: (tasks).
case: (tasks) h0 ht eE => // t l _ [[[[e _] _ _ _] _ _] _] eE.
by move: eE; rewrite map_cons e => ->.
Qed.
End Generic.
Print Assumptions C89_no_tasks.
Print Assumptions C89_no_parameters.
Print Assumptions C89_natural_gradient.
Print Assumptions C89_sanity_check.
Print Assumptions C89_merge.

(* ---- exported GGNs of the supported losses meet the hypotheses ---- *)
Section Supported.
Variables (X Y : Type) (T C : nat) (kind : loss_kind) (net : X -> point -> seq R) (tgt : Y -> nat -> target).
Hypothesis net_size : forall x th, size (net x th) = (T * C)%N.
Hypothesis T_gt0 : (0 < T)%N.
Hypothesis C_gt0 : (0 < C)%N.
Variables (trunc : R -> R) (red : reduction) (num_data : option nat) (loader : seq (seq (X * Y))) (S : seq (seq nat)) (th : point).
Hypothesis S0 : S <> [::].
Hypothesis red_ok : red <> ROther.
Hypothesis loader0 : loader <> [::].
Hypothesis loader_ok : nonempty loader.
Hypothesis num_ok : (if num_data is Some n then 0 < n else true)%N.
Local Notation data := (flatten loader).
Local Notation loss := (datum_loss T C kind tgt red).
Local Notation D := (total S).
Hypothesis targets : targets_fit T C kind tgt loader.
Local Notation G := (ggn_matrix (T * C) net loss (mean_over red num_data loader) data th).

Theorem C89_ggn_semidefinite :
  exists2 B, ggn_operator (T * C) net loss red num_data loader S None th = Ok B &
    @semidefinite R_realFieldType D (exported trunc B) (\matrix_(i, j) G i j).
Proof.
have [B eB hB] := C15_ggn_of_empirical_risk loss net_size th S0 red_ok loader0 loader_ok num_ok.
have [e1 e2 _ _ _] := exported_acts trunc hB; exists B => //; split=> //.
- move=> z hz wz; have [y [h1 h2 h3 h4]] := e2 z hz wz; exists y; split=> // i hi.
  by rewrite h4 //; apply: eq_bigr => j _; congr (_ * _); rewrite (mxfun_ord _ (Ordinal hi) j) mxE.
- by apply/matrixP => i j; rewrite !mxE; apply: supported_sym.
move=> v; pose vf k : R := if insub k is Some i then v i 0 else 0.
have vfE (i : 'I_D) : vf i = v i 0 by rewrite /vf valK.
apply/leRE; have := @supported_form X Y T C kind net tgt C_gt0 red num_data loader S th targets vf; congr (Rle _ _).
rewrite -mulmxA mxE; apply: eq_bigr => i _; rewrite vfE !mxE; congr (_ * _).
by apply: eq_bigr => j _; rewrite vfE mxE.
Qed.

Variables (objs : nat -> tensor R) (precs : nat -> scipy_op R_realFieldType)
  (zero_division : tensor R -> tensor R -> tensor R -> res (tensor R * nat)) (strict : bool).
Local Notation risk := (fun z => mean_over red num_data loader * \sum_(d <- data) loss (net d.1 z) d.2).
Hypothesis differentiable :
  Forall_in (fun d => forall i a, (i < D)%N -> (a < T * C)%N -> ex_pd i (fun z => nth 0 (net d.1 z) a) th) data.

Lemma loss_differentiable :
  Forall_in (fun d => forall i, (i < D)%N -> ex_pd i (fun z => loss (net d.1 z) d.2) th) data.
Proof.
move: targets differentiable; rewrite /targets_fit; elim: data => //= d s IH [h1 hs] [h2 hs']; split; last exact: IH.
move=> i hi; apply: (@ex_pd_ext (fun z => (fun f => loss (mkseq f (T * C)) d.2) (nth 0 (net d.1 z)))).
  by move=> z; rewrite -(lossd_comp loss net_size).
have hsm : smooth2 (T * C) (fun f => loss (mkseq f (T * C)) d.2) by apply: datum_loss_smooth2.
have [c1 _] := hsm (nth 0 (net d.1 th)).
eexists; apply: (comp_derive (net_size d.1) c1) => o ho; exact: h2.
Qed.

(* example_inverses.py 79-126 from the model to the natural gradient: the step solves the
   damped system of the GGN and the gradient of the empirical risk, and the risk increases
   along it (so a small step in the opposite direction decreases the risk) *)
Theorem C89_natural_step delta h : 0 < delta -> only_products h ->
  exists B g y, [/\ ggn_operator (T * C) net loss red num_data loader S None th = Ok B,
    gradient_and_loss (T * C) net loss true red num_data loader S th = Ok (g, risk th),
    @natural_gradient R_realFieldType objs precs zero_division strict (exported trunc B) delta h (Tensor [:: D] (flat g)) = Ok y,
    let v := nth 0 (tdata y) in
    \sum_(i < D) (pd i risk th - (\sum_(j < D) G i j * v j + delta * v i)) ^+ 2 <=
      (1 / 10%:R ^+ 5) ^+ 2 * \sum_(i < D) pd i risk th ^+ 2 &
    (exists2 i, (i < D)%N & pd i risk th != 0) -> 0 < \sum_(i < D) pd i risk th * nth 0 (tdata y) i].
Proof.
move=> hd hh; have [B eB hB] := C89_ggn_semidefinite.
have [g [eg sg wg pg]] := C20_gradient_and_loss net_size red_ok loader0 loader_ok num_ok loss_differentiable.
have hs : size (flat g) = D by rewrite (size_flat wg) /total -sg -map_comp.
have hw : wf (Tensor [:: D] (flat g)) by rewrite /wf [tshape _]/= [tdata _]/= hs (numel1 D).
have [y [y1 y2 y3 y4 y5]] :=
  @C89_natural_gradient R_realFieldType D objs precs zero_division strict delta h hd hh _ _ (Tensor [:: D] (flat g)) hB erefl hw.
exists B, g, y; split=> //.
- move: y4 => /=; rewrite [X in _ <= _ * X](eq_bigr (fun i : 'I_D => pd i risk th ^+ 2)); last first.
    by move=> i _; rewrite mxE pg.
  congr (_ <= _); apply: eq_bigr => i _; rewrite !mxE pg //; congr ((_ - (_ + _)) ^+ 2).
  by apply: eq_bigr => j _; rewrite !mxE.
- case=> i hi ne; have := y5; rewrite (eq_bigr (fun i : 'I_D => pd i risk th * nth 0 (tdata y) i)).
    by apply; exists i => //=; rewrite pg.
  by move=> k _; rewrite /= pg.
Qed.
End Supported.
Print Assumptions C89_ggn_semidefinite.
Print Assumptions C89_natural_step.

(* the affine classifier of Props_Fisher.v meets the hypotheses *)
Example C89_ex_step (trunc : R -> R) th objs precs zero_division strict :
  exists B g l y, [/\ ggn_operator (1 * 2) exc_net (datum_loss 1 2 LCE exc_tgt RMean) RMean None exc_loader exc_S None th = Ok B,
    gradient_and_loss (1 * 2) exc_net (datum_loss 1 2 LCE exc_tgt RMean) true RMean None exc_loader exc_S th = Ok (g, l) &
    @natural_gradient R_realFieldType objs precs zero_division strict (exported trunc B) 1 [::] (Tensor [:: total exc_S] (flat g)) = Ok y].
Proof.
have [_ _ hd] := C16_ex th.
have [|||||||B [g [y [h1 h2 h3 _ _]]]] := @C89_natural_step _ _ 1 2 LCE exc_net exc_tgt (fun _ _ => erefl) isT trunc RMean None exc_loader exc_S th
  _ _ _ _ _ _ objs precs zero_division strict _ 1 [::] ltr01 isT.
1-5: by [].
- by rewrite /targets_fit /=; split; [|split].
- by apply: Forall_in_impl hd => d [_ h] i a; apply: h.
by exists B, g, (mean_over RMean None exc_loader * \sum_(d <- flatten exc_loader) datum_loss 1 2 LCE exc_tgt RMean (exc_net d.1 th) d.2), y.
Qed.

(* two tasks: the same classifier with different parameters *)
Example C89_ex_merge (trunc : R -> R) (t1 t2 : point) objs precs zero_division strict :
  exists B1 B2 y, [/\ ggn_operator (1 * 2) exc_net (datum_loss 1 2 LCE exc_tgt RMean) RMean None exc_loader exc_S None t1 = Ok B1,
    ggn_operator (1 * 2) exc_net (datum_loss 1 2 LCE exc_tgt RMean) RMean None exc_loader exc_S None t2 = Ok B2,
    @merge R_realFieldType objs precs zero_division strict [:: exported trunc B1; exported trunc B2]
      [:: Tensor [:: 2]%N (mkseq t1 2); Tensor [:: 2]%N (mkseq t2 2)] (1 / 10%:R ^+ 3) [::] = Ok y & tshape y = [:: 2]%N].
Proof.
have sd t : exists2 B, ggn_operator (1 * 2) exc_net (datum_loss 1 2 LCE exc_tgt RMean) RMean None exc_loader exc_S None t = Ok B &
    exists G : 'M[R]_2, @semidefinite R_realFieldType 2 (exported trunc B) G.
  have [||||||B eB hB] := @C89_ggn_semidefinite _ _ 1 2 LCE exc_net exc_tgt (fun _ _ => erefl) isT trunc RMean None exc_loader exc_S t.
  1-5: by [].
  - by rewrite /targets_fit /=; split; [|split].
  by exists B => //; eexists; apply: hB.
have [B1 e1 [G1 h1]] := sd t1; have [B2 e2 [G2 h2]] := sd t2.
have d0 : (0 : R_realFieldType) < 1 / 10%:R ^+ 3 by rewrite divr_gt0 ?ltr01 // exprn_gt0 // ltr0n.
have [||y [y1 y2 _ _]] := @C89_merge R_realFieldType 2 objs precs zero_division strict _ [::] d0 isT
  [:: (exported trunc B1, G1, Tensor [:: 2]%N (mkseq t1 2)); (exported trunc B2, G2, Tensor [:: 2]%N (mkseq t2 2))].
- by [].
- by [].
by exists B1, B2, y.
Qed.
