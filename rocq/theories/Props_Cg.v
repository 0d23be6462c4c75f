(* C85: what a product with the conjugate gradient inverse returns. *)
From mathcomp Require Import all_ssreflect all_algebra ring.
From Verif Require Import PyPrelude Tensor Spec Numpy Submatrix Scipy Inverse Props_Inverse Cg.
Set Implicit Arguments.
Unset Strict Implicit.
Unset Printing Implicit Defensive.
Import Order.Theory GRing.Theory Num.Theory.
Local Open Scope ring_scope.

Section Solve.
Variables (R : realFieldType) (n : nat) (M : 'M[R]_n) (A : scipy_op R).
Local Notation arr := (tensor R).
Local Notation sq v := (\sum_(i < n) v i 0 ^+ 2).
(* A is a symmetric positive definite operator *)
Hypothesis A_shape : sp_rows A = n /\ sp_cols A = n.
Hypothesis A_mul : vec_multiplies (sp_matvec A) n n (mxfun M).
Hypothesis A_sym : M^T = M.
Hypothesis A_pd : forall v : 'cV[R]_n, v != 0 -> 0 < (v^T *m M *m v) 0 0.
Variables (objs : nat -> arr) (precs : nat -> scipy_op R)
  (zero_division : arr -> arr -> arr -> res (arr * nat)) (strict : bool).
Local Notation event := (solver_event R (cg_dict (option pyobj))).
Local Notation solver := (solver_matvec set_cg cg_omitted (cg_call objs precs zero_division strict A)).
Local Notation inverse := (cg_inverse objs precs zero_division strict A).

(* the settings in force: those of the latest call, or the defaults *)
Definition in_force (h : seq event) (d : cg_dict (option pyobj)) : Prop :=
  only_products h /\ d = CgDict None None None None None None \/
  exists h1 h2, h = h1 ++ SetHyper R d :: h2 /\ only_products h2.
(* the requested tolerances: tol is 1e-5 unless set, atol is absent unless set *)
Definition tolerance (d : cg_dict (option pyobj)) : R :=
  if cg_tol d is Some t then dec_num R t else 1 / 10%:R ^+ 5.
Definition absolute (d : cg_dict (option pyobj)) : R :=
  if cg_atol d is Some t then dec_num R t else 0.
(* the start vector *)
Definition start (d : cg_dict (option pyobj)) : 'cV[R]_n :=
  if cg_x0 d is Some (OObj i) then \col_j nth 0 (tdata (objs i)) j else 0.
(* no preconditioner or a symmetric positive definite one, and a start vector that fits *)
Definition positive (B : scipy_op R) : Prop :=
  [/\ sp_rows B = n, sp_cols B = n & exists P : 'M[R]_n, [/\ vec_multiplies (sp_matvec B) n n (mxfun P), P^T = P &
    forall v : 'cV[R]_n, v != 0 -> 0 < (v^T *m P *m v) 0 0]].
Definition usable (d : cg_dict (option pyobj)) : Prop :=
  (match cg_M d with None | Some ONone => True | Some (OObj i) => positive (precs i) | _ => False end) /\
  (if cg_x0 d is Some (OObj i) then tshape (objs i) = [:: n] /\ wf (objs i) else True).
(* at least as many iterations as dimensions *)
Definition enough (d : cg_dict (option pyobj)) : Prop :=
  match cg_maxiter d with
  | None | Some ONone => True
  | Some (ODec (Posz m) (Posz 0)) => (n <= m)%N
  | _ => False
  end.

Lemma quad (N : 'M[R]_n) (v : 'cV[R]_n) : (v^T *m N *m v) 0 0 = dot v (N *m v).
Proof. by rewrite -mulmxA mxE; apply: eq_bigr => i _; rewrite mxE. Qed.
Lemma dot_sq (v : 'cV[R]_n) : dot v v = sq v.
Proof. by apply: eq_bigr => i _; rewrite expr2. Qed.
Lemma pdM (v : 'cV[R]_n) : v != 0 -> 0 < dot v (M *m v).
Proof. by rewrite -quad; apply: A_pd. Qed.
Lemma M_unit : M \in unitmx.
Proof.
rewrite unitmxE unitfE; apply/negP => /det0P[v v0 hv].
have : v^T != 0 by apply: contraNneq v0 => h; rewrite -[v]trmxK h trmx0.
move/A_pd; rewrite trmxK hv mul0mx mxE ltxx //.
Qed.

Lemma in_forceE h d : in_force h d -> solver_run set_cg cg_omitted h = set_cg d.
Proof.
case=> [[hh ->]|[h1 [h2 [-> hh]]]]; first by rewrite solver_run_default.
by rewrite solver_run_last.
Qed.

Lemma toleranceE d : dec_num R (cg_tol (set_cg d)) = tolerance d.
Proof. by rewrite /tolerance /=; case: (cg_tol d) => //=; rewrite !mul1r. Qed.
Lemma absoluteE d : dec_num R (cg_atol (set_cg d)) = absolute d.
Proof. by rewrite /absolute /=; case: (cg_atol d). Qed.

Lemma mv_shape_mul : shape_multiplies (sp_matvec A) [:: n] M.
Proof. exact: vec_shape_multiplies A_mul. Qed.

(* the preconditioner as a matrix *)
Lemma psolveP d : usable d -> exists f, cg_psolve precs n (odflt ONone (cg_M d)) = Ok f /\ exists P : 'M[R]_n,
  [/\ shape_multiplies f [:: n] P, P^T = P & forall v : 'cV[R]_n, v != 0 -> 0 < dot v (P *m v)].
Proof.
case=> + _; have id_ok : exists f, Ok (fun r : arr => Ok r) = Ok f /\ exists P : 'M[R]_n,
    [/\ shape_multiplies f [:: n] P, P^T = P & forall v : 'cV[R]_n, v != 0 -> 0 < dot v (P *m v)].
  exists (fun r => Ok r); split=> //; exists 1%:M; split; [|exact: trmx1|].
    by move=> x hx wx; exists x; split=> //; rewrite mul1mx.
  by move=> v v0; rewrite mul1mx lt_def dot_eq0 v0 dot_ge0.
rewrite /usable; case: (cg_M d) => [[|b|m e|i]|] //= [r1 r2 [P [h1 h2 h3]]].
exists (sp_matvec (precs i)); rewrite r1 r2 !eqxx; split=> //; exists P; split=> //; first exact: vec_shape_multiplies h1.
by move=> v v0; rewrite -quad; apply: h3.
Qed.

Lemma dot_done d (b : 'cV[R]_n) : 0 < tolerance d -> b != 0 ->
  cg_done strict (Num.max (tolerance d ^+ 2 * dot b b) (absolute d ^+ 2)) 0.
Proof.
move=> ht hb.
have h : 0 < Num.max (tolerance d ^+ 2 * dot b b) (absolute d ^+ 2).
  by rewrite lt_maxr mulr_gt0 // ?(exprn_gt0 2 ht) // lt_def dot_eq0 hb dot_ge0.
by rewrite /cg_done h ltW // if_same.
Qed.

Lemma cg_inverse_run h d x : in_force h d -> usable d -> 0 < tolerance d ->
  tshape x = [:: n] -> wf x -> let b := vec_of n x in
  exists y, [/\ solver h x = Ok y /\ sp_dot (inverse h) x = Ok y, tshape y = [:: n], wf y &
    let v := vec_of n y in let r0 := b - M *m start d in
    b = 0 /\ v = 0 \/
    exists (P : 'M[R]_n) j, P^T = P /\ (forall v : 'cV[R]_n, v != 0 -> 0 < dot v (P *m v)) /\
     (forall f, cg_psolve precs n (odflt ONone (cg_M d)) = Ok f -> shape_multiplies f [:: n] P) /\
     [/\ b - M *m v = res_k M P r0 j, forall i, (i < j)%N -> res_k M P r0 i != 0,
      sq (b - M *m v) <= Num.max (tolerance d ^+ 2 * sq b) (absolute d ^+ 2) \/
      j = cg_limit n (odflt ONone (cg_maxiter d)) &
      energy M (invmx M *m b) v <= energy M (invmx M *m b) (start d)]].
Proof.
move=> hd hu ht hx hw b; have [hM hx0] := hu; have [ps [eps [P [hps psym ppd]]]] := psolveP hu.
have wx : size (tdata x) = n by move/eqP: hw; rewrite hx numel1.
have [r1 r2] := A_shape.
pose d' := set_cg d.
have dotE (y : arr) : tshape y = [:: n] -> wf y ->
  solver h x = Ok y -> solver h x = Ok y /\ sp_dot (inverse h) x = Ok y.
  move=> hy wy e; split=> //; rewrite /sp_dot /sp_matvec /ndim hx /= /cg_inverse /= r2 eqxx /= e /= /treshape numel1.
  by move/eqP: (wy); rewrite hy numel1 => ->; rewrite eqxx -hy; case: (y).
have ex : Tensor [:: n] (tdata x) = x by rewrite -hx; case: (x).
have hxv : is_vec x b by split.
have start_vec : is_vec (if cg_x0 d' is OObj i then objs i else Tensor [:: n] (nseq n 0)) (start d).
  have z : is_vec (Tensor [:: n] (nseq n (0 : R))) (0 : 'cV[R]_n).
    split; [by [] | by rewrite /wf numel1 /= size_nseq |].
    by apply/colP => i; rewrite !mxE /= nth_nseq if_same.
  move: hx0; rewrite /start /d' /=; case: (cg_x0 d) => [[] //= i [h1 h2]|] //.
pose s0 := if cg_x0 d' is OObj i then objs i else Tensor [:: n] (nseq n 0).
have [Ax [eAx a1 a2 a3]] := mv_shape_mul (let: And3 h _ _ := start_vec in h) (let: And3 _ h _ := start_vec in h).
have hAx : is_vec Ax (M *m start d) by case: start_vec => _ _ e; split=> //; rewrite a3 e.
have [r er hr] : exists2 r, ew (fun a c => a - c) x Ax = Ok r & is_vec r (b - M *m start d).
  by apply: (@ew_vec R n _ (fun u v => u - v) _ _ _ _ hxv hAx) => i; rewrite !mxE.
have hM' : cg_M d' = odflt ONone (cg_M d) by [].
have call : solver h x =
    cg_call objs precs zero_division strict A x d' by rewrite /solver_matvec (in_forceE hd).
have [b0|bne] := eqVneq b 0.
  have e : tdot x x = 0 by rewrite (tdotE hxv hxv) b0 dot0l.
  exists x; split=> //; last by left.
  by apply: dotE => //; rewrite call /cg_call /scipy_cg hM' r1 r2 eqxx hx eqxx /= eps /= ex e eqxx.
have bbne : tdot x x == 0 = false by rewrite (tdotE hxv hxv) dot_eq0; apply: negbTE.
pose tol2 := Num.max (tolerance d ^+ 2 * dot b b) (absolute d ^+ 2).
pose m := cg_limit n (cg_maxiter d').
have [|//|//|y [vy [info [j [h1 h2 [h3 h4 h5] h6 h7]]]]] :=
  @cg_loop_run R n M P A_sym pdM psym ppd zero_division strict _ _ tol2 m mv_shape_mul hps (dot_done ht bne) b (invmx M *m b) _
    (b - M *m start d) m 0 None s0 r (start d) start_vec hr (erefl _).
  by rewrite mulKVmx ?M_unit.
exists y; case: h2 => q1 q2 q3; split=> //.
  apply: dotE => //; rewrite call /cg_call /scipy_cg hM' r1 r2 eqxx hx eqxx /= eps /= ex bbne.
  rewrite -/s0 eAx /= er /= (tdotE hxv hxv) -/m.
  by rewrite -[dec_num R (odflt _ (cg_tol d))]/(dec_num R (cg_tol (set_cg d))) toleranceE -[dec_num R (odflt _ (cg_atol d))]/(dec_num R (cg_atol (set_cg d))) absoluteE -/tol2 h1.
right; exists P, j; rewrite q3; split=> //; split=> //; split; first by rewrite eps => f [<-].
split=> //.
rewrite h3 -!dot_sq; case: h6 => -[_ hj]; last by right; rewrite hj.
by left; move: hj; rewrite /cg_done; case: strict => //; apply: ltW.
Qed.

(* C85: the product is a solution up to the requested tolerance if as many iterations as
   dimensions are allowed, as they are unless maxiter is set *)
Theorem C85_cg_solves h d x : in_force h d -> usable d -> enough d -> 0 < tolerance d ->
  tshape x = [:: n] -> wf x ->
  exists y, [/\ sp_dot (inverse h) x = Ok y, tshape y = [:: n], wf y &
    let b := \col_i nth 0 (tdata x) i in let v := \col_i nth 0 (tdata y) i in
    sq (b - M *m v) <= Num.max (tolerance d ^+ 2 * sq b) (absolute d ^+ 2)].
Proof.
move=> hd hp he ht hx hw; have [y [[_ h1] h2 h3 h4]] := cg_inverse_run hd hp ht hx hw.
exists y; split=> //=; rewrite -/(vec_of n x) -/(vec_of n y).
have pos : 0 <= Num.max (tolerance d ^+ 2 * sq (vec_of n x)) (absolute d ^+ 2) by rewrite le_maxr sqr_ge0 orbT.
have zero : vec_of n x - M *m vec_of n y = 0 ->
    sq (vec_of n x - M *m vec_of n y) <= Num.max (tolerance d ^+ 2 * sq (vec_of n x)) (absolute d ^+ 2).
  by move=> ->; rewrite [X in X <= _]big1 // => i _; rewrite mxE expr0n.
case: h4 => [[hb hv]|[P [j [psym [ppd [_ [e hne [//|hj] _]]]]]]]; apply: zero; first by rewrite hv hb mulmx0 subrr.
have [k hk ek] := cg_terminates A_sym pdM psym ppd (vec_of n x - M *m start d).
have hkj : (j <= k)%N by rewrite leqNgt; apply/negP => /hne; rewrite ek eqxx.
have hnj : (n <= j)%N.
  move: he; rewrite hj /enough; case: (cg_maxiter d) => [[|b|[m|m] [[|e']|e']|i]|] //= hm.
  - by rewrite leq_pmull.
  - by rewrite muln1.
  - by rewrite leq_pmull.
by rewrite e; have -> : j = k by apply/eqP; rewrite eqn_leq hkj (leq_trans hk hnj).
Qed.

(* with the default settings the residual is at most 1e-5 times the right-hand side *)
Theorem C85_cg_default h x : only_products h -> tshape x = [:: n] -> wf x ->
  exists y, [/\ sp_dot (inverse h) x = Ok y, tshape y = [:: n], wf y &
    let b := \col_i nth 0 (tdata x) i in let v := \col_i nth 0 (tdata y) i in
    sq (b - M *m v) <= (1 / 10%:R ^+ 5) ^+ 2 * sq b].
Proof.
move=> hh hx hw.
have [||||y [h1 h2 h3 h4]] := @C85_cg_solves h (CgDict None None None None None None) x _ _ _ _ hx hw.
- by left.
- by [].
- by [].
- by rewrite /tolerance [cg_tol _]/= divr_gt0 ?ltr01 // exprn_gt0 // ltr0n.
exists y; split=> //; move: h4; rewrite /= /absolute /tolerance /= expr0n /=.
by rewrite max_l // mulr_ge0 ?sqr_ge0 // sumr_ge0 // => i _; rewrite sqr_ge0.
Qed.

(* whatever the iteration limit, the error in the energy norm of A is not larger than that
   of the start vector *)
Theorem C85_cg_energy h d x : in_force h d -> usable d -> 0 < tolerance d ->
  tshape x = [:: n] -> wf x ->
  exists y, [/\ sp_dot (inverse h) x = Ok y, tshape y = [:: n], wf y &
    forall z : 'cV[R]_n, M *m z = \col_i nth 0 (tdata x) i ->
    let e := z - \col_i nth 0 (tdata y) i in let e0 := z - start d in
    (e^T *m M *m e) 0 0 <= (e0^T *m M *m e0) 0 0].
Proof.
move=> hd hp ht hx hw; have [y [[_ h1] h2 h3 h4]] := cg_inverse_run hd hp ht hx hw.
exists y; split=> // z hz; rewrite -/(vec_of n y) /= !quad; move: hz; rewrite -/(vec_of n x) => hz.
have ez : z = invmx M *m vec_of n x by rewrite -hz mulKmx // M_unit.
case: h4 => [[hb ->]|[P [j [_ [_ [_ [_ _ _]]]]]]]; last by rewrite /energy -ez.
have -> : z = 0 by rewrite ez hb mulmx0.
by rewrite subr0 dot0l; have [->|ne] := eqVneq (0 - start d) 0; [rewrite dot0l | apply/ltW/pdM].
Qed.

(* a preconditioner that multiplies by the inverse of A makes one iteration enough *)
Theorem C85_exact_preconditioner h d i x : in_force h d -> usable d -> 0 < tolerance d ->
  cg_M d = Some (OObj i) -> vec_multiplies (sp_matvec (precs i)) n n (mxfun (invmx M)) ->
  (if cg_maxiter d is Some o then cg_limit n o != 0%N else true) ->
  tshape x = [:: n] -> wf x ->
  exists y, [/\ sp_dot (inverse h) x = Ok y, tshape y = [:: n], wf y &
    let b := \col_i nth 0 (tdata x) i in let v := \col_i nth 0 (tdata y) i in
    sq (b - M *m v) <= Num.max (tolerance d ^+ 2 * sq b) (absolute d ^+ 2)].
Proof.
move=> hd hu ht hM hi hm hx hw; have [y [[_ h1] h2 h3 h4]] := cg_inverse_run hd hu ht hx hw.
exists y; split=> //=; rewrite -/(vec_of n x) -/(vec_of n y).
have pos : 0 <= Num.max (tolerance d ^+ 2 * sq (vec_of n x)) (absolute d ^+ 2) by rewrite le_maxr sqr_ge0 orbT.
have zero : vec_of n x - M *m vec_of n y = 0 ->
    sq (vec_of n x - M *m vec_of n y) <= Num.max (tolerance d ^+ 2 * sq (vec_of n x)) (absolute d ^+ 2).
  by move=> ->; rewrite [X in X <= _]big1 // => k _; rewrite mxE expr0n.
case: h4 => [[hb hv]|[P [j [psym [ppd [hf [e hne [//|hj] _]]]]]]]; apply: zero; first by rewrite hv hb mulmx0 subrr.
have eP : P = invmx M.
  have [[r1 r2 _] _] : positive (precs i) /\ True by move: hu => [+ _]; rewrite hM.
  have hp : shape_multiplies (sp_matvec (precs i)) [:: n] P by apply: hf; rewrite hM /= r1 r2 !eqxx.
  have hq := vec_shape_multiplies hi; apply/matrixP => a c.
  pose t := Tensor [:: n] (mkseq (fun k => (k == c)%:R : R) n).
  have ht1 : wf t by rewrite /wf /= size_mkseq muln1.
  have [z [ez _ _ hz]] := hp t erefl ht1; have [z' [ez' _ _ hz']] := hq t erefl ht1.
  move: ez'; rewrite ez => -[ezz]; subst z'; move: hz'; rewrite hz => /colP/(_ a); rewrite !mxE.
  have pick (Q : 'M[R]_n) : \sum_k Q a k * vec_of n t k 0 = Q a c.
    rewrite (bigD1 c) //= !mxE nth_mkseq // eqxx mulr1 big1 ?addr0 // => k hk.
    by rewrite mxE /= nth_mkseq // (negbTE (hk : val k != val c)) mulr0.
  by rewrite !pick.
have one : res_k M P (vec_of n x - M *m start d) 1 = 0.
  rewrite res_kS /dir_k /= /alpha /rho_k /res_k /dir_k /= eP mulKVmx ?M_unit //.
  set r0 := vec_of n x - M *m start d; have [->|r0n] := eqVneq r0 0; first by rewrite scaler0 subrr.
  by rewrite [dot (_ *m r0) r0]dotC divff ?scale1r ?subrr // -eP gt_eqF // ppd.
have hj1 : (j <= 1)%N by rewrite leqNgt; apply/negP => /hne; rewrite one eqxx.
rewrite e; case: j hj1 hj {e hne} => [|[|//]] _ hj //.
have [-> //|bn] := eqVneq (vec_of n x - M *m start d) 0.
case/negP: bn; move: hm hj; case: (cg_maxiter d) => [o|] /=; first by move=> /eqP hm /esym.
move=> _ /eqP; rewrite eq_sym muln_eq0 /= => /eqP n0; apply/eqP/matrixP => a; case: a => a ha; exfalso; by move: ha; rewrite n0.
Qed.

(* a preconditioner of another shape is rejected by every product, not when it is set *)
Theorem C85_preconditioner_shape h d i x : in_force h d -> cg_M d = Some (OObj i) ->
  (sp_rows (precs i), sp_cols (precs i)) <> (n, n) -> tshape x = [:: n] ->
  sp_dot (inverse h) x = Err ValueError.
Proof.
move=> hd hM hs hx; have [r1 r2] := A_shape.
have e : (sp_rows (precs i) != n) || (sp_cols (precs i) != n).
  by apply/negPn/negP; rewrite negb_or !negbK => /andP[/eqP e1 /eqP e2]; apply: hs; rewrite e1 e2.
by rewrite /sp_dot /sp_matvec /ndim hx /= /cg_inverse /= r2 eqxx /= /solver_matvec (in_forceE hd) /cg_call /scipy_cg r1 r2 eqxx hx eqxx /= hM /= e.
Qed.

(* products with several columns solve for every column *)
Theorem C85_cg_columns h d K X : in_force h d -> usable d -> enough d -> 0 < tolerance d ->
  (1 < K)%N -> tshape X = [:: n; K] -> wf X ->
  exists Y, [/\ sp_dot (inverse h) X = Ok Y, tshape Y = [:: n; K], wf Y &
    forall k, (k < K)%N ->
    let b := \col_i entry K (tdata X) i k in let v := \col_i entry K (tdata Y) i k in
    sq (b - M *m v) <= Num.max (tolerance d ^+ 2 * sq b) (absolute d ^+ 2)].
Proof.
move=> hd hp he ht hK hX hw; have [r1 r2] := A_shape.
have [x hx wx|Y [h1 h2 h3 h4]] := @inverse_op_columns R n (solver h) K X hK hX hw.
  by have [y [[h1 _] h2 h3 _]] := cg_inverse_run hd hp ht hx wx; exists y.
exists Y; split=> //; first by rewrite /cg_inverse r2.
move=> k hk; have [x [y [x1 x2 x3 x4 [x5 x6]]]] := h4 k hk.
have [y' [y1 y2 y3 y4]] := C85_cg_solves hd hp he ht x1 x2.
move: y1; rewrite /cg_inverse r2 x4 => -[ey]; subst y'.
move: y4 => /=; have -> : \col_i nth 0 (tdata x) i = \col_(i < n) entry K (tdata X) i k.
  by apply/colP => i; rewrite !mxE x3.
by have -> : \col_i nth 0 (tdata y) i = \col_(i < n) entry K (tdata Y) i k; first by apply/colP => i; rewrite !mxE x6.
Qed.
End Solve.
Print Assumptions C85_cg_solves.
Print Assumptions C85_cg_default.
Print Assumptions C85_cg_columns.
Print Assumptions C85_cg_energy.
Print Assumptions C85_exact_preconditioner.
Print Assumptions C85_preconditioner_shape.

(* scipy's aslinearoperator(diags(d)) *)
Definition diag_op (R : ringType) (d : seq R) : scipy_op R :=
  let f x := Ok (Tensor [:: size d] [seq p.1 * p.2 | p <- zip d (tdata x)]) in
  ScipyOp (size d) (size d) f (columnwise f).
Lemma diag_op_multiplies (R : realFieldType) (d : seq R) :
  vec_multiplies (sp_matvec (diag_op d)) (size d) (size d) (mxfun (diag_mx (\row_(i < size d) nth 0 d i))).
Proof.
move=> x hx hw; have wx : size (tdata x) = size d by move/eqP: hw; rewrite hx numel1.
have hs : size [seq p.1 * p.2 | p <- zip d (tdata x)] = size d by rewrite size_map size_zip wx minnn.
exists (Tensor [:: size d] [seq p.1 * p.2 | p <- zip d (tdata x)]); split=> //.
- by rewrite /sp_matvec /ndim hx /= eqxx /= /treshape numel1 hs eqxx.
- by rewrite /wf numel1 /= hs.
move=> i hi; rewrite /= (nth_map (0, 0)) ?nth_zip ?size_zip ?wx ?minnn //=.
rewrite (bigD1 (Ordinal hi)) //= (mxfun_ord _ (Ordinal hi) (Ordinal hi)) !mxE eqxx mulr1n big1 ?addr0 // => j hj.
by rewrite (mxfun_ord _ (Ordinal hi) j) !mxE eq_sym (negbTE hj) mulr0n mul0r.
Qed.

Section Runs.
Variable R : realFieldType.
Variables (objs : nat -> tensor R) (precs : nat -> scipy_op R)
  (zero_division : tensor R -> tensor R -> tensor R -> res (tensor R * nat)) (strict : bool).
Lemma tdot2 s s' (a b c d : R) : tdot (Tensor s [:: a; b]) (Tensor s' [:: c; d]) = a * c + b * d.
Proof. by rewrite /tdot /= !big_cons big_nil addr0. Qed.
Lemma two_ne0 : 1 + 1 == 0 :> R = false.
Proof. by rewrite -(natrD _ 1 1) pnatr_eq0. Qed.
(* a tenth *)
Local Notation tenth := (Some (ODec 1 (-1))).
Lemma tenth_max : Num.max (dec_num R (ODec 1 (-1)) ^+ 2 * (1 + 1)) (dec_num R ONone ^+ 2) = 2%:R / 100%:R.
Proof.
have ne : 10%:R != 0 :> R by rewrite pnatr_eq0.
have -> : dec_num R (ODec 1 (-1)) ^+ 2 * (1 + 1) = 2%:R / 100%:R.
  by rewrite /dec_num mul1r -[10%:R ^ -1]/(10%:R^-1); field.
by rewrite /dec_num expr0n max_l // divr_ge0 ?ler0n.
Qed.
Lemma not_done2 : cg_done strict (2%:R / 100%:R) (1 + 1 : R) = false.
Proof.
have h : 2%:R / 100%:R < 1 + 1 :> R by rewrite ltr_pdivr_mulr ?ltr0n // -(natrD _ 1 1) -natrM ltr_nat.
by rewrite /cg_done; case: strict; apply/negbTE; rewrite -?leNgt -?ltNge // ltW.
Qed.

(* With fewer iterations allowed than needed SciPy reports that the solver did not converge;
   the report is dropped: the product returns an iterate whose residual is a third of the
   right-hand side, although the tolerance is a tenth, and raises nothing. *)
Theorem C85_unconverged_refuted :
  let A := diag_op [:: 1; 2%:R : R] in let x := Tensor [:: 2%N] [:: 1; 1 : R] in
  let h := [:: SetHyper _ (CgDict None (Some (ODec 1 0)) None None None tenth)] in
  exists2 y, sp_dot (cg_inverse objs precs zero_division strict A h) x = Ok y &
    let r i := nth 0 (tdata x) i - nth 0 [:: 1; 2%:R] i * nth 0 (tdata y) i in
    9%:R * (r 0%N ^+ 2 + r 1%N ^+ 2) = 1 ^+ 2 + 1 ^+ 2.
Proof.
exists (Tensor [:: 2%N] [:: 2%:R / 3%:R; 2%:R / 3%:R]); last first.
  by have ne : 3%:R != 0 :> R; [rewrite pnatr_eq0 | rewrite /=; field].
rewrite /sp_dot /sp_matvec /ndim /cg_inverse /= /solver_matvec /solver_run /cg_call /scipy_cg.
rewrite [cg_M _]/= [cg_tol _]/= [cg_atol _]/= [cg_maxiter _]/= [cg_x0 _]/= [_ && _]/= [_ != _]/= tdot2 !mulr1 two_ne0 tenth_max.
rewrite /= !mulr0 !subr0 !tdot2 !mulr1.
rewrite not_done2 /= (_ : 1 + 1 * 2%:R = 3%:R); last by ring.
by rewrite pnatr_eq0 /= !add0r (_ : 1 + 1 = 2%:R) //; ring.
Qed.

(* Invertible symmetric matrices that are not definite, as Hessians may be, can make the
   first step divide by zero. *)
Theorem C85_indefinite_refuted :
  let A := diag_op [:: 1; -1 : R] in let x := Tensor [:: 2%N] [:: 1; 1 : R] in
  let h := [:: SetHyper _ (CgDict None (Some (ODec 2 0)) None None None tenth)] in
  sp_dot (cg_inverse objs precs zero_division strict A h) x =
  sp_dot (inverse_op 2 (fun _ => let! s := zero_division (Tensor [:: 2%N] [:: 0; 0]) x x in Ok s.1)) x.
Proof.
rewrite /sp_dot /sp_matvec /ndim /cg_inverse /= /solver_matvec /solver_run /cg_call /scipy_cg.
rewrite [cg_M _]/= [cg_tol _]/= [cg_atol _]/= [cg_maxiter _]/= [cg_x0 _]/= [_ && _]/= [_ != _]/= tdot2 !mulr1 two_ne0 tenth_max.
rewrite /= !mulr0 !subr0 !tdot2 !mulr1 not_done2 /= ?mul1r.
by rewrite subrr eqxx.
Qed.

(* The same for the identity matrix and an invertible symmetric preconditioner that is not
   definite: the first step has length zero, the second divides by zero. *)
Theorem C85_indefinite_preconditioner_refuted :
  precs 0%N = diag_op [:: 1; -1 : R] ->
  let A := diag_op [:: 1; 1 : R] in let x := Tensor [:: 2%N] [:: 1; 1 : R] in
  let h := [:: SetHyper _ (CgDict None (Some (ODec 2 0)) (Some (OObj 0)) None None tenth)] in
  exists z, sp_dot (cg_inverse objs precs zero_division strict A h) x =
  sp_dot (inverse_op 2 (fun _ => let! s := zero_division (Tensor [:: 2%N] [:: 0; 0]) x z in Ok s.1)) x.
Proof.
move=> hp; exists (Tensor [:: 2%N] [:: 1; -1]).
rewrite /sp_dot /sp_matvec /ndim /cg_inverse /= /solver_matvec /solver_run /cg_call /scipy_cg.
rewrite [cg_M _]/= [cg_tol _]/= [cg_atol _]/= [cg_maxiter _]/= [cg_x0 _]/= [_ && _]/= [_ != _]/= /cg_psolve hp /= tdot2 !mulr1 two_ne0 tenth_max.
rewrite !mulr0 !subr0 !mulr1 !mul1r !tdot2 !mulr1 !mul1r mulN1r opprK not_done2 two_ne0.
by rewrite addrN !mul0r !addr0 !subr0 !mulr1 not_done2 eqxx.
Qed.
End Runs.
Print Assumptions C85_unconverged_refuted.
Print Assumptions C85_indefinite_refuted.
Print Assumptions C85_indefinite_preconditioner_refuted.

(* diagonal operators with positive entries meet the hypotheses ... *)
Lemma diag_sym_pd (R : realFieldType) (d : seq R) : all (fun a => 0 < a) d ->
  let M := diag_mx (\row_(i < size d) nth 0 d i) in
  M^T = M /\ forall v : 'cV_(size d), v != 0 -> 0 < (v^T *m M *m v) 0 0.
Proof.
move=> hd M; split; first by rewrite tr_diag_mx.
move=> v v0; rewrite -mulmxA mul_diag_mx mxE.
have [i hi] : exists i, v i 0 != 0.
  apply/existsP; apply: contraNT v0; rewrite negb_exists => /forallP h.
  by apply/eqP/colP => i; rewrite mxE; apply/eqP; have := h i; rewrite negbK.
have ge j : 0 <= v^T 0 j * (\matrix_(i, j) ((\row_(i < size d) nth 0 d i) 0 i * v i j)) j 0.
  rewrite !mxE mulrCA mulr_ge0 //; last by rewrite -expr2 sqr_ge0.
  by apply: ltW; move/allP: hd; apply; apply: mem_nth.
rewrite (bigD1 i) //= ltr_spaddl //; last by apply: sumr_ge0 => j _; apply: ge.
rewrite !mxE mulrCA mulr_gt0 //; first by move/allP: hd; apply; apply: mem_nth.
by rewrite -expr2 lt_def sqr_ge0 sqrf_eq0 hi.
Qed.
Example C85_ex : let M := diag_mx (\row_(i < 2) nth 0 [:: 1%:Q; 2%:Q] i) in
  [/\ sp_rows (diag_op [:: 1%:Q; 2%:Q]) = 2%N /\ sp_cols (diag_op [:: 1%:Q; 2%:Q]) = 2%N,
    vec_multiplies (sp_matvec (diag_op [:: 1%:Q; 2%:Q])) 2 2 (mxfun M), M^T = M &
    forall v : 'cV_2, v != 0 -> 0 < (v^T *m M *m v) 0 0].
Proof.
by split=> //; [exact: (@diag_op_multiplies _ [:: 1%:Q; 2%:Q]) |
  exact: (diag_sym_pd (d := [:: 1%:Q; 2%:Q]) isT).1 | exact: (diag_sym_pd (d := [:: 1%:Q; 2%:Q]) isT).2].
Qed.
(* ... and a diagonal preconditioner, here the inverse, those on the preconditioner *)
Example C85_ex_preconditioned objs zero_division strict : let d := [:: 1%:Q; 2%:Q] in let e := [:: 1%:Q; 2%:Q^-1] in
  let precs (i : nat) := diag_op e in
  let h := [:: SetHyper _ (CgDict None (Some (ODec 1 0)) (Some (OObj 0)) None None (Some (ODec 1 (-1))))] in
  forall x, tshape x = [:: 2%N] -> wf x ->
  exists y, sp_dot (cg_inverse objs precs zero_division strict (diag_op d) h) x = Ok y /\ tshape y = [:: 2%N].
Proof.
move=> d e precs h x hx hw.
have hd := @diag_op_multiplies _ d; have he := @diag_op_multiplies _ e.
have [s1 p1] := diag_sym_pd (d := d) isT; have [s2 p2] := diag_sym_pd (d := e) isT.
have inv : invmx (diag_mx (\row_(i < 2) nth 0 d i)) = diag_mx (\row_(i < 2) nth 0 e i).
  have h1 : diag_mx (\row_(i < 2) nth 0 e i) *m diag_mx (\row_(i < 2) nth 0 d i) = 1%:M.
    apply/matrixP => i j; rewrite mul_diag_mx !mxE; case: eqP => [->|_]; last by rewrite mulr0n mulr0.
    by case: j => -[|[|]].
  have u : diag_mx (\row_(i < 2) nth 0 d i) \in unitmx by apply: (mulmx1_unit h1).2.
  by rewrite -[RHS]mulmx1 -(mulmxV u) mulmxA h1 mul1mx.
have [|||||y [h1 h2 _ _]] := @C85_exact_preconditioner _ 2 _ (diag_op d) (conj erefl erefl) hd s1 p1 objs precs zero_division strict h
  (CgDict None (Some (ODec 1 0)) (Some (OObj 0)) None None (Some (ODec 1 (-1)))) 0%N x _ _ _ erefl _ _ hx hw => //.
- by right; exists [::], [::].
- by split=> //=; split=> //; exists (diag_mx (\row_(i < 2) nth 0 e i)).
- by rewrite inv.
by exists y.
Qed.
