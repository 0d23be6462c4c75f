(* inverse.py 36-89 with the solver it calls: the conjugate gradient iteration of
   scipy.sparse.linalg.cg in exact arithmetic.  SciPy is not part of /repo; the iteration is
   modelled from its documentation and source so that what a product with the CG inverse
   returns can be stated without an abstract solver. *)
From mathcomp Require Import all_ssreflect all_algebra.
From Verif Require Import PyPrelude Tensor Spec Numpy Submatrix Scipy Inverse.
Set Implicit Arguments.
Unset Strict Implicit.
Unset Printing Implicit Defensive.
Import Order.Theory GRing.Theory Num.Theory.
Local Open Scope ring_scope.

Section CgModel.
Variable R : realFieldType.
Local Notation arr := (tensor R).

(* Python objects among the hyper-parameters: start vectors and preconditioners *)
Variable objs : nat -> arr.
Variable precs : nat -> scipy_op R.
(* not modelled: runs in which a denominator is zero (NumPy then continues with inf and NaN) *)
Variable zero_division : arr -> arr -> arr -> res (arr * nat).
(* SciPy releases differ: norm(r) < tolerance or norm(r) <= tolerance *)
Variable strict : bool.

(* the number m * 10^e *)
Definition dec_num (o : pyobj) : R := if o is ODec m e then m%:~R * 10%:R ^ e else 0.

(* numpy.dot of two vectors (real numbers) *)
Definition tdot (a b : arr) : R := \sum_(p <- zip (tdata a) (tdata b)) p.1 * p.2.

(* stopping test on the squared norm s of the residual for a squared tolerance *)
Definition cg_done (tol2 s : R) : bool := if strict then s < tol2 else s <= tol2.

(* scipy.sparse.linalg.cg, the loop 'for iteration in range(maxiter)'; prev holds the previous
   direction and the product of residual and preconditioned residual (none in the first
   iteration).  The second component
   is 'info': 0 on convergence, maxiter otherwise.  A callback only observes. *)
Fixpoint cg_loop (mv psolve : arr -> res arr) (tol2 : R) (maxiter fuel : nat) (prev : option (arr * R)) (x r : arr)
    : res (arr * nat) :=
  if fuel is k.+1 then
    if cg_done tol2 (tdot r r) then Ok (x, 0%N) else
    let! z := psolve r in
    let rho := tdot r z in
    if (if prev is Some (_, rho') then rho' == 0 else false) then zero_division x r z else
    let! p := (if prev is Some (p, rho') then ew +%R (scal *%R (rho / rho') p) z else Ok z) in
    let! q := mv p in
    let pq := tdot p q in
    if pq == 0 then zero_division x r p else
    let! x' := ew +%R x (scal *%R (rho / pq) p) in
    let! r' := ew (fun a b => a - b) r (scal *%R (rho / pq) q) in
    cg_loop mv psolve tol2 maxiter k (Some (p, rho)) x' r'
  else Ok (x, maxiter).

(* maxiter: None means ten times the dimension *)
Definition cg_limit (n : nat) (o : pyobj) : nat :=
  match o with ODec (Posz m) (Posz e) => (m * 10 ^ e)%N | ONone => (10 * n)%N | _ => 0%N end.

(* the argument M: None is the identity; arrays and operators need the shape of A; other
   objects are rejected *)
Definition cg_psolve (n : nat) (o : pyobj) : res (arr -> res arr) :=
  match o with
  | ONone => Ok (fun r => Ok r)
  | OObj i => if (sp_rows (precs i) != n) || (sp_cols (precs i) != n) then Err ValueError else Ok (sp_matvec (precs i))
  | _ => Err TypeError
  end.

(* scipy.sparse.linalg.cg(A, b, x0, tol, maxiter, M, callback, atol): b has shape [n] or
   [n, 1] and is flattened; a zero right-hand side is returned at once; the residual has to
   reach max(tol * norm(b), atol) (atol None: 0) *)
Definition scipy_cg (A : scipy_op R) (b : arr) (d : cg_dict pyobj) : res (arr * nat) :=
  let n := sp_cols A in
  if sp_rows A != n then Err ValueError else
  if (tshape b != [:: n]) && (tshape b != [:: n; 1%N]) then Err ValueError else
  let! psolve := cg_psolve n (cg_M d) in
  let b := Tensor [:: n] (tdata b) in
  let bb := tdot b b in
  if bb == 0 then Ok (b, 0%N) else
  let tol2 := Num.max (dec_num (cg_tol d) ^+ 2 * bb) (dec_num (cg_atol d) ^+ 2) in
  let x := if cg_x0 d is OObj i then objs i else Tensor [:: n] (nseq n 0) in
  let! Ax := sp_matvec A x in
  let! r := ew (fun a b => a - b) b Ax in
  let m := cg_limit n (cg_maxiter d) in
  cg_loop (sp_matvec A) psolve tol2 m m None x r.

(* inverse.py 88-89: 'result, _ = cg(...); return result' *)
Definition cg_call (A : scipy_op R) (b : arr) (d : cg_dict pyobj) : res arr :=
  let! s := scipy_cg A b d in Ok s.1.

(* inverse.py 36-89: the CG inverse of A after the calls h *)
Definition cg_inverse (A : scipy_op R) (h : seq (solver_event R (cg_dict (option pyobj)))) : scipy_op R :=
  inverse_op (sp_cols A) (solver_matvec set_cg cg_omitted (cg_call A) h).

End CgModel.

(* ------------------------------------------------------------------ *)
(* the iteration on column vectors *)
Section CgMath.
Variables (R : realFieldType) (n : nat) (M P : 'M[R]_n).
Local Notation vec := 'cV[R]_n.

Definition dot (u v : vec) : R := \sum_i u i 0 * v i 0.
(* the matrix and the preconditioner *)
Hypothesis sym : M^T = M.
Hypothesis pd : forall v : vec, v != 0 -> 0 < dot v (M *m v).
Hypothesis psym : P^T = P.
Hypothesis ppd : forall v : vec, v != 0 -> 0 < dot v (P *m v).

Lemma dotC u v : dot u v = dot v u.
Proof. by apply: eq_bigr => i _; rewrite mulrC. Qed.
Lemma dotDl u v w : dot (u + v) w = dot u w + dot v w.
Proof. by rewrite -big_split; apply: eq_bigr => i _; rewrite mxE mulrDl. Qed.
Lemma dotZl a u v : dot (a *: u) v = a * dot u v.
Proof. by rewrite mulr_sumr; apply: eq_bigr => i _; rewrite mxE mulrA. Qed.
Lemma dotNl u v : dot (- u) v = - dot u v.
Proof. by rewrite -scaleN1r dotZl mulN1r. Qed.
Lemma dotDr u v w : dot w (u + v) = dot w u + dot w v.
Proof. by rewrite dotC dotDl; congr (_ + _); apply: dotC. Qed.
Lemma dotZr a u v : dot v (a *: u) = a * dot v u.
Proof. by rewrite dotC dotZl dotC. Qed.
Lemma dotNr u v : dot v (- u) = - dot v u.
Proof. by rewrite dotC dotNl dotC. Qed.
Lemma dot0l v : dot 0 v = 0.
Proof. by rewrite /dot big1 // => i _; rewrite mxE mul0r. Qed.
Lemma dot_ge0 v : 0 <= dot v v.
Proof. by apply: sumr_ge0 => i _; rewrite -expr2 sqr_ge0. Qed.
Lemma dot_eq0 v : (dot v v == 0) = (v == 0).
Proof.
apply/eqP/eqP => [h|->]; last exact: dot0l.
apply/colP => i; rewrite mxE; apply/eqP; rewrite -sqrf_eq0 expr2.
have /allP/(_ i) := etrans (esym (psumr_eq0 (P := xpredT) (index_enum _) (F := fun i => v i 0 * v i 0) (fun i _ => sqr_ge0 (v i 0)))) (introT eqP h).
by rewrite mem_index_enum => /(_ isT) /=.
Qed.
Lemma dot_sym (N : 'M[R]_n) u v : N^T = N -> dot u (N *m v) = dot v (N *m u).
Proof.
move=> hN; rewrite /dot (eq_bigr (fun i => \sum_j u i 0 * (N i j * v j 0))); last first.
  by move=> i _; rewrite mxE mulr_sumr.
rewrite exchange_big /=; apply: eq_bigr => j _; rewrite mxE mulr_sumr; apply: eq_bigr => i _.
by rewrite -{1}hN mxE mulrCA mulrA [N j i * _]mulrC mulrC.
Qed.
Lemma dotM u v : dot u (M *m v) = dot v (M *m u).
Proof. exact: dot_sym. Qed.
Lemma dotP u v : dot u (P *m v) = dot v (P *m u).
Proof. exact: dot_sym. Qed.

Variable r0 : vec.
(* residual and direction before the step k *)
Fixpoint cg_rp (k : nat) : vec * vec :=
  if k is k'.+1 then
    let: (r, p) := cg_rp k' in
    let r' := r - (dot r (P *m r) / dot p (M *m p)) *: (M *m p) in
    (r', P *m r' + (dot r' (P *m r') / dot r (P *m r)) *: p)
  else (r0, P *m r0).
Definition res_k k := (cg_rp k).1.
Definition dir_k k := (cg_rp k).2.
Definition rho_k k := dot (res_k k) (P *m res_k k).
Definition alpha k := rho_k k / dot (dir_k k) (M *m dir_k k).
Definition beta k := rho_k k.+1 / rho_k k.
Lemma res_kS k : res_k k.+1 = res_k k - alpha k *: (M *m dir_k k).
Proof. by rewrite /res_k /dir_k /alpha /rho_k /res_k /dir_k /=; case: (cg_rp k). Qed.
Lemma dir_kS k : dir_k k.+1 = P *m res_k k.+1 + beta k *: dir_k k.
Proof. by rewrite /beta /rho_k /res_k /dir_k /=; case: (cg_rp k). Qed.

Definition cg_inv k : Prop :=
  [/\ forall i, (i <= k)%N -> dot (res_k i) (dir_k i) = rho_k i,
      forall i j, (i < j)%N -> (j <= k)%N -> dot (dir_k i) (res_k j) = 0,
      forall i j, (i < j)%N -> (j <= k)%N -> dot (P *m res_k i) (res_k j) = 0 &
      forall i j, (i < j)%N -> (j <= k)%N -> dot (dir_k i) (M *m dir_k j) = 0].

Lemma cg_dir_pos k i : cg_inv k -> (i <= k)%N -> res_k i != 0 -> 0 < dot (dir_k i) (M *m dir_k i).
Proof.
move=> [h _ _ _] hi hr; apply: pd; apply: contraNneq hr => e.
by apply/negPn/negP => /ppd; rewrite -/(rho_k i) -h // e dotC dot0l ltxx.
Qed.

Lemma cg_invS k : cg_inv k -> (forall i, (i <= k)%N -> res_k i != 0) -> cg_inv k.+1.
Proof.
move=> hk hr; have [h1 h2 h3 h4] := hk.
have pos i (hi : (i <= k)%N) : 0 < dot (dir_k i) (M *m dir_k i) by apply: (cg_dir_pos hk hi); apply: hr.
have rne i (hi : (i <= k)%N) : rho_k i != 0 by rewrite gt_eqF // ppd // hr.
have ane i (hi : (i <= k)%N) : alpha i != 0 by rewrite /alpha mulf_neq0 ?invr_eq0 ?rne // gt_eqF // pos.
have d2 i : (i <= k)%N -> dot (dir_k i) (res_k k.+1) = 0.
  move=> hi; rewrite res_kS dotDr dotNr dotZr; move: hi; rewrite leq_eqVlt => /orP[/eqP ->|hi].
    by rewrite dotC h1 // /alpha divfK ?subrr // gt_eqF // pos.
  by rewrite h2 // h4 // mulr0 subrr.
have d3 i : (i <= k)%N -> dot (P *m res_k i) (res_k k.+1) = 0.
  case: i => [|i] hi; first by rewrite -(d2 0%N).
  rewrite (_ : P *m res_k i.+1 = dir_k i.+1 - beta i *: dir_k i); last by rewrite dir_kS addrK.
  by rewrite dotDl dotNl dotZl !d2 ?mulr0 ?subrr // ltnW.
have d4 i : (i <= k)%N -> dot (dir_k i) (M *m dir_k k.+1) = 0.
  move=> hi; rewrite dir_kS mulmxDr dotDr dotM -scalemxAr dotZr.
  have -> : dot (P *m res_k k.+1) (M *m dir_k i) = (dot (P *m res_k k.+1) (res_k i) - dot (P *m res_k k.+1) (res_k i.+1)) / alpha i.
    by apply: (mulIf (ane i hi)); rewrite divfK ?ane // (res_kS i) dotDr dotNr dotZr opprD opprK addNKr mulrC //.
  have dp a c : dot (P *m a) c = dot (P *m c) a by rewrite dotC dotP dotC.
  rewrite [dot (P *m res_k k.+1) (res_k i)]dp d3 // sub0r; move: hi; rewrite leq_eqVlt => /orP[/eqP ->|hi].
    by rewrite [dot _ (res_k k.+1)]dotC -/(rho_k k.+1) /alpha /beta invf_div mulNr mulrA [X in _ + X]mulrAC addNr.
  by rewrite [dot _ (res_k i.+1)]dp d3 // oppr0 mul0r h4 // mulr0 addr0.
split=> [i|i j|i j|i j].
- rewrite leq_eqVlt => /orP[/eqP ->|]; last by rewrite ltnS; apply: h1.
  by rewrite dir_kS dotDr dotZr [dot _ (dir_k k)]dotC d2 // mulr0 addr0.
- by move=> hij; rewrite leq_eqVlt => /orP[/eqP ej|]; rewrite ?ltnS; [subst j; exact: d2 | exact: h2].
- by move=> hij; rewrite leq_eqVlt => /orP[/eqP ej|]; rewrite ?ltnS; [subst j; exact: d3 | exact: h3].
- by move=> hij; rewrite leq_eqVlt => /orP[/eqP ej|]; rewrite ?ltnS; [subst j; exact: d4 | exact: h4].
Qed.

Lemma cg_inv_all k : (forall i, (i < k)%N -> res_k i != 0) -> cg_inv k.
Proof.
elim: k => [|k IH] h; last by apply: (cg_invS _ h); apply: IH => i hi; apply: h; apply: ltnW.
by split=> [i|i [|j]|i [|j]|i [|j]] //; rewrite leqn0 => /eqP ->.
Qed.

(* at most n residuals are non-zero *)
Lemma cg_terminates : exists2 k, (k <= n)%N & res_k k = 0.
Proof.
have [/existsP[k /eqP hk]|] := boolP [exists k : 'I_n.+1, res_k k == 0].
  by exists k => //; rewrite -ltnS.
rewrite negb_exists => /forallP h.
have hr i : (i <= n)%N -> res_k i != 0 by move=> hi; apply: (h (Ordinal (n := n.+1) (m := i) hi)).
have [_ _ orth _] : cg_inv n.+1 by apply: cg_inv_all => i; rewrite ltnS; apply: hr.
pose W : 'M[R]_(n.+1, n) := \matrix_(i, j) res_k i j 0.
pose V : 'M[R]_(n.+1, n) := \matrix_(i, j) (P *m res_k i) j 0.
have e : V *m W^T = diag_mx (\row_i rho_k i).
  apply/matrixP => i j; rewrite mxE (eq_bigr (fun l => (P *m res_k i) l 0 * res_k j l 0)); last by move=> l _; rewrite [V _ _]mxE [W^T _ _]mxE [W _ _]mxE.
  rewrite 2!mxE.
  rewrite -/(dot _ _); have [->|ne] := eqVneq i j; first by rewrite mulr1n dotC.
  rewrite mulr0n; case: (ltngtP i j) => hij; last by case/eqP: ne; apply: val_inj.
    by apply: orth => //; apply: ltnW; apply: ltn_ord.
  by rewrite dotC dotP dotC; apply: orth => //; apply: ltnW; apply: ltn_ord.
have full : \rank (V *m W^T) = n.+1.
  apply: mxrank_unit; rewrite e unitmxE det_diag unitfE; apply/prodf_neq0 => i _.
  by rewrite mxE gt_eqF // ppd // hr // -ltnS.
by have := leq_trans (mxrankM_maxl V W^T) (rank_leq_col V); rewrite full ltnn.
Qed.
End CgMath.

(* ------------------------------------------------------------------ *)
(* the loop computes these iterates *)
Section CgRun.
Variables (R : realFieldType) (n : nat) (M P : 'M[R]_n).
Local Notation arr := (tensor R).
Local Notation vec := 'cV[R]_n.
Hypothesis sym : M^T = M.
Hypothesis pd : forall v : vec, v != 0 -> 0 < dot v (M *m v).
Hypothesis psym : P^T = P.
Hypothesis ppd : forall v : vec, v != 0 -> 0 < dot v (P *m v).
Variables (zero_division : arr -> arr -> arr -> res (arr * nat)) (strict : bool).
Variables (mv psolve : arr -> res arr) (tol2 : R) (maxiter : nat).
Hypothesis hmv : shape_multiplies mv [:: n] M.
Hypothesis hps : shape_multiplies psolve [:: n] P.
Hypothesis done0 : cg_done strict tol2 0.
(* the right-hand side and the solution *)
Variables (b xs : vec).
Hypothesis hxs : M *m xs = b.
Definition energy (x : vec) : R := dot (xs - x) (M *m (xs - x)).

Definition is_vec (a : arr) (v : vec) : Prop := [/\ tshape a = [:: n], wf a & vec_of n a = v].

Lemma tdotE (a c : arr) u v : is_vec a u -> is_vec c v -> tdot a c = dot u v.
Proof.
move=> [ha wa <-] [hc wc <-]; move: wa wc; rewrite /wf ha hc /numel /= muln1 => /eqP wa /eqP wc.
rewrite /tdot (big_nth (0, 0)) size_zip wa wc minnn big_mkord; apply: eq_bigr => i _.
by rewrite nth_zip ?wa ?wc // !mxE.
Qed.
Lemma numel1 : numel [:: n] = n. Proof. by rewrite /numel /= muln1. Qed.
Lemma ew_vec f (g : vec -> vec -> vec) (a c : arr) u v : is_vec a u -> is_vec c v ->
  (forall i, g u v i 0 = f (u i 0) (v i 0)) ->
  exists2 y, ew f a c = Ok y & is_vec y (g u v).
Proof.
move=> [ha wa ea] [hc wc ec] hg; have [y hy] := @ew_ok R [:: n] f a c ha hc; exists y => //.
have [h1 h2 h3] := vec_of_ew numel1 ha hc wa wc hy; split=> //.
by apply/colP => i; rewrite mxE h3 // hg -ea -ec !mxE.
Qed.
Lemma scal_vec a (c : arr) v : is_vec c v -> is_vec (scal *%R a c) (a *: v).
Proof. by move=> [h1 h2 <-]; have [] := vec_of_scal a numel1 h2 h1. Qed.

Lemma energy_step x p a rho : dot p (b - M *m x) = rho ->
  0 < dot p (M *m p) -> a = rho / dot p (M *m p) ->
  energy (x + a *: p) <= energy x.
Proof.
move=> h1 h2 ha; rewrite /energy opprD addrA; set e := xs - x.
have he : M *m e = b - M *m x by rewrite mulmxBr hxs.
move: e he => e he.
rewrite mulmxDr mulmxN -scalemxAr !(dotDl, dotDr, dotNl, dotNr, dotZl, dotZr) (dotM sym e p) he h1.
rewrite ha divfK ?gt_eqF //.
rewrite subrr mulr0 subr0 ger_addl.
by rewrite mulrAC -expr2 oppr_le0 divr_ge0 ?sqr_ge0 // ltW.
Qed.

Variable r0 : vec.
Local Notation rk := (res_k M P r0).
Local Notation pk := (dir_k M P r0).
Local Notation rhok := (rho_k M P r0).

Lemma cg_loop_run fuel k prev x r vx : is_vec x vx -> is_vec r (rk k) -> b - M *m vx = rk k ->
  (forall i, (i < k)%N -> rk i != 0) ->
  (if k is k'.+1 then exists2 p, prev = Some (p, rhok k') & is_vec p (pk k') else prev = None) ->
  exists y vy info j, [/\ cg_loop zero_division strict mv psolve tol2 maxiter fuel prev x r = Ok (y, info), is_vec y vy,
    [/\ b - M *m vy = rk j, (j <= k + fuel)%N & forall i, (i < j)%N -> rk i != 0],
    info = 0%N /\ cg_done strict tol2 (dot (rk j) (rk j)) \/ info = maxiter /\ j = (k + fuel)%N &
    energy vy <= energy vx].
Proof.
elim: fuel k prev x r vx => [|f IH] k prev x r vx hx hr hb hne hprev.
  by exists x, vx, maxiter, k; rewrite addn0; split=> //; right.
rewrite /= (tdotE hr hr); case hd: (cg_done strict tol2 _).
  by exists x, vx, 0%N, k; rewrite leq_addr; split=> //; left.
have rne : rk k != 0.
  by apply/eqP => e; move: hd; rewrite e dot0l done0.
have hinv : cg_inv M P r0 k by apply: cg_inv_all.
have hpos := cg_dir_pos pd ppd hinv (leqnn k) rne.
have [z [hz z1 z2 z3]] := hps (let: And3 h _ _ := hr in h) (let: And3 _ h _ := hr in h).
have hzv : is_vec z (P *m rk k) by case: hr => _ _ er; split=> //; rewrite z3 er.
rewrite hz /= (tdotE hr hzv) -/(rhok k).
have -> : (if prev is Some (_, rho') then rho' == 0 else false) = false.
  case: k hprev hne {hr hb hd rne hinv hpos hz hzv z3} => [->|k [p -> _] hne] //.
  by rewrite gt_eqF // ppd // hne.
have [p -> hp] : exists2 p, (if prev is Some (p, rho') then ew +%R (scal *%R (rhok k / rho') p) z else Ok z) = Ok p & is_vec p (pk k).
  case: k hprev hzv {hr hb hne rne hinv hpos hd hz z3} => [-> hzv|k [p -> hp] hzv]; first by exists z.
  rewrite dir_kS addrC -/(beta M P r0 k).
  by apply: (@ew_vec _ (fun u v => u + v) _ _ _ _ (scal_vec _ hp) hzv) => i; rewrite mxE.
rewrite /=; have [q [hq q1 q2 q3]] := hmv (let: And3 h _ _ := hp in h) (let: And3 _ h _ := hp in h).
have hqv : is_vec q (M *m pk k) by case: hp => _ _ ep; split=> //; rewrite q3 ep.
rewrite hq /= (tdotE hp hqv) gt_eqF //.
have [x' -> hx'] : exists2 y, ew +%R x (scal *%R (rhok k / dot (pk k) (M *m pk k)) p) = Ok y & is_vec y (vx + alpha M P r0 k *: pk k).
  by apply: (@ew_vec _ (fun u v => u + v) _ _ _ _ hx (scal_vec _ hp)) => i; rewrite mxE.
have [r' -> hr'] : exists2 y, ew (fun a c => a - c) r (scal *%R (rhok k / dot (pk k) (M *m pk k)) q) = Ok y & is_vec y (rk k.+1).
  rewrite res_kS.
  by apply: (@ew_vec _ (fun u v => u - v) _ _ _ _ hr (scal_vec _ hqv)) => i; rewrite !mxE.
rewrite /=.
have [|i||y [vy [info [j [h1 h2 [h3 h4 h5] h6 h7]]]]] := IH k.+1 (Some (p, rhok k)) x' r' _ hx' hr'.
- by rewrite res_kS -hb mulmxDr opprD addrA -scalemxAr.
- by rewrite ltnS leq_eqVlt => /orP[/eqP ->|/hne].
- by exists p.
exists y, vy, info, j; rewrite -addSnnS; split=> //; apply: le_trans h7 _.
have [g1 _ _ _] := hinv.
by apply: (energy_step (rho := rhok k)); rewrite ?hb // dotC g1.
Qed.
End CgRun.
