(* C91: the power method of the documentation. *)
From Coq Require Import Reals.
From mathcomp Require Import all_ssreflect all_algebra ring.
From Verif Require Import PyPrelude Tensor Spec Numpy Inverse Estimators Cg Lanczos Power Props_Cg.
Set Implicit Arguments.
Unset Strict Implicit.
Unset Printing Implicit Defensive.
Import GRing.Theory Num.Theory Order.TTheory.
Local Open Scope ring_scope.

Section Generic.
Variables (F : rcfType) (n : nat) (A : scipy_op F) (M : 'M[F]_n).
Local Notation arr := (tensor F).
Local Notation vec := 'cV[F]_n.
Local Notation isv := (@is_vec F n).
Hypothesis A_rows : sp_rows A = n.
Hypothesis A_mul : vec_multiplies (sp_matvec A) n n (mxfun M).

(* a drawn vector, and a row of an array *)
Definition drawn (d : nat -> F) : vec := \col_i d i.
Definition row_of (X : arr) (r : nat) : vec := \col_i nth 0 (tdata X) (r * n + i).
(* Rayleigh quotient *)
Definition rayleigh (u : vec) : F := (u^T *m M *m u) 0 0 / (u^T *m u) 0 0.

Lemma dotE (u v : vec) : (u^T *m v) 0 0 = dot u v.
Proof. by rewrite mxE; apply: eq_bigr => i _; rewrite mxE. Qed.
Lemma rayleighE u : rayleigh u = dot u (M *m u) / dot u u.
Proof. by rewrite /rayleigh -mulmxA !dotE. Qed.

Lemma A_dot (a : arr) u : isv a u -> exists2 y, sp_dot A a = Ok y & isv y (M *m u).
Proof.
move=> [ha wa ea]; have [y [e1 e2 e3 e4]] := vec_shape_multiplies A_mul ha wa.
by exists y; [rewrite /sp_dot /ndim ha|split=> //; rewrite e4 ea].
Qed.

Lemma loopS tol bs B i ev (a : arr) u : isv a u -> vecs bs B ->
  exists2 a1, power_loop A tol bs i.+1 ev a =
    (if orth B u == 0 then Err ZeroDivisionError else
     let w := unitv (orth B u) in
     if M *m w == 0 then Err ZeroDivisionError else
     let t := dot w (M *m w) in
     if ev is Some e then if converged tol e t then Ok (ev, a1) else power_loop A tol bs i (Some t) a1
     else power_loop A tol bs i (Some t) a1)
  & orth B u != 0 -> M *m unitv (orth B u) != 0 -> isv a1 (unitv (M *m unitv (orth B u))).
Proof.
move=> ha hB; rewrite [power_loop _ _ _ _ _ _]/= /orthonormalize; have [b -> hb] := orth_fold ha hB.
rewrite /=; have [e|/eqP h] := eqVneq (orth B u) 0.
  by exists a; rewrite // /normalize (np_norm_vec hb) sqrt_dot0 e eqxx.
have [b1 -> h1] := normalize_vec hb (introN eqP h).
rewrite /=; have [y -> hy] := A_dot h1; rewrite /= (np_dot_vec h1 hy) /=.
have [e|h2] := eqVneq (M *m unitv (orth B u)) 0.
  by exists a; rewrite // /normalize (np_norm_vec hy) sqrt_dot0 e eqxx.
by have [a1 -> h3] := normalize_vec hy h2; exists a1.
Qed.

(* every eigenvalue is the quadratic form at a unit vector that results from
   orthonormalisation *)
Lemma loop_value tol bs B (Q : F -> Prop) : vecs bs B ->
  (forall u, orth B u != 0 -> Q (dot (unitv (orth B u)) (M *m unitv (orth B u)))) ->
  forall i ev (a : arr) u r, isv a u -> dot u u = 1 -> (if ev is Some e then Q e else (0 < i)%N) ->
  power_loop A tol bs i ev a = Ok r ->
  exists e v, [/\ r.1 = Some e, Q e, isv r.2 v & dot v v = 1].
Proof.
move=> hB hQ; elim=> [|i IH] ev a u r ha hu hev.
  by case: ev hev => // e he [<-]; exists e, u.
have [a1 -> h1] := loopS tol i ev ha hB; case: (eqVneq (orth B u) 0) => //= h2; case: (eqVneq (M *m unitv (orth B u)) 0) => //= h3.
have h4 := h1 h2 h3; have h5 := unitv_unit h3; have h6 := hQ _ h2.
case: ev hev => [e he|_].
  by case: ifP => _; [case=> <-; exists e; exists (unitv (M *m unitv (orth B u)))|exact: (IH (Some _) _ _ _ h4 h5 h6)].
exact: (IH (Some _) _ _ _ h4 h5 h6).
Qed.

Lemma start_vec d : isv (Tensor [:: sp_rows A] (mkseq d (sp_rows A))) (drawn d).
Proof.
rewrite A_rows; split=> //; first by rewrite /wf numel1 /= size_mkseq.
by apply/colP => i; rewrite !mxE /= nth_mkseq.
Qed.

(* the pairs in the order of computation *)
Lemma pairs_ok (max_iterations k : nat) tol draws st : (0 < max_iterations)%N ->
  power_pairs A tol max_iterations k draws = Ok st ->
  exists es B, [/\ st.1 = [seq Some e | e <- es], size es = k, vecs st.2 B, size B = k &
    forall c, (c < k)%N -> dot (nth 0 B c) (nth 0 B c) = 1 /\
      exists2 u, orth (take c B) u != 0 & nth 0 es c = dot (unitv (orth (take c B) u)) (M *m unitv (orth (take c B) u))].
Proof.
move=> hm; elim: k st => [|k IH] st; first by case=> <-; exists [::], [::].
rewrite /power_pairs -addn1 iotaD foldM_cat /= -/(power_pairs _ _ _ _ _).
case e: (power_pairs _ _ _ _ _) => [st'|] //=; have [es [B [h1 h2 h3 h4 h5]]] := IH _ e.
case en: (normalize _) => [a|] //=; have [h6 h7] := normalize_inv (start_vec _) en.
case el: (power_loop _ _ _ _ _ _) => [r|] //= [<-] /=.
pose Q e := exists2 u, orth B u != 0 & e = dot (unitv (orth B u)) (M *m unitv (orth B u)).
have hQ u : orth B u != 0 -> Q (dot (unitv (orth B u)) (M *m unitv (orth B u))) by exists u.
have [f [v [f1 [w hw f2] f3 f4]]] := @loop_value tol _ _ Q h3 hQ max_iterations None _ _ _ h7 (unitv_unit h6) hm el.
exists (rcons es f), (rcons B v); split.
- by rewrite h1 f1 map_rcons.
- by rewrite size_rcons h2 addn1.
- exact: vecs_rcons.
- by rewrite size_rcons h4 addn1.
move=> c; rewrite addn1 ltnS leq_eqVlt => /orP [/eqP ->|hc].
  by rewrite !nth_rcons h2 h4 ltnn eqxx -h4 -cats1 take_size_cat //; split=> //; exists w.
rewrite !nth_rcons h2 h4 hc -cats1 takel_cat ?h4 ?(ltnW hc) //; exact: h5.
Qed.

Lemma vecs_rev bs B : @vecs F n bs B -> vecs (rev bs) (rev B).
Proof. by elim: bs B => [|b bs IH] [|v B'] //= [hb hB]; rewrite !rev_cons; apply: vecs_rcons => //; apply: IH. Qed.

Lemma array_rows bs B : vecs bs B -> bs <> [::] ->
  [/\ tshape (np_array_rows bs) = [:: size bs; n], wf (np_array_rows bs) &
    forall r, (r < size bs)%N -> row_of (np_array_rows bs) r = nth 0 B r].
Proof.
move=> h h0; have hs c : (c < size bs)%N -> size (tdata (nth (Tensor [::] [::]) bs c)) = n.
  by rewrite (vecs_size h) => /(vecs_nth h) [s w _]; move/eqP: w; rewrite s numel1.
have e : tshape (np_array_rows bs) = [:: size bs; n].
  by rewrite /=; case: (bs) (B) h0 h {hs} => // b bs' [|v B'] // _ [[-> _ _] _].
have sh : shape [seq tdata v | v <- bs] = nseq (size bs) n.
  apply: (@eq_from_nth _ 0%N); first by rewrite /shape !size_map size_nseq.
  move=> c; rewrite /shape !size_map => hc.
  by rewrite (nth_map [::]) ?size_map // (nth_map (Tensor [::] [::])) // hs // nth_nseq hc.
have sz : size (flatten [seq tdata v | v <- bs]) = (size bs * n)%N.
  by rewrite size_flatten sh sumn_nseq mulnC.
split=> //; first by rewrite /wf e /numel /= muln1 sz.
move=> r hr; apply/colP => i; rewrite !mxE /=.
have hrB : (r < size B)%N by rewrite -(vecs_size h).
have [s w <-] := vecs_nth h hrB.
rewrite mxE nth_flatten sh; have hi := ltn_ord i.
have [e1 e2] : reshape_index (nseq (size bs) n) (r * n + i) = r /\ reshape_offset (nseq (size bs) n) (r * n + i) = i.
  have li : (i < nth 0 (nseq (size bs) n) r)%N by rewrite nth_nseq hr.
  have := flatten_indexKl li; have := flatten_indexKr li.
  by rewrite /flatten_index take_nseq ?(ltnW hr) // sumn_nseq mulnC => -> ->.
by rewrite e1 e2 (nth_map (Tensor [::] [::])).
Qed.

(* Shapes, unit vectors, and eigenvalues as Rayleigh quotients of vectors orthogonal to
   the vectors computed before, if these are orthonormal.  Row r of the results is
   number k - 1 - r in the order of computation. *)
Theorem C91_pairs (max_iterations k : nat) tol draws evals evecs : (0 < max_iterations)%N -> (0 < k)%N ->
  power_method A tol max_iterations k draws = Ok (evals, evecs) ->
  [/\ tshape evals = [:: k], tshape evecs = [:: k; n] & forall r, (r < k)%N ->
    ((row_of evecs r)^T *m row_of evecs r) 0 0 = 1 /\
    exists e w, [/\ nth None (tdata evals) r = Some e, w != 0, e = rayleigh w &
      (forall i j, (r < i < k)%N -> (r < j < k)%N -> ((row_of evecs i)^T *m row_of evecs j) 0 0 = (i == j)%:R) ->
      forall i, (r < i < k)%N -> (w^T *m row_of evecs i) 0 0 = 0]].
Proof.
move=> hm hk; rewrite /power_method; case ep: (power_pairs _ _ _ _ _) => [st|] //= [<- <-].
have [es [B [h1 h2 h3 h4 h5]]] := pairs_ok hm ep.
have hv := vecs_rev h3.
have sk : size (rev st.2) = k by rewrite size_rev (vecs_size h3).
have h0 : rev st.2 <> [::] by move=> e; move: hk; rewrite -sk e.
have [a1 _ a3] := array_rows hv h0; rewrite sk in a1 a3; split=> // r hr.
have row i : (i < k)%N -> row_of (np_array_rows (rev st.2)) i = nth 0 B (k - i.+1).
  by move=> hi; rewrite a3 // nth_rev h4.
have lt i : (i < k)%N -> (k - i.+1 < k)%N by move=> hi; rewrite ltn_subrL /=; apply: leq_ltn_trans hi.
rewrite row // dotE; have [hu [u hw he]] := h5 _ (lt r hr); split=> //.
set B' := take _ _ in hw he.
exists (nth 0 es (k - r.+1)), (orth B' u); split=> //.
- by rewrite h1 /= nth_rev ?size_map h2 // (nth_map 0) ?h2 ?lt.
- by rewrite he unitv_quad // rayleighE.
move=> ho i /andP [hri hik]; rewrite row // dotE.
have sB : size B' = (k - r.+1)%N by rewrite size_takel // h4 leq_subr.
have ix j : (j < k - r.+1)%N -> (r < k - j.+1 < k)%N.
  move=> hj; rewrite lt ?andbT; last by apply: leq_trans hj _; apply: leq_subr.
  by move: hj; rewrite !ltn_subRL !addSn addnC.
have kk j : (j < k)%N -> (k - (k - j.+1).+1)%N = j by move=> hj; rewrite subnSK // subKn // ltnW.
apply: orth_ortho => [c d|].
  rewrite sB => hc hd; rewrite !nth_take //.
  have [/andP [c1 c2] /andP [d1 d2]] := (ix c hc, ix d hd).
  have := ho _ _ (ix c hc) (ix d hd); rewrite !row // dotE !kk ?(leq_trans hc) ?(leq_trans hd) ?leq_subr // => ->.
  have [->|hcd] := eqVneq c d; first by rewrite eqxx.
  case: eqVneq => // e; case/eqP: hcd.
  by have := congr1 (fun y => (k - y.+1)%N) e; rewrite !kk // ?(leq_trans hc) ?(leq_trans hd) ?leq_subr.
have hi : (k - i.+1 < k - r.+1)%N by rewrite ltn_sub2l // (leq_ltn_trans hri hik).
have e : nth 0 B (k - i.+1) = nth 0 B' (k - i.+1) by rewrite /B' nth_take.
by rewrite e; apply: mem_nth; rewrite sB.
Qed.

(* Bounds on the quadratic form bound all eigenvalues ... *)
Theorem C91_within (lo hi : F) (max_iterations k : nat) tol draws evals evecs : (0 < max_iterations)%N ->
  (forall v : vec, lo * (v^T *m v) 0 0 <= (v^T *m M *m v) 0 0 <= hi * (v^T *m v) 0 0) ->
  power_method A tol max_iterations k draws = Ok (evals, evecs) ->
  forall r, (r < k)%N -> exists2 e, nth None (tdata evals) r = Some e & lo <= e <= hi.
Proof.
move=> hm hb hp r hr; have hk : (0 < k)%N by apply: leq_ltn_trans hr.
have [_ _ h] := C91_pairs hm hk hp; have [_ [e [w [h1 h2 he _]]]] := h r hr.
exists e => //; rewrite he /rayleigh {he}.
have w0 : 0 < (w^T *m w) 0 0 by rewrite dotE lt_neqAle dot_ge0 eq_sym dot_eq0 h2.
by rewrite ler_pdivl_mulr // ler_pdivr_mulr.
Qed.

(* ... and if the vectors computed before are orthonormal, bounds on their orthogonal
   complement bound the next eigenvalue. *)
Theorem C91_deflation (lo hi : F) (max_iterations k : nat) tol draws evals evecs r : (0 < max_iterations)%N -> (r < k)%N ->
  power_method A tol max_iterations k draws = Ok (evals, evecs) ->
  (forall i j, (r < i < k)%N -> (r < j < k)%N -> ((row_of evecs i)^T *m row_of evecs j) 0 0 = (i == j)%:R) ->
  (forall v : vec, (forall i, (r < i < k)%N -> (v^T *m row_of evecs i) 0 0 = 0) ->
    lo * (v^T *m v) 0 0 <= (v^T *m M *m v) 0 0 <= hi * (v^T *m v) 0 0) ->
  exists2 e, nth None (tdata evals) r = Some e & lo <= e <= hi.
Proof.
move=> hm hr hp ho hb; have hk : (0 < k)%N by apply: leq_ltn_trans hr.
have [_ _ h] := C91_pairs hm hk hp; have [_ [e [w [h1 h2 he h3]]]] := h r hr.
exists e => //; rewrite he /rayleigh {he}.
have w0 : 0 < (w^T *m w) 0 0 by rewrite dotE lt_neqAle dot_ge0 eq_sym dot_eq0 h2.
by rewrite ler_pdivl_mulr // ler_pdivr_mulr //; apply: hb; apply: h3.
Qed.

(* the first pair *)
Local Notation powers x j := (iter j (mulmx M) x).
Lemma rayleigh_unit u : u != 0 -> dot (unitv u) (M *m unitv u) = rayleigh u.
Proof. by move=> h; rewrite unitv_quad // rayleighE. Qed.

Lemma loop_first tol (x : vec) i j (a : arr) : isv a (unitv (powers x j.+1)) ->
  (forall m, (m <= j.+1 + i)%N -> powers x m != 0) ->
  exists m a', [/\ power_loop A tol [::] i (Some (rayleigh (powers x j))) a = Ok (Some (rayleigh (powers x m)), a'),
    (j <= m <= j + i)%N,
    forall l, (j <= l < m)%N -> ~~ converged tol (rayleigh (powers x l)) (rayleigh (powers x l.+1)) &
    m = (j + i)%N /\ isv a' (unitv (powers x m.+1)) \/
    [/\ (m < j + i)%N, converged tol (rayleigh (powers x m)) (rayleigh (powers x m.+1)) & isv a' (unitv (powers x m.+2))]].
Proof.
elim: i j a => [|i IH] j a ha hx.
  exists j, a; split=> //; first by rewrite addn0 leqnn.
    by move=> l /andP [h1]; rewrite ltnNge h1.
  by left; rewrite addn0.
have u1 : powers x j.+1 != 0 by apply: hx; rewrite leq_addr.
have u2 : powers x j.+2 != 0 by apply: hx; rewrite addnS ltnS leq_addr.
have uu : unitv (powers x j.+1) != 0 by apply: dot_unit_neq0; apply: unitv_unit.
have [a1 -> h1] := @loopS tol [::] [::] i (Some (rayleigh (powers x j))) _ _ ha I.
move: h1; rewrite /orth /= (negbTE uu) -/(powers x j.+1) unitvV // => h1.
have u3 : M *m unitv (powers x j.+1) != 0 by apply: mul_unitv_neq0.
have {h1} h1 := h1 isT u3; rewrite (negbTE u3) rayleigh_unit //.
rewrite unitv_mul // in h1.
case: ifP => hc.
  exists j, a1; split=> //; first by rewrite leqnn leq_addr.
    by move=> l /andP [l1]; rewrite ltnNge l1.
  by right; rewrite -addSnnS ltnS leq_addr.
have [|m [a' [m1 /andP [m2 m3] m4 m5]]] := IH j.+1 a1 h1; first by move=> m hm; apply: hx; rewrite addnS -addSn.
exists m, a'; split=> //.
- by rewrite (ltnW m2) addnS -addSn.
- move=> l /andP []; rewrite leq_eqVlt => /orP [/eqP <- _|l1 l2]; first by rewrite hc.
  by apply: m4; rewrite l1.
by rewrite addnS -addSn.
Qed.

(* For k = 1 the result is the Rayleigh quotient of a power of the matrix applied to
   the start vector, and the vector belongs to a higher power. *)
Theorem C91_first (max_iterations : nat) tol draws : (0 < max_iterations)%N ->
  let x := drawn (draws 0%N) in
  (forall m, (m <= max_iterations)%N -> powers x m != 0) ->
  let e m := rayleigh (powers x m) in
  let close a b := `|a - b| / (`|a| + 1 / 10%:R ^+ 6) < tol in
  exists m p evecs, [/\ power_method A tol max_iterations 1 draws = Ok (Tensor [:: 1%N] [:: Some (e m)], evecs),
    (m < max_iterations)%N, forall l, (l < m)%N -> ~~ close (e l) (e l.+1),
    if m.+1 == max_iterations then p = m.+1 else close (e m) (e m.+1) /\ p = m.+2 &
    tshape evecs = [:: 1%N; n] /\
    row_of evecs 0 = (Num.sqrt (((powers x p)^T *m powers x p) 0 0))^-1 *: powers x p].
Proof.
move=> hm x hx e close; rewrite /power_method /power_pairs /=.
have x0 : x != 0 by apply: (hx 0%N).
have [a -> ha] := normalize_vec (start_vec (draws 0%N)) x0; rewrite /=.
case: max_iterations hm hx => // mi _ hx.
have uu : unitv x != 0 by apply: dot_unit_neq0; apply: unitv_unit.
have [a1 -> h1] := @loopS tol [::] [::] mi None _ _ ha I.
move: h1; rewrite /orth /= (negbTE uu) unitvV // => h1.
have x1 : M *m x != 0 by apply: (hx 1%N).
have u3 : M *m unitv x != 0 by apply: mul_unitv_neq0.
have {h1} h1 := h1 isT u3; rewrite (negbTE u3) rayleigh_unit //.
rewrite unitv_mul // in h1.
have [|m [a' [m1 /andP [_ m2] m3 m4]]] := @loop_first tol x mi 0 a1 h1; first by move=> m hm'; apply: hx.
rewrite m1 /=.
have fin p : isv a' (unitv (powers x p)) -> tshape (np_array_rows [:: a']) = [:: 1%N; n] /\
    row_of (np_array_rows [:: a']) 0 = (Num.sqrt (((powers x p)^T *m powers x p) 0 0))^-1 *: powers x p.
  move=> hv; have [||f1 _ f3] := @array_rows [:: a'] [:: unitv (powers x p)] => //.
  by split=> //; rewrite f3 // dotE.
case: m4 => [[e1 hv]|[e1 e2 hv]].
  exists m, m.+1, (np_array_rows [:: a']); split=> //; last exact: fin.
  by rewrite e1 eqxx.
exists m, m.+2, (np_array_rows [:: a']); split=> //; last exact: fin.
by rewrite ltn_eqF.
Qed.

(* The documented shape [D, k] of the eigenvectors is the transposed one. *)
Theorem C91_shape_refuted (max_iterations k : nat) tol draws evals evecs : (0 < max_iterations)%N -> (0 < k)%N -> k <> n ->
  power_method A tol max_iterations k draws = Ok (evals, evecs) -> tshape evecs <> [:: n; k].
Proof. by move=> hm hk hkn hp; have [_ -> _] := C91_pairs hm hk hp; case. Qed.

(* ---- start vectors that are eigenvectors ---- *)
Lemma loop_eigen tol bs B (u : vec) lam : vecs bs B -> dot u u = 1 -> M *m u = lam *: u -> 0 < lam ->
  (forall b, b \in B -> dot u b = 0) -> forall i ev (a : arr), isv a u -> (if ev is Some e then e = lam else (0 < i)%N) ->
  exists2 a', power_loop A tol bs i ev a = Ok (Some lam, a') & isv a' u.
Proof.
move=> hB hu he hl ho; have oB : orth B u = u.
  by elim: (B) ho => //= b B' IH h; rewrite h ?mem_head // scale0r subr0 IH // => c hc; apply: h; rewrite inE hc orbT.
have u0 := dot_unit_neq0 hu.
have uu : unitv u = u by rewrite /unitv hu sqrtr1 invr1 scale1r.
have m0 : M *m u != 0 by rewrite he scaler_eq0 negb_or gt_eqF.
elim=> [|i IH] ev a ha hev; first by case: ev hev => // e ->; exists a.
have [a1 -> h1] := loopS tol i ev ha hB; move: h1; rewrite oB uu /= (negbTE u0) (negbTE m0) => h1.
have {h1} h1 := h1 isT isT; rewrite he unitvZ // uu in h1.
rewrite he dotZr hu mulr1; case: ev hev => [e ->|_]; last exact: IH.
by case: ifP => _; [exists a1|apply: IH].
Qed.

(* Start vectors that are orthogonal eigenvectors are never left: their eigenvalues are
   returned, whatever their sizes are, last one first. *)
Theorem C91_eigenvectors_stay (max_iterations k : nat) tol draws (lam : nat -> F) : (0 < max_iterations)%N ->
  (forall c, (c < k)%N -> M *m drawn (draws c) = lam c *: drawn (draws c)) -> (forall c, (c < k)%N -> 0 < lam c) ->
  (forall c d, (c < k)%N -> (d < k)%N -> ((drawn (draws c))^T *m drawn (draws d)) 0 0 = (c == d)%:R) ->
  exists V, power_method A tol max_iterations k draws = Ok (Tensor [:: k] (rev (mkseq (fun c => Some (lam c)) k)), V) /\
    forall r, (r < k)%N -> row_of V r = drawn (draws (k - r.+1)%N).
Proof.
move=> hm; rewrite /power_method => he hp ho.
suff [bs e hv] : exists2 bs, power_pairs A tol max_iterations k draws = Ok (mkseq (fun c => Some (lam c)) k, bs) &
    vecs bs (mkseq (fun c => drawn (draws c)) k).
  rewrite e /=; eexists; split; first by [].
  move=> r hr; have sk : size bs = k by rewrite (vecs_size hv) size_mkseq.
  have hv' := vecs_rev hv; have h0 : rev bs <> [::] by move=> e0; move: hr; rewrite -sk -size_rev e0.
  have [_ _ ->] := array_rows hv' h0; last by rewrite size_rev sk.
  by rewrite nth_rev size_mkseq // nth_mkseq // ltn_subrL /=; apply: leq_ltn_trans hr.
elim: k he hp ho => [|k IH] he hp ho; first by exists [::].
have [c hc|c hc|c d hc hd|bs e hB] := IH; first by apply: he; apply: ltnW.
  by apply: hp; apply: ltnW.
  by apply: ho; apply: ltnW.
move: e; rewrite /power_pairs -addn1 iotaD foldM_cat /= -/(power_pairs _ _ _ _ _) => -> /=.
have u1 : dot (drawn (draws k)) (drawn (draws k)) = 1 by rewrite -dotE ho ?eqxx.
have [a -> ha] := normalize_vec (start_vec (draws k)) (dot_unit_neq0 u1).
rewrite /unitv u1 sqrtr1 invr1 scale1r in ha; rewrite /=.
have hb b : b \in mkseq (fun c => drawn (draws c)) k -> dot (drawn (draws k)) b = 0.
  by case/mapP=> c; rewrite mem_iota /= => hc ->; rewrite -dotE ho ?gtn_eqF // ltnW.
have [a' -> ha'] := @loop_eigen tol _ _ _ _ hB u1 (he k (ltnSn k)) (hp k (ltnSn k)) hb max_iterations None a ha hm.
exists (rcons bs a') => /=; first by rewrite addn1 seq.mkseqS.
by rewrite addn1 seq.mkseqS; apply: vecs_rcons.
Qed.

(* Without iterations there are no eigenvalues. *)
Theorem C91_no_iterations (k : nat) tol draws : (forall c, (c < k)%N -> drawn (draws c) != 0) ->
  exists V, power_method A tol 0 k draws = Ok (Tensor [:: k] (nseq k None), V).
Proof.
rewrite /power_method => hd.
suff [bs e] : exists bs, power_pairs A tol 0 k draws = Ok (nseq k None, bs) by rewrite e /= rev_nseq; eexists.
elim: k hd => [|k IH] hd; first by exists [::].
have [c hc|bs] := IH; first by apply: hd; apply: ltnW.
rewrite /power_pairs -addn1 iotaD foldM_cat /= -/(power_pairs _ _ _ _ _) => -> /=.
have [a -> ha] := normalize_vec (start_vec (draws k)) (hd k (ltnSn k)).
by exists (rcons bs a); rewrite /= addn1 -[k.+1]addn1 nseqD cats1.
Qed.

(* ---- positive semi-definite matrices: quotients do not decrease ---- *)
Lemma cauchy (N : 'M[F]_n) (u v : vec) : N^T = N -> (forall w : vec, 0 <= dot w (N *m w)) ->
  dot u (N *m v) ^+ 2 <= dot u (N *m u) * dot v (N *m v).
Proof.
move=> sN pN; set a := dot u (N *m u); set b := dot u (N *m v); set c := dot v (N *m v).
have q t : 0 <= a + 2%:R * t * b + t ^+ 2 * c.
  have := pN (u + t *: v); rewrite mulmxDr -scalemxAr !(dotDl, dotDr, dotZl, dotZr) -/a -/b -/c (dot_sym v u sN) -/b.
  by congr (0 <= _); ring.
have c0 : 0 <= c by apply: pN.
have [e|cn] := eqVneq c 0.
  rewrite e mulr0; have [->|bn] := eqVneq b 0; first by rewrite expr0n.
  have := q (- (a + 1) / (2%:R * b)); rewrite e mulr0 addr0.
  have -> : a + 2%:R * (- (a + 1) / (2%:R * b)) * b = -1.
    by field; rewrite bn ?andbT; rewrite ?(pnatr_eq0 F 2).
  by rewrite oppr_ge0 leNgt ltr01.
have cp : 0 < c by rewrite lt_neqAle eq_sym cn.
have := q (- b / c); have -> : a + 2%:R * (- b / c) * b + (- b / c) ^+ 2 * c = (a * c - b ^+ 2) / c by field.
by rewrite pmulr_lge0 ?invr_gt0 // subr_ge0.
Qed.

Hypothesis M_sym : M^T = M.

(* iterates of a symmetric matrix do not vanish unless the first one does *)
Lemma powers_nz (x : vec) : M *m x != 0 -> forall m, powers x m != 0.
Proof.
move=> h m; elim: m {-2}m (leqnn m) => [|m IH] [|[|k]] hk //; first 2 last.
- have h1 := IH k.+1 hk; apply: contraNneq h1 => e; rewrite -dot_eq0 /=.
  by rewrite (dot_sym _ _ M_sym) -[M *m (M *m _)]/(powers x k.+2) e dotC dot0l.
all: by apply: contraNneq h => /= ->; rewrite mulmx0.
Qed.

Lemma rayleigh_grows u : (forall v : vec, 0 <= (v^T *m M *m v) 0 0) -> M *m u != 0 -> rayleigh u <= rayleigh (M *m u).
Proof.
move=> psd h; have pM w : 0 <= dot w (M *m w) by rewrite -dotE mulmxA.
have p1 (w : vec) : 0 <= dot w (1%:M *m w) by rewrite mul1mx dot_ge0.
have u0 : u != 0 by apply: contraNneq h => ->; rewrite mulmx0.
rewrite !rayleighE; set a0 := dot u u; set a1 := dot u (M *m u); set a2 := dot (M *m u) (M *m u).
set a3 := dot (M *m u) (M *m (M *m u)).
have a0p : 0 < a0 by rewrite lt_neqAle dot_ge0 eq_sym dot_eq0 u0.
have a2p : 0 < a2 by rewrite lt_neqAle dot_ge0 eq_sym dot_eq0 h.
have c1 : a1 ^+ 2 <= a0 * a2.
  by have := @cauchy 1%:M u (M *m u) (trmx1 _ _) p1; rewrite !mul1mx.
have c2 : a2 ^+ 2 <= a1 * a3.
  by have := @cauchy M u (M *m u) M_sym pM; rewrite (dot_sym u (M *m u) M_sym).
have a13 : 0 < a1 * a3 by apply: lt_le_trans c2; rewrite exprn_gt0.
have a1p : 0 < a1 by rewrite lt_neqAle pM andbT eq_sym; apply: contraTneq a13 => ->; rewrite mul0r ltxx.
rewrite ler_pdivr_mulr // mulrAC ler_pdivl_mulr // -(ler_pmul2r (mulr_gt0 a1p a2p)).
have -> : a1 * a2 * (a1 * a2) = a1 ^+ 2 * a2 ^+ 2 by ring.
have -> : a3 * a0 * (a1 * a2) = (a0 * a2) * (a1 * a3) by ring.
by rewrite ler_pmul ?sqr_ge0.
Qed.

(* With more iterations or a smaller tolerance the eigenvalue of a positive
   semi-definite matrix does not become smaller, and the returned vector is at least as
   good as the returned eigenvalue. *)
Theorem C91_more_iterations (max_iterations max_iterations' : nat) tol tol' draws :
  (0 < max_iterations <= max_iterations')%N -> tol' <= tol ->
  (forall v : vec, 0 <= (v^T *m M *m v) 0 0) ->
  M *m drawn (draws 0%N) != 0 ->
  exists e e' V V', [/\ power_method A tol max_iterations 1 draws = Ok (Tensor [:: 1%N] [:: Some e], V),
    power_method A tol' max_iterations' 1 draws = Ok (Tensor [:: 1%N] [:: Some e'], V'), e <= e' &
    e <= ((row_of V 0)^T *m M *m row_of V 0) 0 0].
Proof.
move=> /andP [h0 hle] ht psd; set x := drawn _ => hx0.
have hx m : (m <= max_iterations')%N -> powers x m != 0 by move=> _; apply: powers_nz.
have [|m [p [V [e1 m1 m2 m3 [_ m5]]]]] := @C91_first max_iterations tol draws h0.
  by move=> m hm; apply: hx; apply: leq_trans hle.
have [|m' [p' [V' [e1' m1' m2' m3' _]]]] := @C91_first max_iterations' tol' draws (leq_trans h0 hle).
  by move=> m' hm'; apply: hx.
rewrite -/x in e1 m2 m3 m5 e1' m2' m3'.
have grow i j : (i <= j <= max_iterations')%N -> rayleigh (powers x i) <= rayleigh (powers x j).
  move=> /andP [/subnKC <-]; elim: (j - i)%N => [|d IH]; first by rewrite addn0.
  rewrite addnS => hd; apply: le_trans (IH (ltnW hd)) _; apply: rayleigh_grows => //; exact: (hx (i + d).+1).
exists (rayleigh (powers x m)), (rayleigh (powers x m')), V, V'; split=> //.
  apply: grow; rewrite (ltnW m1') andbT leqNgt; apply/negP => hlt.
  have := m2 _ hlt; move: m3'; case: eqP => [e _ _|_ [hc _]].
    by move: (leq_trans (leq_ltn_trans hlt m1) hle); rewrite -e ltnn.
  by rewrite (lt_le_trans hc ht).
have hp : (m <= p <= max_iterations')%N.
  move: m3; case: eqP => [e ->|ne [_ ->]]; first by rewrite leqnSn e.
  rewrite (leq_trans (leqnSn m)) //=; apply: leq_trans hle; rewrite ltn_neqAle m1 andbT; exact/eqP.
have p0 : powers x p != 0 by apply: hx; case/andP: hp.
by rewrite m5 -mulmxA !dotE -/(unitv (powers x p)) rayleigh_unit // grow.
Qed.

(* ---- convergence ---- *)
Section Converge.
Variables (U : 'M[F]_n) (lam : 'I_n -> F) (i0 : 'I_n) (rho : F).
Hypothesis U_orth : U^T *m U = 1%:M.
Hypothesis U_eig : forall i, M *m col i U = lam i *: col i U.
Hypothesis lam0 : lam i0 != 0.
Hypothesis rho_ge0 : 0 <= rho.
Hypothesis dominant : forall i, i != i0 -> `|lam i| <= rho * `|lam i0|.

Definition coef (i : 'I_n) (w : vec) : F := dot (col i U) w.
Lemma coefE i w : coef i w = (U^T *m w) i 0.
Proof. by rewrite /coef mxE; apply: eq_bigr => j _; rewrite !mxE. Qed.
Lemma coef_dot v w : dot v w = \sum_i coef i v * coef i w.
Proof.
rewrite -dotE -[v in v^T]mul1mx -(mulmx1C U_orth) -mulmxA trmx_mul -mulmxA mxE.
by apply: eq_bigr => i _; rewrite mxE !coefE.
Qed.
Lemma coef_mul i w : coef i (M *m w) = lam i * coef i w.
Proof. by rewrite /coef (dot_sym _ _ M_sym) U_eig dotZr dotC. Qed.
Lemma coef_powers i m x : coef i (powers x m) = lam i ^+ m * coef i x.
Proof. by elim: m => [|m IH]; rewrite ?expr0 ?mul1r //= coef_mul IH mulrA exprS. Qed.

Lemma rayleigh_error m (x : vec) : coef i0 x != 0 ->
  `|rayleigh (powers x m) - lam i0| <=
    (1 + rho) * `|lam i0| * rho ^+ (2 * m) * ((dot x x - coef i0 x ^+ 2) / coef i0 x ^+ 2).
Proof.
move=> hc; set c := fun i => coef i x.
pose S := \sum_i (lam i ^+ m * c i) ^+ 2.
have eS : dot (powers x m) (powers x m) = S.
  by rewrite coef_dot; apply: eq_bigr => i _; rewrite coef_powers expr2.
have eN : dot (powers x m) (M *m powers x m) = \sum_i lam i * (lam i ^+ m * c i) ^+ 2.
  by rewrite coef_dot; apply: eq_bigr => i _; rewrite coef_mul coef_powers mulrCA expr2.
have l0 : 0 < (lam i0 ^+ m * c i0) ^+ 2 by rewrite lt_neqAle sqr_ge0 eq_sym sqrf_eq0 mulf_neq0 // expf_neq0.
have Sge : (lam i0 ^+ m * c i0) ^+ 2 <= S.
  by rewrite /S (bigD1 i0) //= ler_addl; apply: sumr_ge0 => i _; apply: sqr_ge0.
have Sp : 0 < S by apply: lt_le_trans Sge.
rewrite rayleighE eS eN.
have -> : (\sum_i lam i * (lam i ^+ m * c i) ^+ 2) / S - lam i0 =
    (\sum_(i | i != i0) (lam i - lam i0) * (lam i ^+ m * c i) ^+ 2) / S.
  have Sn : S != 0 by rewrite gt_eqF.
  rewrite -[X in _ - X = _](mulfK Sn) -mulrBl; congr (_ / _).
  rewrite /S mulr_sumr -sumrB (bigD1 i0) //= subrr add0r; apply: eq_bigr => i _; ring.
rewrite normrM normfV (gtr0_norm Sp) ler_pdivr_mulr //.
have eT : dot x x - c i0 ^+ 2 = \sum_(i | i != i0) c i ^+ 2.
  by rewrite coef_dot (bigD1 i0) //= -/(c i0) expr2 addrAC subrr add0r; apply: eq_bigr => i _; rewrite expr2.
have num : `|\sum_(i | i != i0) (lam i - lam i0) * (lam i ^+ m * c i) ^+ 2| <=
    (1 + rho) * `|lam i0| * rho ^+ (2 * m) * (lam i0 ^+ m) ^+ 2 * (dot x x - c i0 ^+ 2).
  apply: le_trans (ler_norm_sum _ _ _) _.
  rewrite eT mulr_sumr; apply: ler_sum => i hi.
  rewrite normrM exprMn normrM [`|c i ^+ 2|]ger0_norm ?sqr_ge0 // mulrA ler_wpmul2r ?sqr_ge0 //.
  have d1 : `|lam i - lam i0| <= (1 + rho) * `|lam i0|.
    by apply: le_trans (ler_norm_sub _ _) _; rewrite mulrDl mul1r addrC ler_add2l; apply: dominant.
  rewrite -mulrA; apply: ler_pmul => //; rewrite ?normr_ge0 //.
  rewrite ger0_norm ?sqr_ge0 // -!exprM [(m * 2)%N]mulnC -exprMn !exprM.
  have -> : (rho * lam i0) ^+ 2 = (rho * `|lam i0|) ^+ 2 by rewrite !exprMn real_normK ?num_real.
  rewrite ler_expn2r ?nnegrE ?sqr_ge0 //.
  by rewrite -[lam i ^+ 2]real_normK ?num_real // ler_expn2r ?nnegrE ?mulr_ge0 ?normr_ge0 //; apply: dominant.
apply: le_trans num _.
have T0 : 0 <= dot x x - c i0 ^+ 2.
  by rewrite eT; apply: sumr_ge0 => i _; apply: sqr_ge0.
set K := (1 + rho) * `|lam i0| * rho ^+ (2 * m).
have K0 : 0 <= K by rewrite /K mulr_ge0 ?exprn_ge0 // mulr_ge0 ?normr_ge0 // addr_ge0 ?ler01.
have -> : K * (lam i0 ^+ m) ^+ 2 * (dot x x - c i0 ^+ 2) =
    K * ((dot x x - c i0 ^+ 2) / c i0 ^+ 2) * (lam i0 ^+ m * c i0) ^+ 2.
  by rewrite exprMn; field.
by apply: ler_wpmul2l => //; rewrite mulr_ge0 // divr_ge0 // sqr_ge0.
Qed.

(* Without early stopping the first eigenvalue converges linearly to the eigenvalue of
   largest magnitude, with the squared ratio of the magnitudes as rate. *)
Theorem C91_converges (max_iterations : nat) tol draws : (0 < max_iterations)%N -> tol <= 0 ->
  let x := drawn (draws 0%N) in let c := ((col i0 U)^T *m x) 0 0 in
  c != 0 ->
  exists e V, power_method A tol max_iterations 1 draws = Ok (Tensor [:: 1%N] [:: Some e], V) /\
    `|e - lam i0| <= (1 + rho) * `|lam i0| * rho ^+ (2 * max_iterations.-1) * (((x^T *m x) 0 0 - c ^+ 2) / c ^+ 2).
Proof.
move=> hm ht x c; rewrite /c dotE -/(coef i0 x) => hc.
have nz m : powers x m != 0.
  apply/eqP => e; have := coef_powers i0 m x; rewrite e coefE mulmx0 mxE => /esym/eqP.
  by rewrite mulf_eq0 (negbTE hc) orbF expf_eq0 (negbTE lam0) andbF.
have [//|m [p [V [e1 m1 m2 m3 _]]]] := @C91_first max_iterations tol draws hm.
exists (rayleigh (powers x m)), V; split=> //.
have -> : max_iterations.-1 = m.
  move: m3; case: eqP => [<- //|_ [hlt _]]; exfalso; move: hlt; rewrite ltNge => /negP; apply; apply: le_trans ht _.
  by rewrite divr_ge0 ?normr_ge0 // addr_ge0 ?normr_ge0 // divr_ge0 ?ler01 ?exprn_ge0 ?ler0n.
by rewrite dotE; apply: rayleigh_error.
Qed.
End Converge.
End Generic.
Print Assumptions C91_pairs.
Print Assumptions C91_within.
Print Assumptions C91_deflation.
Print Assumptions C91_first.
Print Assumptions C91_more_iterations.
Print Assumptions C91_converges.
Print Assumptions C91_shape_refuted.
Print Assumptions C91_eigenvectors_stay.
Print Assumptions C91_no_iterations.

(* ---- a diagonal matrix with entries 2 and 1 ---- *)
Section Two.
Variable F : rcfType.
Let A : scipy_op F := diag_op [:: 2%:R; 1].
Let M : 'M[F]_2 := diag_mx (\row_(i < 2) nth 0 [:: 2%:R; 1] i).
Let A_mul : vec_multiplies (sp_matvec A) 2 2 (mxfun M) := @diag_op_multiplies F [:: 2%:R; 1].
Definition pair (a b : F) : nat -> F := nth 0 [:: a; b].

Lemma M_pair a b : M *m drawn 2 (pair a b) = drawn 2 (pair (2%:R * a) b).
Proof. by apply/colP => i; rewrite mul_diag_mx !mxE; case: i => [[|[|//]] hi] /=; rewrite ?mul1r. Qed.
Lemma dot_pair a b c d : ((drawn 2 (pair a b))^T *m drawn 2 (pair c d)) 0 0 = a * c + b * d.
Proof. by rewrite mxE big_ord_recl big_ord1 !mxE. Qed.
Lemma quad_pair a b : ((drawn 2 (pair a b))^T *m M *m drawn 2 (pair a b)) 0 0 = 2%:R * a ^+ 2 + b ^+ 2.
Proof. by rewrite -mulmxA M_pair dot_pair mulrCA -!expr2. Qed.
Lemma M_tr : M^T = M. Proof. exact: tr_diag_mx. Qed.
Lemma pair_neq0 a b : (drawn 2 (pair a b) != 0) = (a != 0) || (b != 0).
Proof.
rewrite -negb_and; congr negb; apply/eqP/andP => [e|[/eqP -> /eqP ->]].
  by split; [have := congr1 (fun v : 'cV_2 => v 0 0) e|have := congr1 (fun v : 'cV_2 => v (lift ord0 ord0) 0) e];
    rewrite !mxE => h; apply/eqP; exact: h.
by apply/colP => i; rewrite !mxE; case: i => [[|[|//]] hi].
Qed.
Lemma powers_pair m a b : iter m (mulmx M) (drawn 2 (pair a b)) = drawn 2 (pair (2%:R ^+ m * a) b).
Proof. by elim: m => [|m IH]; rewrite ?expr0 ?mul1r //= IH M_pair exprS mulrA. Qed.
Lemma powers_neq0 m a b : (a != 0) || (b != 0) -> iter m (mulmx M) (drawn 2 (pair a b)) != 0.
Proof. by rewrite powers_pair pair_neq0 mulf_eq0 expf_eq0 (pnatr_eq0 F 2) andbF. Qed.

(* The eigenvalues need not be sorted in descending order, nor in ascending order. *)
Theorem C91_order_refuted (max_iterations : nat) tol : (0 < max_iterations)%N ->
  (exists draws V, power_method A tol max_iterations 2 draws = Ok (Tensor [:: 2%N] [:: Some 1; Some 2%:R], V)) /\
  exists draws V, power_method A tol max_iterations 2 draws = Ok (Tensor [:: 2%N] [:: Some 2%:R; Some 1], V).
Proof.
move=> hm; split.
  pose draws c := if c == 0%N then pair 1 0 else pair 0 1; exists draws.
  have [] := @C91_eigenvectors_stay F 2 A M erefl A_mul max_iterations 2 tol draws (fun c => if c == 0%N then 2%:R else 1) hm.
  - by move=> [|[|c]] // _; rewrite /draws /= M_pair; apply/colP => i; rewrite !mxE /pair; case: i => [[|[|//]] hi] /=; rewrite ?(mulr0, mulr1, mul0r, mul1r).
  - by move=> [|[|c]] // _; rewrite /= ?ltr01 ?ltr0n.
  - by move=> [|[|c]] // [|[|d]] // _ _; rewrite /draws /= dot_pair ?(mulr0, mulr1, addr0, add0r).
  by move=> V [-> _]; exists V.
pose draws c := if c == 0%N then pair 0 1 else pair 1 0; exists draws.
have [] := @C91_eigenvectors_stay F 2 A M erefl A_mul max_iterations 2 tol draws (fun c => if c == 0%N then 1 else 2%:R) hm.
- by move=> [|[|c]] // _; rewrite /draws /= M_pair; apply/colP => i; rewrite !mxE /pair; case: i => [[|[|//]] hi] /=; rewrite ?(mulr0, mulr1, mul0r, mul1r).
- by move=> [|[|c]] // _; rewrite /= ?ltr01 ?ltr0n.
- by move=> [|[|c]] // [|[|d]] // _ _; rewrite /draws /= dot_pair ?(mulr0, mulr1, addr0, add0r).
by move=> V [-> _]; exists V.
Qed.

(* The stopping rule ends the iteration far from the largest eigenvalue 2 for an open
   set of start vectors, however many iterations are allowed. *)
Theorem C91_early_stop_refuted (max_iterations : nat) tol a b : (1 < max_iterations)%N -> b != 0 ->
  3%:R * a ^+ 2 < tol * b ^+ 2 ->
  exists e V, power_method A tol max_iterations 1 (fun _ => pair a b) = Ok (Tensor [:: 1%N] [:: Some e], V) /\
    e <= 1 + a ^+ 2 / b ^+ 2.
Proof.
move=> hm hb ht; have hm0 : (0 < max_iterations)%N by apply: ltnW.
have hn m : iter m (mulmx M) (drawn 2 (pair a b)) != 0 by apply: powers_neq0; rewrite hb orbT.
have [|m [p [V [e1 m1 m2 m3 _]]]] := @C91_first F 2 A M erefl A_mul max_iterations tol (fun _ => pair a b) hm0; first by [].
exists (rayleigh M (iter m (mulmx M) (drawn 2 (pair a b)))), V; split=> //.
have s0 : 0 <= a ^+ 2 by apply: sqr_ge0.
have q0 : 0 < b ^+ 2 by rewrite lt_neqAle sqr_ge0 eq_sym sqrf_eq0 hb.
have e0 : rayleigh M (drawn 2 (pair a b)) = 1 + a ^+ 2 / (a ^+ 2 + b ^+ 2).
  rewrite /rayleigh quad_pair dot_pair -!expr2; field; rewrite gt_eqF //; exact: ltr_paddl.
have -> : m = 0%N.
  case: m e1 m1 m2 m3 => // m _ _ /(_ 0%N isT) /negP hc _; exfalso; apply: hc.
  rewrite /= M_pair e0.
  have -> : rayleigh M (drawn 2 (pair (2%:R * a) b)) = 1 + 4%:R * a ^+ 2 / (4%:R * a ^+ 2 + b ^+ 2).
    rewrite /rayleigh quad_pair dot_pair -!expr2 exprMn; field.
    have : 0 < 4%:R * a ^+ 2 + b ^+ 2 by rewrite ltr_paddl // mulr_ge0 // ler0n.
    by move=> h; rewrite gt_eqF //; move: h; congr (0 < _); ring.
  set s := a ^+ 2; set q := b ^+ 2.
  have d1 : 0 < s + q by rewrite ltr_paddl.
  have d2 : 0 < 4%:R * s + q by rewrite ltr_paddl // mulr_ge0 // ler0n.
  have x0 : 0 <= s / (s + q) by rewrite divr_ge0 // ltW.
  set D := `|1 + s / (s + q)| + _.
  have D1 : 1 <= D.
    rewrite /D (ger0_norm (addr_ge0 ler01 x0)) -addrA ler_addl addr_ge0 //.
    by rewrite divr_ge0 ?ler01 ?exprn_ge0 ?ler0n.
  rewrite ltr_pdivr_mulr; last exact: lt_le_trans ltr01 D1.
  have t0 : 0 < tol.
    by rewrite -(pmulr_lgt0 _ q0); apply: le_lt_trans ht; rewrite mulr_ge0 // ler0n.
  apply: (@lt_le_trans _ _ tol); last by rewrite -[X in X <= _]mulr1 ler_pmul2l.
  have -> : 1 + s / (s + q) - (1 + 4%:R * s / (4%:R * s + q)) = - (3%:R * s * q / ((s + q) * (4%:R * s + q))).
    by field; rewrite !gt_eqF.
  rewrite normrN ger0_norm; last first.
    by apply: divr_ge0; apply: mulr_ge0; rewrite ?(ltW q0) ?(ltW d1) ?(ltW d2) // mulr_ge0 // ler0n.
  rewrite ltr_pdivr_mulr ?mulr_gt0 //; apply: (@lt_le_trans _ _ (tol * q * q)).
    by rewrite ltr_pmul2r.
  rewrite -mulrA ler_pmul2l //; apply: ler_pmul; rewrite ?(ltW q0) ?ler_addr //; apply: mulr_ge0 => //; exact: ler0n.
rewrite /= e0 ler_add2l ler_wpmul2l // lef_pinv ?posrE ?ler_addr //; exact: ltr_paddl.
Qed.

(* The hypotheses of C91_converges hold, with rate 1 / 4. *)
Example C91_ex_converges (max_iterations : nat) a b : (0 < max_iterations)%N -> a != 0 ->
  exists e V, power_method A 0 max_iterations 1 (fun _ => pair a b) = Ok (Tensor [:: 1%N] [:: Some e], V) /\
    `|e - 2%:R| <= 3%:R * (1 / 2%:R) ^+ (2 * max_iterations.-1) * (b ^+ 2 / a ^+ 2).
Proof.
move=> hm ha; have h2 : 2%:R != 0 :> F by rewrite pnatr_eq0.
have U1 : (1%:M : 'M[F]_2)^T *m 1%:M = 1%:M by rewrite mulmx1 trmx1.
have eig i : M *m col i 1%:M = nth 0 [:: 2%:R; 1] i *: col i 1%:M.
  by apply/colP => j; rewrite mul_diag_mx !mxE; case: eqVneq => [->|_]; rewrite ?mulr0.
have dom (i : 'I_2) : i != 0 -> `|nth 0 [:: 2%:R; 1] i| <= 1 / 2%:R * `|nth 0 [:: 2%:R; 1] (0 : 'I_2)| :> F.
  by case: i => [[|[|//]] hi] // _; rewrite /= normr1 normr_nat mul1r mulVf.
have half : 0 <= 1 / 2%:R :> F by rewrite divr_ge0 ?ler01 ?ler0n.
have cE : ((col 0 (1%:M : 'M[F]_2))^T *m drawn 2 (pair a b)) 0 0 = a.
  by rewrite mxE big_ord_recl big_ord1 !mxE /= mul1r mul0r addr0.
have [|e [V [e1 e2]]] := @C91_converges F 2 A M erefl A_mul M_tr 1%:M (fun i => nth 0 [:: 2%:R; 1] i) 0 (1 / 2%:R)
  U1 eig h2 half dom max_iterations 0 (fun _ => pair a b) hm (lexx 0); first by rewrite cE.
exists e, V; split=> //; apply: le_trans e2 _; rewrite cE dot_pair -!expr2 normr_nat.
have -> : a ^+ 2 + b ^+ 2 - a ^+ 2 = b ^+ 2 by ring.
by have -> : (1 + 1 / 2%:R) * 2%:R = 3%:R :> F by field.
Qed.

Example C91_ex_deflation (max_iterations : nat) tol : (0 < max_iterations)%N ->
  let draws c := if c == 0%N then pair 1 0 else pair 0 1 in
  exists V, [/\ power_method A tol max_iterations 2 draws = Ok (Tensor [:: 2%N] [:: Some 1; Some 2%:R], V),
    forall i j, (0 < i < 2)%N -> (0 < j < 2)%N -> ((row_of 2 V i)^T *m row_of 2 V j) 0 0 = (i == j)%:R &
    forall v : 'cV[F]_2, (forall i, (0 < i < 2)%N -> (v^T *m row_of 2 V i) 0 0 = 0) ->
      1 * (v^T *m v) 0 0 <= (v^T *m M *m v) 0 0 <= 1 * (v^T *m v) 0 0].
Proof.
move=> hm draws.
have [] := @C91_eigenvectors_stay F 2 A M erefl A_mul max_iterations 2 tol draws (fun c => if c == 0%N then 2%:R else 1) hm.
- by move=> [|[|c]] // _; rewrite /draws /= M_pair; apply/colP => i; rewrite !mxE /pair; case: i => [[|[|//]] hi] /=; rewrite ?(mulr0, mulr1, mul0r, mul1r).
- by move=> [|[|c]] // _; rewrite /= ?ltr01 ?ltr0n.
- by move=> [|[|c]] // [|[|d]] // _ _; rewrite /draws /= dot_pair ?(mulr0, mulr1, addr0, add0r).
move=> V [-> hV]; exists V; split=> //.
  by move=> [|[|i]] // [|[|j]] // _ _; rewrite hV // /draws /= dot_pair ?(mulr0, mulr1, addr0, add0r).
move=> v /(_ 1%N isT); rewrite hV // /draws /= => hv.
have ev : v = drawn 2 (pair (v 0 0) (v (lift ord0 ord0) 0)).
  apply/colP => i; rewrite mxE /pair; case: i => [[|[|//]] hi] /=; congr (v _ _); exact: val_inj.
move: hv; rewrite {}ev; move: (v 0 0) (v _ 0) => a b; rewrite quad_pair !dot_pair mulr1 mulr0 addr0 => ->.
by rewrite expr0n /= !mulr0 !add0r mul1r -expr2 lexx.
Qed.

Example C91_ex_more_iterations a b : (a != 0) || (b != 0) ->
  (forall v : 'cV[F]_2, 0 <= (v^T *m M *m v) 0 0) /\ M *m drawn 2 (pair a b) != 0.
Proof.
move=> h; split=> [v|]; last exact: (@powers_neq0 1).
have -> : v = drawn 2 (pair (v 0 0) (v (lift ord0 ord0) 0)).
  apply/colP => i; rewrite mxE /pair; case: i => [[|[|//]] hi] /=; congr (v _ _); exact: val_inj.
by rewrite quad_pair; apply: addr_ge0; [apply: mulr_ge0; [apply: ler0n|apply: sqr_ge0]|apply: sqr_ge0].
Qed.
End Two.
Print Assumptions C91_order_refuted.
Print Assumptions C91_early_stop_refuted.
