(* Model of docs/examples/basic_usage/example_eigenvalues.py 123-186 (power_method).
   Simplifications: numbers are exact reals; a division by a zero norm, where NumPy goes
   on with nan, ends the run with ZeroDivisionError; k and max_iterations are not
   negative.  'v -= ...' (155) writes into an array that is new in each pass (the result
   of normalize), so that values suffice. *)
From Coq Require Import Reals.
From mathcomp Require Import all_ssreflect all_algebra.
From Verif Require Import PyPrelude Tensor Spec Numpy Inverse Estimators Cg Lanczos.
Set Implicit Arguments.
Unset Strict Implicit.
Unset Printing Implicit Defensive.
Import GRing.Theory Num.Theory Order.TTheory.
Local Open Scope ring_scope.

Section Power.
Variable F : rcfType.
Local Notation arr := (tensor F).

(* example_eigenvalues.py 150-151 *)
Definition normalize (v : arr) : res arr := if np_norm v == 0 then Err ZeroDivisionError else Ok (div_by v (np_norm v)).
(* example_eigenvalues.py 153-156 *)
Definition orthonormalize (v : arr) (basis : seq arr) : res arr :=
  let! w := foldM (fun v b => let! c := np_dot v b in ew (fun x y => x - y) v (scal *%R c b)) v basis in
  normalize w.

Variable A : scipy_op F.
Variable tol : F.
(* example_eigenvalues.py 174: the change from eigenvalue to tmp_eigenvalue *)
Definition converged (e t : F) : bool := `|e - t| / (`|e| + 1 / 10%:R ^+ 6) < tol.
(* example_eigenvalues.py 163-177: 'for _ in range(max_iterations)'; when the loop is
   left early, eigenvalue keeps its old value while v has been replaced *)
Fixpoint power_loop (basis : seq arr) (iterations : nat) (eigenvalue : option F) (v : arr) : res (option F * arr) :=
  if iterations is i.+1 then
    let! v := orthonormalize v basis in
    let! Av := sp_dot A v in
    let! t := np_dot v Av in
    let! v := normalize Av in
    if eigenvalue is Some e then
      if converged e t then Ok (eigenvalue, v) else power_loop basis i (Some t) v
    else power_loop basis i (Some t) v
  else Ok (eigenvalue, v).

(* example_eigenvalues.py 158-181: the pairs in the order of their computation;
   draws c: what the c-th call of numpy.random.randn delivers *)
Definition power_pairs (max_iterations k : nat) (draws : nat -> nat -> F) : res (seq (option F) * seq arr) :=
  foldM (fun (st : seq (option F) * seq arr) c =>
      let! v := normalize (Tensor [:: sp_rows A] (mkseq (draws c) (sp_rows A))) in
      let! ev := power_loop st.2 max_iterations None v in
      Ok (rcons st.1 ev.1, rcons st.2 ev.2)) ([::], [::]) (iota 0 k).

(* example_eigenvalues.py 183-186: lists reversed; numpy.array of equally long vectors
   puts them in rows, numpy.array([]) has shape [0] *)
Definition np_array_rows (vs : seq arr) : arr :=
  Tensor (size vs :: if vs is v :: _ then tshape v else [::]) (flatten [seq tdata v | v <- vs]).
Definition power_method (max_iterations k : nat) (draws : nat -> nat -> F) : res (tensor (option F) * arr) :=
  let! st := power_pairs max_iterations k draws in
  Ok (Tensor [:: k] (rev st.1), np_array_rows (rev st.2)).
End Power.

(* ---- on column vectors ---- *)
Section PowerMath.
Variables (F : rcfType) (n : nat).
Local Notation arr := (tensor F).
Local Notation vec := 'cV[F]_n.
Implicit Types u v w : vec.

Definition unitv u : vec := (Num.sqrt (dot u u))^-1 *: u.
Definition orth (B : seq vec) u : vec := foldl (fun v b => v - dot v b *: b) u B.

Lemma sqrt_dot0 u : (Num.sqrt (dot u u) == 0) = (u == 0).
Proof. by rewrite sqrtr_eq0 le_eqVlt ltNge dot_ge0 orbF dot_eq0. Qed.
Lemma unitv_unit u : u != 0 -> dot (unitv u) (unitv u) = 1.
Proof.
move=> h; rewrite /unitv dotZl dotZr -{3}(sqr_sqrtr (dot_ge0 u)) expr2 mulrA mulrA -invfM -mulrA mulVf //.
by rewrite mulf_neq0 // sqrt_dot0.
Qed.
Lemma dot_unit_neq0 u : dot u u = 1 -> u != 0.
Proof. by move=> h; rewrite -dot_eq0 h oner_neq0. Qed.
Lemma unitvZ a u : 0 < a -> unitv (a *: u) = unitv u.
Proof.
move=> h; rewrite /unitv dotZl dotZr mulrA -expr2 sqrtrM ?sqr_ge0 // sqrtr_sqr gtr0_norm // invfM scalerA.
by rewrite mulrAC mulVf ?mul1r // gt_eqF.
Qed.
Lemma unitv_pos u : u != 0 -> 0 < (Num.sqrt (dot u u))^-1.
Proof. by move=> h; rewrite invr_gt0 lt_neqAle sqrtr_ge0 eq_sym sqrt_dot0 h. Qed.
Lemma unitvV u : u != 0 -> unitv (unitv u) = unitv u.
Proof. by move=> h; rewrite {2}/unitv unitvZ // unitv_pos. Qed.
Lemma unitv_mul (M : 'M[F]_n) u : u != 0 -> unitv (M *m unitv u) = unitv (M *m u).
Proof. by move=> h; rewrite {2}/unitv -scalemxAr unitvZ // unitv_pos. Qed.
Lemma unitv_quad (M : 'M[F]_n) u : u != 0 -> dot (unitv u) (M *m unitv u) = dot u (M *m u) / dot u u.
Proof.
move=> h; rewrite /unitv -scalemxAr dotZl dotZr mulrA -invfM mulrC -expr2 sqr_sqrtr //; exact: dot_ge0.
Qed.
Lemma mul_unitv_neq0 (M : 'M[F]_n) u : M *m u != 0 -> M *m unitv u != 0.
Proof.
move=> h; rewrite /unitv -scalemxAr scaler_eq0 negb_or h andbT gt_eqF // unitv_pos //.
by apply: contraNneq h => ->; rewrite mulmx0.
Qed.

Local Notation isv := (@is_vec F n).
Lemma np_dot_vec (a c : arr) u v : isv a u -> isv c v -> np_dot a c = Ok (dot u v).
Proof.
move=> [ha wa ea] [hc wc ec]; rewrite /np_dot ha hc eqxx; congr Ok.
have sa : size (tdata a) = n by move/eqP: wa; rewrite ha numel1.
by rewrite sumrE sa /dot; apply: eq_bigr => i _; rewrite -ea -ec !mxE.
Qed.
Lemma np_norm_vec (a : arr) u : isv a u -> np_norm a = Num.sqrt (dot u u).
Proof.
move=> [ha wa ea]; have sa : size (tdata a) = n by move/eqP: wa; rewrite ha numel1.
by rewrite /np_norm sumrE sa /dot; congr Num.sqrt; apply: eq_bigr => i _; rewrite -ea !mxE expr2.
Qed.
Lemma div_by_vec (a : arr) u c : isv a u -> isv (div_by a c) (c^-1 *: u).
Proof.
move=> [ha wa ea]; have sa : size (tdata a) = n by move/eqP: wa; rewrite ha numel1.
split=> //; first by rewrite /wf /= size_map ha numel1 sa.
by apply/colP => i; rewrite -ea !mxE /= (nth_map 0) ?sa // mulrC.
Qed.
Lemma normalize_vec (a : arr) u : isv a u -> u != 0 -> exists2 a', normalize a = Ok a' & isv a' (unitv u).
Proof.
move=> ha h; rewrite /normalize (np_norm_vec ha) sqrt_dot0 (negbTE h); exists (div_by a (Num.sqrt (dot u u))) => //.
exact: div_by_vec.
Qed.
Lemma normalize_inv (a a' : arr) u : isv a u -> normalize a = Ok a' -> u != 0 /\ isv a' (unitv u).
Proof.
move=> ha; rewrite /normalize (np_norm_vec ha) sqrt_dot0; case: ifP => // h [<-]; split=> //; exact: div_by_vec.
Qed.

(* lists of vectors *)
Fixpoint vecs (bs : seq arr) (B : seq vec) : Prop :=
  match bs, B with
  | [::], [::] => True
  | b :: bs', v :: B' => isv b v /\ vecs bs' B'
  | _, _ => False
  end.
Lemma vecs_rcons bs B b v : vecs bs B -> isv b v -> vecs (rcons bs b) (rcons B v).
Proof. by elim: bs B => [|c bs IH] [|w B] //= [hc /IH h] hb; split=> //; apply: h. Qed.
Lemma vecs_size bs B : vecs bs B -> size bs = size B.
Proof. by elim: bs B => [|c bs IH] [|w B] //= [_ /IH ->]. Qed.
Lemma vecs_nth bs B i : vecs bs B -> (i < size B)%N -> isv (nth (Tensor [::] [::]) bs i) (nth 0 B i).
Proof. by elim: bs B i => [|c bs IH] [|w B] [|i] //= [hc hb] // /(IH _ _ hb). Qed.

Lemma orth_fold (a : arr) u bs B : isv a u -> vecs bs B ->
  exists2 a', foldM (fun (v b : arr) => let! c := np_dot v b in ew (fun x y => x - y) v (scal *%R c b)) a bs = Ok a' & isv a' (orth B u).
Proof.
elim: bs B a u => [|b bs IH] [|v B] a u ha //= => [_|[hb hB]]; first by exists a.
rewrite (np_dot_vec ha hb) /=.
have [|a1 e1 h1] := @ew_vec F n (fun x y => x - y) (fun x y => x - y) a (scal *%R (dot u v) b) u (dot u v *: v) ha (scal_vec _ hb).
  by move=> i; rewrite !mxE.
by rewrite e1 /=; apply: IH.
Qed.

(* orthogonality of the result *)
Lemma orth_dot B u w : (forall b, b \in B -> dot w b = 0) -> dot (orth B u) w = dot u w.
Proof.
elim: B u => [//|b B IH] u h /=; rewrite IH => [|c hc]; last by apply: h; rewrite inE hc orbT.
by rewrite dotDl dotNl dotZl [dot b w]dotC h ?mem_head // mulr0 subr0.
Qed.
Lemma orth_ortho B u : (forall i j, (i < size B)%N -> (j < size B)%N -> dot (nth 0 B i) (nth 0 B j) = (i == j)%:R) ->
  forall b, b \in B -> dot (orth B u) b = 0.
Proof.
elim: B u => [//|c B IH] u h b /=; rewrite inE => /orP [/eqP ->|hb].
  rewrite orth_dot => [|b' /(nthP 0) [i hi <-]]; last by apply: (h 0%N i.+1).
  have e : dot c c = 1 by apply: (h 0%N 0%N).
  by rewrite dotDl dotNl dotZl e mulr1 subrr.
by apply: IH => // i j hi hj; apply: (h i.+1 j.+1).
Qed.
End PowerMath.
