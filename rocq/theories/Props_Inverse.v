(* C54-C57: SciPy-style inverse operators. *)
From mathcomp Require Import all_ssreflect all_algebra.
From Verif Require Import PyPrelude Tensor Spec Numpy Submatrix Scipy Inverse.
Set Implicit Arguments.
Unset Strict Implicit.
Unset Printing Implicit Defensive.
Import Order.Theory GRing.Theory Num.Theory.
Local Open Scope ring_scope.

(* C54: for a vector [n] or a column [n,1] and any operator that multiplies with a
   matrix M, K terms and scale a give a * sum_{k<=K} (I-aM)^k x, and the residual
   is (I-aM)^(K+1) x.  (Exact arithmetic: the NaN check cannot fire.) *)
Theorem C54_neumann_series (R : comRingType) n (M : 'M[R]_n) (A : scipy_op R) a check_nan K sh (x : tensor R) :
  sh = [:: n] /\ vec_multiplies (sp_dot A) n n (mxfun M) \/
  sh = [:: n; 1%N] /\ mat_multiplies (sp_dot A) n n 1 (mxfun M) ->
  tshape x = sh -> wf x ->
  exists y, [/\ sp_dot (inverse_op n (neumann_exact (sp_dot A) K a check_nan)) x = Ok y,
     tshape y = sh, wf y,
     vec_of n y = (a *: \sum_(k < K.+1) mpow (1%:M - a *: M) k) *m vec_of n x &
     M *m vec_of n y = vec_of n x - mpow (1%:M - a *: M) K.+1 *m vec_of n x].
Proof. exact: neumann_op_series. Qed.
Print Assumptions C54_neumann_series.

Theorem C54_neumann_error (R : realFieldType) n (M : 'M[R]_n) (A : scipy_op R) a check_nan K (x y : tensor R)
    (z : 'cV[R]_n) (N : 'cV[R]_n -> R) q :
  vec_multiplies (sp_dot A) n n (mxfun M) -> tshape x = [:: n] -> wf x ->
  sp_dot (inverse_op n (neumann_exact (sp_dot A) K a check_nan)) x = Ok y ->
  M *m z = vec_of n x ->
  0 <= q -> (forall v, N ((1%:M - a *: M) *m v) <= q * N v) ->
  N (z - vec_of n y) <= q ^+ K.+1 * N z.
Proof.
move=> hA hx hw hy hz hq hN.
have [|y' [h1 _ _ h4 _]] := @C54_neumann_series R n M A a check_nan K [:: n] x _ hx hw; first by left.
move: h1; rewrite hy => -[e]; subst y'.
exact: (neumann_error hz h4 hq hN).
Qed.
Print Assumptions C54_neumann_error.

(* operator 2*I on Z^2 with scale 1: I - aM = -I; on x = (3,5), two terms give
   x - x + x = x *)
Definition ex_two : scipy_op int_Ring :=
  let f := fun x => Ok (Tensor (tshape x) [seq (2 * v : int_Ring) | v <- tdata x]) in
  ScipyOp 2 2 f (fun _ => Err NotImplementedError).
Example C54_ex : sp_dot (inverse_op 2 (neumann_exact (R := int_comRing) (sp_dot ex_two) 2 1 true)) (Tensor [:: 2]%N [:: 3; 5])
  = Ok (Tensor [:: 2]%N [:: 3; 5]) /\
  sp_dot (inverse_op 2 (neumann_exact (R := int_comRing) (sp_dot ex_two) 3 1 true)) (Tensor [:: 2; 1]%N [:: 3; 5])
  = Ok (Tensor [:: 2; 1]%N [:: 0; 0]).
Proof. by split; vm_compute. Qed.

Example C54_ex_hyp : vec_multiplies (sp_dot ex_two) 2 2 (mxfun (2%:M : 'M[int_Ring]_2)).
Proof.
move=> [sh [|a [|b [|c d]]]] //= -> // _; exists (Tensor [:: 2]%N [:: 2 * a; 2 * b]).
split=> // i hi; rewrite !big_ord_recl big_ord0 /= /mxfun.
have e0 : insub 0%N = Some (ord0 : 'I_2) by rewrite insubT; congr Some; apply: val_inj.
have e1 : insub 1%N = Some (lift ord0 ord0 : 'I_2) by rewrite insubT; congr Some; apply: val_inj.
by case: i hi => [|[|i]] // _; rewrite /bump /= ?addn0 e0 e1 !mxE /= ?mul0r ?addr0 ?add0r.
Qed.

(* contraction hypothesis: M = 1/2, a = 1, |(1-1/2)v| <= 1/2 |v| *)
Example C54_ex_contraction (v : 'cV[rat]_1) :
  let N := fun w : 'cV[rat]_1 => `|w 0 0| in
  N ((1%:M - 1 *: (2%:R^-1)%:M) *m v) <= 2%:R^-1 * N v.
Proof. by rewrite /= !mxE big_ord_recl big_ord0 !mxE /= addr0 mul1r normrM. Qed.

(* C55: over any scalar type with a NaN predicate.  [terms_and_sums v S]: v is the
   sequence of terms v_{j+1} = v_j - scale * A v_j and S the sequence of partial
   sums S_{j+1} = S_j + v_{j+1}, both starting at x. *)
Section NaN.
Variable T : Type.
Variables (tadd tsub tmul : T -> T -> T) (isnan : T -> bool).
Definition terms_and_sums (Adot : tensor T -> res (tensor T)) scale x (v S : nat -> tensor T) : Prop :=
  [/\ v 0%N = x, S 0%N = x & forall j, exists Av, [/\ Adot (v j) = Ok Av,
      tshape Av = tshape x, tshape (v j) = tshape x, tshape (S j) = tshape x &
      tdata (v j.+1) = [seq tsub p.1 (tmul scale p.2) | p <- zip (tdata (v j)) (tdata Av)] /\
      tdata (S j.+1) = [seq tadd p.1 p.2 | p <- zip (tdata (S j)) (tdata (v j.+1))]]].

Lemma psum_sequences Adot scale x v S : terms_and_sums Adot scale x v S ->
  forall j, partial_sums tadd tsub tmul isnan Adot scale j (x, x) = Ok (S j, v j).
Proof.
case=> hv hS hst; elim=> [|j IH]; first by rewrite /= hv hS.
have [Av [h1 h2 h3 h4 [h5 h6]]] := hst j.
have [_ [_ _ h3' h4' _]] := hst j.+1.
rewrite /= IH /= h1 /= /ew /= h2 h3 eqxx /= h4 eqxx /=; congr (Ok (_, _)).
- move: h4' h6 h5; case: (S j.+1) => s1 d1 /= -> -> ->.
  by congr (Tensor _ [seq _ | p <- zip _ _]); elim: (tdata (v j)) (tdata Av) => [|c cs IHc] [|d ds] //=; rewrite IHc.
- move: h3' h5; case: (v j.+1) => s1 d1 /= -> ->; congr Tensor.
  by elim: (tdata (v j)) (tdata Av) => [|c cs IHc] [|d ds] //=; rewrite IHc.
Qed.

Theorem C55_check_nan_exact Adot K scale x v S : terms_and_sums Adot scale x v S ->
  ((exists y, neumann_matvec tadd tsub tmul isnan Adot K scale true x = Ok y) <->
   forall j, (0 < j <= K)%N -> ~~ has isnan (tdata (S j))) /\
  (neumann_matvec tadd tsub tmul isnan Adot K scale true x = Err ValueError <->
   exists j, (0 < j <= K)%N /\ has isnan (tdata (S j))).
Proof.
move=> h; have hp := psum_sequences h.
have [|[h1 h1'] [h2 h2']] := @neumann_nan_exact T tadd tsub tmul isnan Adot K scale x.
  by move=> j _; rewrite hp; eexists.
split; split.
- by move=> hy j hj; apply: (h1 hy j (S j, v j)).
- by move=> hy; apply: h1' => j s hj; rewrite hp => -[<-]; apply: hy.
- by move=> /h2 [j [s [hj]]]; rewrite hp => -[<-] hn; exists j.
- by case=> j [hj hn]; apply: h2'; exists j, (S j, v j).
Qed.

(* what is returned, with or without the check, is scale * S_K *)
Theorem C55_no_check Adot K scale x v S : terms_and_sums Adot scale x v S ->
  neumann_matvec tadd tsub tmul isnan Adot K scale false x =
  Ok (Tensor (tshape (S K)) [seq tmul scale e | e <- tdata (S K)]).
Proof.
move=> h; have hp := psum_sequences h.
have [|s] := @neumann_nocheck T tadd tsub tmul isnan Adot K scale x.
  by move=> j _; rewrite hp; eexists.
by rewrite hp => -[<-].
Qed.

Theorem C55_checked_result Adot K scale x y :
  neumann_matvec tadd tsub tmul isnan Adot K scale true x = Ok y ->
  neumann_matvec tadd tsub tmul isnan Adot K scale false x = Ok y.
Proof. exact: neumann_checked_result. Qed.
End NaN.
Print Assumptions C55_check_nan_exact.
Print Assumptions C55_no_check.
Print Assumptions C55_checked_result.

(* scalars: None is NaN.  The operator returns NaN on entries above 2. *)
Definition oadd (a b : option int) := if a is Some x then if b is Some y then Some (x + y) else None else None.
Definition osub (a b : option int) := if a is Some x then if b is Some y then Some (x - y) else None else None.
Definition omul (a b : option int) := if a is Some x then if b is Some y then Some (x * y) else None else None.
Definition ex_nanop (x : tensor (option int)) : res (tensor (option int)) :=
  Ok (Tensor (tshape x) [seq if v is Some z then if z <= 2 then Some (- z) else None else None | v <- tdata x]).
Example C55_ex :
  neumann_matvec oadd osub omul (fun v => v == None) ex_nanop 1 (Some 1) true (Tensor [:: 1]%N [:: Some 1])
    = Ok (Tensor [:: 1]%N [:: Some 3]) /\
  neumann_matvec oadd osub omul (fun v => v == None) ex_nanop 9 (Some 1) true (Tensor [:: 1]%N [:: Some 1])
    = Err ValueError /\
  neumann_matvec oadd osub omul (fun v => v == None) ex_nanop 9 (Some 1) false (Tensor [:: 1]%N [:: Some 1])
    = Ok (Tensor [:: 1]%N [:: None]).
Proof. by repeat split; vm_compute. Qed.

(* zero operator: every term is x = (1), the j-th sum is j+1 *)
Example C55_ex_hyp :
  terms_and_sums oadd osub omul (fun x => Ok (Tensor (tshape x) (nseq (size (tdata x)) (Some 0))))
    (Some 1) (Tensor [:: 1]%N [:: Some 1])
    (fun j => Tensor [:: 1]%N [:: Some 1]) (fun j => Tensor [:: 1]%N [:: Some (Posz j.+1)]).
Proof.
by split=> // j; exists (Tensor [:: 1]%N [:: Some 0]); split=> //=; split=> //=; rewrite -PoszD addn1.
Qed.

(* Finding: K = 0 terms never checks, so an input with NaN is returned scaled. *)
Theorem C55_zero_terms_unchecked_refuted : exists x : tensor (option int),
  has (fun v => v == None) (tdata x) /\
  neumann_matvec oadd osub omul (fun v => v == None) ex_nanop 0 (Some 1) true x = Ok x.
Proof. by exists (Tensor [:: 1]%N [:: None]). Qed.
Print Assumptions C55_zero_terms_unchecked_refuted.

(* C56: any of the three inverses (their _matvec is mv) *)
Theorem C56_columns (R : ringType) n mv K (X : tensor R) :
  (1 < K)%N -> tshape X = [:: n; K] -> wf X ->
  (forall x, tshape x = [:: n] -> wf x -> exists y, [/\ mv x = Ok y, tshape y = [:: n] & wf y]) ->
  exists Y, [/\ sp_dot (inverse_op n mv) X = Ok Y, tshape Y = [:: n; K], wf Y &
   forall k, (k < K)%N -> exists x y,
     [/\ tshape x = [:: n], wf x, forall i, (i < n)%N -> nth 0 (tdata x) i = entry K (tdata X) i k,
         sp_dot (inverse_op n mv) x = Ok y &
         tshape y = [:: n] /\ forall i, (i < n)%N -> entry K (tdata Y) i k = nth 0 (tdata y) i]].
Proof. exact: inverse_op_columns. Qed.
Print Assumptions C56_columns.

Example C56_ex :
  sp_dot (inverse_op 2 (neumann_exact (R := int_comRing) (sp_dot ex_two) 2 1 true)) (Tensor [:: 2; 3]%N [:: 3; 5; 1; 0; 2; 4])
  = Ok (Tensor [:: 2; 3]%N [:: 3; 5; 1; 0; 2; 4]).
Proof. by vm_compute. Qed.

(* a failing column makes the whole product fail with that error; a matrix without
   columns always fails *)
Theorem C56_no_columns_refuted (R : ringType) n mv (X : tensor R) :
  tshape X = [:: n; 0%N] -> sp_dot (inverse_op n mv) X = Err ValueError.
Proof. exact: inverse_op_no_columns. Qed.
Print Assumptions C56_no_columns_refuted.

(* C57 *)
Definition only_products Arg (R : ringType) (h : seq (solver_event R Arg)) :=
  all (fun e => if e is Matvec _ then true else false) h.

Theorem C57_cg_latest (R : ringType) (cg : tensor R -> cg_dict pyobj -> res (tensor R)) h1 a h2 x :
  only_products h2 ->
  exists d, [/\ solver_matvec set_cg cg_omitted cg (h1 ++ SetHyper R a :: h2) x = cg x d,
    [/\ cg_x0 d = odflt ONone (cg_x0 a), cg_maxiter d = odflt ONone (cg_maxiter a) &
        cg_M d = odflt ONone (cg_M a)] &
    [/\ cg_callback d = odflt ONone (cg_callback a), cg_atol d = odflt ONone (cg_atol a) &
        cg_tol d = odflt (ODec 1 (-5)) (cg_tol a)]].
Proof. by move=> h; eexists; rewrite /solver_matvec solver_run_last //; split. Qed.
Print Assumptions C57_cg_latest.

Theorem C57_cg_default (R : ringType) (cg : tensor R -> cg_dict pyobj -> res (tensor R)) h x :
  only_products h ->
  solver_matvec set_cg cg_omitted cg h x =
  cg x (CgDict ONone ONone ONone ONone ONone (ODec 1 (-5))).
Proof. by move=> hh; rewrite /solver_matvec solver_run_default. Qed.
Print Assumptions C57_cg_default.

Theorem C57_lsmr_latest (R : ringType) (lsmr : tensor R -> lsmr_dict pyobj -> res (tensor R)) h1 a h2 x :
  only_products h2 ->
  exists d, [/\ solver_matvec set_lsmr lsmr_omitted lsmr (h1 ++ SetHyper R a :: h2) x = lsmr x d,
    [/\ ls_damp d = odflt (ODec 0 0) (ls_damp a), ls_atol d = odflt (ODec 1 (-6)) (ls_atol a),
        ls_btol d = odflt (ODec 1 (-6)) (ls_btol a) & ls_conlim d = odflt (ODec 1 (-8)) (ls_conlim a)] &
    [/\ ls_maxiter d = odflt ONone (ls_maxiter a), ls_show d = odflt (OBool false) (ls_show a) &
        ls_x0 d = odflt ONone (ls_x0 a)]].
Proof. by move=> h; eexists; rewrite /solver_matvec solver_run_last //; split. Qed.
Print Assumptions C57_lsmr_latest.

Theorem C57_lsmr_default (R : ringType) (lsmr : tensor R -> lsmr_dict pyobj -> res (tensor R)) h x :
  only_products h ->
  solver_matvec set_lsmr lsmr_omitted lsmr h x =
  lsmr x (LsmrDict (ODec 0 0) (ODec 1 (-6)) (ODec 1 (-6)) (ODec 1 (-8)) ONone (OBool false) ONone).
Proof. by move=> hh; rewrite /solver_matvec solver_run_default. Qed.
Print Assumptions C57_lsmr_default.

(* a second setter call resets what the first one changed *)
Example C57_ex (x : tensor int_Ring) :
  solver_run set_cg cg_omitted
    [:: SetHyper _ (CgDict None (Some (ODec 7 0)) None None None None); Matvec _ x;
        SetHyper _ (CgDict None None None None None (Some (ODec 1 (-8)))); Matvec _ x]
  = CgDict ONone ONone ONone ONone ONone (ODec 1 (-8)).
Proof. by []. Qed.
