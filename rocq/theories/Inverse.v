(* Model of curvlinops/inverse.py 21-293: SciPy inverse operators. *)
From mathcomp Require Import all_ssreflect all_algebra.
From Verif Require Import PyPrelude Tensor Spec Numpy Submatrix Scipy.
Set Implicit Arguments.
Unset Strict Implicit.
Unset Printing Implicit Defensive.
Import Order.Theory GRing.Theory Num.Theory.
Local Open Scope ring_scope.

(* ------------------------------------------------------------------ *)
(* Neumann series, inverse.py 167-293, for an arbitrary scalar type (so that
   the same program can be read over an exact ring and over a type with NaN). *)
Section NeumannModel.
Variable T : Type.
Variables (tadd tsub tmul : T -> T -> T) (isnan : T -> bool).
Local Notation arr := (tensor T).

(* elementwise operation on arrays of equal shape (NumPy would broadcast other
   shapes; that is not modelled: ValueError) *)
Definition ew (f : T -> T -> T) (a b : arr) : res arr :=
  if tshape a == tshape b
  then Ok (Tensor (tshape a) [seq f p.1 p.2 | p <- zip (tdata a) (tdata b)])
  else Err ValueError.
Definition scal (c : T) (a : arr) : arr := Tensor (tshape a) [seq tmul c x | x <- tdata a].

(* numpy.allclose(r, r): true iff no entry is NaN (inf is close to itself) *)
Definition allclose_self (r : arr) : bool := all (fun x => ~~ isnan x) (tdata r).

(* inverse.py 282-291, one pass through the loop body; Adot is 'self._A @' *)
Definition neumann_step (Adot : arr -> res arr) (scale : T) (check_nan : bool)
    (s : arr * arr) : res (arr * arr) :=
  let: (result, v) := s in
  let! Av := Adot v in
  let! v' := ew tsub v (scal scale Av) in
  let! result' := ew tadd result v' in
  if check_nan && ~~ allclose_self result' then Err ValueError else Ok (result', v').

(* for idx in range(k) (inverse.py 282-291) *)
Fixpoint neumann_loop Adot scale check_nan (k : nat) (s : arr * arr) : res (arr * arr) :=
  match k with
  | 0 => Ok s
  | k'.+1 => let! s' := neumann_step Adot scale check_nan s in neumann_loop Adot scale check_nan k' s'
  end.

(* inverse.py 268-293 (_matvec).  num_terms is a non-negative integer (range of a
   negative number is empty, i.e. behaves like 0). *)
Definition neumann_matvec Adot (num_terms : nat) (scale : T) (check_nan : bool) (x : arr) : res arr :=
  let! s := neumann_loop Adot scale check_nan num_terms (x, x) in
  Ok (scal scale s.1).

(* the loop without the NaN check: partial sum and current term after k passes *)
Fixpoint partial_sums Adot scale (k : nat) (s : arr * arr) : res (arr * arr) :=
  match k with
  | 0 => Ok s
  | k'.+1 => let! s' := partial_sums Adot scale k' s in neumann_step Adot scale false s'
  end.

Lemma neumann_loop_rec Adot scale b k s : neumann_loop Adot scale b k.+1 s =
  (let! s' := neumann_loop Adot scale b k s in neumann_step Adot scale b s').
Proof.
elim: k s => [|k IH] s; first by rewrite /=; case: (neumann_step _ _ _ _).
rewrite [LHS]/=; case E: (neumann_step Adot scale b s) => [s'|e] /=; last by rewrite /= E.
by rewrite -/(neumann_loop _ _ _ k.+1 _) IH [in RHS]/= E.
Qed.

Lemma neumann_loop_false Adot scale k s :
  neumann_loop Adot scale false k s = partial_sums Adot scale k s.
Proof.
by elim: k => [//|k IH]; rewrite neumann_loop_rec IH.
Qed.

Lemma neumann_step_true Adot scale s :
  neumann_step Adot scale true s =
  (let! s' := neumann_step Adot scale false s in
   if allclose_self s'.1 then Ok s' else Err ValueError).
Proof.
case: s => r v /=; case: (Adot v) => //= Av; case: (ew _ _ _) => //= v'.
by case: (ew _ _ _) => //= r'; case: allclose_self.
Qed.

(* with the check: succeeds exactly when no partial sum has a NaN *)
Lemma neumann_loop_true Adot scale k s :
  (forall j, (j <= k)%N -> exists sj, partial_sums Adot scale j s = Ok sj) ->
  neumann_loop Adot scale true k s =
  if [forall j : 'I_k, if partial_sums Adot scale j.+1 s is Ok sj then allclose_self sj.1 else true]
  then partial_sums Adot scale k s else Err ValueError.
Proof.
elim: k => [|k IH] hk; first by case: forallP => // -[] [].
rewrite neumann_loop_rec IH; last by move=> j hj; apply: hk; apply: leq_trans hj _.
have [sk hsk] := hk k (leqnSn k); have [sk1 hsk1] := hk k.+1 (leqnn _).
case: forallP => h1; case: forallP => h2.
- rewrite hsk [LHS]/= neumann_step_true [RHS]/= hsk /=.
  move: hsk1 (h2 ord_max); rewrite /= hsk /= => ->.
  by move=> /= ->.
- rewrite hsk [LHS]/= neumann_step_true.
  move: hsk1; rewrite /= hsk /= => h; rewrite h /=.
  case hc: (allclose_self sk1.1) => //; case: h2 => j.
  case: (ltngtP j k) => [hj|hj|hj].
  + exact: (h1 (Ordinal hj)).
  + by move: (ltn_ord j); rewrite ltnS leqNgt hj.
  + by rewrite hj /= hsk /= h hc.
- by case: h1 => j; have := h2 (widen_ord (leqnSn k) j).
- by [].
Qed.

Lemma neumann_nan_exact Adot K scale x :
  (forall j, (j <= K)%N -> exists s, partial_sums Adot scale j (x, x) = Ok s) ->
  ((exists y, neumann_matvec Adot K scale true x = Ok y) <->
   forall j s, (0 < j <= K)%N -> partial_sums Adot scale j (x, x) = Ok s -> ~~ has isnan (tdata s.1)) /\
  (neumann_matvec Adot K scale true x = Err ValueError <->
   exists j s, [/\ (0 < j <= K)%N, partial_sums Adot scale j (x, x) = Ok s & has isnan (tdata s.1)]).
Proof.
move=> h; rewrite /neumann_matvec neumann_loop_true //.
have [sK hK] := h K (leqnn _).
have hns r : allclose_self r = ~~ has isnan (tdata r) by rewrite /allclose_self all_predC.
case: forallP => ha.
  have hall j s : (0 < j <= K)%N -> partial_sums Adot scale j (x, x) = Ok s -> ~~ has isnan (tdata s.1).
    by case: j => // j hj hs; have := ha (Ordinal hj); rewrite -hns hs.
  rewrite hK [bind _ _]/=; split; split=> //; first by eexists.
  by case=> j [s [hj hs]]; rewrite (negbTE (hall j s hj hs)).
have [j hj] : exists j : 'I_K, ~~ (if partial_sums Adot scale j.+1 (x, x) is Ok sj then allclose_self sj.1 else true).
  by apply/existsP; rewrite -negb_forall; apply/negP => /forallP.
have [s hs] := h j.+1 (ltn_ord j); move: hj; rewrite hs hns negbK => hnan.
have hjK : (0 < j.+1 <= K)%N by rewrite ltn_ord.
rewrite [bind _ _]/=; split; split=> //; first by case.
- by move/(_ j.+1 s hjK hs); rewrite hnan.
- by move=> _; exists j.+1, s.
Qed.

Lemma neumann_nocheck Adot K scale x :
  (forall j, (j <= K)%N -> exists s, partial_sums Adot scale j (x, x) = Ok s) ->
  exists2 s, partial_sums Adot scale K (x, x) = Ok s &
    neumann_matvec Adot K scale false x = Ok (scal scale s.1).
Proof.
by move=> /(_ K (leqnn _)) [s hs]; exists s => //; rewrite /neumann_matvec neumann_loop_false hs.
Qed.

Lemma neumann_checked_result Adot K scale x y :
  neumann_matvec Adot K scale true x = Ok y -> neumann_matvec Adot K scale false x = Ok y.
Proof.
rewrite /neumann_matvec.
have h s : neumann_loop Adot scale true K (x, x) = Ok s -> neumann_loop Adot scale false K (x, x) = Ok s.
  elim: K s => [//|k IH] s; rewrite !neumann_loop_rec.
  case: (neumann_loop Adot scale true k (x, x)) IH => // s' /(_ _ erefl) -> /=.
  rewrite -/(neumann_step Adot scale true s') -/(neumann_step Adot scale false s') neumann_step_true.
  by case: (neumann_step Adot scale false s') => //= s2; case: ifP.
by case E: (neumann_loop _ _ true _ _) => [s|] //; rewrite (h s E).
Qed.

End NeumannModel.

(* ------------------------------------------------------------------ *)
(* the exact-arithmetic reading *)
Section NeumannExact.
Variable R : comRingType.
Local Notation arr := (tensor R).

(* mathcomp column vector with the content of an array *)
Definition vec_of n (x : arr) : 'cV[R]_n := \col_i nth 0 (tdata x) i.
(* entries of a matrix as a function of two natural numbers *)
Definition mxfun m n (M : 'M[R]_(m, n)) (i j : nat) : R :=
  if insub i is Some i' then if insub j is Some j' then M i' j' else 0 else 0.
Lemma mxfun_ord m n (M : 'M[R]_(m, n)) (i : 'I_m) (j : 'I_n) : mxfun M i j = M i j.
Proof. by rewrite /mxfun !valK. Qed.
(* B^k as an iterated product *)
Definition mpow n (B : 'M[R]_n) (k : nat) : 'M[R]_n := iter k (mulmx B) 1%:M.

(* the exact program: no NaN exists *)
Definition neumann_exact := @neumann_matvec R +%R (fun a b => a - b) *%R (fun _ => false).

Lemma mpowS n (B : 'M[R]_n) k : mpow B k.+1 = B *m mpow B k.
Proof. by []. Qed.

Lemma mpow_comm n (B : 'M[R]_n) k : B *m mpow B k = mpow B k *m B.
Proof. by elim: k => [|k IH]; rewrite ?mulmx1 ?mul1mx // mpowS {1}IH mulmxA. Qed.

(* the operator multiplies arrays of shape sh (a vector [n] or a column [n,1]) with M *)
Definition shape_multiplies n (f : arr -> res arr) (sh : seq nat) (M : 'M[R]_n) : Prop :=
  forall x, tshape x = sh -> wf x ->
    exists y, [/\ f x = Ok y, tshape y = sh, wf y & vec_of n y = M *m vec_of n x].

Lemma vec_shape_multiplies n f (M : 'M[R]_n) :
  vec_multiplies f n n (mxfun M) -> shape_multiplies f [:: n] M.
Proof.
move=> h x hx hw; have [y [h1 h2 h3 h4]] := h x hx hw; exists y; split=> //.
by apply/colP => i; rewrite !mxE h4 //; apply: eq_bigr => j _; rewrite mxfun_ord mxE.
Qed.

Lemma mat_shape_multiplies n f (M : 'M[R]_n) :
  mat_multiplies f n n 1 (mxfun M) -> shape_multiplies f [:: n; 1%N] M.
Proof.
move=> h x hx hw; have [y [h1 h2 h3 h4]] := h x hx hw; exists y; split=> //.
apply/colP => i; rewrite !mxE; have := h4 i 0%N (ltn_ord i) isT.
rewrite /entry muln1 addn0 => ->.
by apply: eq_bigr => j _; rewrite mxfun_ord mxE muln1 addn0.
Qed.

Lemma vec_of_ew sh n f (a b : arr) c : numel sh = n -> tshape a = sh -> tshape b = sh -> wf a -> wf b ->
  ew f a b = Ok c -> [/\ tshape c = sh, wf c &
    forall i, (i < n)%N -> nth 0 (tdata c) i = f (nth 0 (tdata a) i) (nth 0 (tdata b) i)].
Proof.
rewrite /ew => hn ha hb /eqP; rewrite ha => wa /eqP; rewrite hb => wb; rewrite eqxx => -[<-] /=.
have hs : size (zip (tdata a) (tdata b)) = n by rewrite size_zip wa wb minnn.
split=> //; first by rewrite /wf /= size_map hs hn.
by move=> i hi; rewrite (nth_map (0, 0)) ?hs // nth_zip ?wa ?wb.
Qed.

Lemma ew_ok (sh : seq nat) f (a b : arr) : tshape a = sh -> tshape b = sh -> exists c, ew f a b = Ok c.
Proof. by rewrite /ew => -> ->; rewrite eqxx; eexists. Qed.

Lemma vec_of_scal sh n c (a : arr) : numel sh = n -> wf a -> tshape a = sh ->
  [/\ tshape (scal *%R c a) = sh, wf (scal *%R c a) & vec_of n (scal *%R c a) = c *: vec_of n a].
Proof.
rewrite /wf => hn /eqP + ha; rewrite ha => wa; split=> //; first by rewrite /= size_map wa ha.
apply/colP => i; rewrite !mxE /= (nth_map 0) //.
by rewrite wa hn.
Qed.

Lemma neumann_loop_exact sh n (M : 'M[R]_n) (Adot : arr -> res arr) a b k (x : arr) :
  numel sh = n -> shape_multiplies Adot sh M ->
  tshape x = sh -> wf x ->
  exists s, [/\ neumann_loop +%R (fun a b => a - b) *%R (fun _ => false) Adot a b k (x, x) = Ok s,
     [/\ tshape s.1 = sh, tshape s.2 = sh, wf s.1 & wf s.2],
     vec_of n s.2 = mpow (1%:M - a *: M) k *m vec_of n x &
     vec_of n s.1 = (\sum_(j < k.+1) mpow (1%:M - a *: M) j) *m vec_of n x].
Proof.
move=> hn hA hx hw; elim: k => [|k [[r v] [h1 [h2 h3 h4 h5] h6 h7]]].
  exists (x, x); split=> //=; first by rewrite /mpow /= mul1mx.
  by rewrite big_ord_recl big_ord0 addr0 /mpow /= mul1mx.
have [Av [hAv g1 g2 g3]] := hA v h3 h5.
have [q1 q2 q3] := vec_of_scal a hn g2 g1.
have [v' hv'] := @ew_ok sh (fun a b => a - b) v (scal *%R a Av) h3 q1.
have [p1 p2 p3] := vec_of_ew hn h3 q1 h5 q2 hv'.
have [r' hr'] := @ew_ok sh +%R r v' h2 p1.
have [s1 s2 s3] := vec_of_ew hn h2 p1 h4 p2 hr'.
have hv2 : vec_of n v' = mpow (1%:M - a *: M) k.+1 *m vec_of n x.
  rewrite mpowS -mulmxA -h6 mulmxBl mul1mx -scalemxAl; apply/colP => i.
  rewrite !mxE p3 //; congr (_ - _).
  by have /colP/(_ i) := q3; rewrite g3 !mxE => ->.
exists (r', v'); split; [|by split|exact: hv2|].
  rewrite neumann_loop_rec h1 /= hAv /= hv' /= hr' /=.
  by rewrite /allclose_self all_predT andbF.
rewrite big_ord_recr mulmxDl -h7 -hv2; apply/colP => i.
by rewrite !mxE s3.
Qed.

Lemma neumann_series sh n (M : 'M[R]_n) (Adot : arr -> res arr) a b K (x : arr) :
  numel sh = n -> shape_multiplies Adot sh M ->
  tshape x = sh -> wf x ->
  exists y, [/\ neumann_exact Adot K a b x = Ok y, tshape y = sh, wf y &
     vec_of n y = a *: (\sum_(k < K.+1) mpow (1%:M - a *: M) k) *m vec_of n x].
Proof.
move=> hn hA hx hw; have [s [h1 [h2 h3 h4 h5] h6 h7]] := neumann_loop_exact a b K hn hA hx hw.
rewrite /neumann_exact /neumann_matvec h1 /=.
have [q1 q2 q3] := vec_of_scal a hn h4 h2.
by exists (scal *%R a s.1); split=> //; rewrite q3 h7 scalemxAl.
Qed.

(* telescoping: M times the truncated series *)
Lemma neumann_telescope n (M : 'M[R]_n) a K :
  M *m (a *: (\sum_(k < K.+1) mpow (1%:M - a *: M) k)) = 1%:M - mpow (1%:M - a *: M) K.+1.
Proof.
set B := 1%:M - a *: M.
have -> : M *m (a *: (\sum_(k < K.+1) mpow B k)) = (1%:M - B) *m (\sum_(k < K.+1) mpow B k).
  by rewrite /B opprB addrCA subrr addr0 -scalemxAr -scalemxAl.
elim: K => [|K IH].
  by rewrite big_ord_recl big_ord0 addr0 /mpow /= !mulmx1.
by rewrite big_ord_recr mulmxDr IH [val _]/= mulmxBl mul1mx -mpowS addrA subrK.
Qed.

End NeumannExact.

Section NeumannError.
Variable R : realFieldType.

(* error of the truncated series measured in any seminorm in which I - aM is a
   contraction with factor q *)
Lemma neumann_error n (M : 'M[R]_n) a K (x y z : 'cV[R]_n) (N : 'cV[R]_n -> R) q :
  M *m z = x -> y = a *: (\sum_(k < K.+1) mpow (1%:M - a *: M) k) *m x ->
  0 <= q -> (forall v, N ((1%:M - a *: M) *m v) <= q * N v) ->
  N (z - y) <= q ^+ K.+1 * N z.
Proof.
move=> hz -> hq hN; set B := 1%:M - a *: M.
have hcomm : (\sum_(k < K.+1) mpow B k) *m M = M *m (\sum_(k < K.+1) mpow B k).
  rewrite mulmx_suml mulmx_sumr; apply: eq_bigr => k _.
  elim: (k : nat) => [|m IH]; first by rewrite mulmx1 mul1mx.
  rewrite mpowS -mulmxA IH !mulmxA; congr (_ *m _).
  by rewrite /B mulmxBl mulmxBr mul1mx mulmx1 -scalemxAl -scalemxAr.
have -> : z - a *: (\sum_(k < K.+1) mpow B k) *m x = mpow B K.+1 *m z.
  rewrite -hz mulmxA -scalemxAl hcomm scalemxAr neumann_telescope.
  by rewrite mulmxBl mul1mx opprB addrCA subrr addr0.
elim: K.+1 => [|k IH]; first by rewrite /mpow /= mul1mx expr0 mul1r.
rewrite mpowS -mulmxA exprS -mulrA; apply: le_trans (hN _) _.
exact: ler_wpmul2l.
Qed.

End NeumannError.

(* ------------------------------------------------------------------ *)
(* CG and LSMR wrappers, inverse.py 36-164 *)

(* Python argument values: None, booleans, decimal literals m*10^e, objects *)
Inductive pyobj := ONone | OBool of bool | ODec of int & int | OObj of nat.

(* inverse.py 52-77: arguments of set_cg_hyperparameters (None = omitted) and the
   stored dictionary *)
Record cg_dict V := CgDict { cg_x0 : V; cg_maxiter : V; cg_M : V; cg_callback : V; cg_atol : V; cg_tol : V }.
Definition set_cg (a : cg_dict (option pyobj)) : cg_dict pyobj :=
  CgDict (odflt ONone (cg_x0 a)) (odflt ONone (cg_maxiter a)) (odflt ONone (cg_M a))
         (odflt ONone (cg_callback a)) (odflt ONone (cg_atol a)) (odflt (ODec 1 (-5)) (cg_tol a)).

(* inverse.py 110-137: set_lsmr_hyperparameters *)
Record lsmr_dict V := LsmrDict { ls_damp : V; ls_atol : V; ls_btol : V; ls_conlim : V;
  ls_maxiter : V; ls_show : V; ls_x0 : V }.
Definition set_lsmr (a : lsmr_dict (option pyobj)) : lsmr_dict pyobj :=
  LsmrDict (odflt (ODec 0 0) (ls_damp a)) (odflt (ODec 1 (-6)) (ls_atol a))
    (odflt (ODec 1 (-6)) (ls_btol a)) (odflt (ODec 1 (-8)) (ls_conlim a))
    (odflt ONone (ls_maxiter a)) (odflt (OBool false) (ls_show a)) (odflt ONone (ls_x0 a)).

(* calls of the setters without any argument *)
Definition cg_omitted : cg_dict (option pyobj) := CgDict None None None None None None.
Definition lsmr_omitted : lsmr_dict (option pyobj) := LsmrDict None None None None None None None.

Section Solvers.
Variable R : ringType.
Local Notation arr := (tensor R).
(* argument record, dictionary, the setter, and SciPy's solver (external) which
   receives the operator (implicit), right-hand side and dictionary *)
Variables (Arg Dict : Type) (set_hyper : Arg -> Dict) (omitted : Arg).
Variable solver : arr -> Dict -> res arr.

(* calls a user can make on the object *)
Inductive solver_event := SetHyper of Arg | Matvec of arr.

(* inverse.py 39-50, 98-108: constructor = setter with no arguments *)
Definition solver_init : Dict := set_hyper omitted.

(* one call: new stored dictionary and, for products, the solver call made *)
Definition solver_step (st : Dict) (e : solver_event) : Dict * option (arr * Dict) :=
  match e with
  | SetHyper a => (set_hyper a, None)
  | Matvec x => (st, Some (x, st))
  end.
Definition solver_run (h : seq solver_event) : Dict :=
  foldl (fun st e => (solver_step st e).1) solver_init h.
(* inverse.py 79-89, 139-164: _matvec after history h *)
Definition solver_matvec (h : seq solver_event) (x : arr) : res arr :=
  solver x (solver_run h).

Lemma solver_run_last h1 a h2 :
  all (fun e => if e is Matvec _ then true else false) h2 ->
  solver_run (h1 ++ SetHyper a :: h2) = set_hyper a.
Proof.
rewrite /solver_run foldl_cat /=; elim: h2 => [|[] h2 IH] //=.
Qed.

Lemma solver_run_default h2 :
  all (fun e => if e is Matvec _ then true else false) h2 -> solver_run h2 = set_hyper omitted.
Proof. by rewrite /solver_run; elim: h2 => [|[] h2 IH]. Qed.

End Solvers.

(* inverse.py 24-33: shared _matmat of all three classes; 'self @ col' on a
   one-dimensional column is matvec *)
Section InverseOp.
Variable R : ringType.
Definition inverse_op (n : nat) (mv : tensor R -> res (tensor R)) : scipy_op R :=
  ScipyOp n n mv (columnwise (sp_dot (ScipyOp n n mv (fun _ => Err NotImplementedError)))).

Lemma inverse_op_columns n mv K X : (1 < K)%N -> tshape X = [:: n; K] -> wf X ->
  (forall x, tshape x = [:: n] -> wf x -> exists y, [/\ mv x = Ok y, tshape y = [:: n] & wf y]) ->
  exists Y, [/\ sp_dot (inverse_op n mv) X = Ok Y, tshape Y = [:: n; K], wf Y &
   forall k, (k < K)%N -> exists x y,
     [/\ tshape x = [:: n], wf x, forall i, (i < n)%N -> nth 0 (tdata x) i = entry K (tdata X) i k,
         sp_dot (inverse_op n mv) x = Ok y &
         tshape y = [:: n] /\ forall i, (i < n)%N -> entry K (tdata Y) i k = nth 0 (tdata y) i]].
Proof.
move=> hK hX hw hmv.
have hd x : tshape x = [:: n] -> wf x ->
   exists y, [/\ sp_dot (inverse_op n mv) x = Ok y, tshape y = [:: n] & wf y].
  move=> hx wx; have [y [h1 h2 h3]] := hmv x hx wx.
  have hs : size (tdata y) = (n * 1)%N by move/eqP: h3; rewrite h2.
  rewrite /sp_dot /ndim hx /= /sp_matvec /ndim hx /= eqxx /= h1 /= /treshape /= hs eqxx /=.
  by eexists; split; first reflexivity; rewrite // /wf /= hs.
have hsame x : tshape x = [:: n] -> sp_dot (inverse_op n mv) x = sp_dot (ScipyOp n n mv (fun _ => Err NotImplementedError)) x.
  by move=> hx; rewrite /sp_dot /ndim hx.
have [|Y [h1 h2 h3 h4]] := @columnwise_columns R (sp_dot (ScipyOp n n mv (fun _ => Err NotImplementedError))) n n K X (ltnW hK) hX.
  by move=> x hx wx; rewrite -hsame //; apply: hd.
exists Y; split=> //.
  rewrite /sp_dot /ndim hX /= (_ : (K == 1%N) = false); last by apply/negbTE; rewrite neq_ltn hK orbT.
  by rewrite /sp_matmat /ndim hX /= eqxx.
move=> k hk; have [c1 c2 c3] := np_columns_spec hX hk; have [y hy [hy1 hy2]] := h4 k hk.
by exists (nth (Tensor [::] [::]) (np_columns X) k), y; split=> //; rewrite hsame.
Qed.

Lemma inverse_op_no_columns n mv X : tshape X = [:: n; 0%N] ->
  sp_dot (inverse_op n mv) X = Err ValueError.
Proof.
move=> hX; rewrite /sp_dot /ndim hX /= /sp_matmat /ndim hX /= eqxx /=.
exact: columnwise_empty hX.
Qed.

End InverseOp.

Lemma neumann_op_series (R : comRingType) n (M : 'M[R]_n) (A : scipy_op R) a check_nan K sh (x : tensor R) :
  sh = [:: n] /\ vec_multiplies (sp_dot A) n n (mxfun M) \/
  sh = [:: n; 1%N] /\ mat_multiplies (sp_dot A) n n 1 (mxfun M) ->
  tshape x = sh -> wf x ->
  exists y, [/\ sp_dot (inverse_op n (neumann_exact (sp_dot A) K a check_nan)) x = Ok y,
     tshape y = sh, wf y,
     vec_of n y = (a *: \sum_(k < K.+1) mpow (1%:M - a *: M) k) *m vec_of n x &
     M *m vec_of n y = vec_of n x - mpow (1%:M - a *: M) K.+1 *m vec_of n x].
Proof.
move=> hA hx hw.
have hn : numel sh = n by case: hA => -[-> _] /=; rewrite !muln1.
have hsm : shape_multiplies (sp_dot A) sh M.
  by case: hA => -[-> h]; [apply: vec_shape_multiplies | apply: mat_shape_multiplies].
have [y [h1 h2 h3 h4]] := neumann_series a check_nan K hn hsm hx hw.
exists y; split=> //; last first.
  by rewrite h4 mulmxA neumann_telescope mulmxBl mul1mx.
have hs : size (tdata y) = n by move/eqP: h3; rewrite h2 hn.
have ey : Tensor sh (tdata y) = y by case: (y) h2 => sy dy /= ->.
case: hA => -[e _]; rewrite e in hx ey.
- rewrite /sp_dot /ndim hx /= /sp_matvec /ndim hx /= eqxx /= h1 /=.
  by rewrite /treshape /= muln1 hs eqxx ey.
- rewrite /sp_dot /ndim hx /= /sp_matvec /ndim hx /= eqxx andbF /= h1 /=.
  by rewrite /treshape /= !muln1 hs eqxx ey.
Qed.
