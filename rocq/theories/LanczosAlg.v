(* Linear algebra of the Lanczos recurrence: orthonormality of the vectors, the
   projected matrix and the moments.  Not tied to a file of /repo. *)
From mathcomp Require Import all_ssreflect all_algebra.
Set Implicit Arguments.
Unset Strict Implicit.
Unset Printing Implicit Defensive.
Import GRing.Theory Num.Theory.
Local Open Scope ring_scope.

Section Dot.
Variables (F : rcfType) (n : nat).
Implicit Types x y z : 'cV[F]_n.
Definition dot x y : F := (x^T *m y) 0 0.
Lemma dotE x y : dot x y = \sum_i x i 0 * y i 0.
Proof. by rewrite /dot mxE; apply: eq_bigr => i _; rewrite mxE. Qed.
Lemma dotC x y : dot x y = dot y x.
Proof. by rewrite !dotE; apply: eq_bigr => i _; rewrite mulrC. Qed.
Lemma dotDl x y z : dot (x + y) z = dot x z + dot y z.
Proof. by rewrite /dot linearD /= mulmxDl mxE. Qed.
Lemma dotBl x y z : dot (x - y) z = dot x z - dot y z.
Proof. by rewrite /dot linearB /= mulmxBl !mxE. Qed.
Lemma dotZl c x y : dot (c *: x) y = c * dot x y.
Proof. by rewrite /dot linearZ /= -scalemxAl mxE. Qed.
Lemma dotDr x y z : dot z (x + y) = dot z x + dot z y.
Proof. by rewrite dotC dotDl !(dotC z). Qed.
Lemma dotZr c x y : dot x (c *: y) = c * dot x y.
Proof. by rewrite dotC dotZl dotC. Qed.
Lemma dot0r x : dot x 0 = 0.
Proof. by rewrite /dot mulmx0 mxE. Qed.
Lemma dot_sym (M : 'M[F]_n) x y : M^T = M -> dot (M *m x) y = dot x (M *m y).
Proof. by move=> h; rewrite /dot trmx_mul h mulmxA. Qed.
Lemma dot_ge0 x : 0 <= dot x x.
Proof. by rewrite dotE; apply: sumr_ge0 => i _; rewrite -expr2 sqr_ge0. Qed.
Definition nrm x : F := Num.sqrt (dot x x).
Lemma nrm_sqr x : nrm x * nrm x = dot x x.
Proof. by rewrite -expr2 sqr_sqrtr // dot_ge0. Qed.
Lemma nrm_unit x : nrm x != 0 -> dot ((nrm x)^-1 *: x) ((nrm x)^-1 *: x) = 1.
Proof. by move=> h; rewrite dotZl dotZr -nrm_sqr mulKf // mulVf. Qed.
Lemma nrm_neq0 x : x != 0 -> nrm x != 0.
Proof.
apply: contra => /eqP h; have : dot x x = 0 by rewrite -nrm_sqr h mulr0.
rewrite dotE => /eqP; rewrite psumr_eq0; last by move=> i _; rewrite -expr2 sqr_ge0.
move/allP => hi; apply/eqP/colP => i; rewrite !mxE; apply/eqP.
by have := hi i (mem_index_enum _); rewrite /= -expr2 sqrf_eq0.
Qed.
End Dot.

Section Lanczos.
Variables (F : rcfType) (n : nat) (M : 'M[F]_n).
(* the vectors and the coefficients of a run *)
Variables (vv : nat -> 'cV[F]_n) (al be : nat -> F).
Definition bpv m : 'cV[F]_n := if m is k.+1 then be k *: vv k else 0.
Definition lres m : 'cV[F]_n := M *m vv m - bpv m - al m *: vv m.
Hypothesis Hal : forall m, al m = dot (M *m vv m - bpv m) (vv m).
Hypothesis Hbe : forall m, be m = nrm (lres m).
Hypothesis Hvv : forall m, vv m.+1 = (be m)^-1 *: lres m.

Lemma bpv0 : bpv 0 = 0. Proof. by []. Qed.
Lemma bpvS m : bpv m.+1 = be m *: vv m. Proof. by []. Qed.

Lemma recE m : be m != 0 -> M *m vv m = be m *: vv m.+1 + al m *: vv m + bpv m.
Proof. by move=> h; rewrite Hvv scalerA divff // scale1r /lres subrK subrK. Qed.

Hypothesis Msym : M^T = M.
Hypothesis unit0 : dot (vv 0) (vv 0) = 1.

Lemma lz_orth m : (forall j, (j < m)%N -> be j != 0) ->
  forall i j, (i <= m)%N -> (j <= m)%N -> dot (vv i) (vv j) = (i == j)%:R.
Proof.
elim: m => [|m IH] hb i j.
  by rewrite !leqn0 => /eqP -> /eqP ->; rewrite eqxx unit0.
have {}IH := IH (fun k hk => hb k (leqW hk)).
have bm : be m != 0 by apply: hb.
(* new vector against old ones *)
have new k : (k <= m)%N -> dot (vv m.+1) (vv k) = 0.
  move=> hk; rewrite Hvv dotZl.
  suff -> : dot (lres m) (vv k) = 0 by rewrite mulr0.
  rewrite dotBl dotZl; move: hk; rewrite leq_eqVlt => /orP [/eqP ->|hk].
    by rewrite IH // eqxx mulr1 Hal subrr.
  have hk' := ltnW hk.
  rewrite IH // gtn_eqF // mulr0 subr0 dotBl dot_sym // recE; last by apply: hb; apply: leqW.
  rewrite !dotDr !dotZr !IH //.
  rewrite [(m == k)]gtn_eqF // mulr0 addr0.
  have bk : dot (vv m) (bpv k) = 0.
    case: k hk {hk'} => [|k] hk; first by rewrite bpv0 dot0r.
    have hk2 := ltnW (ltnW hk).
    by rewrite bpvS dotZr IH // (gtn_eqF (ltnW hk)) mulr0.
  rewrite bk addr0; case: m IH {hb bm bk hk'} hk => [//|m] IH hk.
  rewrite bpvS dotZl IH //; last exact: ltnW.
  rewrite eqSS eq_sym; case: (eqVneq m k) => [->|_]; rewrite ?subrr //.
  by rewrite !mulr0 subrr.
rewrite leq_eqVlt => /orP [/eqP ->|hi]; rewrite leq_eqVlt => /orP [/eqP ->|hj].
- by rewrite eqxx Hvv Hbe; apply: nrm_unit; rewrite -Hbe.
- by rewrite new // gtn_eqF.
- by rewrite dotC new // ltn_eqF.
by apply: IH.
Qed.

(* entry (i, j) of the tri-diagonal matrix *)
Definition tri (a b : nat -> F) (i j : nat) : F :=
  if i == j then a i else if i == j.+1 then b j else if j == i.+1 then b i else 0.

Lemma lz_proj m : (forall j, (j < m)%N -> be j != 0) ->
  forall i j, (i <= m)%N -> (j <= m)%N -> dot (vv i) (M *m vv j) = tri al be i j.
Proof.
move=> hb; have orth := lz_orth hb.
have bp k i : (i <= m)%N -> (k <= m)%N -> dot (vv i) (bpv k) = if k == i.+1 then be i else 0.
  move=> hi; case: k => [|k] hk; first by rewrite bpv0 dot0r.
  rewrite bpvS dotZr orth //; last by rewrite ltnW.
  by rewrite eqSS eq_sym; case: eqP => [->|]; rewrite ?mulr1 ?mulr0.
have low i j : (i <= m)%N -> (j < m)%N -> dot (vv i) (M *m vv j) = tri al be i j.
  move=> hi hj; have hj' := ltnW hj; rewrite recE ?hb // !dotDr !dotZr !orth // bp // /tri.
  case: (eqVneq i j) => [->|nij].
    by rewrite ltn_eqF // mulr0 add0r mulr1 addr0.
  case: (eqVneq i j.+1) => [->|_]; last by rewrite !mulr0 !add0r.
  by rewrite mulr1 mulr0 addr0 ltn_eqF ?addr0.
move=> i j hi; rewrite leq_eqVlt => /orP [/eqP ->|hj]; last by apply: low.
move: hi; rewrite leq_eqVlt => /orP [/eqP ->|hi].
  rewrite /tri eqxx dotC Hal dotBl.
  by rewrite [dot (bpv m) _]dotC bp // ltn_eqF // subr0.
by rewrite -dot_sym // dotC low // /tri (gtn_eqF hi) (ltn_eqF hi) (ltn_eqF (leqW hi)).
Qed.

(* the matrix with the first p+1 vectors as columns *)
Variable p : nat.
Hypothesis nobreak : forall j, (j < p)%N -> be j != 0.
Definition Vmx : 'M[F]_(n, p.+1) := \matrix_(i, j) vv j i 0.
Definition Tmx : 'M[F]_p.+1 := \matrix_(i, j) tri al be i j.

Lemma Vcol (j : 'I_p.+1) : col j Vmx = vv j.
Proof. by apply/colP => i; rewrite !mxE. Qed.
Lemma VtV : Vmx^T *m Vmx = 1%:M.
Proof.
apply/matrixP => i j; rewrite !mxE.
have := lz_orth nobreak (ltn_ord i : (i <= p)%N) (ltn_ord j : (j <= p)%N).
by rewrite dotE => <-; apply: eq_bigr => k _; rewrite !mxE.
Qed.
Lemma VtMV : Vmx^T *m M *m Vmx = Tmx.
Proof.
apply/matrixP => i j; rewrite [RHS]mxE -mulmxA mxE.
rewrite -(lz_proj nobreak (ltn_ord i : (i <= p)%N) (ltn_ord j : (j <= p)%N)) dotE.
apply: eq_bigr => k _; rewrite !mxE; congr (_ * _).
by apply: eq_bigr => l _; rewrite !mxE.
Qed.

Lemma breakdown_bound : (p.+1 <= n)%N.
Proof.
by rewrite -{1}(mxrank1 F p.+1) -VtV; apply: leq_trans (mulmx_max_rank _ _) _.
Qed.

(* A V and V T agree on vectors without a last component *)
Definition e0 : 'cV[F]_p.+1 := delta_mx 0 0.
Definition low (k : nat) (x : 'cV[F]_p.+1) := forall i : 'I_p.+1, (k < i)%N -> x i 0 = 0.

Lemma T_low k x : low k x -> low k.+1 (Tmx *m x).
Proof.
move=> hx i hi; rewrite mxE big1 // => j _; rewrite mxE /tri.
case: (ltnP k j) => hj; first by rewrite hx ?mulr0.
have hji : (j.+1 < i)%N by apply: leq_ltn_trans hi.
rewrite gtn_eqF 1?ltnW // gtn_eqF // ltn_eqF ?mul0r //.
by apply: ltn_trans (ltnSn _); apply: ltnW.
Qed.

Lemma MV_low (x : 'cV[F]_p.+1) k : (k < p)%N -> low k x -> M *m (Vmx *m x) = Vmx *m (Tmx *m x).
Proof.
move=> hk hx; rewrite !mulmxA.
apply/colP => r; rewrite !mxE; apply: eq_bigr => j _.
case: (ltnP k j) => hj; first by rewrite hx ?mulr0.
congr (_ * _).
have hjp : (j < p)%N by apply: leq_ltn_trans hk.
transitivity ((M *m vv j) r 0); first by rewrite !mxE; apply: eq_bigr => l _; rewrite !mxE.
rewrite recE ?nobreak //.
have hj1 : (j.+1 < p.+1)%N by [].
have hjS : (j < p.+1)%N by rewrite ltnS ltnW.
(* expand the sum over the three non-zero entries of column j of T *)
have -> : (Vmx *m Tmx) r j = (Vmx *m col j Tmx) r 0.
  by rewrite !mxE; apply: eq_bigr => l _; rewrite !mxE.
have -> : col j Tmx = be j *: delta_mx (Ordinal hj1) 0 + al j *: delta_mx j 0 +
   (if j == 0%N :> nat then 0 else be j.-1 *: delta_mx (inord j.-1) 0).
  apply/colP => l; rewrite !mxE /tri /= eqxx !andbT -!val_eqE /=.
  have -> : (if j == 0%N :> nat then 0 else be j.-1 *: delta_mx (inord j.-1) 0 : 'cV[F]_p.+1) l 0 =
     if j == l.+1 :> nat then be l else 0.
    case: eqP => [->|/eqP hj0]; first by rewrite mxE.
    rewrite !mxE eqxx andbT -val_eqE /= inordK; last by apply: leq_ltn_trans (leq_pred _) _.
    case: (nat_of_ord j) hj0 => [//|j'] _; rewrite eqSS [j' == _]eq_sym /=.
    by case: eqP => [->|]; rewrite ?mulr1 ?mulr0.
  case: (eqVneq (val l) j) => [->|].
    by rewrite ltn_eqF // mulr0 add0r mulr1 addr0.
  move=> _; case: (eqVneq (val l) j.+1) => [->|_]; last by rewrite !mulr0 !add0r.
  by rewrite mulr1 mulr0 addr0 ltn_eqF ?addr0.
rewrite !mulmxDr -!scalemxAr -!colE !Vcol; congr (fun_of_matrix (_ + _) r 0).
case: (nat_of_ord j) hjS {hj hj1 hjp} => [|j'] /= hjS; first by rewrite mulmx0.
by rewrite -scalemxAr -colE Vcol inordK // ltnW.
Qed.

Lemma iterT_low j : low j (iter j (mulmx Tmx) e0).
Proof.
elim: j => [|j IH]; last by rewrite iterS; apply: T_low.
by move=> i hi; rewrite /= mxE -val_eqE /= gtn_eqF.
Qed.
Lemma iterM j : (j <= p)%N -> iter j (mulmx M) (vv 0) = Vmx *m iter j (mulmx Tmx) e0.
Proof.
elim: j => [_|j IH hj] /=; first by rewrite /e0 -colE Vcol.
by rewrite IH 1?ltnW //; apply: (@MV_low _ j) => //; apply: iterT_low.
Qed.

Lemma Tsym : Tmx^T = Tmx.
Proof.
apply/matrixP => i j; rewrite !mxE /tri eq_sym.
case: eqP => [->//|nij]; case: (eqVneq (val j) i.+1) => [->|_]; last by case: eqP.
by rewrite ltn_eqF.
Qed.

Lemma dot_iter (q : nat) (A : 'M[F]_q) x i j : A^T = A ->
  dot x (iter (i + j) (mulmx A) x) = dot (iter i (mulmx A) x) (iter j (mulmx A) x).
Proof.
move=> h; elim: i j => [|i IH] j //; rewrite addSnnS IH /=.
by rewrite dot_sym.
Qed.
Lemma dot_V x y : dot (Vmx *m x) (Vmx *m y) = dot x y.
Proof. by rewrite /dot trmx_mul mulmxA -[x^T *m _ *m _]mulmxA VtV mulmx1. Qed.
Lemma dot_VMV x y : dot (Vmx *m x) (M *m (Vmx *m y)) = dot x (Tmx *m y).
Proof. by rewrite /dot trmx_mul -VtMV !mulmxA. Qed.

Theorem moments k : (k <= 2 * p + 1)%N ->
  dot (vv 0) (iter k (mulmx M) (vv 0)) = dot e0 (iter k (mulmx Tmx) e0).
Proof.
move=> hk; case: (leqP k (2 * p)) => h.
  have [i [j [hi hj ->]]] : exists i j, [/\ (i <= p)%N, (j <= p)%N & k = (i + j)%N].
    case: (leqP k p) => hkp; first by exists 0%N, k.
    by exists (k - p)%N, p; rewrite leq_subLR addnn -mul2n leqnn subnK // ltnW.
  by rewrite !dot_iter ?Tsym // !iterM // dot_V.
have -> : k = (p + p.+1)%N by apply/eqP; rewrite eqn_leq addnS addnn -mul2n h -addn1 hk.
by rewrite !dot_iter ?Tsym //= iterM // dot_VMV.
Qed.
End Lanczos.
