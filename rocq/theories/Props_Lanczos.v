(* C64, C65, C75: Lanczos iterations. *)
From Coq Require Import Reals Lra String.
From mathcomp Require Import all_ssreflect all_algebra.
From Verif Require Import PyPrelude Tensor Spec Numpy Submatrix Inverse Estimators RInst Calculus ROrd KfacInvProof
  Lanczos LanczosAlg LanczosProof.
Set Implicit Arguments.
Unset Strict Implicit.
Unset Printing Implicit Defensive.
Import GRing.Theory Num.Theory.
Local Open Scope ring_scope.

Section Props.
Variables (F : rcfType) (n : nat).
Local Notation arr := (tensor F).

(* the start vector drawn by randn, and its direction *)
Definition drawn (x : nat -> F) : 'cV[F]_n := \col_i x i.
Definition direction (x : nat -> F) : 'cV[F]_n := (Num.sqrt (\sum_(i < n) x i ^+ 2))^-1 *: drawn x.

(* A is a square operator that multiplies vectors with the symmetric matrix M *)
Definition symmetric_op (A : mv_op F) (M : 'M[F]_n) : Prop :=
  [/\ mv_shape A = [:: n; n], vec_multiplies (mv_dot A) n n (mxfun M) & M^T = M].

Lemma directionE x : direction x = unit_start n x.
Proof.
rewrite /direction /unit_start /nrm dotE; congr (_^-1 *: _); congr Num.sqrt.
by apply: eq_bigr => i _; rewrite !mxE expr2.
Qed.

Lemma unit_dir x : drawn x != 0 -> dot (lvec (0 : 'M[F]_n) x 0) (lvec (0 : 'M[F]_n) x 0) = 1.
Proof. by move=> h; rewrite /lvec /=; apply: nrm_unit; apply: nrm_neq0. Qed.

(* ---------------------------------------------------------------- C64 *)
(* Row k of the loop works with column k of V: the vectors are orthonormal and V
   turns M into the tri-diagonal matrix of the recorded coefficients. *)
Theorem C64_lanczos (A : mv_op F) (M : 'M[F]_n) (ncv : nat) (x : nat -> F) :
  symmetric_op A M -> drawn x != 0 -> (0 < ncv)%N ->
  exists s, [/\ lanczos_passes A ncv x ncv = Ok s, size (l_alphas s) = ncv, size (l_betas s) = (ncv - 1)%N &
    (forall b, b \in l_betas s -> b != 0) ->
    exists V : 'M[F]_(n, ncv),
      [/\ V^T *m V = 1%:M,
          forall i j : 'I_ncv, (V^T *m M *m V) i j =
            (if i == j :> nat then nth 0 (l_alphas s) i
             else if i == j.+1 :> nat then nth 0 (l_betas s) j
             else if j == i.+1 :> nat then nth 0 (l_betas s) i else 0) &
          forall k : 'I_ncv, exists sk, [/\ lanczos_passes A ncv x k = Ok sk, tshape (l_v sk) = [:: n] &
            forall i : 'I_n, nth 0 (tdata (l_v sk)) i = V i k]
            /\ (k = 0%N :> nat -> col k V = direction x)]].
Proof.
move=> [hs hm hsym] hx; case: ncv => // p _.
have hs' : nth 0%N (mv_shape A) 1 = n by rewrite hs.
have [s [e ea eb]] := final_ok hs' hm x (isT : (0 < p.+1)%N).
exists s; rewrite ea eb !size_mkseq subn1 /=; split=> // hb.
have nb j : (j < p)%N -> loff M x j != 0 by move=> hj; apply: hb; apply: map_f; rewrite mem_iota.
have u0 : dot (lvec M x 0) (lvec M x 0) = 1 by apply: unit_dir hx.
have al_ m : lalpha M x m = dot (M *m lvec M x m - bpv (lvec M x) (loff M x) m) (lvec M x m) by [].
exists (Vmx (lvec M x) p); split.
- exact: (VtV al_ (loffE M x) (lvecE M x) hsym u0 nb).
- move=> i j; rewrite (VtMV al_ (loffE M x) (lvecE M x) hsym u0 nb) mxE /tri.
  case: eqP => _; first by rewrite nth_mkseq.
  case: eqP => [h|_]; first by rewrite nth_mkseq // -ltnS -h.
  by case: eqP => [h|_] //; rewrite nth_mkseq // -ltnS -h.
- move=> k; have [sk esk [[h1 h2 h3] _ _ _]] := passes_ok hs' hm x (ltn_ord k).
  exists sk; split; first by split=> // i; rewrite mxE -h3 mxE.
  by move=> k0; rewrite directionE; apply/colP => i; rewrite !mxE k0 /lvec /= !mxE.
Qed.

(* With more Lanczos vectors than dimensions an off-diagonal coefficient is zero,
   and fast_lanczos divides by it. *)
Theorem C64_breakdown (A : mv_op F) (M : 'M[F]_n) (ncv : nat) (x : nat -> F) :
  symmetric_op A M -> drawn x != 0 -> (n < ncv)%N ->
  exists2 s, lanczos_passes A ncv x ncv = Ok s & 0 \in l_betas s.
Proof.
move=> hA hx hn; have hp : (0 < ncv)%N by apply: leq_ltn_trans hn.
have [s [e _ _ h]] := C64_lanczos hA hx hp; exists s => //; apply/negPn/negP => h0.
have [|V [hV _ _]] := h; first by move=> b hb; apply: contra h0 => /eqP <-.
suff : (ncv <= n)%N by rewrite leqNgt hn.
by rewrite -{1}(mxrank1 F ncv) -hV; apply: leq_trans (mulmx_max_rank _ _) _.
Qed.

(* ---------------------------------------------------------------- C65 *)
Variable eigh : arr -> res (arr * arr).
Variable eigh_tridiagonal : seq F -> seq F -> res (arr * arr).

(* contracts of SciPy's solvers: whatever they return is an orthonormal basis of
   eigenvectors (columns of the second result) with their eigenvalues *)
Definition decomposes m (T : 'M[F]_m) (evals evecs : arr) : Prop :=
  [/\ tshape evecs = [:: m; m], tshape evals = [:: m],
      forall i j : 'I_m, \sum_(k < m) entry m (tdata evecs) k i * entry m (tdata evecs) k j = (i == j)%:R &
      forall i j : 'I_m, T i j = \sum_(k < m) entry m (tdata evecs) i k * nth 0 (tdata evals) k * entry m (tdata evecs) j k].
Definition eigh_contract : Prop := forall m t evals evecs, tshape t = [:: m; m] ->
  (forall i j, (i < m)%N -> (j < m)%N -> entry m (tdata t) i j = entry m (tdata t) j i) ->
  eigh t = Ok (evals, evecs) -> decomposes (\matrix_(i < m, j < m) entry m (tdata t) i j) evals evecs.
Definition eigh_tridiagonal_contract : Prop := forall m alphas betas evals evecs,
  size alphas = m -> size betas = (m - 1)%N -> eigh_tridiagonal alphas betas = Ok (evals, evecs) ->
  decomposes (\matrix_(i < m, j < m) (if i == j :> nat then nth 0 alphas i
    else if i == j.+1 :> nat then nth 0 betas j else if j == i.+1 :> nat then nth 0 betas i else 0)) evals evecs.

Lemma decomposes_eig m T evals evecs : @decomposes m T evals evecs -> eig_of T evecs evals.
Proof.
move=> [h1 h2 h3 h4]; split=> //.
  apply/matrixP => i j; rewrite !mxE -h3; apply: eq_bigr => k _; by rewrite !mxE.
apply/matrixP => i j; rewrite h4 mxE; apply: eq_bigr => k _; rewrite !mxE; congr (_ * _).
rewrite (bigD1 k) //= big1 => [|l nl]; first by rewrite addr0 !mxE eqxx.
by rewrite !mxE (negbTE nl) mulr0.
Qed.

(* the k-th power of M applied to v *)
Definition power_on (M : 'M[F]_n) k (v : 'cV[F]_n) : 'cV[F]_n := iter k (mulmx M) v.

(* Gauss quadrature: the Ritz values with the squared first components of the
   eigenvectors reproduce the moments of M in the start direction *)
Definition moment (ncv : nat) (run : arr * arr) k : F :=
  \sum_(i < ncv) entry ncv (tdata run.2) 0 i ^+ 2 * nth 0 (tdata run.1) i ^+ k.

(* no off-diagonal coefficient vanishes in the run from x *)
Definition no_breakdown (A : mv_op F) ncv x : Prop :=
  forall s b, lanczos_passes A ncv x ncv = Ok s -> b \in l_betas s -> b != 0.

Theorem C65_moments (A : mv_op F) (M : 'M[F]_n) (ncv : nat) (flag : bool) (x : nat -> F) run k :
  symmetric_op A M -> drawn x != 0 -> no_breakdown A ncv x ->
  eigh_contract -> eigh_tridiagonal_contract ->
  fast_lanczos eigh eigh_tridiagonal A ncv flag x = Ok run -> (k <= 2 * ncv - 1)%N ->
  moment ncv run k = ((direction x)^T *m power_on M k (direction x)) 0 0.
Proof.
move=> [hs hm hsym] hx hb he ht; rewrite /fast_lanczos; case: ncv hb => // p hb /=.
have hs' : nth 0%N (mv_shape A) 1 = n by rewrite hs.
have [s [e ea eb]] := final_ok hs' hm x (isT : (0 < p.+1)%N).
rewrite e /= => hrun hk.
have nb j : (j < p)%N -> loff M x j != 0.
  by move=> hj; apply: (hb s) => //; rewrite eb subn1; apply: map_f; rewrite mem_iota.
have u0 : dot (lvec M x 0) (lvec M x 0) = 1 by apply: unit_dir hx.
have al_ m : lalpha M x m = dot (M *m lvec M x m - bpv (lvec M x) (loff M x) m) (lvec M x m) by [].
have eT : forall i j : 'I_p.+1, (if i == j :> nat then nth 0 (l_alphas s) i
    else if i == j.+1 :> nat then nth 0 (l_betas s) j else if j == i.+1 :> nat then nth 0 (l_betas s) i else 0) =
    Tmx (lalpha M x) (loff M x) p i j.
  move=> i j; rewrite ea eb subn1 mxE /tri.
  case: eqP => _; first by rewrite nth_mkseq.
  case: eqP => [h|_]; first by rewrite nth_mkseq // -ltnS -h.
  by case: eqP => [h|_] //; rewrite nth_mkseq // -ltnS -h.
have hd : decomposes (Tmx (lalpha M x) (loff M x) p) run.1 run.2.
  case: run hrun => evals evecs /=; case: flag => hrun.
    have := ht p.+1 _ _ _ _ _ _ hrun; rewrite ea eb !size_mkseq => /(_ erefl erefl).
    by rewrite -ea -eb; congr decomposes; apply/matrixP => i j; rewrite [LHS]mxE eT.
  have tE : tmx p.+1 p.+1 (tridiagonal p.+1 (l_alphas s) (l_betas s)) = Tmx (lalpha M x) (loff M x) p.
    by rewrite ea eb subn1 /= tridiagonalE.
  have := he p.+1 _ _ _ _ _ hrun => /(_ erefl).
  rewrite -/(tmx p.+1 p.+1 _) tE; apply => i j hi hj.
  have := Tsym (lalpha M x) (loff M x) p; rewrite -tE => /matrixP /(_ (Ordinal hj) (Ordinal hi)).
  by rewrite !mxE.
rewrite /moment (eig_moments k (decomposes_eig hd)) directionE.
have hk' : (k <= 2 * p + 1)%N.
  by apply: leq_trans hk _; rewrite mulnS addn1 add2n subn1.
by rewrite -(moments al_ (loffE M x) (lvecE M x) hsym u0 nb hk').
Qed.

(* the weights are those of a probability distribution *)
Theorem C65_weights_sum_to_one (A : mv_op F) (M : 'M[F]_n) (ncv : nat) (flag : bool) (x : nat -> F) run :
  symmetric_op A M -> drawn x != 0 -> no_breakdown A ncv x ->
  eigh_contract -> eigh_tridiagonal_contract ->
  fast_lanczos eigh eigh_tridiagonal A ncv flag x = Ok run ->
  \sum_(i < ncv) entry ncv (tdata run.2) 0 i ^+ 2 = 1 /\
  forall i, 0 <= entry ncv (tdata run.2) 0 i ^+ 2.
Proof.
move=> hA hx hb he ht hr; split=> [|i]; last exact: sqr_ge0.
have := C65_moments (k := 0) hA hx hb he ht hr isT; rewrite /moment /power_on /= => h.
transitivity (dot (direction x) (direction x)); last by rewrite directionE; apply: (unit_dir hx).
by rewrite -[RHS]h; apply: eq_bigr => i _; rewrite expr0 mulr1.
Qed.

(* ---------------------------------------------------------------- C75 *)
(* An expectation over start vectors: linear, only looks at start vectors in S, and
   the directions have second moments 1/n (true for the normal distribution, whose
   direction is uniform on the sphere). *)
Definition isotropic (S : (nat -> F) -> Prop) (E : ((nat -> F) -> F) -> F) : Prop :=
  [/\ forall f g, (forall x, S x -> f x = g x) -> E f = E g,
      forall f g, E (fun x => f x + g x) = E f + E g,
      forall c f, E (fun x => c * f x) = c * E f &
      forall i j : 'I_n, E (fun x => direction x i 0 * direction x j 0) = (i == j)%:R / n%:R].

Lemma E_sum S E (I : finType) (f : I -> (nat -> F) -> F) : isotropic S E ->
  E (fun x => \sum_i f i x) = \sum_i E (f i).
Proof.
case=> hext hadd hscal _.
have E0 : E (fun _ => 0) = 0.
  by rewrite -[RHS](mul0r (E (fun _ => 0))) -hscal; apply: hext => x _; rewrite mul0r.
have gen (r : seq I) : E (fun x => \sum_(i <- r) f i x) = \sum_(i <- r) E (f i).
  elim: r => [|i r IH].
    by rewrite big_nil -[RHS]E0; apply: hext => x _; rewrite big_nil.
  by rewrite big_cons -IH -hadd; apply: hext => x _; rewrite big_cons.
exact: gen.
Qed.

Theorem C75_expected_moments (A : mv_op F) (M : 'M[F]_n) (ncv : nat) (flag : bool) S E k :
  symmetric_op A M -> isotropic S E ->
  (forall x, S x -> drawn x != 0 /\ no_breakdown A ncv x) ->
  (forall x, S x -> exists run, fast_lanczos eigh eigh_tridiagonal A ncv flag x = Ok run) ->
  eigh_contract -> eigh_tridiagonal_contract -> (k <= 2 * ncv - 1)%N ->
  forall f, (forall x run, S x -> fast_lanczos eigh eigh_tridiagonal A ncv flag x = Ok run -> f x = moment ncv run k) ->
  E f = (\tr (iter k (mulmx M) 1%:M)) / n%:R.
Proof.
move=> hA hE hS hr he ht hk f hf; have [hext hadd hscal hiso] := hE.
transitivity (E (fun x => \sum_i \sum_j (iter k (mulmx M) 1%:M) i j * (direction x i 0 * direction x j 0))).
  apply: hext => x Sx; have [run er] := hr x Sx; have [hx hb] := hS x Sx.
  rewrite (hf x run Sx er) (C65_moments hA hx hb he ht er hk) mxE.
  apply: eq_bigr => i _; rewrite mxE.
  have -> : power_on M k (direction x) = iter k (mulmx M) 1%:M *m direction x.
    by rewrite /power_on; elim: k {hk f hf} => [|k IH] /=; rewrite ?mul1mx // IH mulmxA.
  rewrite [(_ *m _) i 0]mxE mulr_sumr; apply: eq_bigr => j _.
  by rewrite mulrCA.
rewrite (E_sum _ hE) /mxtrace mulr_suml; apply: eq_bigr => i _.
rewrite (E_sum _ hE) (bigD1 i) //= big1 => [|j nj].
  by rewrite addr0 hscal hiso eqxx mulrA mulr1.
by rewrite hscal hiso eq_sym (negbTE nj) mul0r mulr0.
Qed.
End Props.
Print Assumptions C64_lanczos.
Print Assumptions C64_breakdown.
Print Assumptions C65_moments.
Print Assumptions C65_weights_sum_to_one.
Print Assumptions C75_expected_moments.
