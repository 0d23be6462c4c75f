(* Lemmas: the loop of fast_lanczos computes the Lanczos recurrence. *)
From Coq Require Import Reals String.
From mathcomp Require Import all_ssreflect all_algebra.
From Verif Require Import PyPrelude Tensor Spec Numpy Submatrix Inverse Estimators KfacInvProof Lanczos LanczosAlg.
Set Implicit Arguments.
Unset Strict Implicit.
Unset Printing Implicit Defensive.
Import GRing.Theory Num.Theory.
Local Open Scope ring_scope.

Section Refine.
Variables (F : rcfType) (n : nat).
Local Notation arr := (tensor F).

(* the array holds the vector v *)
Definition isv (t : arr) (v : 'cV[F]_n) : Prop := [/\ tshape t = [:: n], size (tdata t) = n & vec_of n t = v].
Lemma isv_wf t v : isv t v -> wf t.
Proof. by case=> h1 h2 _; rewrite /wf h1 h2 /numel /= muln1. Qed.
Lemma isv_ew (f : F -> F -> F) a b u v : isv a u -> isv b v ->
  exists2 c, ew f a b = Ok c & isv c (\col_i f (u i 0) (v i 0)).
Proof.
move=> [a1 a2 <-] [b1 b2 <-]; rewrite /ew a1 b1 eqxx; eexists; first reflexivity.
have hz : size (zip (tdata a) (tdata b)) = n by rewrite size_zip a2 b2 minnn.
split=> //=; first by rewrite size_map.
by apply/colP => i; rewrite !mxE /= (nth_map (0, 0)) ?hz // nth_zip ?a2 ?b2.
Qed.
Lemma isv_sub a b u v : isv a u -> isv b v ->
  exists2 c, ew (fun x y => x - y) a b = Ok c & isv c (u - v).
Proof.
move=> ha hb; have [c e hc] := isv_ew (fun x y => x - y) ha hb; exists c => //.
by have -> : u - v = \col_i (u i 0 - v i 0) by apply/colP => i; rewrite !mxE.
Qed.
Lemma isv_scal c a u : isv a u -> isv (scal *%R c a) (c *: u).
Proof.
move=> [a1 a2 <-]; split=> //=; first by rewrite size_map.
by apply/colP => i; rewrite !mxE /= (nth_map 0) ?a2.
Qed.
Lemma isv_div c a u : isv a u -> isv (div_by a c) (c^-1 *: u).
Proof.
move=> [a1 a2 <-]; split=> //=; first by rewrite size_map.
by apply/colP => i; rewrite !mxE /= (nth_map 0) ?a2 // mulrC.
Qed.
Lemma isv_dot a b u v : isv a u -> isv b v -> np_dot a b = Ok (dot u v).
Proof.
move=> [a1 a2 <-] [b1 b2 <-]; rewrite /np_dot a1 b1 eqxx sumrE a2 dotE; congr Ok.
by apply: eq_bigr => i _; rewrite !mxE.
Qed.
Lemma isv_norm a u : isv a u -> np_norm a = nrm u.
Proof.
move=> [a1 a2 <-]; rewrite /np_norm /nrm sumrE a2 dotE; congr Num.sqrt.
by apply: eq_bigr => i _; rewrite !mxE expr2.
Qed.

Variables (A : mv_op F) (M : 'M[F]_n).
Hypothesis hs : nth 0%N (mv_shape A) 1 = n.
Hypothesis hm : vec_multiplies (mv_dot A) n n (mxfun M).
Lemma isv_A a u : isv a u -> exists2 c, mv_dot A a = Ok c & isv c (M *m u).
Proof.
move=> ha; have [a1 a2 a3] := ha; have [y [h1 h2 h3 h4]] := hm a1 (isv_wf ha); exists y => //.
split=> //; first by move: h3; rewrite /wf h2 /numel /= muln1 => /eqP.
by apply/colP => i; rewrite !mxE h4 // -a3; apply: eq_bigr => j _; rewrite mxfun_ord mxE.
Qed.

(* the recurrence on vectors *)
Variable x : nat -> F.
Definition start : 'cV[F]_n := \col_i x i.
Definition unit_start : 'cV[F]_n := (nrm start)^-1 *: start.
Fixpoint lz (m : nat) : 'cV[F]_n * 'cV[F]_n * F :=
  match m with
  | 0%N => (unit_start, 0, 0)
  | k.+1 =>
      let '(v, p, b) := lz k in
      let w := M *m v - b *: p in
      let r := w - dot w v *: v in
      ((nrm r)^-1 *: r, v, nrm r)
  end.
Definition lvec m := (lz m).1.1.
Definition loff m := (lz m.+1).2.
Definition lalpha m := dot (M *m lvec m - bpv lvec loff m) (lvec m).

Lemma lzE m : (lz m).2 *: (lz m).1.2 = bpv lvec loff m.
Proof.
case: m => [|m]; first by rewrite /= scale0r.
by rewrite /bpv /loff /lvec /=; case: (lz m) => [[v p] b].
Qed.
Lemma loffE m : loff m = nrm (lres M lvec lalpha loff m).
Proof. by rewrite /lres /lalpha -!lzE /loff /lvec /=; case: (lz m) => [[v p] b]. Qed.
Lemma lvecE m : lvec m.+1 = (loff m)^-1 *: lres M lvec lalpha loff m.
Proof. by rewrite loffE /lres /lalpha -!lzE /loff /lvec /=; case: (lz m) => [[v p] b]. Qed.

Lemma start_ok : isv (l_v (lanczos_start A x)) (lvec 0).
Proof.
rewrite /lanczos_start /= hs.
have h : isv (Tensor [:: n] (mkseq x n)) start.
  split=> //=; first by rewrite size_mkseq.
  by apply/colP => i; rewrite !mxE /= nth_mkseq.
by rewrite (isv_norm h); apply: isv_div.
Qed.

Definition state_ok (k : nat) (s : lstate F) : Prop :=
  [/\ isv (l_v s) (lvec k), (0 < k)%N -> isv (l_prev s) (lvec k.-1),
      l_alphas s = mkseq lalpha k & l_betas s = mkseq loff k].

Lemma step_ok ncv k s : (k < ncv)%N -> state_ok k s ->
  exists s', [/\ lanczos_step A ncv s k = Ok s', l_alphas s' = mkseq lalpha k.+1 &
    if k == (ncv - 1)%N then l_betas s' = mkseq loff k else state_ok k.+1 s'].
Proof.
move=> hk [h1 h2 h3 h4]; rewrite /lanczos_step; have [Av -> hAv] /= := isv_A h1.
have [w -> hw] /= : exists2 w, (if k == 0%N then Ok Av
    else ew (fun x y => x - y) Av (scal *%R (nth 0 (l_betas s) (k - 1)) (l_prev s))) = Ok w &
    isv w (M *m lvec k - bpv lvec loff k).
  case: k hk h1 h2 h3 h4 hAv => [|k] hk h1 h2 h3 h4 hAv; first by exists Av; rewrite //= subr0.
  have [w e hw] := isv_sub hAv (isv_scal (nth 0 (l_betas s) k) (h2 isT)).
  exists w; first by rewrite subn1.
  by move: hw; rewrite h4 nth_mkseq.
rewrite (isv_dot hw h1) /=.
have [w' -> hw'] /= := isv_sub hw (isv_scal (lalpha k) h1).
have eb : np_norm w' = loff k by rewrite (isv_norm hw') loffE.
have ea : rcons (l_alphas s) (lalpha k) = mkseq lalpha k.+1 by rewrite h3 /mkseq -[in RHS]addn1 iotaD map_cat /= cats1.
case: ifP => hl; eexists; split; [reflexivity|exact: ea|exact: h4|reflexivity|exact: ea|].
split=> //=; first by rewrite eb lvecE; apply: isv_div.
by rewrite eb h4 /mkseq -[in RHS]addn1 iotaD map_cat /= cats1.
Qed.

Lemma passes_ok ncv k : (k < ncv)%N -> exists2 s, lanczos_passes A ncv x k = Ok s & state_ok k s.
Proof.
elim: k => [|k IH] hk; first by exists (lanczos_start A x) => //; split=> //; apply: start_ok.
have [s e hs'] := IH (ltnW hk).
have [s' [e1 e2 e3]] := step_ok (ltnW hk) hs'.
exists s'; last by move: e3; rewrite ltn_eqF // ltn_subRL.
by move: e; rewrite /lanczos_passes -addn1 iotaD foldM_cat => -> /=; rewrite add0n e1.
Qed.
Lemma final_ok ncv : (0 < ncv)%N -> exists s, [/\ lanczos_passes A ncv x ncv = Ok s,
  l_alphas s = mkseq lalpha ncv & l_betas s = mkseq loff (ncv - 1)].
Proof.
case: ncv => // p _; have [s e hs'] := @passes_ok p.+1 p (ltnSn p).
have [s' [e1 e2 e3]] := step_ok (ltnSn p) hs'.
exists s'; split=> //; last by move: e3; rewrite subn1 eqxx.
by move: e; rewrite /lanczos_passes -addn1 iotaD foldM_cat addn1 => -> /=; rewrite add0n e1.
Qed.

(* the matrix handed to eigh *)
Lemma tridiagonalE p (a b : nat -> F) :
  tmx p.+1 p.+1 (tridiagonal p.+1 (mkseq a p.+1) (mkseq b p)) = Tmx a b p.
Proof.
apply/matrixP => i j; rewrite !mxE /entry /= nth_mkseq; last first.
  by rewrite -addnS mulSnr; apply: leq_add (ltn_ord j); rewrite leq_mul2r -ltnS ltn_ord orbT.
rewrite divnMDl // divn_small // addn0 modnMDl modn_small // /tri.
case: eqP => _; first by rewrite nth_mkseq.
case: eqP => [e|_]; first by rewrite nth_mkseq // -ltnS -e.
by case: eqP => [e|_] //; rewrite nth_mkseq // -ltnS -e.
Qed.

(* spectral decomposition and moments *)
Lemma eig_moments p (T : 'M[F]_p.+1) (Q l : arr) k : eig_of T Q l ->
  \sum_(i < p.+1) entry p.+1 (tdata Q) 0 i ^+ 2 * nth 0 (tdata l) i ^+ k =
  dot (e0 F p) (iter k (mulmx T) (e0 F p)).
Proof.
move=> [hQ hl orth ->].
have {}orth' : tmx p.+1 p.+1 Q *m (tmx p.+1 p.+1 Q)^T = 1%:M by apply: mulmx1C.
set q := tmx _ _ Q.
have it j : iter j (mulmx (q *m diagl p.+1 l *m q^T)) (e0 F p) = q *m \col_i (nth 0 (tdata l) i ^+ j * q 0 i).
  elim: j => [|j IH] /=.
    have -> : \col_i (nth 0 (tdata l) i ^+ 0 * q 0 i) = q^T *m e0 F p.
      by rewrite /e0 -colE; apply/colP => i; rewrite !mxE expr0 mul1r.
    by rewrite mulmxA orth' mul1mx.
  rewrite IH -!mulmxA [q^T *m _]mulmxA orth mul1mx; congr (_ *m _).
  apply/colP => i; rewrite !mxE (bigD1 i) //= big1 => [|r nr]; last by rewrite !mxE eq_sym (negbTE nr) mul0r.
  by rewrite !mxE eqxx addr0 exprS mulrA.
rewrite it dotE [RHS](bigD1 0) //= [X in _ = _ + X]big1 => [|i ni]; last by rewrite mxE (negbTE ni) mul0r.
rewrite /e0 mxE !eqxx mul1r addr0 mxE; apply: eq_bigr => i _; rewrite !mxE.
by rewrite expr2 -mulrA [_ * nth _ _ _ ^+ _]mulrC.
Qed.
End Refine.
