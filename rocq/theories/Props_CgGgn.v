(* C85: natural gradients, the CG inverse of a damped GGN (docs/examples/basic_usage/
   example_inverses.py 79-95, test/test_inverse.py 30-52). *)
From Coq Require Import Reals Lra.
From Coquelicot Require Import Coquelicot.
From mathcomp Require Import all_ssreflect all_algebra.
From Verif Require Import PyPrelude Tensor Spec TorchBase Numpy Submatrix Scipy RInst ROrd Calculus Curvature HessGGN Risk Losses
  Fisher FisherMC FisherExp CurvOps OpSpec Export HessSplit Inverse Cg
  Props_Curv Props_Fisher Props_Inverse Props_Split Props_Cg Props_EndToEnd.
Set Implicit Arguments.
Unset Strict Implicit.
Unset Printing Implicit Defensive.
Import Order.Theory GRing.Theory Num.Theory.
Local Open Scope ring_scope.

(* SciPy's A + B for linear operators (external): the sum of the products *)
Definition sp_sum (R : ringType) (A B : scipy_op R) : res (scipy_op R) :=
  if (sp_rows A != sp_rows B) || (sp_cols A != sp_cols B) then Err ValueError else
  Ok (ScipyOp (sp_rows A) (sp_cols A)
    (fun x => let! a := sp_matvec A x in let! b := sp_matvec B x in ew +%R a b)
    (fun x => let! a := sp_matmat A x in let! b := sp_matmat B x in ew +%R a b)).

Lemma sp_sum_multiplies (R : realFieldType) n (MA MB : 'M[R]_n) A B :
  sp_rows A = n /\ sp_cols A = n -> sp_rows B = n /\ sp_cols B = n ->
  vec_multiplies (sp_matvec A) n n (mxfun MA) -> vec_multiplies (sp_matvec B) n n (mxfun MB) ->
  exists2 C, sp_sum A B = Ok C & (sp_rows C = n /\ sp_cols C = n) /\
    vec_multiplies (sp_matvec C) n n (mxfun (MA + MB)).
Proof.
move=> [a1 a2] [b1 b2] hA hB; rewrite /sp_sum a1 a2 b1 b2 !eqxx; eexists; first by [].
split=> // x hx hw; have [y [y1 y2 y3 y4]] := hA x hx hw; have [z [z1 z2 z3 z4]] := hB x hx hw.
have [c hc] := @ew_ok R [:: n] +%R y z y2 z2.
have [c1 c2 c3] := vec_of_ew (numel1 n) y2 z2 y3 z3 hc.
exists c; split=> //.
- rewrite {1}/sp_matvec /ndim hx /= eqxx /= y1 /= z1 /= hc /= /treshape (numel1 n).
  by move/eqP: (c2); rewrite c1 (numel1 n) => ->; rewrite eqxx -c1; case: (c).
move=> i hi; rewrite c3 // y4 // z4 // -big_split; apply: eq_bigr => j _.
by rewrite /= -mulrDl; congr (_ * _); rewrite !(mxfun_ord _ (Ordinal hi) j) mxE.
Qed.

Lemma row_hess_sym k C f c c' : row_hess k C f c c' = row_hess k C f c' c.
Proof.
have [-> //|ne] := eqVneq c c'; rewrite /row_hess (eq_sym c') (negbTE ne).
by case: k => //; rewrite !mul0r !sub0r mulrC.
Qed.

Section Natural.
Variables (X Y : Type) (T C : nat) (kind : loss_kind) (net : X -> point -> seq R) (tgt : Y -> nat -> target).
Hypothesis net_size : forall x th, size (net x th) = (T * C)%N.
Hypothesis T_gt0 : (0 < T)%N.
Hypothesis C_gt0 : (0 < C)%N.
Variables (trunc : R -> R) (red : reduction) (num_data : option nat) (loader : seq (seq (X * Y))) (S : seq (seq nat)) (th : point).
Hypothesis S0 : S <> [::].
Hypothesis red_ok : red <> ROther.
Hypothesis loader0 : loader <> [::].
Hypothesis loader_ok : nonempty loader.
Hypothesis num_ok : (if num_data is Some n then 0 < n else true)%N.
Local Notation data := (flatten loader).
Local Notation loss := (datum_loss T C kind tgt red).
Local Notation D := (total S).
Hypothesis targets : targets_fit T C kind tgt loader.
Local Notation G := (ggn_matrix (T * C) net loss (mean_over red num_data loader) data th).

Lemma supported_form : form_ge0 D G.
Proof.
apply: form_scal; first exact: mean_over_ge0.
apply: (@form_sum _ _ _ (fun d i j => \sum_(a < T * C) \sum_(b < T * C) jac_entry net d th a i * (loss_hessian (T * C) net loss d th a b * jac_entry net d th b j))).
by apply: Forall_in_impl targets => d hd; apply: form_congr; apply: datum_loss_form.
Qed.

Lemma supported_sym i j : G i j = G j i.
Proof.
congr (_ * _); move: targets; rewrite /targets_fit; elim: data => [|d l IH] /=; first by rewrite !big_nil.
case=> h /IH e; rewrite !big_cons e; congr (_ + _); rewrite exchange_big /=.
apply: eq_bigr => b _; apply: eq_bigr => a _.
have -> : loss_hessian (T * C) net loss d th a b = loss_hessian (T * C) net loss d th b a.
  rewrite /loss_hessian !(datum_loss_hess red h) // /dl_hess; congr (_ * _); apply: eq_bigr => t _.
  under eq_bigr => c _ do rewrite mulr_sumr.
  rewrite exchange_big /=; apply: eq_bigr => c' _; rewrite mulr_sumr; apply: eq_bigr => c _.
  by rewrite mulrCA row_hess_sym.
by rewrite mulrCA mulrA mulrC; congr (_ * _); rewrite mulrC.
Qed.

Variables (objs : nat -> tensor R) (precs : nat -> scipy_op R_realFieldType)
  (zero_division : tensor R -> tensor R -> tensor R -> res (tensor R * nat)) (strict : bool).

(* A product with the CG inverse of the exported GGN plus a positive multiple of the identity
   solves the damped system up to the default tolerance. *)
Theorem C85_damped_ggn delta h x : 0 < delta -> only_products h -> tshape x = [:: D] -> wf x ->
  exists B E y, [/\ ggn_operator (T * C) net loss red num_data loader S None th = Ok B,
    sp_sum (exported trunc B) (diag_op (nseq D delta)) = Ok E,
    sp_dot (@cg_inverse R_realFieldType objs precs zero_division strict E h) x = Ok y,
    tshape y = [:: D] /\ wf y &
    let v := nth 0 (tdata y) in
    \sum_(i < D) (nth 0 (tdata x) i - ((\sum_(j < D) G i j * v j) + delta * v i)) ^+ 2 <=
    (1 / 10%:R ^+ 5) ^+ 2 * \sum_(i < D) nth 0 (tdata x) i ^+ 2].
Proof.
move=> hd hh hx hw.
have [B eB hB] := C15_ggn_of_empirical_risk loss net_size th S0 red_ok loader0 loader_ok num_ok.
have [e1 e2 _ _ _] := exported_acts trunc hB; have [_ _ e3 _ _] := exported_acts trunc hB.
pose MG : 'M[R]_D := \matrix_(i, j) G i j.
have hG : vec_multiplies (sp_matvec (exported trunc B)) D D (mxfun MG).
  move=> z hz wz; have [y [h1 h2 h3 h4]] := e3 z hz wz; exists y; split=> // i hi.
  by rewrite h4 //; apply: eq_bigr => j _; congr (_ * _); rewrite (mxfun_ord MG (Ordinal hi) j) mxE.
pose MD : 'M[R]_D := delta%:M.
have hD : vec_multiplies (sp_matvec (diag_op (nseq D delta))) D D (mxfun MD).
  have := @diag_op_multiplies R_realFieldType (nseq D delta).
  set F := mxfun _; have FE i j : (i < D)%N -> (j < D)%N -> F i j = delta *+ (i == j).
    move=> hi hj; have si : (i < size (nseq D delta))%N by rewrite size_nseq.
    have sj : (j < size (nseq D delta))%N by rewrite size_nseq.
    by rewrite /F (mxfun_ord _ (Ordinal si) (Ordinal sj)) !mxE /= nth_nseq hi.
  move: F FE => F FE; rewrite size_nseq => hm z hz wz.
  have [y [h1 h2 h3 h4]] := hm z hz wz; exists y; split=> // i hi.
  rewrite h4 //; apply: eq_bigr => j _; congr (_ * _).
  by rewrite (mxfun_ord MD (Ordinal hi) j) mxE FE.
have sD : sp_rows (diag_op (nseq D delta)) = D /\ sp_cols (diag_op (nseq D delta)) = D by rewrite /= size_nseq.
have [E eE [sE hE]] := sp_sum_multiplies e1 sD hG hD.
have sym : (MG + MD)^T = MG + MD.
  rewrite linearD /= tr_scalar_mx; congr (_ + _); apply/matrixP => i j; rewrite !mxE; exact: supported_sym.
have pd (v : 'cV[R]_D) : v != 0 -> 0 < (v^T *m (MG + MD) *m v) 0 0.
  move=> v0; rewrite mulmxDr mulmxDl mxE ltr_paddl //.
    pose vf k : R := if insub k is Some i then v i 0 else 0.
    have vfE (i : 'I_D) : vf i = v i 0 by rewrite /vf valK.
    apply/leRE; have := supported_form vf; congr (Rle _ _).
    rewrite -mulmxA mxE; apply: eq_bigr => i _; rewrite vfE !mxE; congr (_ * _).
    by apply: eq_bigr => j _; rewrite vfE mxE.
  rewrite mul_mx_scalar -scalemxAl mxE; apply: mulr_gt0 => //.
  have -> : (v^T *m v) 0 0 = @dot R_realFieldType _ v v by rewrite mxE; apply: eq_bigr => i _; rewrite mxE.
  by rewrite lt_def dot_ge0 andbT dot_eq0.
have [y [y1 y2 y3 y4]] := @C85_cg_default R_realFieldType D (MG + MD) E sE hE sym pd objs precs zero_division strict h x hh hx hw.
exists B, E, y; split=> //.
move: y4 => /=; rewrite (eq_bigr (fun i : 'I_D => (nth 0 (tdata x) i - ((\sum_(j < D) G i j * nth 0 (tdata y) j) + delta * nth 0 (tdata y) i)) ^+ 2)).
  by rewrite [X in _ <= _ * X](eq_bigr (fun i : 'I_D => nth 0 (tdata x) i ^+ 2)) // => i _; rewrite mxE.
move=> i _; rewrite mulmxDl mul_scalar_mx !mxE; congr ((_ - (_ + _)) ^+ 2).
by apply: eq_bigr => j _; rewrite !mxE.
Qed.
End Natural.
Print Assumptions C85_damped_ggn.

(* the affine classifier of Props_Fisher.v meets the hypotheses *)
Example C85_ex_damped_ggn (trunc : R -> R) th objs precs zero_division strict x :
  tshape x = [:: total exc_S] -> wf x ->
  exists B E y, [/\ ggn_operator (1 * 2) exc_net (datum_loss 1 2 LCE exc_tgt RMean) RMean None exc_loader exc_S None th = Ok B,
    sp_sum (exported trunc B) (diag_op (nseq (total exc_S) 1)) = Ok E,
    sp_dot (@cg_inverse R_realFieldType objs precs zero_division strict E [::]) x = Ok y & tshape y = [:: total exc_S]].
Proof.
move=> hx hw.
have [||||||B [E [y [h1 h2 h3 [h4 _] _]]]] := @C85_damped_ggn _ _ 1 2 LCE exc_net exc_tgt (fun _ _ => erefl) isT trunc RMean None exc_loader exc_S th _ _ _ _ _ _ objs precs zero_division strict 1 [::] x ltr01 isT hx hw.
1-5: by [].
  by rewrite /targets_fit /=; split; [|split].
by exists B, E, y.
Qed.
