(* C91 for exported curvature matrices, in terms of the network and the loss. *)
From Coq Require Import Reals Lra.
From Coquelicot Require Import Coquelicot.
From mathcomp Require Import all_ssreflect all_algebra.
From Verif Require Import PyPrelude Tensor Spec TorchBase Numpy Submatrix Scipy RInst ROrd Calculus Curvature HessGGN Risk Losses
  Fisher FisherMC FisherExp CurvOps OpSpec Export HessSplit Inverse Cg Power
  Functorch FunctorchProof Props_Curv Props_Fisher Props_Functorch Props_Split Props_EndToEnd Props_CgGgn Props_Workflow Props_Power.
Set Implicit Arguments.
Unset Strict Implicit.
Unset Printing Implicit Defensive.
Import GRing.Theory Num.Theory.
Local Open Scope ring_scope.

Lemma exported_matvec_mat trunc (A : linop R) S M : acts_as A S M ->
  vec_multiplies (sp_matvec (exported trunc A)) (total S) (total S) (mxfun (mat_of S M)).
Proof.
move=> hA x hx hw; have [_ _ h _ _] := exported_acts trunc hA; have [y [h1 h2 h3 h4]] := h x hx hw.
exists y; split=> // i hi; rewrite h4 //; apply: eq_bigr => j _; congr (_ * _).
by rewrite (mxfun_ord (mat_of S M) (Ordinal hi) j) mxE.
Qed.

Section Hessian.
Variables (X Y : Type) (O : nat) (net : X -> point -> seq R) (lossd : seq R -> Y -> R).
Hypothesis net_size : forall x th, size (net x th) = O.
Variables (trunc : R -> R) (red : reduction) (num_data : option nat) (loader : seq (seq (X * Y))).
Variables (S : seq (seq nat)) (th : point).
Hypothesis S0 : S <> [::].
Hypothesis red_ok : red <> ROther.
Hypothesis loader0 : loader <> [::].
Hypothesis loader_ok : nonempty loader.
Hypothesis num_ok : (if num_data is Some n then 0 < n else true)%N.
Local Notation data := (flatten loader).
Local Notation D := (total S).
Let the_risk (z : point) : R := mean_over red num_data loader * \sum_(d <- data) lossd (net d.1 z) d.2.
Hypothesis smooth : Forall_in (fun d => twice_diff D (fun z => lossd (net d.1 z) d.2) th) data.

(* Eigenvalues of the Hessian by the power method lie within every bound on the second
   derivatives of the risk along lines through the parameters. *)
Theorem C91_hessian lo hi :
  exists2 A, hessian_operator O net lossd red num_data loader S None th = Ok A &
  forall max_iterations k tol draws evals evecs, (0 < max_iterations)%N -> (0 < k)%N ->
    @power_method R_rcfType (exported trunc A) tol max_iterations k draws = Ok (evals, evecs) ->
    [/\ tshape evals = [:: k], tshape evecs = [:: k; D] &
     (forall v : nat -> R, let sq := \sum_(i < D) v i * v i in
        Rle (lo * sq) (\sum_(i < D) \sum_(j < D) v i * pd j (pd i the_risk) th * v j) /\
        Rle (\sum_(i < D) \sum_(j < D) v i * pd j (pd i the_risk) th * v j) (hi * sq)) ->
     forall r, (r < k)%N -> exists2 e, nth None (tdata evals) r = Some e & Rle lo e /\ Rle e hi].
Proof.
have [A eA hA] := C14_hessian_of_empirical_risk net_size S0 red_ok loader0 loader_ok num_ok smooth.
exists A => // mi k tol draws evals evecs hm hk hp.
have [[er _] _ _ _ _] := exported_acts trunc hA.
have hmul := exported_matvec_mat trunc hA.
have [s1 s2 _] := @C91_pairs R_rcfType D _ _ er hmul mi k tol draws evals evecs hm hk hp; split=> // hb r hr.
have [|e e1 /andP [e2 e3]] := @C91_within R_rcfType D _ _ er hmul lo hi mi k tol draws evals evecs hm _ hp r hr.
  move=> v; pose vf i : R := if insub i is Some j then v j 0 else 0.
  have vfE (i : 'I_D) : vf i = v i 0 by rewrite /vf valK.
  have := hb vf; set q := \sum_(i < D) \sum_(j < D) _; set s := \sum_(i < D) _ => /=.
  have -> : (v^T *m v) 0 0 = s by rewrite mxE; apply: eq_bigr => i _; rewrite mxE vfE.
  have -> : (v^T *m mat_of S (fun i j => pd j (pd i the_risk) th) *m v) 0 0 = q.
    rewrite -mulmxA mxE; apply: eq_bigr => i _; rewrite !mxE mulr_sumr; apply: eq_bigr => j _.
    by rewrite !mxE !vfE mulrA.
  by case=> /leRE l1 /leRE l2; apply/andP.
by exists e => //; split; apply/leRE.
Qed.
End Hessian.
Print Assumptions C91_hessian.

(* linear regression with two parameters *)
Example C91_ex_hessian (trunc : R -> R) th :
  exists2 A, hessian_operator 1 (module_net FEx.model FEx.named FEx.frozen FEx.params) FEx.lossd RMean None FEx.loader [:: [:: 1]; [:: 1]]%N None th = Ok A &
  forall max_iterations k tol draws evals evecs, (0 < max_iterations)%N -> (0 < k)%N ->
    @power_method R_rcfType (exported trunc A) tol max_iterations k draws = Ok (evals, evecs) ->
    tshape evals = [:: k] /\ tshape evecs = [:: k; 2%N].
Proof.
have [|||A eA h] := @C91_hessian _ _ 1 (module_net FEx.model FEx.named FEx.frozen FEx.params) FEx.lossd (fun x z => FEx.model_size x _)
  trunc RMean None FEx.loader [:: [:: 1]; [:: 1]]%N th _ FEx.mean_ok FEx.loader_ok _ _ (@FEx.twice th) 0 0 => //.
by exists A => // mi k tol draws ev V hm hk /(h _ _ _ _ _ _ hm hk) [].
Qed.

Section Supported.
Variables (X Y : Type) (T C : nat) (kind : loss_kind) (net : X -> point -> seq R) (tgt : Y -> nat -> target).
Hypothesis net_size : forall x th, size (net x th) = (T * C)%N.
Hypothesis C_gt0 : (0 < C)%N.
Variables (trunc : R -> R) (red : reduction) (num_data : option nat) (loader : seq (seq (X * Y))) (S : seq (seq nat)) (th : point).
Hypothesis S0 : S <> [::].
Hypothesis red_ok : red <> ROther.
Hypothesis loader0 : loader <> [::].
Hypothesis loader_ok : nonempty loader.
Hypothesis num_ok : (if num_data is Some n then 0 < n else true)%N.
Local Notation data := (flatten loader).
Local Notation loss := (datum_loss T C kind tgt red).
Local Notation D := (total S).
Hypothesis targets : targets_fit T C kind tgt loader.
Let G : 'M[R]_D := \matrix_(i, j) ggn_matrix (T * C) net loss (mean_over red num_data loader) data th i j.

(* For the GGN of the supported losses the eigenvalues are not negative, and the first
   one does not decrease with more iterations or a smaller tolerance. *)
Theorem C91_ggn :
  exists2 B, ggn_operator (T * C) net loss red num_data loader S None th = Ok B &
  (forall max_iterations k tol draws evals evecs r, (0 < max_iterations)%N -> (r < k)%N ->
    @power_method R_rcfType (exported trunc B) tol max_iterations k draws = Ok (evals, evecs) ->
    exists2 e, nth None (tdata evals) r = Some e & Rle 0 e) /\
  forall max_iterations max_iterations' tol tol' (draws : nat -> nat -> R), (0 < max_iterations <= max_iterations')%N -> Rle tol' tol ->
    G *m (\col_(i < D) draws 0%N i) != 0 ->
    exists e e' V V', [/\ @power_method R_rcfType (exported trunc B) tol max_iterations 1 draws = Ok (Tensor [:: 1%N] [:: Some e], V),
      @power_method R_rcfType (exported trunc B) tol' max_iterations' 1 draws = Ok (Tensor [:: 1%N] [:: Some e'], V') & Rle e e'].
Proof.
have [B eB [er _ sym psd]] := C89_ggn_semidefinite net_size C_gt0 trunc th S0 red_ok loader0 loader_ok num_ok targets.
exists B => //.
have [B' eB' hB] := C15_ggn_of_empirical_risk loss net_size th S0 red_ok loader0 loader_ok num_ok.
have eBB : B = B' by move: eB; rewrite eB' => -[].
have hmul := exported_matvec_mat trunc hB; rewrite -eBB in hmul.
split.
  move=> mi k tol draws evals evecs r hm hr hp.
  have hk : (0 < k)%N by apply: leq_ltn_trans hr.
  have [_ _ h] := @C91_pairs R_rcfType D _ _ er.1 hmul mi k tol draws evals evecs hm hk hp.
  have [_ [e [w [e1 _ e3 _]]]] := h r hr; exists e => //; rewrite e3; apply/leRE.
  by apply: divr_ge0; [exact: psd|rewrite dotE; exact: dot_ge0].
move=> mi mi' tol tol' draws hm /leRE ht hx.
have [e [e' [V [V' [p1 p2 p3 _]]]]] := @C91_more_iterations R_rcfType D _ _ er.1 hmul sym mi mi' tol tol' draws hm ht psd hx.
by exists e, e', V, V'; split=> //; apply/leRE.
Qed.
End Supported.
Print Assumptions C91_ggn.

(* the affine classifier of Props_Fisher.v meets the hypotheses *)
Example C91_ex_ggn (trunc : R -> R) th :
  exists2 B, ggn_operator (1 * 2) exc_net (datum_loss 1 2 LCE exc_tgt RMean) RMean None exc_loader exc_S None th = Ok B &
  forall max_iterations k tol draws evals evecs r, (0 < max_iterations)%N -> (r < k)%N ->
    @power_method R_rcfType (exported trunc B) tol max_iterations k draws = Ok (evals, evecs) ->
    exists2 e, nth None (tdata evals) r = Some e & Rle 0 e.
Proof.
have [||||||B eB [hB _]] := @C91_ggn _ _ 1 2 LCE exc_net exc_tgt (fun _ _ => erefl) isT trunc RMean None exc_loader exc_S th.
1-5: by [].
- by rewrite /targets_fit /=; split; [|split].
by exists B.
Qed.
