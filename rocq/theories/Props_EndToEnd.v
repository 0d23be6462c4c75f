(* C82: the estimators and solvers on exported curvature matrices, stated in terms of
   the network and the loss. *)
From Coq Require Import Reals Lra String.
From Coquelicot Require Import Coquelicot.
From mathcomp Require Import all_ssreflect all_algebra.
From Verif Require Import PyPrelude Tensor Spec TorchBase Numpy Submatrix Scipy RInst ROrd Calculus Curvature HessGGN Risk Losses
  Fisher FisherMC FisherExp CurvOps OpSpec Export Inverse Estimators Lanczos LanczosAlg LanczosProof
  Props_Curv Props_Fisher Props_Inverse Props_Estimators Props_Lanczos.
Set Implicit Arguments.
Unset Strict Implicit.
Unset Printing Implicit Defensive.
Import GRing.Theory Num.Theory.
Local Open Scope ring_scope.

(* what an estimator sees of an exported operator: its shape and '@' on vectors *)
Definition exported_mv (trunc : R -> R) (A : linop R) : mv_op R_realFieldType :=
  @MvOp R_realFieldType [:: sp_rows (exported trunc A); sp_cols (exported trunc A)] (sp_dot (exported trunc A)).

Section Views.
Variables (trunc : R -> R) (A : linop R) (S : seq (seq nat)) (M : nat -> nat -> R).
Hypothesis hA : acts_as A S M.

Lemma exported_mv_shape : mv_shape (exported_mv trunc A) = [:: total S; total S].
Proof. by have [[h1 h2] _ _ _ _] := exported_acts trunc hA; rewrite -[LHS]/([:: sp_rows (exported trunc A); sp_cols (exported trunc A)]) h1 h2. Qed.

Lemma exported_mv_multiplies : vec_multiplies (mv_dot (exported_mv trunc A)) (total S) (total S) M.
Proof. by have [_ h _ _ _] := exported_acts trunc hA. Qed.

(* M as a matrix of the mathcomp library *)
Definition mat_of : 'M[R]_(total S) := \matrix_(i, j) M i j.
Lemma exported_multiplies_mat : vec_multiplies (sp_dot (exported trunc A)) (total S) (total S) (mxfun mat_of).
Proof.
move=> x hx hw; have [y [h1 h2 h3 h4]] := exported_mv_multiplies hx hw; exists y; split=> // i hi.
rewrite h4 //; apply: eq_bigr => j _; congr (_ * _).
by rewrite (mxfun_ord mat_of (Ordinal hi) j) mxE.
Qed.
End Views.

Section Hessian.
Variables (X Y : Type) (O : nat) (net : X -> point -> seq R) (lossd : seq R -> Y -> R).
Hypothesis net_size : forall x th, size (net x th) = O.
Variables (trunc : R -> R) (red : reduction) (num_data : option nat) (loader : seq (seq (X * Y))).
Variables (S : seq (seq nat)) (th : point).
Hypothesis S0 : S <> [::].
Hypothesis red_ok : red <> ROther.
Hypothesis loader0 : loader <> [::].
Hypothesis loader_ok : nonempty loader.
Hypothesis num_ok : (if num_data is Some n then 0 < n else true)%N.
Local Notation data := (flatten loader).
Local Notation D := (total S).
(* the empirical risk *)
Definition risk (z : point) : R := mean_over red num_data loader * \sum_(d <- data) lossd (net d.1 z) d.2.
Hypothesis smooth : Forall_in (fun d => twice_diff D (fun z => lossd (net d.1 z) d.2) th) data.

(* the expected Hutchinson sample is the Laplacian of the risk; the expected entries of a
   diagonal sample are its pure second derivatives *)
Theorem C82_hessian_hutchinson :
  exists2 A, hessian_operator O net lossd red num_data loader S None th = Ok A &
  (exists2 f, forall b : {ffun 'I_D -> bool},
       trace_sample (exported_mv trunc A) (bits_draw _ b) "rademacher" = Ok (f b) &
     (\sum_b f b) / (2 ^ D)%:R = \sum_(i < D) pd i (pd i risk) th) /\
  (exists2 f, forall b : {ffun 'I_D -> bool},
       exists2 t, diag_sample (exported_mv trunc A) (bits_draw _ b) "rademacher" = Ok t &
         tshape t = [:: D] /\ forall i, (i < D)%N -> nth 0 (tdata t) i = f i b &
     forall i, (i < D)%N -> (\sum_b f i b) / (2 ^ D)%:R = pd i (pd i risk) th) /\
  (exists2 f, forall b : {ffun 'I_D -> bool},
       frob_sample (exported_mv trunc A) (bits_draw _ b) "rademacher" = Ok (f b) &
     (\sum_b f b) / (2 ^ D)%:R = \sum_(i < D) \sum_(j < D) (pd j (pd i risk) th) ^+ 2).
Proof.
have [A eA hA] := C14_hessian_of_empirical_risk net_size S0 red_ok loader0 loader_ok num_ok smooth.
exists A => //; have hs := exported_mv_shape trunc hA; have hm := exported_mv_multiplies trunc hA.
split; [|split].
- by have [f h1 h2] := C58_trace_unbiased_rademacher hs hm; exists f.
- by have [f h1 h2] := C59_diagonal_unbiased_rademacher hs hm; exists f.
- by have [f h1 h2] := C60_frobenius_unbiased_rademacher hs hm; exists f.
Qed.

(* the Neumann inverse of the exported Hessian leaves the residual of the series *)
Theorem C82_hessian_neumann a check_nan K (x : tensor R) : tshape x = [:: D] -> wf x ->
  exists A y, [/\ hessian_operator O net lossd red num_data loader S None th = Ok A,
    sp_dot (inverse_op D (neumann_exact (sp_dot (exported trunc A)) K a check_nan)) x = Ok y,
    tshape y = [:: D] & let H : 'M[R]_D := \matrix_(i, j) pd j (pd i risk) th in
    H *m vec_of D y = vec_of D x - mpow (1%:M - a *: H) K.+1 *m vec_of D x].
Proof.
move=> hx hw.
have [A eA hA] := C14_hessian_of_empirical_risk net_size S0 red_ok loader0 loader_ok num_ok smooth.
have [|y [h1 h2 _ _ h5]] := @C54_neumann_series R_comRingType D (mat_of S (fun i j => pd j (pd i risk) th)) (exported trunc A) a check_nan K [:: D] x _ hx hw.
  left; split=> //; exact: (exported_multiplies_mat trunc hA).
by exists A, y; split.
Qed.

(* Gauss quadrature: the moments of a Lanczos run on the exported Hessian *)
Theorem C82_hessian_lanczos eigh eigh_tridiagonal ncv flag (x : nat -> R) run k :
  C2_at D risk th -> eigh_contract eigh -> eigh_tridiagonal_contract eigh_tridiagonal -> drawn D x != 0 ->
  exists2 A, hessian_operator O net lossd red num_data loader S None th = Ok A &
   let op := exported_mv trunc A in
   no_breakdown op ncv x -> fast_lanczos eigh eigh_tridiagonal op ncv flag x = Ok run -> (k <= 2 * ncv - 1)%N ->
   moment ncv run k = ((direction D x)^T *m power_on (\matrix_(i, j) pd j (pd i risk) th) k (direction D x)) 0 0.
Proof.
move=> h2 he ht hx.
have [A eA hA] := C14_hessian_of_empirical_risk net_size S0 red_ok loader0 loader_ok num_ok smooth.
exists A => //= hb hr hk.
have hsym : @symmetric_op R_rcfType D (exported_mv trunc A) (\matrix_(i, j) pd j (pd i risk) th).
  split; first exact: (exported_mv_shape trunc hA).
    exact: (exported_multiplies_mat trunc hA).
  by apply/matrixP => i j; rewrite !mxE; exact: (pd_symm (ltn_ord j) (ltn_ord i) h2).
exact: (C65_moments hsym hx hb he ht hr hk).
Qed.
End Hessian.
Print Assumptions C82_hessian_hutchinson.
Print Assumptions C82_hessian_neumann.
Print Assumptions C82_hessian_lanczos.

Section Fisher.
Variables (X Y : Type) (T C : nat) (kind : loss_kind) (net : X -> point -> seq R) (tgt : Y -> nat -> target).
Hypothesis net_size : forall x th, size (net x th) = (T * C)%N.
Hypothesis T_gt0 : (0 < T)%N.
Hypothesis C_gt0 : (0 < C)%N.
Variables (trunc : R -> R) (red : reduction) (num_data : option nat) (loader : seq (seq (X * Y))).
Variables (S : seq (seq nat)) (th : point).
Hypothesis S0 : S <> [::].
Hypothesis red_ok : red <> ROther.
Hypothesis loader0 : loader <> [::].
Hypothesis loader_ok : nonempty loader.
Hypothesis num_ok : (if num_data is Some n then 0 < n else true)%N.
Local Notation data := (flatten loader).
Local Notation D := (total S).
Hypothesis data_ok : Forall_in (datum_ok T C kind net tgt D th) data.
(* the squared norm of the gradient of one loss term *)
Definition sq_grad (d : X * Y) t : R := \sum_(i < D) loss_term_grad T C kind net tgt d t th i ^+ 2.

(* the expected trace sample of the empirical Fisher is the scaled sum of the squared
   gradient norms, and its Lanczos moments are those of the outer products *)
Theorem C82_empirical_fisher eigh eigh_tridiagonal ncv flag (x : nat -> R) run k :
  eigh_contract eigh -> eigh_tridiagonal_contract eigh_tridiagonal -> drawn D x != 0 ->
  exists2 A, ef_operator T C (Some kind) net tgt red num_data loader S th = Ok A &
   let op := exported_mv trunc A in
   (exists2 f, forall b : {ffun 'I_D -> bool}, trace_sample op (bits_draw _ b) "rademacher" = Ok (f b) &
     (\sum_b f b) / (2 ^ D)%:R = terms_over T C kind red num_data loader * \sum_(d <- data) \sum_(t < T) sq_grad d t) /\
   (no_breakdown op ncv x -> fast_lanczos eigh eigh_tridiagonal op ncv flag x = Ok run -> (k <= 2 * ncv - 1)%N ->
    moment ncv run k = ((direction D x)^T *m power_on (\matrix_(i, j) (terms_over T C kind red num_data loader *
      \sum_(d <- data) \sum_(t < T) loss_term_grad T C kind net tgt d t th i * loss_term_grad T C kind net tgt d t th j)) k (direction D x)) 0 0).
Proof.
move=> he ht hx.
have [A eA hA] := C16_empirical_fisher net_size T_gt0 C_gt0 S0 red_ok loader0 loader_ok num_ok data_ok.
exists A => //=; split.
  have [f h1 h2] := C58_trace_unbiased_rademacher (exported_mv_shape trunc hA) (exported_mv_multiplies trunc hA).
  exists f => //; rewrite h2 /ef_matrix -mulr_sumr exchange_big /=; congr (_ * _).
  apply: eq_bigr => d _; rewrite exchange_big /=; apply: eq_bigr => t _.
  by apply: eq_bigr => i _; rewrite expr2.
move=> hb hr hk.
have hsym : @symmetric_op R_rcfType D (exported_mv trunc A) (mat_of S (ef_matrix T C kind net tgt (terms_over T C kind red num_data loader) data th)).
  split; first exact: (exported_mv_shape trunc hA).
    exact: (exported_multiplies_mat trunc hA).
  by apply/matrixP => i j; rewrite !mxE; apply: empirical_fisher_symm.
exact: (C65_moments hsym hx hb he ht hr hk).
Qed.
End Fisher.
Print Assumptions C82_empirical_fisher.

(* a network with two outputs and two parameters: the hypotheses of the Hessian and
   Lanczos theorems hold at every point *)
Example C82_ex trunc th : exists2 A, hessian_operator 2 exr_net exr_loss RMean None exr_loader exr_S None th = Ok A &
  exists2 f, forall b : {ffun 'I_2 -> bool}, trace_sample (exported_mv trunc A) (bits_draw _ b) "rademacher" = Ok (f b) &
    (\sum_b f b) / (2 ^ 2)%:R =
    \sum_(i < 2) pd i (pd i (risk exr_net exr_loss RMean None exr_loader)) th.
Proof.
have [hs hl h0 hd] := C14_ex th.
have [] // := @C82_hessian_hutchinson _ _ 2 exr_net exr_loss hs trunc RMean None exr_loader exr_S th.
by move=> A eA [hf _]; exists A.
Qed.
Example C82_ex_lanczos th : C2_at (total exr_S) (risk exr_net exr_loss RMean None exr_loader) th /\
  drawn (F := R_rcfType) (total exr_S) (fun=> 1) != 0.
Proof.
split; first exact: exr_C2.
by apply/eqP => /matrixP /(_ (Ordinal (isT : (0 < 2)%N)) ord0); rewrite !mxE => /eqP; rewrite oner_eq0.
Qed.
