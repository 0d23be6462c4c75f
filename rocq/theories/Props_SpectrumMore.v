(* C66, C69: what the log-spectrum returns, and boundaries of A instead of |A|. *)
From Coq Require Import Reals Lra String.
From Coquelicot Require Import Coquelicot.
From mathcomp Require Import all_ssreflect all_algebra.
From Verif Require Import PyPrelude Tensor Spec Numpy Submatrix Inverse Estimators RInst Calculus ROrd Lanczos
  Props_Spectrum Props_SpectrumCache Props_SpectrumEx.
Set Implicit Arguments.
Unset Strict Implicit.
Unset Printing Implicit Defensive.
Import GRing.Theory Num.Theory.
Local Open Scope ring_scope.

(* The documentation announces grid points and density of log(|A| + eps).  The grid points
   are exponentials: for a matrix with |A| + eps < 1 no grid point is near a log-eigenvalue. *)
Theorem C66_log_grid_refuted : exists (run : lrun) (b : R * R) (eps : R), run_size run 2 /\
  forall num_points, exists grid density,
    [/\ log_spectrum_from_iter run b num_points (IZR 3) (Rdiv R1 (IZR 20)) eps = Ok (grid, density), size grid = num_points,
        forall j, (j < 2)%N -> Rle (ln (Rplus b.1 eps)) (ln (Rplus (Rabs (ritz_value run j)) eps)) /\
          Rle (ln (Rplus (Rabs (ritz_value run j)) eps)) (ln (Rplus b.2 eps)) &
        forall i j, (i < num_points)%N -> (j < 2)%N ->
          Rlt (ln (Rplus (Rabs (ritz_value run j)) eps)) R0 /\ Rlt R0 (nth R0 grid i)].
Proof.
pose q := Rdiv R1 (IZR 4); pose e := Rdiv R1 (IZR 8).
exists (Tensor [:: 2]%N [:: q; Rdiv R1 (IZR 2)], Tensor [:: 2; 2]%N [:: R1; R0; R0; R1]), (q, Rdiv R1 (IZR 2)), e.
split=> // np.
set run := (_, _).
have [||||xs [dens [e1 [q1 _ _ _] _ _]]] := @C66_log_spectrum run 2 (q, Rdiv R1 (IZR 2)) np (IZR 3) (Rdiv R1 (IZR 20)) e (erefl _) isT; try by rewrite /q /e /=; lra.
have v j : (j < 2)%N -> ritz_value run j = (if j == 0%N then q else Rdiv R1 (IZR 2)) by case: j => [|[|]].
have a1 : Rabs q = q by apply: Rabs_pos_eq; rewrite /q; lra.
have a2 : Rabs (Rdiv R1 (IZR 2)) = Rdiv R1 (IZR 2) by apply: Rabs_pos_eq; lra.
have lt1 : Rlt (ln (Rplus q e)) (ln (Rplus (Rdiv R1 (IZR 2)) e)) by apply: ln_increasing; rewrite /q /e; lra.
have lt2 : Rlt (ln (Rplus (Rdiv R1 (IZR 2)) e)) R0 by have := ln_increasing (Rplus (Rdiv R1 (IZR 2)) e) R1; rewrite ln_1 /e; lra.
exists (map exp xs), dens; split=> //; first by rewrite size_map.
  by move=> j hj; rewrite v //; case: eqP => _ /=; rewrite ?a1 ?a2; lra.
move=> i j hi hj; split; last by rewrite (nth_map R0) ?q1 //; apply: exp_pos.
by rewrite v //; case: eqP => _; rewrite ?a1 ?a2; lra.
Qed.
Print Assumptions C66_log_grid_refuted.

(* Boundaries of A with a negative minimum are turned into exchanged boundaries: every
   density value is then negative. *)
Lemma log_density_neg run ncv (b : R * R) num_points kappa margin eps :
  run_size run ncv -> (1 < ncv)%N -> Rlt R1 kappa -> Rle R0 margin ->
  Rlt R0 (Rplus b.2 eps) -> Rlt b.2 b.1 -> \sum_(j < ncv) ritz_weight run j = R1 ->
  exists grid density, log_spectrum_from_iter run b num_points kappa margin eps = Ok (grid, density) /\
    size density = num_points /\ forall i, (i < num_points)%N -> Rlt (nth R0 density i) R0.
Proof.
move=> hr hn hk hm hb1 hb2 hw.
set lo := ln (Rplus b.1 eps); set hi := ln (Rplus b.2 eps).
have hlt : Rlt hi lo by apply: ln_increasing; lra.
case: run hr hw => evals evecs hr hw; rewrite /run_size /= in hr.
rewrite /log_spectrum_from_iter hr /= bump_widthE //=.
rewrite -[ln (b.1 + eps)]/lo -[ln (b.2 + eps)]/hi.
set L := lo - margin * (hi - lo); set H := hi + margin * (hi - lo).
have hHL : Rlt (Rminus H L) R0.
  rewrite (_ : Rminus H L = Rmult (Rminus hi lo) (Rplus R1 (Rmult (IZR 2) margin))); last by rewrite /H /L; toR; ring.
  have : Rlt R0 (Rmult (Rminus lo hi) (Rplus R1 (Rmult (IZR 2) margin))) by apply: Rmult_lt_0_compat; lra.
  by lra.
eexists; eexists; split; first reflexivity.
split; first by rewrite size_map size_linspace.
move=> i lti; rewrite (nth_map R0) ?size_linspace //.
set x := nth R0 (linspace (-1) 1 num_points) i; set y := x * _ + _.
have ey := exp_pos y.
have e2 : ((H - L) / 2%:R * exp y : R) = Rmult (Rdiv (Rminus H L) (IZR 2)) (exp y) by rewrite -[2%:R]/(IZR 2) RdivE //; lra.
have ed : Rlt (Rmult (Rdiv (Rminus H L) (IZR 2)) (exp y)) R0.
  have : Rlt R0 (Rmult (Rdiv (Rminus L H) (IZR 2)) (exp y)) by apply: Rmult_lt_0_compat => //; lra.
  by rewrite /Rdiv; lra.
rewrite e2 (@RdivE _ (Rmult (Rdiv (Rminus H L) (IZR 2)) (exp y))); last by lra.
have hrt := kappa_root hk.
have n1 : Rlt R1 (INR ncv) by apply: (lt_INR 1); apply/ltP.
set sg := Rdiv (IZR 2) _.
have hsg : Rlt R0 sg by apply: Rdiv_lt_0_compat; [lra|apply: Rmult_lt_0_compat; lra].
set S := sumr _ _.
have hS : Rlt R0 S.
  have [_ p2] := @sum_pos ncv (ritz_weight (evals, evecs)) (fun j => gaussian x ((ln (Rabs (nth 0 (tdata evals) j) + eps) - (H + L) / 2%:R) / ((H - L) / 2%:R)) sg)
    (fun j => Rle_0_sqr _) (fun j => eq_ind_r (fun z => Rlt R0 z) (normal_pdf_pos _ _ hsg) (gaussianE _ _ hsg)).
  have := p2 hw; rewrite /S sumrE; congr Rlt; apply: eq_bigr => j _.
have : Rlt R0 (Rdiv S (Ropp (Rmult (Rdiv (Rminus H L) (IZR 2)) (exp y)))) by apply: Rdiv_lt_0_compat => //; lra.
have -> : Rdiv S (Ropp (Rmult (Rdiv (Rminus H L) (IZR 2)) (exp y))) = Ropp (Rdiv S (Rmult (Rdiv (Rminus H L) (IZR 2)) (exp y))) by field; split; lra.
by lra.
Qed.

Theorem C69_negative_minimum_refuted run ncv num_points kappa margin eps eigsh tol (lo hi : R) :
  run_size run ncv -> (1 < ncv)%N -> Rlt R1 kappa -> Rle R0 margin -> Rle R0 eps ->
  \sum_(j < ncv) ritz_weight run j = R1 ->
  Rlt R0 hi -> Rlt lo (Ropp hi) ->
  exists b grid density, [/\ approximate_boundaries_abs eigsh tol (Some (Some lo, Some hi)) = ([::], Ok b), Rlt b.2 b.1,
    log_spectrum_from_iter run b num_points kappa margin eps = Ok (grid, density), size density = num_points &
    forall i, (i < num_points)%N -> Rlt (nth R0 density i) R0].
Proof.
move=> hr hn hk hm he hw h0 hlo.
have a1 : Rabs lo = Ropp lo by apply: Rabs_left; lra.
have a2 : Rabs hi = hi by apply: Rabs_pos_eq; lra.
have [||grid [density [e1 [e2 e3]]]] := @log_density_neg run ncv (Rabs lo, Rabs hi) num_points kappa margin eps hr hn hk hm _ _ hw; rewrite /= ?a1 ?a2; try lra.
by exists (Rabs lo, Rabs hi), grid, density; split=> //=; rewrite a1 a2; lra.
Qed.
Print Assumptions C69_negative_minimum_refuted.
(* diag(-2, 1) with the boundaries -2 and 1 of A itself *)
Example C69_negative_ex : [/\ run_size (ex_run 0) 2, \sum_(j < 2) ritz_weight (ex_run 0) j = R1,
  approximate_boundaries_abs ex_eigsh R0 (Some (Some (Ropp (IZR 2)), Some R1)) = ([::], Ok (Rabs (Ropp (IZR 2)), Rabs R1)),
  Rlt R0 R1 & Rlt (Ropp (IZR 2)) (Ropp R1)].
Proof.
split=> //; [|lra|lra].
by rewrite !big_ord_recl big_ord0 /ritz_weight /= /Rsqr; toR; ring.
Qed.
