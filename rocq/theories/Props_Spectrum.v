(* C66-C69: spectral densities, averaging, cached Lanczos runs, boundaries. *)
From Coq Require Import Reals Lra String.
From Coquelicot Require Import Coquelicot.
From mathcomp Require Import all_ssreflect all_algebra.
From Verif Require Import PyPrelude Tensor Spec Numpy Submatrix Inverse Estimators RInst Calculus ROrd Lanczos.
Set Implicit Arguments.
Unset Strict Implicit.
Unset Printing Implicit Defensive.
Import GRing.Theory Num.Theory.
Local Open Scope ring_scope.

(* ---------------------------------------------------------------- C66 *)
(* density of the normal distribution with mean mu and standard deviation s *)
Definition normal_pdf (mu s x : R) : R :=
  Rdiv (exp (- Rdiv (Rsqr (Rminus x mu)) (Rmult (IZR 2) (Rsqr s)))) (Rmult s (R_sqrt.sqrt (Rmult (IZR 2) PI))).

(* num equidistant points from a to b (only a if num is 1) *)
Definition equidistant (a b : R) (num : nat) (xs : seq R) : Prop :=
  [/\ size xs = num, (0 < num)%N -> nth R0 xs 0 = a, (1 < num)%N -> nth R0 xs (num - 1) = b &
      forall i, (i.+1 < num)%N -> Rmult (Rminus (nth R0 xs i.+1) (nth R0 xs i)) (INR (num - 1)) = Rminus b a].

(* the runs fast_lanczos delivers have one eigenvalue and one column per vector *)
Definition run_size (run : lrun) (ncv : nat) : Prop := tshape run.1 = [:: ncv].
Definition ritz_value (run : lrun) i : R := nth R0 (tdata run.1) i.
(* squared first component of eigenvector i *)
Definition ritz_weight (run : lrun) i : R := Rsqr (nth R0 (tdata run.2) i).

(* standard deviation of the bumps for a spectrum from lo to hi *)
Definition bump (ncv : nat) (kappa lo hi : R) : R :=
  Rdiv (Rminus hi lo) (Rmult (Rminus (INR ncv) R1) (R_sqrt.sqrt (Rmult (IZR 8) (ln kappa)))).

Lemma natR k : k%:R = INR k :> R.
Proof. by elim: k => // k IH; rewrite S_INR mulrSr IH. Qed.
Lemma INR_pos k : (0 < k)%N -> Rlt R0 (INR k).
Proof. by move=> h; apply: lt_0_INR; apply/ltP. Qed.
Lemma RinvE (x : R) : x <> R0 -> (x^-1)%R = Rinv x.
Proof. by move=> h; rewrite /GRing.inv /= /Rinv0; case: eqP. Qed.
Lemma RdivE (x y : R) : y <> R0 -> (x / y)%R = Rdiv x y.
Proof. by move=> h; rewrite RinvE. Qed.

Lemma size_linspace a b num : size (linspace a b num) = num.
Proof. exact: size_mkseq. Qed.

Lemma linspace_nth a b num i : (i < num)%N -> (1 < num)%N -> nth R0 (linspace a b num) i = Rplus a (Rdiv (Rmult (INR i) (Rminus b a)) (INR (num - 1))).
Proof.
move=> hi hn; rewrite nth_mkseq // !natR RdivE; last by apply: Rgt_not_eq; apply: INR_pos; rewrite subn_gt0.
by toR; rewrite /Rdiv; ring.
Qed.

Lemma linspace_equidistant a b num : equidistant a b num (linspace a b num).
Proof.
have pos : (1 < num)%N -> INR (num - 1) <> R0 by move=> h; apply: Rgt_not_eq; apply: INR_pos; rewrite subn_gt0.
split; first by rewrite size_mkseq.
- by move=> h; rewrite nth_mkseq // mul0r addr0.
- move=> h; rewrite linspace_nth //; last by rewrite subn1 prednK // ltnW.
  by field; apply: pos.
- move=> i h; have hn : (1 < num)%N by apply: leq_ltn_trans h.
  rewrite (linspace_nth _ _ h hn) (linspace_nth _ _ (ltnW h) hn) S_INR.
  by field; apply: pos.
Qed.

Lemma linspace_affine lo hi num i : (i < num)%N ->
  nth R0 (linspace lo hi num) i = Rplus (Rdiv (Rplus hi lo) (IZR 2)) (Rmult (Rdiv (Rminus hi lo) (IZR 2)) (nth R0 (linspace (-1) 1 num) i)).
Proof.
move=> h; rewrite !nth_mkseq //; move: ((num - 1)%:R^-1 : R) => t.
by toR; field.
Qed.

Lemma two_neq0 : IZR 2 <> R0. Proof. lra. Qed.
Lemma half_opp : (- (2%:R)^-1 : R) = Ropp (Rinv (IZR 2)).
Proof. by rewrite RinvE // -[2%:R]/(IZR 2) //; lra. Qed.
Lemma PI2_pos : Rlt R0 (R_sqrt.sqrt (Rmult (IZR 2) PI)).
Proof. by apply: sqrt_lt_R0; have := PI_RGT_0; lra. Qed.

Lemma gaussianE x mu s : Rlt R0 s -> gaussian x mu s = normal_pdf mu s x.
Proof.
move=> hs; have p := PI2_pos; rewrite /gaussian /normal_pdf RdivE; last first.
  by rewrite -[2%:R]/(IZR 2); toR; apply: Rgt_not_eq; apply: Rmult_lt_0_compat.
rewrite half_opp RdivE; last by lra.
congr Rdiv; congr exp; rewrite expr2 /Rsqr; toR; by field; lra.
Qed.

Lemma normal_scale mu s x c d : Rlt R0 d -> Rlt R0 s ->
  Rdiv (normal_pdf (Rdiv (Rminus mu c) d) s x) d = normal_pdf mu (Rmult d s) (Rplus c (Rmult d x)).
Proof.
move=> hd hs; have p := PI2_pos; rewrite /normal_pdf.
have -> : Rdiv (Rsqr (Rminus x (Rdiv (Rminus mu c) d))) (Rmult (IZR 2) (Rsqr s)) =
  Rdiv (Rsqr (Rminus (Rplus c (Rmult d x)) mu)) (Rmult (IZR 2) (Rsqr (Rmult d s))).
  by rewrite /Rsqr; field; lra.
by field; lra.
Qed.

Lemma normal_pdf_pos mu s x : Rlt R0 s -> Rlt R0 (normal_pdf mu s x).
Proof.
move=> hs; have p := PI2_pos; apply: Rdiv_lt_0_compat; first exact: exp_pos.
exact: Rmult_lt_0_compat.
Qed.

Lemma kappa_root kappa : Rlt R1 kappa -> Rlt R0 (R_sqrt.sqrt (Rmult (IZR 8) (ln kappa))).
Proof. by move=> h; apply: sqrt_lt_R0; have := ln_increasing R1 kappa; rewrite ln_1; lra. Qed.

Lemma bump_widthE ncv kappa : (1 < ncv)%N -> Rlt R1 kappa ->
  bump_width ncv kappa = Ok (Rdiv (IZR 2) (Rmult (Rminus (INR ncv) R1) (R_sqrt.sqrt (Rmult (IZR 8) (ln kappa))))).
Proof.
move=> hn hk; have hr := kappa_root hk; rewrite /bump_width gtn_eqF //; congr Ok.
have n1 : Rlt R1 (INR ncv) by apply: (lt_INR 1); apply/ltP.
have e8 : 8%:R = IZR 8 :> R by rewrite natR INR_IZR_INZ.
by rewrite e8 [ncv%:R]natR -[2%:R]/(IZR 2) !RdivE; toR; [field; lra|lra|lra].
Qed.

Lemma bump_pos ncv kappa lo hi : (1 < ncv)%N -> Rlt R1 kappa -> Rlt lo hi -> Rlt R0 (bump ncv kappa lo hi).
Proof.
move=> hn hk h; have hr := kappa_root hk; have n1 : Rlt R1 (INR ncv) by apply: (lt_INR 1); apply/ltP.
by apply: Rdiv_lt_0_compat; [lra|apply: Rmult_lt_0_compat; lra].
Qed.

Lemma sum_pos n (w f : nat -> R) : (forall j, Rle R0 (w j)) -> (forall j, Rlt R0 (f j)) ->
  Rle R0 (\sum_(j < n) w j * f j) /\ (\sum_(j < n) w j = R1 -> Rlt R0 (\sum_(j < n) w j * f j)).
Proof.
move=> hw hf; elim: n => [|n [IH1 IH2]].
  by rewrite !big_ord0; split; [exact: Rle_refl|move=> h; have : R0 <> R1 by lra].
rewrite !big_ord_recr /=; have hm : Rle R0 (Rmult (w n) (f n)) by apply: Rmult_le_pos => //; apply: Rlt_le.
split; first by apply: Rplus_le_le_0_compat.
move=> h; case: (Rtotal_order (w n) R0) => [|[e|hp]]; first by have := hw n; lra.
  have {}e : w n = 0 := e.
  by rewrite e mul0r addr0; apply: IH2; move: h; rewrite e addr0.
by apply: Rplus_le_lt_0_compat => //; apply: Rmult_lt_0_compat => //; apply: hf.
Qed.

(* the padded interval *)
Definition pad_lo (lo hi margin : R) : R := Rminus lo (Rmult margin (Rminus hi lo)).
Definition pad_hi (lo hi margin : R) : R := Rplus hi (Rmult margin (Rminus hi lo)).
Lemma pad_lt lo hi margin : Rlt lo hi -> Rle R0 margin -> Rlt (pad_lo lo hi margin) (pad_hi lo hi margin).
Proof.
move=> h hm; rewrite /pad_lo /pad_hi; have : Rle R0 (Rmult margin (Rminus hi lo)) by apply: Rmult_le_pos; lra.
lra.
Qed.

(* A mixture of normal distributions around the Ritz values, weighted with the
   squared first components, on an equidistant grid over the padded interval. *)
Theorem C66_spectrum run ncv lo hi num_points kappa margin :
  run_size run ncv -> (1 < ncv)%N -> Rlt R1 kappa -> Rlt lo hi -> Rle R0 margin ->
  exists grid density, [/\ spectrum_from_iter run (lo, hi) num_points kappa margin = Ok (grid, density),
    equidistant (pad_lo lo hi margin) (pad_hi lo hi margin) num_points grid, size density = num_points &
    forall i, (i < num_points)%N ->
      [/\ nth R0 density i = \sum_(j < ncv) ritz_weight run j *
             normal_pdf (ritz_value run j) (bump ncv kappa (pad_lo lo hi margin) (pad_hi lo hi margin)) (nth R0 grid i),
          Rle R0 (nth R0 density i) &
          \sum_(j < ncv) ritz_weight run j = R1 -> Rlt R0 (nth R0 density i)]].
Proof.
move=> hr hn hk hlt hm; have hp := pad_lt hlt hm.
have hb := bump_pos hn hk hp; have hrt := kappa_root hk.
have n1 : Rlt R1 (INR ncv) by apply: (lt_INR 1); apply/ltP.
case: run hr => evals evecs hr; rewrite /run_size /= in hr.
rewrite /spectrum_from_iter hr /= bump_widthE //=; eexists _, _; split; first reflexivity.
- exact: linspace_equidistant.
- by rewrite size_map size_linspace.
move=> i lti; rewrite (nth_map R0) ?size_linspace //.
set x := nth R0 (linspace (-1) 1 num_points) i.
set L := pad_lo lo hi margin in hp hb *; set H := pad_hi lo hi margin in hp hb *.
rewrite -[lo - _]/L -[hi + margin * _]/H.
have e0 : Rdiv (Rminus H L) (IZR 2) <> R0 by lra.
have e1 : sumr ncv (fun i0 => entry ncv (tdata evecs) 0 i0 ^+ 2 / ((H - L) / 2%:R) *
     gaussian x ((nth 0 (tdata evals) i0 - (H + L) / 2%:R) / ((H - L) / 2%:R))
       (Rdiv (IZR 2) (Rmult (Rminus (INR ncv) R1) (sqrt (Rmult (IZR 8) (ln kappa)))))) =
   \sum_(j < ncv) ritz_weight (evals, evecs) j * normal_pdf (ritz_value (evals, evecs) j) (bump ncv kappa L H) (nth R0 (linspace L H num_points) i).
  rewrite sumrE; apply: eq_bigr => j _; rewrite gaussianE; last first.
    by apply: Rdiv_lt_0_compat; [lra|apply: Rmult_lt_0_compat; lra].
  rewrite (linspace_affine L H lti) -/x.
  have -> : bump ncv kappa L H = Rmult (Rdiv (Rminus H L) (IZR 2)) (Rdiv (IZR 2) (Rmult (Rminus (INR ncv) R1) (sqrt (Rmult (IZR 8) (ln kappa))))).
    by rewrite /bump; field; lra.
  rewrite -normal_scale; [|lra|by apply: Rdiv_lt_0_compat; [lra|apply: Rmult_lt_0_compat; lra]].
  rewrite -[2%:R]/(IZR 2) ![_ / IZR 2]RdivE; [|lra|lra].
  rewrite !RdivE //.
  rewrite /ritz_weight /ritz_value /entry /= mul0n add0n expr2 /Rsqr.
  set w := nth R0 (tdata evecs) j; set g := (normal_pdf _ _ x in RHS); set D := Rdiv (Rminus H L) (IZR 2).
  change (Rmult (Rdiv (Rmult w w) D) g = Rmult (Rmult w w) (Rdiv g D)).
  by rewrite /Rdiv; ring.
have [p1 p2] := @sum_pos ncv (ritz_weight (evals, evecs))
  (fun j => normal_pdf (ritz_value (evals, evecs) j) (bump ncv kappa L H) (nth R0 (linspace L H num_points) i))
  (fun j => Rle_0_sqr _) (fun j => normal_pdf_pos _ _ hb).
by rewrite e1; split.
Qed.
Print Assumptions C66_spectrum.

(* The logarithmic version: the grid is equidistant in the logarithm, and the value
   at a grid point is the density of |A| + epsilon I (not of its logarithm) there. *)
Theorem C66_log_spectrum run ncv (b : R * R) num_points kappa margin epsilon :
  run_size run ncv -> (1 < ncv)%N -> Rlt R1 kappa -> Rle R0 margin ->
  Rlt R0 (Rplus b.1 epsilon) -> Rlt b.1 b.2 ->
  let lo := ln (Rplus b.1 epsilon) in let hi := ln (Rplus b.2 epsilon) in
  exists xs density, [/\ log_spectrum_from_iter run b num_points kappa margin epsilon = Ok (map exp xs, density),
    equidistant (pad_lo lo hi margin) (pad_hi lo hi margin) num_points xs, size density = num_points &
    forall i, (i < num_points)%N ->
      [/\ nth R0 density i = Rdiv (\sum_(j < ncv) ritz_weight run j *
             normal_pdf (ln (Rplus (Rabs (ritz_value run j)) epsilon))
               (bump ncv kappa (pad_lo lo hi margin) (pad_hi lo hi margin)) (nth R0 xs i)) (exp (nth R0 xs i)),
          Rle R0 (nth R0 density i) &
          \sum_(j < ncv) ritz_weight run j = R1 -> Rlt R0 (nth R0 density i)]].
Proof.
move=> hr hn hk hm hb1 hb2 lo hi.
have hlt : Rlt lo hi by apply: ln_increasing; lra.
have hp := pad_lt hlt hm.
have hb := bump_pos hn hk hp; have hrt := kappa_root hk.
have n1 : Rlt R1 (INR ncv) by apply: (lt_INR 1); apply/ltP.
case: run hr => evals evecs hr; rewrite /run_size /= in hr.
rewrite /log_spectrum_from_iter hr /= bump_widthE //=.
set L := pad_lo lo hi margin in hp hb *; set H := pad_hi lo hi margin in hp hb *.
rewrite -[ln (b.1 + epsilon)]/lo -[ln (b.2 + epsilon)]/hi -[lo - margin * _]/L -[hi + margin * _]/H.
have e0 : Rdiv (Rminus H L) (IZR 2) <> R0 by lra.
have aff i : (i < num_points)%N -> nth R0 (linspace (-1) 1 num_points) i * ((H - L) / 2%:R) + (H + L) / 2%:R = nth R0 (linspace L H num_points) i.
  by move=> hi'; rewrite (linspace_affine L H hi') -[2%:R]/(IZR 2) !RdivE; [|lra|lra]; move: (nth R0 _ i) => t; toR; rewrite /Rdiv; ring.
exists (linspace L H num_points); eexists; split.
- congr Ok; congr (_, _).
  apply: (@eq_from_nth _ R0); first by rewrite 2!size_map !size_linspace.
  by move=> i; rewrite size_map size_linspace => lti; rewrite !(nth_map R0) ?size_linspace // aff.
- exact: linspace_equidistant.
- by rewrite size_map size_linspace.
move=> i lti; rewrite (nth_map R0) ?size_linspace // aff //.
set x := nth R0 (linspace (-1) 1 num_points) i; set y := nth R0 (linspace L H num_points) i.
have ey := exp_pos y.
have e1 : sumr ncv (fun i0 => entry ncv (tdata evecs) 0 i0 ^+ 2 *
     gaussian x ((ln (Rabs (nth 0 (tdata evals) i0) + epsilon) - (H + L) / 2%:R) / ((H - L) / 2%:R))
       (Rdiv (IZR 2) (Rmult (Rminus (INR ncv) R1) (sqrt (Rmult (IZR 8) (ln kappa)))))) / ((H - L) / 2%:R * exp y) =
   Rdiv (\sum_(j < ncv) ritz_weight (evals, evecs) j *
     normal_pdf (ln (Rplus (Rabs (ritz_value (evals, evecs) j)) epsilon)) (bump ncv kappa L H) y) (exp y).
  have -> : ((H - L) / 2%:R * exp y : R) = Rmult (Rdiv (Rminus H L) (IZR 2)) (exp y) by rewrite -[2%:R]/(IZR 2) !RdivE //; lra.
  rewrite [LHS]RdivE; last by apply: Rgt_not_eq; apply: Rmult_lt_0_compat; lra.
  have -> : forall S : R, Rdiv S (Rmult (Rdiv (Rminus H L) (IZR 2)) (exp y)) = Rdiv (Rdiv S (Rdiv (Rminus H L) (IZR 2))) (exp y).
    by move=> S; field; lra.
  congr Rdiv; rewrite sumrE -[LHS]RdivE // mulr_suml; apply: eq_bigr => j _; rewrite gaussianE; last first.
    by apply: Rdiv_lt_0_compat; [lra|apply: Rmult_lt_0_compat; lra].
  rewrite /y (linspace_affine L H lti) -/x.
  have -> : bump ncv kappa L H = Rmult (Rdiv (Rminus H L) (IZR 2)) (Rdiv (IZR 2) (Rmult (Rminus (INR ncv) R1) (sqrt (Rmult (IZR 8) (ln kappa))))).
    by rewrite /bump; field; lra.
  rewrite -normal_scale; [|lra|by apply: Rdiv_lt_0_compat; [lra|apply: Rmult_lt_0_compat; lra]].
  rewrite -[2%:R]/(IZR 2) ![_ / IZR 2]RdivE; [|lra|lra].
  rewrite !RdivE //.
  rewrite /ritz_weight /ritz_value /entry /= mul0n add0n expr2 /Rsqr.
  set w := nth R0 (tdata evecs) j; set g := (normal_pdf _ _ x in RHS); set D := Rdiv (Rminus H L) (IZR 2).
  change (Rdiv (Rmult (Rmult w w) g) D = Rmult (Rmult w w) (Rdiv g D)).
  by rewrite /Rdiv; ring.
have [p1 p2] := @sum_pos ncv (ritz_weight (evals, evecs))
  (fun j => normal_pdf (ln (Rplus (Rabs (ritz_value (evals, evecs) j)) epsilon)) (bump ncv kappa L H) y)
  (fun j => Rle_0_sqr _) (fun j => normal_pdf_pos _ _ hb).
rewrite e1; split=> //.
  by apply: Rmult_le_pos => //; apply: Rlt_le; apply: Rinv_0_lt_compat.
by move/p2 => h; apply: Rdiv_lt_0_compat.
Qed.
Print Assumptions C66_log_spectrum.

(* what kappa means: at half the distance of ncv equidistant nodes over the
   interval, a bump has decayed to 1/kappa of its maximum *)
Theorem C66_kappa ncv kappa lo hi mu : (1 < ncv)%N -> Rlt R1 kappa -> Rlt lo hi ->
  let s := bump ncv kappa lo hi in
  normal_pdf mu s (Rplus mu (Rdiv (Rdiv (Rminus hi lo) (Rminus (INR ncv) R1)) (IZR 2))) = Rdiv (normal_pdf mu s mu) kappa.
Proof.
move=> hn hk hlt s; have hb := bump_pos hn hk hlt; rewrite -/s in hb; have hrt := kappa_root hk.
have n1 : Rlt R1 (INR ncv) by apply: (lt_INR 1); apply/ltP.
have lk : Rlt R0 (ln kappa) by have := ln_increasing R1 kappa; rewrite ln_1; lra.
rewrite /normal_pdf.
have -> : Rdiv (Rsqr (Rminus (Rplus mu (Rdiv (Rdiv (Rminus hi lo) (Rminus (INR ncv) R1)) (IZR 2))) mu)) (Rmult (IZR 2) (Rsqr s)) = ln kappa.
  have hs : Rmult (sqrt (Rmult (IZR 8) (ln kappa))) (sqrt (Rmult (IZR 8) (ln kappa))) = Rmult (IZR 8) (ln kappa) by apply: sqrt_sqrt; lra.
  rewrite /s /bump /Rsqr; set r := sqrt _ in hs hrt *.
  transitivity (Rdiv (Rmult r r) (IZR 8)); last by rewrite hs; field.
  by field; lra.
have -> : Rdiv (Rsqr (Rminus mu mu)) (Rmult (IZR 2) (Rsqr s)) = R0 by rewrite /Rsqr; field; lra.
have p := PI2_pos.
have E0 : exp (Ropp R0) = R1 := eq_trans (f_equal exp Ropp_0) exp_0.
rewrite E0 exp_Ropp exp_ln; last by lra.
by field; lra.
Qed.
Print Assumptions C66_kappa.

(* one Lanczos vector only: Python's 2 / 0 *)
Theorem C66_one_vector_refuted run b num_points kappa margin epsilon : run_size run 1 ->
  spectrum_from_iter run b num_points kappa margin = Err ZeroDivisionError /\
  log_spectrum_from_iter run b num_points kappa margin epsilon = Err ZeroDivisionError.
Proof. by case: run b => [evals evecs] [lo hi]; rewrite /run_size /= => h; rewrite /spectrum_from_iter /log_spectrum_from_iter h. Qed.
Print Assumptions C66_one_vector_refuted.
