(* Concrete runs, boundaries and eigen-solver for C66-C69. *)
From Coq Require Import Reals Lra String.
From Coquelicot Require Import Coquelicot.
From mathcomp Require Import all_ssreflect all_algebra.
From Verif Require Import PyPrelude Tensor Spec Numpy Submatrix Inverse Estimators RInst Calculus ROrd Lanczos
  Props_Spectrum Props_SpectrumCache.
Set Implicit Arguments.
Unset Strict Implicit.
Unset Printing Implicit Defensive.
Import GRing.Theory Num.Theory.
Local Open Scope ring_scope.

Local Notation half := (Rdiv R1 (IZR 2)).
(* run k of the 2 x 2 matrix diag(-2, 1): eigenvalues -2, 1, eigenvectors as columns *)
Definition ex_run (k : nat) : lrun :=
  (Tensor [:: 2]%N [:: Ropp (IZR 2); R1],
   if odd k then Tensor [:: 2; 2]%N [:: R1; R0; R0; R1] else Tensor [:: 2; 2]%N [:: R0; R1; R1; R0]).
Definition ex_draw (g : nat) : res lrun := Ok (ex_run g).
(* the eigenvalues of the matrix that SciPy's modes select *)
Definition ex_eigsh (tol : R) (k : nat) (which : string) : res (seq R) :=
  if String.eqb which "BE"%string then Ok [:: Ropp (IZR 2); R1]
  else if String.eqb which "SA"%string then Ok [:: Ropp (IZR 2)]
  else if String.eqb which "LA"%string then Ok [:: R1]
  else if String.eqb which "SM"%string then Ok [:: R1]
  else Ok [:: Ropp (IZR 2)].

Example C66_ex : exists grid density,
  [/\ spectrum_from_iter (ex_run 0) (Ropp (IZR 2), R1) 5 (IZR 3) half = Ok (grid, density),
      equidistant (Rminus (Ropp (IZR 2)) (Rdiv (IZR 3) (IZR 2))) (Rplus R1 (Rdiv (IZR 3) (IZR 2))) 5 grid &
      forall i, (i < 5)%N -> Rlt R0 (nth R0 density i)].
Proof.
have [|||grid [dens [e q _ h]]] := @C66_spectrum (ex_run 0) 2 (Ropp (IZR 2)) R1 5 (IZR 3) half (erefl _) isT.
- by lra.
- by lra.
- by lra.
exists grid, dens; split=> //.
  have -> : Rminus (Ropp (IZR 2)) (Rdiv (IZR 3) (IZR 2)) = pad_lo (Ropp (IZR 2)) R1 half by rewrite /pad_lo; field.
  by have -> : Rplus R1 (Rdiv (IZR 3) (IZR 2)) = pad_hi (Ropp (IZR 2)) R1 half by rewrite /pad_hi; field.
move=> i hi; have [_ _ hp] := h i hi; apply: hp.
by rewrite !big_ord_recl big_ord0 /ritz_weight /= /Rsqr; toR; ring.
Qed.

Example C67_ex : exists grid avg,
  approximate_spectrum ex_draw ex_eigsh 5 2 (IZR 3) None half R0 0 = (2%N, Ok (grid, avg)) /\
  exists c, cached_init ex_eigsh R0 None = Ok c /\
    (cached_approximate_spectrum ex_draw c 2 5 (IZR 3) half 0).2 = Ok (grid, avg).
Proof.
have n21 : 2%N <> 1%N by [].
have hr i : (i < 2)%N -> ex_draw (0 + i) = Ok (ex_run i) /\ run_size (ex_run i) 2 by [].
have [grid [avg [e _ _]]] := @C67_average ex_draw ex_eigsh ex_run 2 2 5 (IZR 3) None half R0 _ 0 (erefl _) isT n21 hr.
exists grid, avg; split; first exact: e.
exists (Cached [::] (Ropp (IZR 2), R1)); split; first by [].
by rewrite (@C67_cached_agrees ex_draw ex_eigsh ex_run 2 2 5 (IZR 3) None half R0 _ 0 (erefl _) isT n21 hr) e.
Qed.

(* calls with 2, 1 and 3 repetitions and different parameters, an operator
   consuming random numbers in between *)
Definition ex_from (kappa : R) b run := spectrum_from_iter run b 5 kappa half.
Example C68_ex :
  let es := [:: Call 2 (IZR 3); Other R 7; Call 1 (IZR 4); Call 3 (IZR 3)] in
  let '(g, c, _) := session ex_draw ex_from es (Cached [::] (Ropp (IZR 2), R1)) 0 in
  size (c_iters c) = 3%N /\ g = 10%N.
Proof.
move=> es; have := @C68_number_of_runs ex_draw R ex_from es (Ropp (IZR 2), R1) 0.
by apply=> i; exists (ex_run i).
Qed.

Example C69_ex : eigsh_exact ex_eigsh (fun x => x = Ropp (IZR 2) \/ x = R1) R0 /\
  approximate_boundaries ex_eigsh R0 (Some (None, Some (IZR 5))) = ([:: (R0, 1%N, "SA"%string)], Ok (Ropp (IZR 2), IZR 5)) /\
  (approximate_boundaries_abs ex_eigsh R0 None).2 = Ok (R1, IZR 2).
Proof.
have a2 : Rabs (Ropp (IZR 2)) = IZR 2 by rewrite Rabs_Ropp Rabs_pos_eq; lra.
split; last first.
  by rewrite /approximate_boundaries_abs /lbind /= Rabs_R1 a2.
split=> xs [<-].
- by exists (Ropp (IZR 2)), R1; split=> //; split; [left| |right| ] => // y [->|->]; lra.
- by exists (Ropp (IZR 2)) => //; split; [left|] => // y [->|->]; lra.
- by exists R1 => //; split; [right|] => // y [->|->]; lra.
- by exists R1 => //; split; [right|] => // y [->|->]; rewrite ?a2 Rabs_R1; lra.
- by exists (Ropp (IZR 2)) => //; split; [left|] => // y [->|->]; rewrite ?a2 ?Rabs_R1; lra.
Qed.
