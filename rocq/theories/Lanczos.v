(* Model of curvlinops/papyan2020traces/spectrum.py: Lanczos iterations, spectral
   boundaries, spectral densities and the classes that cache Lanczos runs.
   Simplifications, for the whole file: numbers are exact reals; a division by zero
   yields some number where NumPy yields nan or inf (the theorems assume non-zero
   divisors); 'A @ v' returns a new array; num_points and ncv are not negative. *)
From Coq Require Import Reals String.
From mathcomp Require Import all_ssreflect all_algebra.
From Coquelicot Require Import Coquelicot.
From Verif Require Import PyPrelude Tensor Spec Numpy Submatrix Inverse Estimators RInst Calculus ROrd.
Set Implicit Arguments.
Unset Strict Implicit.
Unset Printing Implicit Defensive.
Import GRing.Theory Num.Theory.
Local Open Scope ring_scope.

(* ------------------------------------------------------------------ *)
Section FastLanczos.
Variable F : rcfType.
Local Notation arr := (tensor F).

(* numpy.linalg.norm of a vector; v /= c *)
Definition np_norm (v : arr) : F := Num.sqrt (sumr (size (tdata v)) (fun i => nth 0 (tdata v) i ^+ 2)).
Definition div_by (v : arr) (c : F) : arr := Tensor (tshape v) [seq x / c | x <- tdata v].

(* The loop variables of fast_lanczos.  alphas and betas hold what has been
   assigned so far instead of being preallocated with zeros. *)
Record lstate := LState { l_v : arr; l_prev : arr; l_alphas : seq F; l_betas : seq F }.

(* spectrum.py 397-415, the body of 'for m in range(ncv)'.  The start vector is
   normalised before the loop ([lanczos_start]) rather than in its first pass;
   before the second pass v_prev is not read. *)
Definition lanczos_step (A : mv_op F) (ncv : nat) (s : lstate) (m : nat) : res lstate :=
  let! Av := mv_dot A (l_v s) in
  let! w := if m == 0%N then Ok Av
            else ew (fun x y => x - y) Av (scal *%R (nth 0 (l_betas s) (m - 1)) (l_prev s)) in
  let! a := np_dot w (l_v s) in
  let! w' := ew (fun x y => x - y) w (scal *%R a (l_v s)) in
  if m == (ncv - 1)%N then Ok (LState (l_v s) (l_prev s) (rcons (l_alphas s) a) (l_betas s))
  else
    let b := np_norm w' in
    Ok (LState (div_by w' b) (l_v s) (rcons (l_alphas s) a) (rcons (l_betas s) b)).

(* spectrum.py 399-400 *)
Definition lanczos_start (A : mv_op F) (x : nat -> F) : lstate :=
  let dim := nth 0%N (mv_shape A) 1 in
  let v := Tensor [:: dim] (mkseq x dim) in
  LState (div_by v (np_norm v)) (Tensor [::] [::]) [::] [::].

(* the state after the first k passes *)
Definition lanczos_passes (A : mv_op F) (ncv : nat) (x : nat -> F) (k : nat) : res lstate :=
  foldM (lanczos_step A ncv) (lanczos_start A x) (seq.iota 0 k).

(* spectrum.py 419: diags([betas, alphas, betas], offsets=[-1, 0, 1]).todense() *)
Definition tridiagonal (n : nat) (alphas betas : seq F) : arr :=
  Tensor [:: n; n] (mkseq (fun k => let i := (k %/ n)%N in let j := (k %% n)%N in
    if i == j then nth 0 alphas i
    else if i == j.+1 then nth 0 betas j
    else if j == i.+1 then nth 0 betas i else 0) (n * n)).

(* SciPy's eigh and eigh_tridiagonal *)
Variable eigh : arr -> res (arr * arr).
Variable eigh_tridiagonal : seq F -> seq F -> res (arr * arr).

(* spectrum.py 374-422 (fast_lanczos); x is what randn delivers.  zeros(ncv - 1)
   raises for ncv = 0. *)
Definition fast_lanczos (A : mv_op F) (ncv : nat) (use_tridiagonal : bool) (x : nat -> F) : res (arr * arr) :=
  if ncv == 0%N then Err ValueError else
  let! s := lanczos_passes A ncv x ncv in
  if use_tridiagonal then eigh_tridiagonal (l_alphas s) (l_betas s)
  else eigh (tridiagonal ncv (l_alphas s) (l_betas s)).

End FastLanczos.

(* ------------------------------------------------------------------ *)
(* Spectral boundaries.  Calls of SciPy's eigsh are logged: (tol, k, which). *)
Section Boundaries.
Definition eigsh_call : Type := R * nat * string.
Variable eigsh : R -> nat -> string -> res (seq R).

(* (x,) = eigsh(A, k=1, which=which, tol=tol, return_eigenvectors=False) *)
Definition eigsh1 (tol : R) (which : string) : seq eigsh_call * res R :=
  ([:: (tol, 1%N, which)],
   let! xs := eigsh tol 1 which in if xs is [:: x] then Ok x else Err ValueError).

(* one statement after the other, collecting the calls of eigsh *)
Definition lbind A B (m : seq eigsh_call * res A) (f : A -> seq eigsh_call * res B) : seq eigsh_call * res B :=
  match m.2 with
  | Ok a => (m.1 ++ (f a).1, (f a).2)
  | Err e => (m.1, Err e)
  end.

(* spectrum.py 445-457 (approximate_boundaries) *)
Definition approximate_boundaries (tol : R) (boundaries : option (option R * option R)) : seq eigsh_call * res (R * R) :=
  match boundaries with
  | None =>
      ([:: (tol, 2%N, "BE"%string)],
       let! xs := eigsh tol 2 "BE" in if xs is [:: a; b] then Ok (a, b) else Err ValueError)
  | Some (bmin, bmax) =>
      lbind (if bmin is Some x then ([::], Ok x) else eigsh1 tol "SA") (fun lo =>
      lbind (if bmax is Some x then ([::], Ok x) else eigsh1 tol "LA") (fun hi =>
      ([::], Ok (lo, hi))))
  end.

(* spectrum.py 480-488 (approximate_boundaries_abs) *)
Definition approximate_boundaries_abs (tol : R) (boundaries : option (option R * option R)) : seq eigsh_call * res (R * R) :=
  let '(bmin, bmax) := if boundaries is Some b then b else (None, None) in
  lbind (if bmax is Some x then ([::], Ok x) else eigsh1 tol "LM") (fun hi =>
  lbind (if bmin is Some x then ([::], Ok x) else eigsh1 tol "SM") (fun lo =>
  ([::], Ok (Rabs lo, Rabs hi)))).

End Boundaries.

(* ------------------------------------------------------------------ *)
Section Density.
Local Notation arr := (tensor [rcfType of R]).
(* the pair (evals, evecs) returned by fast_lanczos *)
Definition lrun : Type := arr * arr.
(* grid points and densities *)
Definition spectrum : Type := seq R * seq R.

(* numpy.linspace(a, b, num, endpoint=True) *)
Definition linspace (a b : R) (num : nat) : seq R :=
  mkseq (fun i => a + i%:R * ((b - a) / (num - 1)%:R)) num.

(* spectrum.py 491-502 (_gaussian) for numbers *)
Definition gaussian (x mu sigma : R) : R :=
  exp (- (2%:R)^-1 * ((x - mu) / sigma) ^+ 2) / (sigma * sqrt (2%:R * PI)).

(* width of the bumps, spectrum.py 104 and 299: for ncv = 1 Python divides the
   integer 2 by the integer 0 *)
Definition bump_width (ncv : nat) (kappa : R) : res R :=
  if ncv == 1%N then Err ZeroDivisionError
  else Ok (2%:R / (ncv%:R - 1) / sqrt (8%:R * ln kappa)).

(* spectrum.py 75-107 (lanczos_approximate_spectrum_from_iter); arrays that are
   repeated to the shape (ncv, num_points) are indexed instead *)
Definition spectrum_from_iter (run : lrun) (boundaries : R * R) (num_points : nat) (kappa margin : R) : res spectrum :=
  let '(lo, hi) := boundaries in
  let width := hi - lo in
  let padding := margin * width in
  let '(lo, hi) := (lo - padding, hi + padding) in
  let c := (hi + lo) / 2%:R in
  let d := (hi - lo) / 2%:R in
  let grid_norm := linspace (-1) 1 num_points in
  let '(evals, evecs) := run in
  let ncv := head 0%N (tshape evals) in
  let node i := (nth 0 (tdata evals) i - c) / d in
  let weight i := entry ncv (tdata evecs) 0 i ^+ 2 / d in
  let! sigma := bump_width ncv kappa in
  Ok (linspace lo hi num_points,
      [seq sumr ncv (fun i => weight i * gaussian x (node i) sigma) | x <- grid_norm]).

(* spectrum.py 265-302 (lanczos_approximate_log_spectrum_from_iter) *)
Definition log_spectrum_from_iter (run : lrun) (boundaries : R * R) (num_points : nat) (kappa margin epsilon : R) : res spectrum :=
  let lo := ln (boundaries.1 + epsilon) in
  let hi := ln (boundaries.2 + epsilon) in
  let width := hi - lo in
  let padding := margin * width in
  let '(lo, hi) := (lo - padding, hi + padding) in
  let c := (hi + lo) / 2%:R in
  let d := (hi - lo) / 2%:R in
  let grid_norm := linspace (-1) 1 num_points in
  let grid_out := [seq exp (x * d + c) | x <- grid_norm] in
  let '(evals, evecs) := run in
  let node i := (ln (Rabs (nth 0 (tdata evals) i) + epsilon) - c) / d in
  let ncv := head 0%N (tshape evals) in
  let weight i := entry ncv (tdata evecs) 0 i ^+ 2 in
  let! sigma := bump_width ncv kappa in
  Ok (grid_out,
      [seq sumr ncv (fun i => weight i * gaussian x (node i) sigma) / (d * exp (x * d + c)) | x <- grid_norm]).

(* ---- averaging over runs ---- *)
(* elementwise operations on densities of equal length *)
Definition dadd (p q : seq R) : seq R := [seq t.1 + t.2 | t <- zip p q].
Definition dscale (c : R) (p : seq R) : seq R := [seq c * x | x <- p].
Definition ddiv (p : seq R) (c : R) : seq R := [seq x / c | x <- p].

(* [draw k] is the k-th run of fast_lanczos on this operator: its result depends
   on the random numbers delivered by the k-th call of randn *)
Variable draw : nat -> res lrun.

(* 'for n in range(num_repeats)' in spectrum.py 64-70 and 254-260.  g counts the
   runs made so far; grid is unbound before the first pass. *)
Fixpoint average_loop (from : lrun -> res spectrum) (todo n g : nat) (grid : option (seq R)) (avg : seq R) : nat * res spectrum :=
  match todo with
  | 0%N => (g, if grid is Some xs then Ok (xs, avg) else Err NameError)
  | k.+1 =>
      match draw g with
      | Err e => (g.+1, Err e)
      | Ok run =>
          match from run with
          | Err e => (g.+1, Err e)
          | Ok (xs, p) =>
              average_loop from k n.+1 g.+1 (Some xs)
                (dadd (dscale (1 - 1 / n.+1%:R) avg) (ddiv p n.+1%:R))
          end
      end
  end.

(* range(num_repeats) is empty for a negative num_repeats *)
Definition range_len (num_repeats : int) : nat := if num_repeats is Posz k then k else 0%N.

Variable eigsh : R -> nat -> string -> res (seq R).

(* spectrum.py 19-72 (lanczos_approximate_spectrum) *)
Definition approximate_spectrum (num_points : nat) (num_repeats : int) (kappa : R) (boundaries : option (option R * option R))
    (margin tol : R) (g : nat) : nat * res spectrum :=
  match (approximate_boundaries eigsh tol boundaries).2 with
  | Err e => (g, Err e)
  | Ok b => average_loop (fun run => spectrum_from_iter run b num_points kappa margin) (range_len num_repeats) 0 g None
              (nseq num_points 0)
  end.

(* spectrum.py 201-262 (lanczos_approximate_log_spectrum) *)
Definition approximate_log_spectrum (num_points : nat) (num_repeats : int) (kappa : R) (boundaries : option (option R * option R))
    (margin tol epsilon : R) (g : nat) : nat * res spectrum :=
  match (approximate_boundaries_abs eigsh tol boundaries).2 with
  | Err e => (g, Err e)
  | Ok b => average_loop (fun run => log_spectrum_from_iter run b num_points kappa margin epsilon) (range_len num_repeats) 0 g None
              (nseq num_points 0)
  end.

(* ---- the caching classes ---- *)
(* self._lanczos_iters and self._boundaries *)
Record cached := Cached { c_iters : seq lrun; c_bounds : R * R }.

(* spectrum.py 163-166 and 333-336 (__init__) *)
Definition cached_init (tol : R) (boundaries : option (option R * option R)) : res cached :=
  let! b := (approximate_boundaries eigsh tol boundaries).2 in Ok (Cached [::] b).
Definition cached_log_init (tol : R) (boundaries : option (option R * option R)) : res cached :=
  let! b := (approximate_boundaries_abs eigsh tol boundaries).2 in Ok (Cached [::] b).

(* 'while len(...) < num_iters' in spectrum.py 129-130; k is the number of missing runs *)
Fixpoint fill (k g : nat) (iters : seq lrun) : nat * seq lrun * res unit :=
  match k with
  | 0%N => (g, iters, Ok tt)
  | k'.+1 =>
      match draw g with
      | Err e => (g.+1, iters, Err e)
      | Ok run => fill k' g.+1 (rcons iters run)
      end
  end.

(* iters[:num_iters] *)
Definition py_take (T : Type) (num : int) (xs : seq T) : seq T :=
  match num with
  | Posz k => take k xs
  | Negz k => take (size xs - k.+1) xs
  end.

(* spectrum.py 128-132 (_get_lanczos_iters) *)
Definition get_lanczos_iters (c : cached) (num_iters : int) (g : nat) : nat * cached * res (seq lrun) :=
  let '(g', iters, r) := fill (range_len num_iters - size (c_iters c)) g (c_iters c) in
  (g', Cached iters (c_bounds c), let! _ := r in Ok (py_take num_iters iters)).

(* the common part of approximate_spectrum and approximate_log_spectrum:
   spectrum.py 189-198 and 362-371 *)
Definition cached_spectrum (from : R * R -> lrun -> res spectrum) (c : cached) (num_repeats : int) (g : nat) : nat * cached * res spectrum :=
  let '(g', c', r) := get_lanczos_iters c num_repeats g in
  (g', c',
   let! runs := r in
   let! spectra := mapM (from (c_bounds c)) runs in
   if spectra is s0 :: rest then
     Ok (s0.1, ddiv (foldl (fun acc s => dadd acc s.2) s0.2 rest) num_repeats%:~R)
   else Err IndexError).

(* spectrum.py 168-198 (LanczosApproximateSpectrumCached.approximate_spectrum) *)
Definition cached_approximate_spectrum (c : cached) (num_repeats : int) (num_points : nat) (kappa margin : R) (g : nat) :=
  cached_spectrum (fun b run => spectrum_from_iter run b num_points kappa margin) c num_repeats g.

(* spectrum.py 338-371 (LanczosApproximateLogSpectrumCached.approximate_log_spectrum) *)
Definition cached_approximate_log_spectrum (c : cached) (num_repeats : int) (num_points : nat) (kappa margin epsilon : R) (g : nat) :=
  cached_spectrum (fun b run => log_spectrum_from_iter run b num_points kappa margin epsilon) c num_repeats g.

(* default arguments: spectrum.py 24 and 172; 206 and 342 *)
Definition default_kappa : R := 3%:R.
Definition default_kappa_cached : R := 3%:R.
Definition default_kappa_log : R := 104%:R / 100%:R.
Definition default_kappa_log_cached : R := 3%:R.

End Density.
