(* curvlinops/examples/utils.py: comparison of NumPy arrays.  Entries of floating-point arrays
   are exact numbers, infinities or NaN. *)
From mathcomp Require Import all_ssreflect all_algebra.
From Verif Require Import PyPrelude Tensor.
Set Implicit Arguments.
Unset Strict Implicit.
Unset Printing Implicit Defensive.
Import GRing.Theory Num.Theory.
Local Open Scope ring_scope.

Section Report.
Variable F : realFieldType.
(* an entry of an array as isclose sees it (examples/utils.py 35) *)
Inductive num := Num of F | PInf | NInf | NaN.

(* numpy.isclose(a, b, rtol, atol, equal_nan), called in examples/utils.py 35:
   |a - b| <= atol + rtol |b| for finite numbers, or a == b; NaNs are equal on request *)
Definition isclose (rtol atol : F) (equal_nan : bool) (a b : num) : bool :=
  match a, b with
  | Num x, Num y => (`|x - y| <= atol + rtol * `|y|) || (x == y)
  | PInf, PInf | NInf, NInf => true
  | NaN, NaN => equal_nan
  | _, _ => false
  end.
(* numpy.allclose on arrays of equal shape (examples/utils.py 30) *)
Definition allclose rtol atol equal_nan (s t : seq num) : bool :=
  all (fun p => isclose rtol atol equal_nan p.1 p.2) (zip s t).

(* what is printed: examples/utils.py 31, 36, 38, 39, 40, 41 *)
Inductive line :=
  | Match
  | Pair of num & num & num
  | MaxLine of num & num
  | MinLine of num & num
  | CountLine of nat & nat
  | TolLine of F & F.

(* a1 / a2, array.max() and array.min() of NumPy (36, 38, 39); max and min of an
   array without entries raise ValueError *)
Variables (ndiv : num -> num -> num) (nmax nmin : seq num -> num).
Definition extremum (f : seq num -> num) (s : seq num) : res num := if nilp s then Err ValueError else Ok (f s).

(* the loop of examples/utils.py 33-37: printed lines and number of entries *)
Definition pair_loop rtol atol equal_nan (s t : seq num) : seq line * nat :=
  foldl (fun acc (p : num * num) =>
      if ~~ isclose rtol atol equal_nan p.1 p.2 then (rcons acc.1 (Pair p.1 p.2 (ndiv p.1 p.2)), acc.2.+1) else acc)
    ([::], 0%N) (zip s t).

(* examples/utils.py 6-42 (report_nonclose): what is printed and how the call ends *)
Definition report_nonclose (a b : tensor num) (rtol atol : F) (equal_nan : bool) : seq line * res unit :=
  if tshape a != tshape b then ([::], Err ValueError)
  else if allclose rtol atol equal_nan (tdata a) (tdata b) then ([:: Match], Ok tt)
  else
    let l := pair_loop rtol atol equal_nan (tdata a) (tdata b) in
    match extremum nmax (tdata a), extremum nmax (tdata b) with
    | Ok m1, Ok m2 =>
        match extremum nmin (tdata a), extremum nmin (tdata b) with
        | Ok n1, Ok n2 =>
            (l.1 ++ [:: MaxLine m1 m2; MinLine n1 n2; CountLine l.2 (size (tdata a)); TolLine rtol atol],
             Err ValueError)
        | Err e, _ | _, Err e => (rcons l.1 (MaxLine m1 m2), Err e)
        end
    | Err e, _ | _, Err e => (l.1, Err e)
    end.
End Report.
