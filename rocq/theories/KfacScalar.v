(* Model of KFACLinearOperator's trace, det, logdet and frobenius_norm
   (/repo/curvlinops/kfac.py 765-927) with the factors already computed.  The
   cached values and what happens on errors are modelled in KfacState.v. *)
From Coq Require Import Reals.
From Coquelicot Require Import Coquelicot.
From mathcomp Require Import all_ssreflect all_algebra.
From Verif Require Import PyPrelude Tensor Spec Kfac RInst.
Set Implicit Arguments.
Unset Strict Implicit.
Unset Printing Implicit Defensive.
Import GRing.Theory.
Local Open Scope ring_scope.

(* The loop the four properties share (kfac.py 784-798, 821-843, 867-889 and
   909-925): go through the layers, combining the running value with
     vj G A   for jointly treated weight and bias,
     vw G A   for a separately treated weight,
     vb G     for a separately treated bias,
   where G and A are the stored gradient and input factor. *)
Definition scalar_loop (F : comRingType) (T : Type) (op : T -> T -> T) (idx : T) (sep : bool)
    (inC grC : dict nat_eqType (tensor F)) (vj vw : tensor F -> tensor F -> res T) (vb : tensor F -> res T)
    (m : mapping) : res T :=
  foldM (fun acc e =>
    let! G := dgetE e.1 grC in
    match sep, dget Weight e.2, dget Bias e.2 with
    | false, Some _, Some _ => let! A := dgetE e.1 inC in let! v := vj G A in Ok (op acc v)
    | _, _, _ =>
        foldM (fun acc p =>
          if p.1 == Weight then let! A := dgetE e.1 inC in let! v := vw G A in Ok (op acc v)
          else let! v := vb G in Ok (op acc v)) acc e.2
    end) idx m.

Section Scalars.
Variable F : comRingType.
Local Notation tens := (tensor F).
Local Notation cov := (dict nat_eqType tens).

(* t.trace() *)
Definition mtrace (t : tens) : res F :=
  match tshape t with
  | [:: m; n] => Ok (sumr (minn m n) (fun i => entry n (tdata t) i i))
  | _ => Err RuntimeError
  end.
(* t.det() (exact arithmetic) *)
Definition mdet (t : tens) : res F :=
  match tshape t with
  | [:: m; n] => if m == n then Ok (\det (\matrix_(i < n, j < n) entry n (tdata t) i j)) else Err RuntimeError
  | _ => Err RuntimeError
  end.
(* t.square().sum() *)
Definition msquare_sum (t : tens) : F := foldr (fun x s => x ^+ 2 + s) 0 (tdata t).
(* t.shape[0] *)
Definition mrows (t : tens) : res nat := if tshape t is m :: _ then Ok m else Err IndexError.

(* kfac.py 784-799 *)
Definition kfac_trace sep (inC grC : cov) : mapping -> res F :=
  scalar_loop +%R 0 sep inC grC
    (fun G A => let! tg := mtrace G in let! ta := mtrace A in Ok (ta * tg))
    (fun G A => let! tg := mtrace G in let! ta := mtrace A in Ok (tg * ta))
    (fun G => let! tg := mtrace G in Ok (tg * 1)).

(* kfac.py 821-844 *)
Definition kfac_det sep (inC grC : cov) : mapping -> res F :=
  scalar_loop *%R 1 sep inC grC
    (fun G A => let! m := mrows G in let! dg := mdet G in let! n := mrows A in let! da := mdet A in
       Ok (da ^+ m * dg ^+ n))
    (fun G A => let! m := mrows G in let! dg := mdet G in let! n := mrows A in let! da := mdet A in
       Ok (dg ^+ n * da ^+ m))
    (fun G => let! m := mrows G in let! dg := mdet G in Ok (dg ^+ 1 * 1)).

(* kfac.py 909-925: the squared norm *)
Definition kfac_frob2 sep (inC grC : cov) : mapping -> res F :=
  scalar_loop +%R 0 sep inC grC
    (fun G A => Ok (msquare_sum A * msquare_sum G))
    (fun G A => Ok (msquare_sum G * msquare_sum A))
    (fun G => Ok (msquare_sum G * 1)).
End Scalars.

(* kfac.py 892-927; with no layer the running value is still the Python float 0.0,
   which has no method sqrt_ *)
Definition kfac_frobenius_norm (F : rcfType) sep (inC grC : dict nat_eqType (tensor F)) (m : mapping) : res F :=
  let! s := kfac_frob2 sep inC grC m in
  if nilp (flatten [seq e.2 | e <- m]) then Err AttributeError else Ok (Num.sqrt s).

(* kfac.py 867-890.  torch.logdet is the logarithm of the determinant; for a
   determinant that is not positive torch returns -inf or nan, here [ln] of the
   number (Coq's total function); the theorems assume positive determinants. *)
Definition kfac_logdet sep (inC grC : dict nat_eqType (tensor R)) : mapping -> res R :=
  let mlogdet t := let! d := mdet t in Ok (ln d) in
  scalar_loop (+%R : R -> R -> R) 0 sep inC grC
    (fun G A => let! m := mrows G in let! lg := mlogdet G in let! n := mrows A in let! la := mlogdet A in
       Ok (m%:R * la + n%:R * lg))
    (fun G A => let! m := mrows G in let! lg := mlogdet G in let! n := mrows A in let! la := mlogdet A in
       Ok (n%:R * lg + m%:R * la))
    (fun G => let! m := mrows G in let! lg := mlogdet G in Ok (1%:R * lg + 0)).
