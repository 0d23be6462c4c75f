(* Model of KFACInverseLinearOperator: /repo/curvlinops/inverse.py 297-663, with
   the factors of the KFAC operator already computed.  Saving, loading and the
   KFAC operator's own life are modelled in KfacInvState.v.

   External: torch.linalg.cholesky, torch.cholesky_inverse and torch.linalg.eigh
   are function arguments whose contracts are stated with the theorems.  Scalars
   are exact, so converting a factor to double precision and back does not change
   it; a precision is only remembered for the decomposition that runs in it. *)
From mathcomp Require Import all_ssreflect all_algebra.
From Verif Require Import PyPrelude Tensor Spec Kfac KfacScalar.
Set Implicit Arguments.
Unset Strict Implicit.
Unset Printing Implicit Defensive.
Import GRing.Theory Num.Theory.
Local Open Scope ring_scope.

Section Inverse.
Variable F : rcfType.
Local Notation tens := (tensor F).
Local Notation cov := (dict nat_eqType tens).

(* ---- settings: inverse.py 305-377 ---- *)
Inductive damping := DOne of F | DTuple of seq F.          (* a number, or a tuple *)
Record iset := ISet {
  i_damping : damping; i_heur : bool; i_min : F; i_exact : bool; i_cache : bool; i_retry : bool }.
Definition is_tuple (d : damping) : bool := if d is DTuple _ then true else false.

(* inverse.py 351-366; [is_kfac]: A is an instance of KFACLinearOperator *)
Definition inverse_checks (is_kfac : bool) (s : iset) : res unit :=
  let! _ := raise_if (~~ is_kfac) ValueError in
  let! _ := raise_if (i_heur s && i_exact s) ValueError in
  raise_if ((i_heur s || i_exact s) && is_tuple (i_damping s)) ValueError.

(* ---- damping values: inverse.py 379-405 ---- *)
(* floats that can come out of the heuristic *)
Inductive ext := Fin of F | PInf | NaN.
(* x / y of non-negative numbers *)
Definition ext_div (x y : F) : ext := if y == 0 then (if x == 0 then NaN else PInf) else Fin (x / y).
(* Python's max(x, m): m if m > x else x; comparisons with nan are False *)
Definition ext_max (x : ext) (m : F) : ext := if x is Fin v then (if v < m then Fin m else x) else x.
(* t.trace() / t.shape[0]; None: 0 / 0, i.e. nan *)
Definition eig_mean (t : tens) : res (option F) :=
  let! tr := mtrace t in let! n := mrows t in Ok (if n == 0%N then None else Some (tr / n%:R)).

(* inverse.py 402-405: the values used without the heuristic *)
Definition plain_damping (s : iset) : res (ext * ext) :=
  match i_damping s with
  | DOne d => Ok (Fin d, Fin d)
  | DTuple [:: a; b] => Ok (Fin a, Fin b)
  | DTuple _ => Err ValueError                             (* unpacking two values fails *)
  end.

(* inverse.py 379-405 *)
Definition compute_damping (s : iset) (aaT ggT : option tens) : res (ext * ext) :=
  match i_heur s, aaT, ggT with
  | true, Some A, Some G =>
      let! ma := eig_mean A in
      let! mg := eig_mean G in
      match ma, mg with
      | Some a, Some g =>
          if (0 <= a) && (0 < g) then
            let ratio := Num.sqrt (a / g) in
            match i_damping s with
            | DTuple _ => Err TypeError
            | DOne d =>
                if d < 0 then Err ValueError else          (* math.sqrt *)
                Ok (ext_max (Fin (Num.sqrt d * ratio)) (i_min s), ext_max (ext_div (Num.sqrt d) ratio) (i_min s))
            end
          else plain_damping s
      | _, _ => plain_damping s
      end
  | _, _, _ => plain_damping s
  end.

(* ---- decompositions ---- *)
Variable chol : bool -> tens -> res tens.                  (* torch.linalg.cholesky; true: in double precision *)
Variable chol_nonfinite : bool -> tens -> ext -> res tens. (* the same with an infinite or nan damping *)
Variable cholesky_inverse : tens -> res tens.
Variable eigh : tens -> res (tens * tens).                 (* eigenvalues, eigenvectors *)

(* M.add(eye(M.shape[0]), alpha=d) for square M *)
Definition add_diag (M : tens) (d : F) : res tens :=
  match tshape M with
  | [:: m; n] =>
      if m == n then Ok (Tensor [:: n; n] (mkseq (fun e => nth 0 (tdata M) e + (if (e %/ n == e %% n)%N then d else 0)) (n * n)))
      else Err RuntimeError
  | _ => Err RuntimeError
  end.
(* inverse.py 407-419 *)
Definition damped_cholesky (dbl : bool) (M : tens) (d : ext) : res tens :=
  match d with
  | Fin x => let! Md := add_diag M x in chol dbl Md
  | _ => chol_nonfinite dbl M d
  end.

(* what happens along the way: decompositions (with their precision), warnings *)
Inductive event := Attempt of bool | Warned.

(* inverse.py 448-466 and 469-487: the same code for both factors *)
Definition cholesky_with_retry (retry dbl : bool) (M : tens) (d : ext) : seq event * res tens :=
  match damped_cholesky dbl M d with
  | Err RuntimeError =>
      if retry && ~~ dbl then ([:: Attempt dbl; Warned; Attempt true], damped_cholesky true M d)
      else ([:: Attempt dbl], Err RuntimeError)
  | r => ([:: Attempt dbl], r)
  end.
Definition invert_factor (retry dbl : bool) (M : option tens) (d : ext) : seq event * res (option tens) :=
  match M with
  | None => ([::], Ok None)
  | Some t =>
      let (ev, r) := cholesky_with_retry retry dbl t d in
      (ev, let! L := r in let! P := cholesky_inverse L in Ok (Some P))
  end.

(* what is kept for a factor: its inverse, or eigenvectors and eigenvalues *)
Inductive ientry := IMat of option tens | IEig of option tens & option tens.
Definition eig_factor (M : option tens) : res ientry :=
  match M with
  | None => Ok (IEig None None)
  | Some t => let! '(vals, vecs) := eigh t in Ok (IEig (Some vecs) (Some vals))
  end.

(* inverse.py 421-490 *)
Definition compute_inverse_factors (s : iset) (dbl : bool) (aaT ggT : option tens) : seq event * res (ientry * ientry) :=
  if i_exact s then
    ([::], let! a := eig_factor aaT in let! g := eig_factor ggT in Ok (a, g))
  else
    match compute_damping s aaT ggT with
    | Err e => ([::], Err e)
    | Ok (da, dg) =>
        match invert_factor (i_retry s) dbl aaT da with
        | (ev, Err e) => (ev, Err e)
        | (ev, Ok a) =>
            match invert_factor (i_retry s) dbl ggT dg with
            | (ev', Err e) => (ev ++ ev', Err e)
            | (ev', Ok g) => (ev ++ ev', Ok (IMat a, IMat g))
            end
        end
    end.

(* _inverse_input_covariances and _inverse_gradient_covariances *)
Definition icache := (dict nat_eqType ientry * dict nat_eqType ientry)%type.

(* inverse.py 492-518 *)
Definition get_inverse (s : iset) (dbl : bool) (inC grC : cov) (c : icache) (name : nat)
    : icache * seq event * res (ientry * ientry) :=
  if dget name c.1 is Some a then
    (c, [::], Ok (a, if dget name c.2 is Some g then g else IMat None))
  else
    match compute_inverse_factors s dbl (dget name inC) (dget name grC) with
    | (ev, Err e) => (c, ev, Err e)
    | (ev, Ok (a, g)) =>
        (if i_cache s then (dset name a c.1, dset name g c.2) else c, ev, Ok (a, g))
    end.

(* ---- multiplication ---- *)
Definition oget (t : option tens) : res tens := if t is Some x then Ok x else Err TypeError.
(* transpose of a matrix; the einsums below write Q in transposed index order *)
Definition ttr (t : tens) : tens :=
  match tshape t with
  | [:: m; n] => Tensor [:: n; m] (mkseq (fun e => entry n (tdata t) (e %% m) (e %/ m)) (n * m))
  | _ => t
  end.
Definition single (s : iset) : res F := if i_damping s is DOne d then Ok d else Err TypeError.

(* einsum(X, outer(g, a).add_(d).pow_(-1), "j l m, j l -> j l m").  1/0, which is
   inf in torch, is 0 here: the theorems are about the case where it does not
   happen. *)
Definition scale_grid (d : F) (g a X : tens) : res tens :=
  match tshape g, tshape a, tshape X with
  | [:: j], [:: l], [:: j'; l'; m] =>
      if (j == j') && (l == l') then
        Ok (Tensor [:: j; l; m] (mk3 j l m (fun x y z => e3 l m X x y z * (nth 0 (tdata g) x * nth 0 (tdata a) y + d)^-1)))
      else Err RuntimeError
  | _, _, _ => Err RuntimeError
  end.
(* einsum(X, g.add(d).pow_(-1), "j ... m, j -> j ... m") *)
Definition scale_rows (d : F) (g X : tens) : res tens :=
  match tshape g, tshape X with
  | [:: j], j' :: (_ :: _) as rest =>
      if j == j' then
        Ok (Tensor (tshape X) (mk3 j 1 (numel (behead (tshape X)))
              (fun x _ r => e2 (numel (behead (tshape X))) X x r * (nth 0 (tdata g) x + d)^-1)))
      else Err RuntimeError
  | _, _ => Err RuntimeError
  end.

(* a, b = entry: unpacking None (or a tensor of another length) fails *)
Definition unpack (e : ientry) : res (option tens * option tens) :=
  if e is IEig v l then Ok (v, l) else Err TypeError.
Definition plain (e : ientry) : res tens := if e is IMat t then oget t else Err TypeError.

(* inverse.py 520-555 *)
Definition left_and_right_multiply (s : iset) (X : tens) (ai gi : ientry) : res tens :=
  if i_exact s then
    let! '(av, al) := unpack ai in
    let! '(gv, gl) := unpack gi in
    let! Qg := oget gv in
    let! Qa := oget av in
    let! X1 := sandwich (ttr Qg) X Qa in
    let! lg := oget gl in
    let! la := oget al in
    let! d := single s in
    let! X2 := scale_grid d lg la X1 in
    sandwich Qg X2 (ttr Qa)
  else
    let! G := plain gi in
    let! A := plain ai in
    sandwich G X A.

(* The list X is updated in place: its contents when the function returns or
   raises, and the outcome. *)
Definition lst := (seq tens * res unit)%type.
Definition andthen (r : lst) (k : seq tens -> lst) : lst := if r is (X, Ok _) then k X else r.
(* X[pos] = f(X[pos]) *)
Definition upd_at (pos : nat) (f : tens -> res tens) (X : seq tens) : lst :=
  match lget X pos with
  | Err e => (X, Err e)
  | Ok t => match f t with Err e => (X, Err e) | Ok t' => (set_nth t' X pos t', Ok tt) end
  end.

(* inverse.py 585-616: body of the loop over param_pos.items() *)
Definition separate_one (s : iset) (ai gi : ientry) (p : pname * nat) (X : seq tens) : lst :=
  let isw := p.1 == Weight in
  let eigvecs e := let! '(v, _) := unpack e in oget v in
  let eigvals e := let! '(_, l) := unpack e in oget l in
  let fac e := if i_exact s then eigvecs e else plain e in
  let r1 := if isw then upd_at p.2 (fun t => let! xw := rearr_w t in let! A := fac ai in mm_right xw A) X else (X, Ok tt) in
  let r2 := andthen r1 (upd_at p.2 (fun t => let! G := fac gi in mm_left (if i_exact s then ttr G else G) t)) in
  if i_exact s then
    let r3 := if isw then
                andthen (andthen r2
                  (upd_at p.2 (fun t => let! lg := eigvals gi in let! la := eigvals ai in let! d := single s in scale_grid d lg la t)))
                  (upd_at p.2 (fun t => let! Qa := eigvecs ai in mm_right t (ttr Qa)))
              else andthen r2 (upd_at p.2 (fun t => let! lg := eigvals gi in let! d := single s in scale_rows d lg t)) in
    andthen r3 (upd_at p.2 (fun t => let! Qg := eigvecs gi in mm_left Qg t))
  else r2.

(* inverse.py 557-618 *)
Definition separate_multiply (s : iset) (ai gi : ientry) (ps : dict pname_eqType nat) (X : seq tens) : lst :=
  let start := if i_exact s then (let! _ := unpack ai in let! _ := unpack gi in Ok tt) else Ok tt in
  foldl (fun r p => andthen r (separate_one s ai gi p)) (X, start) ps.

(* inverse.py 643-654 *)
Definition joint_multiply (s : iset) (ai gi : ientry) (w b : nat) (X : seq tens) : lst :=
  match (let! xw0 := lget X w in
         let! xw := rearr_w xw0 in
         let! xb0 := lget X b in
         let! xb := unsqueeze_mid xb0 in
         let! xj := cat_mid xw xb in
         let! y := left_and_right_multiply s xj ai gi in
         split_mid (nth 0%N (tshape xw) 1) y) with
  | Err e => (X, Err e)
  | Ok (yw, yb) => (set_nth yb (set_nth yw X w yw) b yb, Ok tt)
  end.

(* inverse.py 637-661: multiplication with one layer's inverse *)
Definition multiply_layer (s : iset) (sep : bool) (ai gi : ientry) (ps : dict pname_eqType nat) (X : seq tens) : lst :=
  match (if dget Weight ps is Some w then let! t := lget X w in Ok (Some (w, tshape t)) else Ok None) with
  | Err x => (X, Err x)
  | Ok ws =>
      let r := match sep, dget Weight ps, dget Bias ps with
               | false, Some w, Some b => joint_multiply s ai gi w b X
               | _, _, _ => separate_multiply s ai gi ps X
               end in
      if ws is Some (w, sh) then andthen r (upd_at w (treshape sh)) else r
  end.

(* inverse.py 634-661: body of the loop over the mapping *)
Definition inverse_layer (s : iset) (dbl sep : bool) (inC grC : cov) (c : icache) (X : seq tens) (e : nat * dict pname_eqType nat)
    : icache * seq event * lst :=
  match get_inverse s dbl inC grC c e.1 with
  | (c', ev, Err x) => (c', ev, (X, Err x))
  | (c', ev, Ok (ai, gi)) => (c', ev, multiply_layer s sep ai gi e.2 X)
  end.

(* inverse.py 620-663: the list holds the result when the outcome is Ok *)
Fixpoint inverse_matmat (s : iset) (dbl sep : bool) (inC grC : cov) (mp : mapping) (c : icache) (X : seq tens)
    : icache * seq event * lst :=
  match mp with
  | [::] => (c, [::], (X, Ok tt))
  | e :: mp' =>
      match inverse_layer s dbl sep inC grC c X e with
      | (c', ev, (X', Err x)) => (c', ev, (X', Err x))
      | (c', ev, (X', Ok _)) =>
          match inverse_matmat s dbl sep inC grC mp' c' X' with
          | (c'', ev', r) => (c'', ev ++ ev', r)
          end
      end
  end.

(* what the caller of _matmat receives *)
Definition inverse_product (s : iset) (dbl sep : bool) (inC grC : cov) (mp : mapping) (c : icache) (X : seq tens) : res (seq tens) :=
  let r := (inverse_matmat s dbl sep inC grC mp c X).2 in let! _ := r.2 in Ok r.1.
End Inverse.
