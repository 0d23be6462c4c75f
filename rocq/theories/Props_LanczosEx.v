(* A concrete operator and start vectors for C64, C65 and C75. *)
From Coq Require Import String.
From mathcomp Require Import all_ssreflect all_algebra ring.
From Verif Require Import PyPrelude Tensor Spec Numpy Submatrix Inverse Estimators KfacInvProof
  Lanczos LanczosAlg LanczosProof Props_Lanczos.
Set Implicit Arguments.
Unset Strict Implicit.
Unset Printing Implicit Defensive.
Import GRing.Theory Num.Theory.
Local Open Scope ring_scope.

Section Ex.
Variable F : rcfType.
Local Notation arr := (tensor F).

(* diag(25, 0) *)
Definition exA : mv_op F := MvOp [:: 2; 2]%N (fun v => Ok (Tensor [:: 2]%N [:: 25%:R * nth 0 (tdata v) 0; 0 * nth 0 (tdata v) 1])).
Definition exM : 'M[F]_2 := \matrix_(i, j) (if (i == j) && (i == 0) then 25%:R else 0).
Definition ex_start (a b : F) (i : nat) : F := if i is 0%N then a else b.

Lemma exA_sym : symmetric_op exA exM.
Proof.
split=> //.
  move=> v hv wv; eexists; split; [reflexivity|by []|by []|].
  case=> [|[|i]] // _; rewrite !big_ord_recl big_ord0 /mxfun /= !insubT /= !mxE /= ?mul0r ?addr0 ?add0r //.
by apply/matrixP => i j; rewrite !mxE eq_sym; case: eqP => // ->.
Qed.

Definition ex_run (a b : F) : seq F * seq F := ([:: a ^+ 2; b ^+ 2], [:: `|a * b|]).

Lemma ex_passes (a b : F) : a ^+ 2 + b ^+ 2 = 25%:R -> a * b != 0 ->
  exists s, [/\ lanczos_passes exA 2 (ex_start a b) 2 = Ok s, l_alphas s = [:: a ^+ 2; b ^+ 2] & l_betas s = [:: `|a * b|]].
Proof.
move=> h hab.
have n5 : Num.sqrt (a ^+ 2 + (b ^+ 2 + 0)) = 5%:R :> F.
  by rewrite addr0 h -[25%:R]/((5 * 5)%:R) natrM -expr2 sqrtr_sqr ger0_norm ?ler0n.
have ne : (5%:R : F) != 0 by rewrite pnatr_eq0.
have e1 : 25%:R * (a / 5%:R) * (a / 5%:R) + (0 * (b / 5%:R) * (b / 5%:R) + 0) = a ^+ 2 :> F.
  by field.
have hb : b ^+ 2 = 25%:R - a ^+ 2 by rewrite -h addrC addKr.
have e2 : Num.sqrt ((25%:R * (a / 5%:R) - a ^+ 2 * (a / 5%:R)) ^+ 2 + ((0 * (b / 5%:R) - a ^+ 2 * (b / 5%:R)) ^+ 2 + 0)) = `|a * b| :> F.
  rewrite -sqrtr_sqr; congr Num.sqrt; rewrite addr0.
  have -> : 25%:R = a ^+ 2 + b ^+ 2 by [].
  have -> : (a ^+ 2 + b ^+ 2) * (a / 5%:R) - a ^+ 2 * (a / 5%:R) = b ^+ 2 * a / 5%:R by field.
  have -> : 0 * (b / 5%:R) - a ^+ 2 * (b / 5%:R) = - (a ^+ 2 * b / 5%:R) by field.
  have -> : (b ^+ 2 * a / 5%:R) ^+ 2 + (- (a ^+ 2 * b / 5%:R)) ^+ 2 = (a * b) ^+ 2 * ((a ^+ 2 + b ^+ 2) / 25%:R) :> F by field.
  by rewrite h divff ?mulr1 // pnatr_eq0.
eexists; split.
- rewrite /lanczos_passes /= /lanczos_start /np_norm /div_by /sumr /= n5 /lanczos_step /= /np_dot /sumr /= e1.
  rewrite /ew /= /np_norm /sumr /= e2; reflexivity.
- rewrite /=; congr [:: _; _].
  set c := `|a * b|.
  have hc : c != 0 by rewrite normr_eq0.
  have c2 : c ^+ 2 = a ^+ 2 * b ^+ 2 by rewrite /c real_normK ?num_real // exprMn.
  have -> : 25%:R * (a / 5%:R) - a ^+ 2 * (a / 5%:R) = b ^+ 2 * a / 5%:R by rewrite -{1}h; field.
  have -> : (25%:R * (b ^+ 2 * a / 5%:R / c) - c * (a / 5%:R)) * (b ^+ 2 * a / 5%:R / c) +
    ((0 * ((0 * (b / 5%:R) - a ^+ 2 * (b / 5%:R)) / c) - c * (b / 5%:R)) *
     ((0 * (b / 5%:R) - a ^+ 2 * (b / 5%:R)) / c) + 0) = b ^+ 2 * (a ^+ 2 * b ^+ 2) / c ^+ 2 by field.
  by rewrite c2 mulfK // -c2 expf_neq0.
- by [].
Qed.

(* SciPy's eigh on the two matrices that occur below *)
Definition ex_eigh (t : arr) : res (arr * arr) :=
  let q (a b : F) := (Tensor [:: 2]%N [:: 0; 25%:R], Tensor [:: 2; 2]%N [:: b / 5%:R; a / 5%:R; - (a / 5%:R); b / 5%:R]) in
  if tshape t == [:: 2; 2]%N then
    if tdata t == [:: 9%:R; 12%:R; 12%:R; 16%:R] then Ok (q 3%:R 4%:R)
    else if tdata t == [:: 16%:R; 12%:R; 12%:R; 9%:R] then Ok (q 4%:R 3%:R)
    else Err LinAlgError
  else Err LinAlgError.
Definition no_tridiagonal (a b : seq F) : res (arr * arr) := Err LinAlgError.

Lemma ex_eigh_contract : eigh_contract ex_eigh.
Proof.
have ne : (5%:R : F) != 0 by rewrite pnatr_eq0.
move=> m t evals evecs ht _; rewrite /ex_eigh ht; case: eqP => // - [->] _; rewrite /decomposes.
have two (P : 'I_2 -> 'I_2 -> Prop) : P 0 0 -> P 0 1 -> P 1 0 -> P 1 1 -> forall i j, P i j.
  move=> h00 h01 h10 h11 i j.
  have [->|->] : i = 0 \/ i = 1 by case: i => [[|[|i]] hi] //; [left|right]; apply/val_inj.
    by have [->|->] : j = 0 \/ j = 1 by case: j => [[|[|j]] hj] //; [left|right]; apply/val_inj.
  by have [->|->] : j = 0 \/ j = 1 by case: j => [[|[|j]] hj] //; [left|right]; apply/val_inj.
case: eqP => [e|_].
  move=> /= [<- <-]; split=> //.
    by apply: two; rewrite !big_ord_recl big_ord0 /entry /=; field.
  by rewrite e; apply: two; rewrite !big_ord_recl big_ord0 /entry /= mxE /=; field.
case: eqP => [e|_] //= [<- <-]; split=> //.
  by apply: two; rewrite !big_ord_recl big_ord0 /entry /=; field.
by rewrite e; apply: two; rewrite !big_ord_recl big_ord0 /entry /= mxE /=; field.
Qed.
Lemma no_tridiagonal_contract : eigh_tridiagonal_contract no_tridiagonal.
Proof. by []. Qed.

Lemma ex_drawn a b : a * b != 0 -> drawn 2 (ex_start a b) != 0.
Proof.
apply: contra => /eqP /matrixP /(_ 0 0); rewrite !mxE /= => ->; by rewrite mul0r.
Qed.

Lemma ex_nobreak a b : a ^+ 2 + b ^+ 2 = 25%:R -> a * b != 0 -> no_breakdown exA 2 (ex_start a b).
Proof.
move=> h hab s be; have [s' [-> _ eb]] := ex_passes h hab; move=> [<-]; rewrite eb inE => /eqP ->.
by rewrite normr_eq0.
Qed.

Lemma sq345 : (3%:R : F) ^+ 2 + 4%:R ^+ 2 = 25%:R. Proof. by rewrite -!natrX -natrD. Qed.
Lemma sq435 : (4%:R : F) ^+ 2 + 3%:R ^+ 2 = 25%:R. Proof. by rewrite -!natrX -natrD. Qed.
Lemma ne12 : (3%:R : F) * 4%:R != 0. Proof. by rewrite -natrM pnatr_eq0. Qed.
Lemma ne12' : (4%:R : F) * - 3%:R != 0. Proof. by rewrite mulrN oppr_eq0 -natrM pnatr_eq0. Qed.

(* C64, C65 from the start vector (3, 4): hypotheses and values *)
Example C64_ex : [/\ symmetric_op exA exM, drawn 2 (ex_start 3%:R 4%:R) != 0 &
  exists s, [/\ lanczos_passes exA 2 (ex_start 3%:R 4%:R) 2 = Ok s, l_alphas s = [:: 9%:R; 16%:R] & l_betas s = [:: 12%:R]]].
Proof.
split; [exact: exA_sym|by apply: ex_drawn ne12|].
have [s [e ea eb]] := ex_passes sq345 ne12; exists s; split=> //.
  by rewrite ea -!natrX.
by rewrite eb -natrM ger0_norm ?ler0n.
Qed.

Lemma ex_fast a b : a ^+ 2 + b ^+ 2 = 25%:R -> a * b != 0 -> 
  fast_lanczos ex_eigh no_tridiagonal exA 2 false (ex_start a b) =
  ex_eigh (Tensor [:: 2; 2]%N [:: a ^+ 2; `|a * b|; `|a * b|; b ^+ 2]).
Proof.
move=> h hab; have [s [e ea eb]] := ex_passes h hab.
by rewrite /fast_lanczos e -[_ == _]/false /bind ea eb.
Qed.

Example C65_ex : exists run, fast_lanczos ex_eigh no_tridiagonal exA 2 false (ex_start 3%:R 4%:R) = Ok run /\ moment 2 run 3 = 9%:R / 25%:R * 25%:R ^+ 3.
Proof.
rewrite (ex_fast sq345 ne12) -!natrX -natrM ger0_norm ?ler0n // /ex_eigh /= eqxx; eexists; split; first reflexivity.
have ne : (5%:R : F) != 0 by rewrite pnatr_eq0.
have ne2 : (25%:R : F) != 0 by rewrite pnatr_eq0.
by rewrite /moment !big_ord_recl big_ord0 /entry /=; field.
Qed.

(* C75: the start vectors (3, 4) and (4, -3) with probability 1/2 each *)
Definition ex_S (x : nat -> F) : Prop := x = ex_start 3%:R 4%:R \/ x = ex_start 4%:R (- 3%:R).
Definition ex_E (f : (nat -> F) -> F) : F := (f (ex_start 3%:R 4%:R) + f (ex_start 4%:R (- 3%:R))) / 2%:R.

Lemma ex_isotropic : isotropic 2 ex_S ex_E.
Proof.
have n5 : Num.sqrt (25%:R : F) = 5%:R by rewrite -[25%:R]/((5 * 5)%:R) natrM -expr2 sqrtr_sqr ger0_norm ?ler0n.
have ne : (5%:R : F) != 0 by rewrite pnatr_eq0.
have ne2 : (2%:R : F) != 0 by rewrite pnatr_eq0.
split.
- by move=> f g h; rewrite /ex_E !h //; [right|left].
- by move=> f g; rewrite /ex_E; field.
- by move=> c f; rewrite /ex_E; field.
have d1 i : direction 2 (ex_start 3%:R 4%:R) i 0 = (if i == 0 then 3%:R else 4%:R) / 5%:R.
  rewrite mxE !big_ord_recl big_ord0 /= addr0 sq345 n5 mulrC; congr (_ / _).
  by rewrite mxE; case: i => [[|[|i]] hi].
have d2 i : direction 2 (ex_start 4%:R (- 3%:R)) i 0 = (if i == 0 then 4%:R else - 3%:R) / 5%:R.
  rewrite mxE !big_ord_recl big_ord0 /= addr0 sqrrN sq435 n5 mulrC; congr (_ / _).
  by rewrite mxE; case: i => [[|[|i]] hi].
move=> i j; rewrite /ex_E !d1 !d2.
by case: i => [[|[|i]] hi] //; case: j => [[|[|j]] hj] //; rewrite -!val_eqE /=; field.
Qed.

Example C75_ex_hyps :
  [/\ symmetric_op exA exM, isotropic 2 ex_S ex_E,
      forall x, ex_S x -> drawn 2 x != 0 /\ no_breakdown exA 2 x,
      forall x, ex_S x -> exists run, fast_lanczos ex_eigh no_tridiagonal exA 2 false x = Ok run &
      eigh_contract ex_eigh /\ eigh_tridiagonal_contract no_tridiagonal].
Proof.
have h' : (4%:R : F) ^+ 2 + (- 3%:R) ^+ 2 = 25%:R by rewrite sqrrN sq435.
split; [exact: exA_sym|exact: ex_isotropic| | |by split; [exact: ex_eigh_contract|]].
- move=> x [->|->]; split.
  + exact: ex_drawn ne12.
  + exact: ex_nobreak sq345 ne12.
  + exact: ex_drawn ne12'.
  + exact: ex_nobreak h' ne12'.
- move=> x [->|->].
    by rewrite (ex_fast sq345 ne12) -!natrX -natrM ger0_norm ?ler0n // /ex_eigh /= eqxx; eexists.
  rewrite (ex_fast h' ne12') sqrrN -!natrX mulrN normrN -natrM ger0_norm ?ler0n // /ex_eigh /= eqxx.
  by case: ifP => _; eexists.
Qed.
(* ... and the second moment is (25^2 + 0) / 2 *)
Example C75_ex f : (forall x run, ex_S x -> fast_lanczos ex_eigh no_tridiagonal exA 2 false x = Ok run -> f x = moment 2 run 2) ->
  ex_E f = 25%:R ^+ 2 / 2%:R.
Proof.
have [h1 h2 h3 h4 [h5 h6]] := C75_ex_hyps => hf.
rewrite (C75_expected_moments h1 h2 h3 h4 h5 h6 (isT : (2 <= 2 * 2 - 1)%N) hf).
by rewrite /mxtrace !big_ord_recl big_ord0 /= !(mxE, big_ord_recl, big_ord0) /=; congr (_ / _); ring.
Qed.

(* three vectors in two dimensions break down *)
Example C64_breakdown_ex : exists2 s, lanczos_passes exA 3 (ex_start 3%:R 4%:R) 3 = Ok s & 0 \in l_betas s.
Proof. by apply: (C64_breakdown exA_sym (ex_drawn ne12)). Qed.
End Ex.
