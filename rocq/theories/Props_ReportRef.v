(* C88 and C73: the comparisons of docs/examples/basic_usage/example_matrix_vector_products.py succeed. *)
From Coq Require Import Reals Lra FunctionalExtensionality.
From Coquelicot Require Import Coquelicot.
From mathcomp Require Import all_ssreflect all_algebra.
From Verif Require Import PyPrelude Tensor Spec TorchBase RInst ROrd Calculus Curvature HessGGN Risk Kfac CurvOps Numpy OpSpec Export Functorch FunctorchProof Props_Curv Props_Functorch Report Props_Report.
Set Implicit Arguments.
Unset Strict Implicit.
Unset Printing Implicit Defensive.
Import Order.TTheory GRing.Theory Num.Theory.
Local Open Scope ring_scope.

Section Example.
Variable trunc : R -> R.
Local Notation exported := (@exported R_comRingType trunc).
Local Notation num := (num R_realFieldType).
Variables (ndiv : num -> num -> num) (nmax nmin : seq num -> num).
Local Notation report := (report_nonclose ndiv nmax nmin).

(* a NumPy array of finite numbers *)
Definition finite (t : tensor R) : tensor num := Tensor (tshape t) [seq Num (x : R_realFieldType) | x <- tdata t].
(* numpy.eye(n) and A @ x for arrays with one and two axes (example_matrix_vector_products.py 82, 96) *)
Definition np_eye (n : nat) : tensor R := Tensor [:: n; n] (mkseq (fun k => ((k %/ n)%N == (k %% n)%N)%:R) (n * n)).
Definition np_matvec (A x : tensor R) : tensor R :=
  let m := nth 0%N (tshape A) 0 in let n := nth 0%N (tshape A) 1 in
  Tensor [:: m] (mkseq (fun i => \sum_(j < n) entry n (tdata A) i j * nth 0 (tdata x) j) m).

Lemma eye_entry n j k : (j < n)%N -> (k < n)%N -> entry n (tdata (np_eye n)) j k = (j == k)%:R.
Proof.
move=> hj hk; rewrite /entry nth_mkseq; first by have [-> ->] := div_rows j hk.
by rewrite (leq_trans (_ : _ < j.+1 * n))%N ?leq_mul2r ?hj ?orbT // mulSn addnC ltn_add2r.
Qed.

Lemma finite_wf (t : tensor R) : wf t -> wf (finite t).
Proof. by rewrite /wf /= size_map. Qed.

Lemma report_same (t : tensor R) rtol atol nan : wf t -> 0 <= rtol -> 0 <= atol ->
  report (finite t) (finite t) rtol atol nan = ([:: Match _], Ok tt).
Proof.
move=> wt r0 a0.
have [_ h] := @C88_same R_realFieldType ndiv nmax nmin (finite t) rtol atol nan (finite_wf wt) r0 a0.
have : (report (finite t) (finite t) rtol atol nan).2 = Ok tt.
  apply: h; right=> k hk; rewrite (nth_map 0) // (eqP (wt : size (tdata t) == numel (tshape t))) //.
rewrite /report_nonclose eqxx /=; case: ifP => // _.
by do 4?case: (extremum _ _) => [?|?] //=.
Qed.

Lemma tensor_eq (s t : tensor R) : tshape s = tshape t -> tdata s = tdata t -> s = t.
Proof. by case: s => ? ?; case: t => ? ? /= -> ->. Qed.

(* an exported operator and the array H of the matrix it represents *)
Lemma linop_matches (A : linop R) S (H : tensor R) rtol atol nan : acts_as A S (entry (total S) (tdata H)) ->
  tshape H = [:: total S; total S] -> wf H -> 0 <= rtol -> 0 <= atol ->
  (forall v, tshape v = [:: total S] -> wf v -> exists2 Av, sp_dot (exported A) v = Ok Av &
     report (finite Av) (finite (np_matvec H v)) rtol atol nan = ([:: Match _], Ok tt)) /\
  exists2 AI, sp_dot (exported A) (np_eye (total S)) = Ok AI &
     report (finite H) (finite AI) rtol atol nan = ([:: Match _], Ok tt).
Proof.
set D := total S => hA sH wH r0 a0; have [_ hv _ hm _] := exported_acts trunc hA; split.
  move=> v sv wv; have [y [h1 h2 h3 h4]] := hv v sv wv; exists y => //.
  have <- : y = np_matvec H v; last exact: report_same.
  apply: tensor_eq; first by rewrite /np_matvec /= sH.
  rewrite /np_matvec sH /=; apply: (@eq_from_nth _ 0).
    by rewrite size_mkseq (eqP (h3 : size _ == _)) h2 /numel /= muln1.
  move=> i; rewrite (eqP (h3 : size _ == _)) h2 /numel /= muln1 => hi.
  by rewrite h4 // nth_mkseq.
have we : wf (np_eye D) by rewrite /wf /= size_mkseq /numel /= muln1.
have [Y [h1 h2 h3 h4]] := hm D (np_eye D) erefl we; exists Y => //.
have -> : H = Y; last exact: report_same.
apply: tensor_eq; first by rewrite sH h2.
have sz (t : tensor R) : tshape t = [:: D; D] -> wf t -> size (tdata t) = (D * D)%N.
  by move=> st /eqP ->; rewrite st /numel /= muln1.
apply: (@op_entry_ext _ D D); rewrite ?sz // => i k hi hk; rewrite h4 //.
rewrite (bigD1 (Ordinal hk)) //= big1 ?addr0 => [|j jk]; rewrite eye_entry ?ltn_ord //.
  by rewrite eqxx mulr1.
by case: eqP => [e|]; [case/eqP: jk; apply: val_inj|rewrite mulr0].
Qed.

Section Reference.
Variables (X Y : Type) (so : seq nat) (modelf : inp X -> (nat -> seq R) -> seq R).
Hypothesis model_size : forall x e, size (modelf x e) = numel so.
Variables (named : seq (nat * nat)) (frozen : nat -> seq R).
Local Notation O := (numel so).
Variable int_sqrt : nat -> nat.
Hypothesis int_sqrt_ok : forall d, int_sqrt (d * d) = d.
Variable params : seq tparam.
Local Notation S := [seq tp_shape p | p <- params].
Local Notation D := (total S).
Local Notation net := (module_net modelf named frozen params).
Variables (lossd : seq R -> Y -> R) (red : reduction) (loader : seq (seq (inp X * Y))) (input_key : option nat) (th : point).
Variables (rtol atol : R_realFieldType) (nan : bool).
Hypotheses (hp : good_params named params) (hpos : all (fun s => 0 < numel s)%N S) (hred : red <> ROther)
  (hl : loader <> [::]) (hne : nonempty loader) (hdat : data_ok modelf input_key (flatten loader)).
Hypotheses (r0 : 0 <= rtol) (a0 : 0 <= atol).

(* the four comparisons: operator and reference, vectors and matrices *)
Definition comparisons_pass (A : linop R) (H : tensor R) : Prop :=
  (forall v, tshape v = [:: D] -> wf v -> exists2 Av, sp_dot (exported A) v = Ok Av &
     report (finite Av) (finite (np_matvec H v)) rtol atol nan = ([:: Match _], Ok tt)) /\
  exists2 AI, sp_dot (exported A) (np_eye D) = Ok AI &
     report (finite H) (finite AI) rtol atol nan = ([:: Match _], Ok tt).

Theorem C88_hessian_example :
  Forall_in (fun d => twice_diff D (fun z => lossd (net d.1 z) d.2) th) (flatten loader) ->
  exists A H, [/\ hessian_operator O net lossd red None loader S None th = Ok A,
    functorch_hessian so modelf named frozen int_sqrt lossd red params loader input_key th = Ok H & comparisons_pass A H].
Proof.
move=> hd; have [A [H [h1 h2 h3 h4 h5]]] := @C73_hessian _ _ so modelf model_size named frozen int_sqrt int_sqrt_ok params lossd red loader input_key th hp hpos hred hl hne hdat hd.
by exists A, H; split=> //; apply: linop_matches.
Qed.

Theorem C88_ggn_example :
  Forall_in (fun d => loss_smooth O (fun f => lossd (mkseq f O) d.2) (nth 0 (net d.1 th))) (flatten loader) ->
  exists A G, [/\ ggn_operator O net lossd red None loader S None th = Ok A,
    functorch_ggn so modelf named frozen int_sqrt lossd red params loader input_key th = Ok G & comparisons_pass A G].
Proof.
move=> hd; have [A [H [h1 h2 h3 h4 h5]]] := @C73_ggn _ _ so modelf model_size named frozen int_sqrt int_sqrt_ok params lossd red loader input_key th hp hpos hred hl hne hdat hd.
by exists A, H; split=> //; apply: linop_matches.
Qed.
End Reference.
End Example.
Print Assumptions C88_hessian_example.
Print Assumptions C88_ggn_example.

(* linear regression with two parameters *)
Example C88_ex_examples th (trunc : R -> R) ndiv nmax nmin :
  (exists A H, [/\ hessian_operator 1 (module_net FEx.model FEx.named FEx.frozen FEx.params) FEx.lossd RMean None FEx.loader [:: [:: 1]; [:: 1]]%N None th = Ok A,
     functorch_hessian [:: 1%N] FEx.model FEx.named FEx.frozen Nat.sqrt FEx.lossd RMean FEx.params FEx.loader None th = Ok H &
     comparisons_pass trunc ndiv nmax nmin FEx.params 0 0 false A H]) /\
  (exists A G, [/\ ggn_operator 1 (module_net FEx.model FEx.named FEx.frozen FEx.params) FEx.lossd RMean None FEx.loader [:: [:: 1]; [:: 1]]%N None th = Ok A,
     functorch_ggn [:: 1%N] FEx.model FEx.named FEx.frozen Nat.sqrt FEx.lossd RMean FEx.params FEx.loader None th = Ok G &
     comparisons_pass trunc ndiv nmax nmin FEx.params 0 0 false A G]).
Proof.
split.
  exact: (@C88_hessian_example trunc ndiv nmax nmin _ _ _ FEx.model FEx.model_size _ _ _ FEx.sqrt_ok FEx.params _ _ _ _ th 0 0 false FEx.good isT FEx.mean_ok FEx.loader_ok isT FEx.data (lexx _) (lexx _) (@FEx.twice th)).
exact: (@C88_ggn_example trunc ndiv nmax nmin _ _ _ FEx.model FEx.model_size _ _ _ FEx.sqrt_ok FEx.params _ _ _ _ th 0 0 false FEx.good isT FEx.mean_ok FEx.loader_ok isT FEx.data (lexx _) (lexx _) (@FEx.smooth th)).
Qed.
