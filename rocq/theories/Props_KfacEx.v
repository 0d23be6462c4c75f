(* Concrete networks for the theorems about KFAC's factors (C30, C32, C33, C74),
   a network where type-2 KFAC mixes loss terms, and C47. *)
From Coq Require Import Reals Lra FunctionalExtensionality.
From Coquelicot Require Import Coquelicot.
From mathcomp Require Import all_ssreflect all_algebra.
From Verif Require Import PyPrelude Tensor Spec TorchBase Submatrix RInst Calculus ROrd Curvature HessGGN Risk Losses Fisher FisherMC FisherExp OpSpec LossHess Props_LossHess Conv Props_Conv Kfac KfacSpec KfacProof KfacMap Props_Kfac KfacCov KfacCovHooks KfacCovSpec KfacCovProof Props_KfacCov Props_KfacMC Props_KfacEnd.
Set Implicit Arguments.
Unset Strict Implicit.
Unset Printing Implicit Defensive.
Import GRing.Theory.
Local Open Scope ring_scope.

(* ---- a convolution (kernel 1x2 on 1x3 pixels) followed by a linear layer with
   bias and exp; mean squared error ---- *)
Definition ex_conv : conv := Conv 1 2 1 1 PValid 1 1 1.
Definition ex_mods (k : nat) : nlayer R :=
  if k is 0 then NLayer (Some ex_conv) [:: 1; 1; 3]%N [:: 1; 1; 2]%N
    (fun x => [:: x; x + x; x + x + x]) (fun x => [:: x + (x + x); x + x + (x + x + x)])
    (fun x z => [:: exp (z 0%N + z 1%N)])
  else NLayer None [:: 2]%N [:: 1]%N
    (fun x => [:: x + (x + x); x + x + (x + x + x)]) (fun x => [:: x + (x + x) + (x + x + (x + x + x))])
    (fun x z => [:: exp (z 0%N)]).
Definition ex_net (x : R) : seq R := [:: exp (x + (x + x) + (x + x + (x + x + x)))].
Definition ex_tgt (y : R) (t : nat) : target := TVec (fun=> y).
Definition ex_ms : seq module := [:: Module 0 true [:: (Weight, 0%N)]; Module 1 true [:: (Weight, 1%N); (Bias, 2%N)]].
Definition ex_ids : seq nat := [:: 0; 1; 2]%N.
Definition ex_S : seq (seq nat) := [:: [:: 1; 1; 1; 2]; [:: 1; 2]; [:: 1]]%N.
Definition ex_mp : mapping := [:: (0%N, [:: (Weight, 0%N)]); (1%N, [:: (Weight, 1%N); (Bias, 2%N)])].
Definition ex_ge : geometry R := {|
  g_S1 := fun k => if k is 0 then 2%N else 1%N; g_d1 := fun _ => 2%N;
  g_act := fun k => if k is 0 then conv_act (ex_mods 0) ex_conv 1 1 3 2 0 0 else lin_act (ex_mods k) 2;
  g_S2 := fun k => if k is 0 then 2%N else 1%N; g_d2 := fun _ => 1%N;
  g_pos := fun k => if k is 0 then (fun s i => i * (1 * 2) + s)%N else (fun s i => s * 1 + i)%N |}.

Lemma ex_layer_ok k : layer_ok 1 1 (ex_mods k).
Proof.
case: k => [|k]; split=> //= x z z' h; first by rewrite !h.
by rewrite h.
Qed.
Lemma ex_out k : output_geometry (ex_mods k) (g_S2 ex_ge k) (g_d2 ex_ge k) (g_pos ex_ge k).
Proof.
case: k => [|k] /=; first exact: (@OutConv _ (ex_mods 0) ex_conv 1 1 2).
exact: (@OutLinear _ (ex_mods k.+1) [::] 1).
Qed.
Lemma ex_in ap k : input_geometry ap (ex_mods k) (g_S1 ex_ge k) (g_d1 ex_ge k) (g_act ex_ge k).
Proof.
case: k => [|k] /=; first by apply: (@InConv _ ap (ex_mods 0) ex_conv 1 1 3 0 0 0 0 1 2).
exact: (@InLinear _ ap (ex_mods k.+1) [::] 2).
Qed.
Lemma ex_fits ap : fits_geometry 1 1 ap ex_mods ex_mp ex_ge.
Proof. by move=> k ps _; split=> [||_]; [apply: ex_layer_ok|apply: ex_out|apply: ex_in]. Qed.
Lemma ex_network ap : network_ok 1 1 ap ex_ge ex_ms ex_mods ex_ids ex_S.
Proof.
split=> //; first by split=> // m /= [<-|[<-|//]].
move=> m hm hr; split.
- by case: hm => [<-|[<-|//]].
- by split; [apply: ex_layer_ok|apply: ex_out].
- move=> w hw; split; first exact: ex_in.
  by move: hw; case: hm => [<-|[<-|//]] /= [<-]; eexists.
by move=> b; case: hm => [<-|[<-|//]] //= [<-].
Qed.

(* a data set of three points in two batches *)
Definition ex_loader : seq (seq (R * R)) := [:: [:: (0, 1); (1, 2)]; [:: (2, 0)]].

Section Examples.
Variables (G : Type) (normal_o : G -> nat -> (nat -> R) * G).
Variable multinomial_o : G -> nat -> nat -> (nat -> nat -> R) -> nat -> (nat -> nat -> nat) * G.
Variable bernoulli_o : G -> nat -> (nat -> R) -> (nat -> bool) * G.
Lemma ex_targets : type2_targets 1 1 LMSE ex_tgt (flatten ex_loader).
Proof. by do !split. Qed.

Example C32_ex_empirical sep ap (g : G) : exists st,
  compute_kfac 1 1 LMSE ex_net ex_tgt ex_mods ex_S sep ap Empirical RMean 3 1 1 ex_mp normal_o multinomial_o bernoulli_o ex_loader g = (st, Ok tt).
Proof.
have [|||st [h _]] := @C32_empirical R R 1 1 LMSE isT isT ex_net ex_tgt ex_mods ex_S sep ap RMean 3 1 ex_mp ex_ge isT (@ex_fits ap)
  _ isT isT G normal_o multinomial_o bernoulli_o ex_loader g => //.
by exists st.
Qed.
Example C32_ex_type2 sep ap (g : G) : exists st,
  compute_kfac 1 1 LMSE ex_net ex_tgt ex_mods ex_S sep ap Type2 RMean 3 1 1 ex_mp normal_o multinomial_o bernoulli_o ex_loader g = (st, Ok tt).
Proof.
have [|||||Rt [_ [st [h _]]]] := @C32_type2 R R 1 1 LMSE isT isT ex_net ex_tgt ex_mods ex_S sep ap RMean 3 1 ex_mp ex_ge (fun=> erefl) isT (@ex_fits ap)
  _ isT isT G normal_o multinomial_o bernoulli_o ex_loader g => //.
by exists st.
Qed.
Lemma ex_jac k x : jac_exists 1 1 LMSE ex_mods k x.
Proof.
move=> [|t] // [|c] // p _ _; rewrite /ex_pd; case: k => [|k] /=.
  by case: p => [|[|p]]; rewrite /upd /GRing.add /=; auto_derive.
by case: p => [|p]; rewrite /upd /GRing.add /=; auto_derive.
Qed.
Lemma ex_unmixed ap k x : unmixed 1 1 LMSE ex_mods ap ex_ge k x.
Proof. by move=> [|t] [|t'] c c' i j. Qed.
(* with one loss term per example the hypotheses of C32_type2_ggn hold *)
Example C32_ex_ggn sep ap (g : G) :
  computes 1 1 LMSE ex_net ex_tgt ex_mods ex_S sep ap RMean 3 1 ex_mp ex_ge normal_o multinomial_o bernoulli_o Type2 ex_loader g
   (fun k i j => 1%:R^-1 * type2_weight 1 RMean 3 * \sum_(d <- flatten ex_loader) \sum_(t < 1) \sum_(c < 1) \sum_(c' < 1)
     row_hessian 1 1 LMSE ex_net ex_tgt RMean d t c c' *
      cross ap (g_S2 ex_ge k) (fun s => jac 1 1 LMSE ex_mods k d.1 t c (g_pos ex_ge k s i)) (fun s => jac 1 1 LMSE ex_mods k d.1 t c' (g_pos ex_ge k s j))).
Proof.
apply: C32_type2_ggn => //; first exact: ex_fits.
by move=> k ps _; apply: Forall_in_all => d; split; [apply: ex_jac|apply: ex_unmixed].
Qed.
(* the operator's matrix is symmetric and positive semi-definite for every fisher type *)
Example C33_ex_computed sep ap ft (g : G) : exists st,
  compute_kfac 1 1 LMSE ex_net ex_tgt ex_mods ex_S sep ap ft RMean 3 1 1 ex_mp normal_o multinomial_o bernoulli_o ex_loader g = (st, Ok tt) /\
  self_adjoint_op (LinOp ex_S ex_S (kfac_matmat sep st.1 st.2 ex_mp)) ex_S.
Proof.
have [|||||st [h1 h _]] := @C33_computed R R 1 1 LMSE isT isT ex_net ex_tgt (fun=> erefl) sep ap RMean 3 1 ex_ge _ isT isT G
   normal_o multinomial_o bernoulli_o ex_ms ex_mods ex_ids ex_S _ (@ex_network ap) ft (0, 0) ex_loader g => //.
by exists st.
Qed.
End Examples.

(* C74: a generator that returns +1 or -1 with equal probability meets the contract *)
Definition ex_E (f : bool -> R) : R := (f true + f false) / 2%:R.
Definition ex_normal (g : bool) (n : nat) : (nat -> R) * bool := (fun=> if g then 1 else - 1, g).
Definition ex_loader1 : seq (seq (R * R)) := [:: [:: (1, 2)]; [:: (2, 0)]].
Example C74_ex ap multinomial_o bernoulli_o k ps : dget k ex_mp = Some ps ->
  ex_E (fun w => factor_entry k 1 0 0
    (compute_kfac 1 1 LMSE ex_net ex_tgt ex_mods ex_S false ap MC RSum 2 3 1 ex_mp ex_normal multinomial_o bernoulli_o ex_loader1 w).1) =
  \sum_(d <- flatten ex_loader1) 2%:R *
    cross ap (g_S2 ex_ge k) (fun s => jac 1 1 LMSE ex_mods k d.1 0 0 (g_pos ex_ge k s 0)) (fun s => jac 1 1 LMSE ex_mods k d.1 0 0 (g_pos ex_ge k s 0)).
Proof.
move=> ek; have two : (2%:R : R) != 0 by exact: natr_neq0.
have hE : expectation ex_E.
  split=> [f h|a f|]; rewrite /ex_E; first by rewrite addrACA mulrDl.
    by rewrite -mulrDr mulrA.
  by rewrite (_ : 1 + 1 = 2%:R :> R) ?divff // -natrD.
have law o : label_law 1 LMSE ex_normal multinomial_o bernoulli_o ex_E 1 o id.
  move=> [|i] [|j] // _ _; rewrite /ex_E /= mulr1 mulrNN mulr1 (_ : 1 + 1 = 2%:R :> R) ?divff // -natrD; by [].
have [|||||||||_ ->] := @C74_expectation R R 1 1 LMSE isT isT ex_net ex_tgt ex_mods ex_S false ap RSum 2 3 ex_mp ex_ge (fun=> erefl) isT (@ex_fits ap) _ isT isT
   bool ex_normal multinomial_o bernoulli_o bool ex_E (0, 0) ex_loader1 id k ps 0%N 0%N hE _ _ _ ek => //.
- exact: ex_jac.
- by move=> x; case: (k).
rewrite /term_weight mul1r; apply: eq_bigr => d _; rewrite !big_ord1 /raw_hessian torch_row_pd2 //.
Qed.

(* ---- type-2 KFAC with two loss terms that read the same layer output ---- *)
(* the layer's single output z is used for both loss terms, with squared error each:
   the exact factor is sum_t J_t^T H_t J_t = 2 + 2, the computed one differs *)
Definition mix_mods (k : nat) : nlayer unit :=
  NLayer None [:: 1]%N [:: 1]%N (fun=> [:: 1]) (fun=> [:: 0]) (fun _ z => [:: z 0%N; z 0%N]).
Definition mix_net (x : unit) : seq R := [:: 0; 0].
Definition mix_tgt (y : unit) (t : nat) : target := TVec (fun=> 0).
Definition mix_mp : mapping := [:: (0%N, [:: (Weight, 0%N)])].
Definition mix_ge : geometry unit := {|
  g_S1 := fun=> 1%N; g_d1 := fun=> 1%N; g_act := fun k => lin_act (mix_mods k) 1;
  g_S2 := fun=> 1%N; g_d2 := fun=> 1%N; g_pos := fun _ s i => (s * 1 + i)%N |}.
Lemma mix_fits ap : fits_geometry 2 1 ap mix_mods mix_mp mix_ge.
Proof.
move=> k ps _; split=> [||_].
- by split=> //= x z z' h; rewrite !h.
- exact: (@OutLinear _ (mix_mods k) [::] 1).
exact: (@InLinear _ ap (mix_mods k) [::] 1).
Qed.
Lemma mix_jac k x t c : (t < 2)%N -> (c < 1)%N -> jac 2 1 LMSE mix_mods k x t c 0 = 1.
Proof.
move=> ht hc; rewrite /jac (@pd_ext _ (fun z => z 0%N)) ?pd_coord //.
by move=> z; case: t ht => [|[|]] //; case: c hc.
Qed.

Theorem C32_type2_cross_terms_refuted (G : Type) normal_o multinomial_o bernoulli_o (g : G) ap :
  exists st, compute_kfac 2 1 LMSE mix_net mix_tgt mix_mods [:: [:: 1; 1]%N] false ap Type2 RSum 1 1 2 mix_mp
    normal_o multinomial_o bernoulli_o [:: [:: (tt, tt)]] g = (st, Ok tt) /\
  factor_entry 0 1 0 0 st <>
    \sum_(d <- [:: (tt, tt)]) \sum_(t < 2) \sum_(c < 1) \sum_(c' < 1) row_hessian 2 1 LMSE mix_net mix_tgt RSum d t c c' *
      cross ap 1 (fun s => jac 2 1 LMSE mix_mods 0 d.1 t c 0) (fun s => jac 2 1 LMSE mix_mods 0 d.1 t c' 0).
Proof.
have [|||||Rt [hR [st [h1 h2]]]] := @C32_type2 unit unit 2 1 LMSE isT isT mix_net mix_tgt mix_mods [:: [:: 1; 1]%N] false ap RSum 1 1 mix_mp mix_ge (fun=> erefl) isT (@mix_fits ap)
  _ isT isT G normal_o multinomial_o bernoulli_o [:: [:: (tt, tt)]] g => //.
exists st; split=> //.
have hess t : (t < 2)%N -> row_hessian 2 1 LMSE mix_net mix_tgt RSum (tt, tt) t 0 0 = 2%:R.
  move=> ht; rewrite /row_hessian (@pd_ext _ (pd 0 (fun f => torch_row LMSE 1 (mkseq f 1) (mix_tgt tt t)))); last first.
    by move=> z; apply: pd_ext => z'; rewrite /reduced_loss mul1r.
  by rewrite torch_row_pd2.
have hx : jac_exists 2 1 LMSE mix_mods 0 tt.
  move=> t c p ht hc; apply: (@ex_pd_ext (fun z => z 0%N)); last exact: ex_pd_coord.
  by move=> z; case: t ht => [|[|]] //; case: c hc.
have cr1 a b : cross ap 1 a b = a 0%N * b 0%N by rewrite /cross; case: (ap); rewrite !big_ord1.
have r2 t : (t < 2)%N -> Rt tt t 0%N 0%N * Rt tt t 0%N 0%N = 2%:R.
  by move=> ht; have := hR tt t (mix_tgt tt t) 0%N 0%N ht I isT isT; rewrite big_ord1 => ->; exact: hess.
have -> : factor_entry 0 1 0 0 st = (Rt tt 0%N 0%N 0%N + Rt tt 1%N 0%N 0%N) * (Rt tt 0%N 0%N 0%N + Rt tt 1%N 0%N 0%N).
  have := h2 0%N => /= -[_ [t [a1 a2 a3 a4]]]; rewrite /factor_entry a1 a4 // big_seq1 big_ord1 /=.
  rewrite grad_term_cross cr1 (grads_linear mix_ge (fun t c => Rt tt t c 0%N)) //.
  rewrite /type2_weight invr1 !mul1r.
  have -> : \sum_(t0 < 2) \sum_(c < 1) jac 2 1 LMSE mix_mods 0 tt t0 c (g_pos mix_ge 0 0 0) * Rt tt t0 c 0%N = Rt tt 0%N 0%N 0%N + Rt tt 1%N 0%N 0%N.
    by rewrite !big_ord_recl !big_ord0 !addr0 !mix_jac // !mul1r.
  by [].
have -> : \sum_(d <- [:: (tt, tt)]) \sum_(t < 2) \sum_(c < 1) \sum_(c' < 1) row_hessian 2 1 LMSE mix_net mix_tgt RSum d t c c' *
      cross ap 1 (fun s => jac 2 1 LMSE mix_mods 0 d.1 t c 0) (fun s => jac 2 1 LMSE mix_mods 0 d.1 t c' 0) = 2%:R + 2%:R.
  by rewrite big_seq1 !big_ord_recl !big_ord0 !addr0 !cr1 !mix_jac // !mulr1 !hess.
have := r2 0%N isT; have := r2 1%N isT; move: (Rt tt 0%N 0%N 0%N) (Rt tt 1%N 0%N 0%N) => a b.
have -> : (2%:R : R) = IZR 2 by rewrite natrE.
toR => hb ha hab.
have z : Rmult a b = IZR 0 by lra.
have [z'|z'] := Rmult_integral _ _ z; rewrite z' in ha hb; lra.
Qed.
Print Assumptions C32_type2_cross_terms_refuted.

(* ---------- C47: number of loss terms per example ---------- *)
(* labels of a batch of n data with T = numel s loss terms each: a class per term,
   or a vector with C entries per term *)
Definition label_shape (k : loss_kind) (C n : nat) (s : seq nat) : seq nat :=
  if is_ce k then n :: s else n :: rcons s C.
Lemma terms_label_shape k C n s : num_loss_terms k [:: label_shape k C n s] = (n * numel s)%N.
Proof.
rewrite /num_loss_terms /label_shape /= addn0; case: is_ce => //=.
by rewrite size_rcons /= -cats1 take_size_cat.
Qed.

(* every datum has the same number of loss terms (batch sizes may differ) *)
Theorem C47_inferred k C s (ns : seq nat) : (0 < sumn ns)%N ->
  set_num_per_example_loss_terms None k [seq label_shape k C n s | n <- ns] (sumn ns) = Ok (numel s).
Proof.
move=> h; have e : num_loss_terms k [seq label_shape k C n s | n <- ns] = (sumn ns * numel s)%N.
  elim: ns {h} => //= n ns IH; rewrite mulnDl -IH -(terms_label_shape k C n s) /num_loss_terms /= addn0; by [].
by rewrite /set_num_per_example_loss_terms e gtn_eqF // modnMr /= mulKn.
Qed.

(* in general: the average if it is a whole number, an exception otherwise *)
Theorem C47_average k C (bs : seq (nat * seq nat)) (N : nat) : (0 < N)%N ->
  let total := sumn [seq (b.1 * numel b.2)%N | b <- bs] in
  set_num_per_example_loss_terms None k [seq label_shape k C b.1 b.2 | b <- bs] N =
  if (N %| total)%N then Ok (total %/ N)%N else Err ValueError.
Proof.
move=> h total; have e : num_loss_terms k [seq label_shape k C b.1 b.2 | b <- bs] = total.
  rewrite /total; elim: (bs) => //= b bs' IH; rewrite -IH -(terms_label_shape k C b.1 b.2) /num_loss_terms /= addn0; by [].
by rewrite /set_num_per_example_loss_terms e gtn_eqF // /dvdn; case: (total %% N == 0)%N.
Qed.
(* a given number is used as it is *)
Theorem C47_given k n ys N : set_num_per_example_loss_terms (Some n) k ys N = Ok n.
Proof. by []. Qed.
(* no data: ZeroDivisionError *)
Theorem C47_no_data k ys : set_num_per_example_loss_terms None k ys 0 = Err ZeroDivisionError.
Proof. by []. Qed.
(* data with different numbers of loss terms are accepted if the average is whole *)
Theorem C47_uneven_refuted : set_num_per_example_loss_terms None LMSE [seq label_shape LMSE 5 b.1 b.2 | b <- [:: (1, [:: 1]); (1, [:: 3])]]%N 2 = Ok 2%N.
Proof. by []. Qed.
Print Assumptions C47_inferred.
Print Assumptions C47_average.
Print Assumptions C47_given.
Print Assumptions C47_no_data.
Print Assumptions C47_uneven_refuted.
Example C47_ex : set_num_per_example_loss_terms None LCE [:: [:: 4; 3; 2]; [:: 1; 3; 2]]%N 5 = Ok 6%N /\
  set_num_per_example_loss_terms None LMSE [:: [:: 4; 3; 2]; [:: 1; 3; 2]]%N 5 = Ok 3%N /\
  set_num_per_example_loss_terms None LMSE [:: [:: 4; 3; 2]; [:: 1; 4; 2]]%N 5 = Err ValueError.
Proof. by []. Qed.
