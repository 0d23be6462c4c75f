(* C86: forward-only factors of the network of Props_KfacCallsEx.v. *)
From Coq Require Import Reals Lra FunctionalExtensionality Permutation.
From Coquelicot Require Import Coquelicot.
From mathcomp Require Import all_ssreflect all_algebra.
From Verif Require Import PyPrelude Tensor Spec TorchBase Submatrix RInst Calculus ROrd Curvature HessGGN Risk Losses Fisher FisherMC FisherExp CurvOps Props_Curv Props_Fisher OpSpec LossHess Props_LossHess Conv Props_Conv Kfac KfacSpec KfacProof KfacMap KfacBlocks Props_Kfac KfacCov KfacCovHooks KfacCovSpec KfacCovProof Props_KfacCov Props_KfacMC Props_KfacEnd Props_KfacEx KfacExact Props_KfacExact KfacCalls Props_KfacCalls Props_KfacCallsFwd Props_KfacCallsEx.
Set Implicit Arguments.
Unset Strict Implicit.
Unset Printing Implicit Defensive.
Import GRing.Theory Num.Theory.
Local Open Scope ring_scope.

Section Ex.
Variables (G : Type) (normal_o : G -> nat -> (nat -> R) * G).
Variable multinomial_o : G -> nat -> nat -> (nat -> nat -> R) -> nat -> (nat -> nat -> nat) * G.
Variable bernoulli_o : G -> nat -> (nat -> R) -> (nat -> bool) * G.
Local Notation op st := (LinOp seq_S seq_S (kfac_matmat false st.1 st.2 seq_mp)).

(* "The forward-only matrix depends on the network as a function only": two calls for one
   position each give twice the matrix of one call for both positions. *)
Theorem C86_forward_only_exact_refuted ap (a b y : R) (g : G) : a <> 0 -> let loader := [:: [:: ((a, b), y)]] in
  exists st1 st2, [/\
    compute_kfac 2 1 LMSE (fun x => seq_pnet x seq_th) seq_tgt seq_mods seq_S false Expand ForwardOnly RSum 1 1 2 seq_mp normal_o multinomial_o bernoulli_o loader g = (st1, Ok tt),
    compute_kfac_calls 2 1 LMSE (fun x => seq_pnet x seq_th) seq_tgt seq_callee seq_views [:: 0; 1]%N [:: 1; 0]%N seq_S false ap ForwardOnly RSum 1 1 2 seq_mp
      normal_o multinomial_o bernoulli_o loader g = (st2, Ok tt) &
    exists K1 K2, [/\ acts_as (op st1) seq_S K1, acts_as (op st2) seq_S K2, K2 0%N 0%N = 2%:R * K1 0%N 0%N & K2 0%N 0%N <> K1 0%N 0%N]].
Proof.
move=> ha loader.
have [|||||st1 [st2 [e1 e2 h6]]] := @C86_forward_only_separate (R * R) R 2 1 LMSE (fun x => seq_pnet x seq_th) seq_tgt seq_callee seq_views [:: 0; 1]%N [:: 1; 0]%N seq_S false ap RSum 1 1 seq_mp
  G normal_o multinomial_o bernoulli_o isT isT isT seq_mods (fun=> 2%N) (fun=> 1%N) (fun=> 1%N) (fun _ s => s) isT _ _ loader g => //.
- by split=> // -[|k] ps //= [<-].
- move=> [|k] ps //= _; split=> //; [exact: seq_layer_ok|exact: seq_separate].
- by move=> [|k] ps //= [<-]; exists Weight, 0%N, [::].
have [h7 [B1 [B2 [b1 b2 [s1 s2] b3]]]] := h6 0%N [:: (Weight, 0%N)] erefl.
have [|A1 [A2 [a1 a2 [s3 s4] a3]]] := h7; first by [].
have [K1 k1 k2] := one_entry a1 b1 s3 s1; have [K2 k3 k4] := one_entry a2 b2 s4 s2.
exists st1, st2; split=> //; exists K1, K2; split=> //; first by rewrite k4 k2 a3 // b3 // mulrCA.
rewrite k4 k2 a3 // b3 // mulrCA.
have [||st1' [f1 f2]] := @C32_forward_only (R * R) R 2 1 LMSE (fun x => seq_pnet x seq_th) seq_tgt seq_mods seq_S false Expand RSum 1 1 seq_mp seq_ge isT
  (end_geometry seq_network) G normal_o multinomial_o bernoulli_o loader g; [by []| |].
  by move=> [|k] ps //= [<-]; exists Weight, 0%N, [::].
rewrite e1 in f1; case: f1 => f1; subst st1'; have := f2 0%N => /= -[[A1' [p1 _ _ p2]] [B1' [q1 _ _ q2]]].
rewrite p1 in a1; case: a1 => e; subst A1'; rewrite q1 in b1; case: b1 => e; subst B1'.
rewrite p2 // q2 // /input_factor !big_seq1 /in_term /= !big_ord_recl !big_ord0 /= /aug /= /lin_act /=.
rewrite !(mul0r, mulr0, addr0, add0r, mulr1, mul1r, invr1) mulrA mulfV ?natr_neq0 // mul1r.
move=> e; have : 2%:R * (a * a + b * b) = a * a + b * b :> R by rewrite {1}e mulrA mulfV ?natr_neq0 // mul1r.
rewrite (_ : 2%:R = IZR 2 :> R); last by rewrite natrE.
clear -ha; move: ha; toR; nra.
Qed.

(* a second layer that the forward pass never calls: the factors are computed, no product is *)
Example C86_ex_forward_only_unused ap red (loader : seq (seq ((R * R) * R))) (g : G) : loader <> [::] -> nonempty loader ->
  exists st, compute_kfac_calls 2 1 LMSE (fun x => seq_pnet x seq_th) seq_tgt seq_callee seq_views [:: 0; 1]%N [:: 1; 0]%N
    [:: [:: 1; 1]; [:: 2; 3]]%N false ap ForwardOnly red 1 1 2 [:: (0%N, [:: (Weight, 0%N)]); (1%N, [:: (Weight, 1%N)])]
    normal_o multinomial_o bernoulli_o loader g = (st, Ok tt) /\
    forall Mt, exists e, kfac_matmat false st.1 st.2 [:: (0%N, [:: (Weight, 0%N)]); (1%N, [:: (Weight, 1%N)])] Mt = Err e.
Proof.
move=> hl hne.
apply: (@C86_forward_only_unused (R * R) R 2 1 LMSE _ _ seq_callee seq_views [:: 0; 1]%N [:: 1; 0]%N _ false ap red 1 1 _ (ge_calls seq_callee seq_views (fun=> 1%N) (fun=> 1%N))
  G normal_o multinomial_o bernoulli_o isT isT isT isT _ _ loader g (fun=> 1%N) (fun k => if k == 0%N then 1%N else 2%N) 1%N [:: (Weight, 1%N)] 1%N) => //.
- by split=> // -[|[|k]] ps //= [<-].
- move=> c ps; rewrite vmpE //; case: ifP => // hc _; have := separate_ok (@seq_layer_ok 0) (seq_separate 0).
  move=> hv; have h0 := hv 0%N isT; have h1 := hv 1%N isT; move: hc; rewrite !inE => /orP[] /eqP ->.
    split=> //=; first exact: (@OutLinear _ (seq_views 0) [::] 1).
    by move=> _; apply: (@InLinear _ ap (seq_views 0) [::] 1).
  split=> //=; first exact: (@OutLinear _ (seq_views 1) [::] 1).
  by move=> _; apply: (@InLinear _ ap (seq_views 1) [::] 1).
by move=> [|[|k]] ps //= [<-]; [exists Weight, 0%N, [::]|exists Weight, 1%N, [::]].
Qed.
End Ex.
Print Assumptions C86_forward_only_exact_refuted.
