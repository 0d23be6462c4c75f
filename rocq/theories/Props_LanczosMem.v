(* C64: the in-place updates of fast_lanczos. *)
From Coq Require Import String.
From mathcomp Require Import all_ssreflect all_algebra ring.
From Verif Require Import PyPrelude Tensor Spec Numpy Submatrix Inverse Estimators Lanczos LanczosAlg LanczosProof Props_Lanczos NumpyMem LanczosMem.
Set Implicit Arguments.
Unset Strict Implicit.
Unset Printing Implicit Defensive.
Import GRing.Theory Num.Theory.
Local Open Scope ring_scope.

Section Props.
Variable F : rcfType.
Local Notation arr := (tensor F).

(* If 'A @ v' returns new memory, the in-place loop returns (or raises) what the loop on
   immutable arrays does, and changes no memory that was in use before the call. *)
Theorem C64_in_place eigh eigh_tridiagonal (op : mem_op F) (A : mv_op F) (h0 : memory F) ncv flag (x : nat -> F) :
  new_memory op A ->
  match mem_lanczos eigh eigh_tridiagonal op h0 (nth 0%N (mv_shape A) 1) ncv flag x, fast_lanczos eigh eigh_tridiagonal A ncv flag x with
  | Ok (h, r), Ok r' => r = r' /\ (size h0 <= size h)%N /\ forall i, (i < size h0)%N -> nth [::] h i = nth [::] h0 i
  | Err e, Err e' => e = e'
  | _, _ => False
  end.
Proof.
move=> hop; have := mem_lanczosE eigh eigh_tridiagonal h0 hop ncv flag x.
by case: (mem_lanczos _ _ _ _ _ _ _ _) => [[h r]|e]; case: (fast_lanczos _ _ _ _ _ _) => [r'|e'] //= [[h1 h2] ->].
Qed.

(* an operator whose product allocates its result *)
Definition copying (A : mv_op F) : mem_op F := fun h v => let! y := mv_dot A (vget h v) in Ok (alloc h y).
Example C64_ex_copying (A : mv_op F) : (forall v y, mv_dot A v = Ok y -> wf y) -> new_memory (copying A) A.
Proof.
move=> hw h v hv; rewrite /copying; case e: (mv_dot A _) => [y|e'] //=; split.
- exact: alloc_extends.
- exact: (alloc_valid h (hw _ _ e)).
- by [].
- exact: alloc_get.
Qed.

(* The exchange matrix as an operator that returns a reversed view of its argument: every
   product is right and writes nothing, but the loop then overwrites v through v_next. *)
Definition flip_op : mem_op F := fun h v => Ok (h, View (v_buf v) (rev (v_idx v)) (v_sh v)).
Definition flipA : mv_op F := MvOp [:: 2; 2]%N (fun v => Ok (Tensor (tshape v) (rev (tdata v)))).
Definition flipM : 'M[F]_2 := \matrix_(i, j) (i != j)%:R.
Definition flip_start (i : nat) : F := if i is 0%N then 3%:R / 5%:R else 4%:R / 5%:R.

Lemma flip_sym : symmetric_op flipA flipM.
Proof.
split=> //; last by apply/matrixP => i j; rewrite !mxE eq_sym.
move=> v hv /eqP wv; exists (Tensor [:: 2]%N (rev (tdata v))); split=> //.
- by rewrite /= hv.
- by rewrite /wf /= size_rev wv hv.
move: wv; rewrite hv /=; case: (tdata v) => [|a [|b [|]]] // _.
by case=> [|[|i]] // _; rewrite !big_ord_recl big_ord0 /mxfun /= !insubT /= !mxE /= ?mul0r ?mul1r ?addr0 ?add0r.
Qed.

Lemma s1 : Num.sqrt ((3%:R / 5%:R) ^+ 2 + ((4%:R / 5%:R) ^+ 2 + 0)) = 1 :> F.
Proof.
rewrite (_ : _ + _ = 1 ^+ 2); first by rewrite sqrtr_sqr normr1.
have ne : (5%:R : F) != 0 by rewrite pnatr_eq0.
by field.
Qed.

Lemma ne5 : (5%:R : F) != 0. Proof. by rewrite pnatr_eq0. Qed.
Lemma ne7 : (7%:R : F) != 0. Proof. by rewrite pnatr_eq0. Qed.
Lemma s2 : Num.sqrt ((4%:R / 5%:R / 1 - (4%:R / 5%:R / 1 * (3%:R / 5%:R / 1) + (3%:R / 5%:R / 1 * (4%:R / 5%:R / 1) + 0)) * (3%:R / 5%:R / 1)) ^+ 2 +
  ((3%:R / 5%:R / 1 - (4%:R / 5%:R / 1 * (3%:R / 5%:R / 1) + (3%:R / 5%:R / 1 * (4%:R / 5%:R / 1) + 0)) * (4%:R / 5%:R / 1)) ^+ 2 + 0)) = 7%:R / 25%:R :> F.
Proof.
have ne := ne5; rewrite -[RHS]ger0_norm ?divr_ge0 ?ler0n // -sqrtr_sqr; congr Num.sqrt.
by field.
Qed.

Theorem C64_returned_views_refuted : exists (op : mem_op F) (A : mv_op F) (M : 'M[F]_2) (x : nat -> F) s ms,
  [/\ symmetric_op A M,
      forall h v, valid h v -> exists p, [/\ op h v = Ok p, p.1 = h, valid h p.2 & mv_dot A (vget h v) = Ok (vget h p.2)],
      lanczos_passes A 2 x 2 = Ok s /\ l_alphas s = [:: 24%:R / 25%:R; - (24%:R / 25%:R)] &
      mem_passes op [::] 2 2 x 2 = Ok ms /\ m_alphas ms = [:: 24%:R / 25%:R; - (24%:R / 25%:R) * (18%:R / 25%:R)]].
Proof.
exists flip_op, flipA, flipM, flip_start; do 2 eexists; split.
- exact: flip_sym.
- move=> h v hv; eexists; split; [reflexivity|by []| |].
    by move: hv; rewrite /valid /= rev_uniq all_rev size_rev.
  by rewrite /vget /= map_rev.
- split.
    rewrite /lanczos_passes /= /lanczos_start /np_norm /div_by /sumr /= s1.
    rewrite /lanczos_step /= /np_dot /sumr /= /ew /= /np_norm /sumr /= s2; reflexivity.
  by rewrite /=; congr [:: _; _]; field; rewrite ?ne5 ?ne7.
- split.
    rewrite /mem_passes /= /mem_start /= /np_norm /sumr /= s1 /vput /= /write /=.
    rewrite /mem_step /= /np_dot /sumr /= /ew /= /np_norm /sumr /= s2; reflexivity.
  by rewrite /=; congr [:: _; _]; field; rewrite ?ne5 ?ne7.
Qed.
End Props.
Print Assumptions C64_in_place.
Print Assumptions C64_returned_views_refuted.
