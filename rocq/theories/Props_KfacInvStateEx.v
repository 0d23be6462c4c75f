(* Concrete histories of inverse KFAC operators: cases that meet the hypotheses of
   Props_KfacInvState.v, and histories in which caching is visible. *)
From Coq Require Import Reals Lra String ZArith.
From Coquelicot Require Import Coquelicot.
From mathcomp Require Import all_ssreflect all_algebra.
From Verif Require Import PyPrelude Tensor Spec RInst ROrd Calculus Curvature HessGGN Risk Losses Fisher Kfac KfacScalar Conv KfacCov KfacState KfacStateProof Props_KfacState Props_KfacStateEx KfacInverse KfacInvProof KfacInvState Props_KfacInvState.
Set Implicit Arguments.
Unset Strict Implicit.
Unset Printing Implicit Defensive.
Import GRing.Theory.
Local Open Scope ring_scope.
Local Notation tens := (tensor R).
Local Notation RF := R_rcfType.

(* models and data of Props_KfacStateEx.v: a model with parameter th has factors 1
   and th^2; exact damping 1 solves (1 * th^2 + 1) y = x *)
Definition eigh1 (t : tens) : res (tens * tens) := Ok (Tensor [:: 1%N] (tdata t), t11 1).
Definition chol1 (b : bool) (t : tens) : res tens := Err RuntimeError.
Definition cholnf1 (b : bool) (t : tens) (e : ext RF) : res tens := Err RuntimeError.
Definition cholinv1 (t : tens) : res tens := Err RuntimeError.
Definition iw1 : iworld R := IWorld w1 [::] [::] [::].
Definition exact1 : iset RF := ISet (DOne (1 : R)) false 0 true true true.
Local Notation istep1 := (istep arch1 pl1 passes1 mc1 chol1 cholnf1 cholinv1 eigh1 true).
Local Notation irun1 := (irun arch1 pl1 passes1 mc1 chol1 cholnf1 cholinv1 eigh1 true).
Local Notation seen1 := (seen arch1 pl1 passes1 mc1 chol1 cholnf1 cholinv1 eigh1 true).
Local Notation iclean1 := (iclean arch1 pl1 passes1 mc1 chol1 cholnf1 cholinv1 eigh1 true).
Lemma ifresh1 : ifresh iw1.
Proof. by split=> //; exact: fresh1. Qed.

Definition half : R := Rinv (IZR (Zpos 2)).
Definition fifth : R := Rinv (IZR (Zpos 5)).
Definition X1 (x : R) : seq tens := [:: Tensor [:: 1; 1; 1]%N [:: x]].
Definition new1 (m : nat) : iaction R := IKfac (ANew _ m loss1 ids1 mods1 set1).
(* operators 0 and 1 on models with parameters 1 and 2; the inverse of operator 0
   is used, saved, copied, restored on operator 1 and loaded back; operator 2, for
   another loss, rejects its state twice *)
Definition iacts1 : seq (iaction R) :=
  [:: new1 0; new1 1; INew _ 0 exact1; INew _ 0 exact1; IMatmat _ 0 (X1 1); IMatmat _ 1 (X1 1); ISave _ 0; ICopy _ 0; IFrom _ 1 1;
      IMatmat _ 2 (X1 3%:R); ISave _ 2; IKfac (ATrain 0 (7%:R : R)); IKfac (ARead _ 1 Trace); ILoad _ 2 2;
      IKfac (ANew _ 1 (LossObj LCE true RSum) ids1 mods1 set1); INew _ 2 exact1; ILoad _ 3 0; IFrom _ 0 2; IMatmat _ 2 (X1 1)].


(* ---- deciding that a history is clean ---- *)
Definition done_ok (o : obs) : bool := if o is Done (Ok _) then true else false.
Lemma done_okE o : done_ok o -> o = Done (Ok tt).
Proof. by case: o => // -[[]|e]. Qed.

Section Check.
Variables (Theta : Type) (arch : Theta -> nat) (partial_load : Theta -> Theta -> Theta).
Variables (passes : kop -> Theta -> nat -> seq (res firing)) (mconv : nat -> nat -> option conv).
Variables (chol : bool -> tens -> res tens) (chol_nf : bool -> tens -> ext RF -> res tens).
Variables (chol_inv : tens -> res tens) (eigh : tens -> res (tens * tens)).
Variable dbl : bool.
Local Notation step := (step arch partial_load passes mconv).
Local Notation istep := (istep arch partial_load passes mconv chol chol_nf chol_inv eigh dbl).

Local Notation clean_step_b := (clean_step_b arch partial_load passes mconv).
Definition holds_b (w : iworld Theta) (v i : nat) : bool := if lget (iw_invs w) v is Ok o then v_A o == i else false.
Lemma holdsP w v i : holds w v i -> holds_b w v i && (v < size (iw_invs w))%N.
Proof. by move=> [o ho /eqP h]; rewrite /holds_b ho h; have [-> _] := lget_Ok ho o. Qed.
Definition free_b (w : iworld Theta) (i : nat) : bool := all (fun v => ~~ holds_b w v i) (iota 0 (size (iw_invs w))).
Lemma free_bP w i : free_b w i -> forall v, ~ holds w v i.
Proof. by move=> /allP h v /holdsP/andP[h1 h2]; have := h v; rewrite mem_iota h2 h1 => /(_ isT). Qed.
Definition alone_b (w : iworld Theta) (i v : nat) : bool := all (fun v' => holds_b w v' i ==> (v' == v)) (iota 0 (size (iw_invs w))).
Lemma alone_bP w i v : alone_b w i v -> alone w i v.
Proof. by move=> /allP h v' /holdsP/andP[h1 h2]; have := h v'; rewrite mem_iota h2 h1 => /(_ isT) /eqP. Qed.
Definition origin_b (w : iworld Theta) (i j : nat) : bool :=
  if lget (w_ops (iw_k w)) i is Ok a then if lget (iw_saved w) j is Ok s then map_eqb (sd_origin (is_A s)) (o_mapping a) else true else true.
Lemma origin_bP w i j : origin_b w i j -> same_origin w i j.
Proof. by move=> h a s ha hs; move: h; rewrite /origin_b ha hs => /eqP. Qed.
Definition keys_b (w : iworld Theta) (i : nat) : bool :=
  if lget (w_ops (iw_k w)) i is Ok a then own_keys_ok (get_dicts (iw_k w) (o_dicts a)) (o_mapping a) else true.
Lemma keys_bP w i : keys_b w i -> keys_ok w i.
Proof. by move=> h a ha; move: h; rewrite /keys_b ha. Qed.
Definition loaded (a : action Theta) : option nat := if a is ALoad i _ then Some i else None.
Definition iclean_step_b (w : iworld Theta) (a : iaction Theta) : bool :=
  match a with
  | IKfac a => clean_step_b (iw_k w) a && (if loaded a is Some i then free_b w i else true)
  | IMatmat v _ => if lget (iw_invs w) v is Ok o then
      isok (ensure passes mconv (iw_k w) (v_A o)).2 &&
      (if lget (w_ops (iw_k w)) (v_A o) is Ok a then computed (get_dicts (ensure passes mconv (iw_k w) (v_A o)).1 (o_dicts a)) else true)
      else true
  | ILoad v j => if lget (iw_invs w) v is Ok o then
      keys_b w (v_A o) && (done_ok (istep w a).2 ==> alone_b w (v_A o) v && origin_b w (v_A o) j) else true
  | IFrom j i => keys_b w i && (done_ok (istep w a).2 ==> free_b w i && origin_b w i j)
  | _ => true
  end.
Lemma iclean_step_bP w a : iclean_step_b w a -> iclean_step arch partial_load passes mconv chol chol_nf chol_inv eigh dbl w a.
Proof.
case: a => [a|i s|v X|v|v j|j i|j] //=.
- move=> /andP[/clean_step_bP h1 h2]; split=> // i v; case: a h2 {h1} => //= k j h2 /eqP <-; exact: free_bP h2 v.
- move=> h o ho; move: h; rewrite ho => /andP[/isokE h1 h2]; split=> // a ha _; by rewrite ha in h2.
- move=> h o ho; move: h; rewrite ho => /andP[/keys_bP hk h]; split=> // e; move: h; rewrite e /= => /andP[/alone_bP h2 /origin_bP h3]; by split.
- move=> /andP[/keys_bP hk h]; split=> // e; move: h; rewrite e /= => /andP[/free_bP h2 /origin_bP h3]; by split.
Qed.
Fixpoint iclean_b (w : iworld Theta) (acts : seq (iaction Theta)) : bool :=
  if acts is a :: acts' then iclean_step_b w a && iclean_b (istep w a).1 acts' else true.
Lemma iclean_bP w acts : iclean_b w acts -> iclean arch partial_load passes mconv chol chol_nf chol_inv eigh dbl w acts.
Proof. by elim: acts w => [|a acts IH] w //= /andP[/iclean_step_bP h1 /IH h2]. Qed.
End Check.

Lemma iclean_acts1 : iclean1 iw1 iacts1.
Proof. apply: iclean_bP; vm_compute; reflexivity. Qed.

(* real arithmetic on literals: the inner tests first *)
Ltac lits := rewrite ?(Rmult_1_l, Rmult_1_r, Rplus_0_r, Rplus_0_l, Rmult_0_l, Rmult_0_r, Rinv_1).
Ltac reals := lits; repeat (match goal with |- context [Req_EM_T ?a ?b] =>
    lazymatch a with context [Req_EM_T _ _] => fail | _ => destruct (Req_EM_T a b); [try (exfalso; lra)|]; try (exfalso; lra) end end; lits);
  try lra; try (field; repeat split; lra).

(* the product of the last call *)
Definition last_value (os : seq obs) : option (res R) :=
  if last (Done (Ok tt)) os is Product (Y, r) then
    Some (let! _ := r in if Y is [:: t] then Ok (nth 0 (tdata t) 0) else Err IndexError)
  else None.
(* the hypotheses of C51's theorems hold, with a cached product of the inverse
   restored on operator 1, after its factors 1 and 1 replaced the model's own *)
Example C51_ex : [/\ ifresh iw1, iclean1 iw1 iacts1 & last_value (seen1 iw1 iacts1) = Some (Ok half)].
Proof.
split; [exact: ifresh1|exact: iclean_acts1|].
vm_compute; congr (Some (Ok _)); reals.
Qed.

(* ---------- C51 is false when the factors are replaced ---------- *)
(* A.load_state_dict does not reach the inverse operator that holds A: it keeps
   multiplying with the inverses of the old factors. *)
Definition stale : seq (iaction R) :=
  [:: new1 0; new1 1; INew _ 0 exact1; IMatmat _ 0 (X1 1); IKfac (ARead _ 1 Trace); IKfac (ASave _ 1); IKfac (ALoad _ 0 0); IMatmat _ 0 (X1 1)].
Definition all_ok (os : seq obs) : bool := all (fun o => match o with Done r => isok r | Product p => isok p.2 end) os.
Theorem C51_stale_refuted :
  [/\ all_ok (seen1 iw1 stale), last_value (seen1 iw1 stale) = Some (Ok half),
      last_value (seen1 iw1 (map (@uncached R) stale)) = Some (Ok fifth) & half <> fifth].
Proof.
split; [by vm_compute| | |by rewrite /half /fifth => h; lra].
- vm_compute; congr (Some (Ok _)); reals.
- vm_compute; congr (Some (Ok _)); reals.
Qed.
Print Assumptions C51_stale_refuted.

(* An exception in a factor computation leaves the hooks on the model.  Another
   operator's computation on that model then adds to the factors of the first one,
   whose inverses stay as they were. *)
Definition passes_h (o : kop) (th : R) (n : nat) : seq (res firing) :=
  if n == 0%N then Props_KfacStateEx.good1 0 th ++ [:: Err (UserError 0%N)] else Props_KfacStateEx.good1 0 th.
Local Notation seenh := (seen arch1 pl1 passes_h mc1 chol1 cholnf1 cholinv1 eigh1 true).
Definition hooked : seq (iaction R) :=
  [:: new1 0; INew _ 0 exact1; IMatmat _ 0 (X1 1); IMatmat _ 0 (X1 1); new1 0; IKfac (ARead _ 1 Trace); IMatmat _ 0 (X1 1)].
Theorem C51_hooks_refuted :
  [/\ all_ok (drop 3 (seenh iw1 hooked)), last_value (seenh iw1 hooked) = Some (Ok half),
      last_value (seenh iw1 (map (@uncached R) hooked)) = Some (Ok fifth) & half <> fifth].
Proof.
split; [by vm_compute| | |by rewrite /half /fifth => h; lra].
- vm_compute; congr (Some (Ok _)); reals.
- vm_compute; congr (Some (Ok _)); reals.
Qed.
Print Assumptions C51_hooks_refuted.

(* The same with the inverse operators' own methods only: two of them hold one KFAC
   operator, and one loads a state. *)
Definition shared : seq (iaction R) :=
  [:: new1 0; new1 1; INew _ 0 exact1; INew _ 0 exact1; INew _ 1 exact1; IMatmat _ 0 (X1 1); IMatmat _ 2 (X1 1); ISave _ 2;
      ILoad _ 1 0; IMatmat _ 0 (X1 1)].
Theorem C51_shared_refuted :
  [/\ all_ok (seen1 iw1 shared), last_value (seen1 iw1 shared) = Some (Ok half) &
      last_value (seen1 iw1 (map (@uncached R) shared)) = Some (Ok fifth)].
Proof.
split; [by vm_compute| |].
- vm_compute; congr (Some (Ok _)); reals.
- vm_compute; congr (Some (Ok _)); reals.
Qed.
Print Assumptions C51_shared_refuted.

(* ---------- C52 ---------- *)
(* the state saved by inverse operator 0 and restored on operator 1 of another model *)
Definition before52 := irun1 iw1 (take 5 iacts1).
Definition the_iop (w : iworld R) (v : nat) : iop := if lget (iw_invs w) v is Ok o then o else IOp 0 exact1 0.
Example C52_ex : exists s a a2 ms ms2,
  [/\ lget (iw_invs before52) 0 = Ok (the_iop before52 0), lget (w_ops (iw_k before52)) 0 = Ok a, istate_dict before52 0 = Ok s,
      lget (w_ops (iw_k before52)) 1 = Ok a2 &
      [/\ o_mapping a2 = o_mapping a, lget (w_models (iw_k before52)) (o_model a) = Ok ms,
          lget (w_models (iw_k before52)) (o_model a2) = Ok ms2, arch1 (m_theta ms) = arch1 (m_theta ms2) &
      keys_complete (get_dicts (iw_k before52) (o_dicts a2)) (o_mapping a2) /\ computed (get_dicts (iw_k before52) (o_dicts a))]].
Proof.
do 5 eexists; split; [vm_compute; reflexivity..|split; [vm_compute; reflexivity..|split; [left; vm_compute; split; reflexivity|vm_compute; reflexivity]]].
Qed.

(* An inverse operator whose KFAC operator cannot be saved cannot be saved either;
   a rejected load can leave KFAC's own settings changed (C40).  The inverse
   operator's settings and inverses are untouched by every failed load. *)
Theorem C52_failed_load (Theta : Type) (arch : Theta -> nat) (pl : Theta -> Theta -> Theta) (w w' : iworld Theta) v s e :
  iload arch pl w v s = (w', Err e) -> iw_invs w' = iw_invs w /\ iw_caches w' = iw_caches w.
Proof.
rewrite /iload; case: (getn _ _) => [o|x]; last by move=> [<- _].
by case: (load _ _ _ _ _) => [k [u|x]] // [<- _].
Qed.
Print Assumptions C52_failed_load.
