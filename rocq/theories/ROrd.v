(* The order of the real numbers as mathcomp structures, up to real closed
   fields, so that results about ordered fields apply to them.
   Not tied to a file of /repo. *)
From Coq Require Import Reals Lra.
From mathcomp Require Import all_ssreflect all_algebra.
From Coquelicot Require Import Coquelicot.
From Verif Require Import RInst Calculus.
Set Implicit Arguments.
Unset Strict Implicit.
Unset Printing Implicit Defensive.
Import GRing.Theory Num.Theory.

Definition Rleb (x y : R) : bool := if Rle_dec x y then true else false.
Lemma RlebP x y : reflect (Rle x y) (Rleb x y).
Proof. by rewrite /Rleb; case: Rle_dec => h; constructor. Qed.
Definition Rltb (x y : R) : bool := (y != x) && Rleb x y.

Lemma Rle0D (x y : R) : Rleb R0 x -> Rleb R0 y -> Rleb R0 (x + y).
Proof. by move=> /RlebP a /RlebP b; apply/RlebP; toR; lra. Qed.
Lemma Rle0M (x y : R) : Rleb R0 x -> Rleb R0 y -> Rleb R0 (x * y).
Proof. by move=> /RlebP a /RlebP b; apply/RlebP; apply: Rmult_le_pos. Qed.
Lemma Rle0_anti (x : R) : Rleb R0 x -> Rleb x R0 -> x = R0.
Proof. by move=> /RlebP a /RlebP b; apply: Rle_antisym. Qed.
Lemma Rsub_ge0 (x y : R) : Rleb R0 (y - x)%R = Rleb x y.
Proof. by apply/RlebP/RlebP; toR; lra. Qed.
Lemma Rle0_total (x : R) : Rleb R0 x || Rleb x R0.
Proof. by apply/orP; case: (Rle_dec R0 x) => h; [left|right]; apply/RlebP => //; lra. Qed.
Lemma RnormN (x : R) : Rabs (- x)%R = Rabs x.
Proof. exact: Rabs_Ropp. Qed.
Lemma Rge0_norm (x : R) : Rleb R0 x -> Rabs x = x.
Proof. by move=> /RlebP h; apply: Rabs_pos_eq. Qed.
Lemma Rlt_def (x y : R) : Rltb x y = (y != x) && Rleb x y.
Proof. by []. Qed.

Definition R_leMixin : realLeMixin R_idomainType :=
  RealLeMixin Rle0D Rle0M Rle0_anti Rsub_ge0 Rle0_total RnormN Rge0_norm Rlt_def.
Canonical R_porderType := POrderType ring_display R R_leMixin.
Canonical R_latticeType := LatticeType R R_leMixin.
Canonical R_distrLatticeType := DistrLatticeType R R_leMixin.
Canonical R_orderType := OrderType R R_leMixin.
Canonical R_numDomainType := NumDomainType R R_leMixin.
Canonical R_normedZmodType := NormedZmodType R R R_leMixin.
Canonical R_numFieldType := [numFieldType of R].
Canonical R_realDomainType := [realDomainType of R].
Canonical R_realFieldType := [realFieldType of R].

Local Open Scope ring_scope.
Lemma leRE (x y : R) : (x <= y)%O = true <-> Rle x y.
Proof. by split=> /RlebP. Qed.

Lemma horner_continuity (p : {poly R}) : continuity (fun x => p.[x]).
Proof.
elim/poly_ind: p => [|p c IH].
  have -> : (fun x : R => (0 : {poly R}).[x]) = fun _ => R0.
    by apply: FunctionalExtensionality.functional_extensionality => x; rewrite horner0.
  by apply: continuity_const => x y.
have -> : (fun x => (p * 'X + c%:P).[x]) = plus_fct (mult_fct (fun x => p.[x]) id) (fct_cte c).
  by apply: FunctionalExtensionality.functional_extensionality => x; rewrite hornerD hornerM hornerX hornerC.
apply: continuity_plus; last by apply: continuity_const => x y.
by apply: continuity_mult => //; apply: derivable_continuous; apply: derivable_id.
Qed.

Lemma R_rcf : Num.real_closed_axiom R_numDomainType.
Proof.
move=> p a b /RlebP ab /andP[/RlebP pa /RlebP pb].
have hab : Rle (Rmult p.[a] p.[b]) (IZR 0).
  have h : Rle (IZR 0) (Rmult (Ropp p.[a]) p.[b]) by apply: Rmult_le_pos => //; move: pa; rewrite /GRing.zero /=; lra.
  by lra.
have [x [[hx1 hx2] h0]] := IVT_cor (fun x => p.[x]) a b (horner_continuity p) ab hab.
by exists x; [apply/andP; split; apply/RlebP | apply/eqP].
Qed.
Canonical R_rcfType := RcfType R R_rcf.
