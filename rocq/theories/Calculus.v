(* Partial derivatives of functions of infinitely many real coordinates (of which
   a network uses finitely many), on top of Coquelicot's Derive.  Used both by
   the specifications (Hessian, Jacobian, ... of a risk) and by the model of
   autograd, whose contract is "exact partial derivatives". *)
From Coq Require Import Reals ClassicalEpsilon FunctionalExtensionality Lra.
From mathcomp Require Import all_ssreflect all_algebra.
From Coquelicot Require Import Coquelicot.
From Verif Require Import RInst.
Set Implicit Arguments.
Unset Strict Implicit.
Unset Printing Implicit Defensive.
Import GRing.Theory.
Local Open Scope ring_scope.

Lemma RplusE (x y : R) : Rplus x y = x + y. Proof. by []. Qed.
Lemma RmultE (x y : R) : Rmult x y = x * y. Proof. by []. Qed.
Lemma RoppE (x : R) : Ropp x = - x. Proof. by []. Qed.
Lemma RminusE (x y : R) : Rminus x y = x - y. Proof. by []. Qed.
Lemma RinvE (x : R) : x <> 0 -> Rinv x = x^-1.
Proof. by move=> /eqP h; rewrite /GRing.inv /= /Rinv0 (negbTE h). Qed.
Lemma RdivE (x y : R) : y <> 0 -> Rdiv x y = x / y.
Proof. by move=> h; rewrite /Rdiv RinvE. Qed.

(* mathcomp's n%:R is INR n *)
Lemma natrE (n : nat) : n%:R = INR n :> R.
Proof. by elim: n => // n IH; rewrite S_INR -IH -addn1 natrD. Qed.

Lemma natr_neq0 (n : nat) : (0 < n)%N -> (n%:R : R) != 0.
Proof. by case: n => // n _; apply/eqP; rewrite natrE; apply: not_0_INR. Qed.

Definition point := nat -> R.

(* x with coordinate i set to t *)
Definition upd (x : point) (i : nat) (t : R) : point := fun j => if j == i then t else x j.

Lemma upd_id x i : upd x i (x i) = x.
Proof. by apply: functional_extensionality => j; rewrite /upd; case: eqP => [->|]. Qed.

Lemma upd_same x i t : upd x i t i = t.
Proof. by rewrite /upd eqxx. Qed.

Lemma upd_upd x i s t : upd (upd x i s) i t = upd x i t.
Proof. by apply: functional_extensionality => j; rewrite /upd; case: eqP. Qed.

Lemma upd_comm x i j s t : i != j -> upd (upd x i s) j t = upd (upd x j t) i s.
Proof.
move=> h; apply: functional_extensionality => k; rewrite /upd.
by case: (k =P j) => [->|//]; rewrite eq_sym (negbTE h).
Qed.

(* the partial derivative of F in coordinate i at x, and its existence *)
Definition pd (i : nat) (F : point -> R) (x : point) : R := Derive (fun t => F (upd x i t)) (x i).
Definition ex_pd (i : nat) (F : point -> R) (x : point) : Prop :=
  ex_derive (fun t => F (upd x i t)) (x i).

(* F has first partial derivatives around x along the lines needed for the
   second ones, and the second ones at x (coordinates below D). *)
Definition twice_diff (D : nat) (F : point -> R) (x : point) : Prop :=
  forall i j, (i < D)%N -> (j < D)%N ->
    locally (x j) (fun t => ex_pd i F (upd x j t)) /\ ex_pd j (pd i F) x.

Lemma pd_ext F G i x : (forall z, F z = G z) -> pd i F x = pd i G x.
Proof. by move=> h; apply: Derive_ext => t. Qed.

Lemma ex_pd_ext F G i x : (forall z, F z = G z) -> ex_pd i F x -> ex_pd i G x.
Proof. by move=> h; apply: ex_derive_ext => t. Qed.

Lemma pd_const (c : R) i x : pd i (fun=> c) x = 0.
Proof. exact: Derive_const. Qed.

Lemma pd_scal c F i x : pd i (fun z => c * F z) x = c * pd i F x.
Proof. exact: Derive_scal. Qed.

Lemma ex_pd_scal c F i x : ex_pd i F x -> ex_pd i (fun z => c * F z) x.
Proof. by move=> h; apply: ex_derive_scal. Qed.

Lemma pd_plus F G i x : ex_pd i F x -> ex_pd i G x ->
  pd i (fun z => F z + G z) x = pd i F x + pd i G x.
Proof. by move=> hF hG; rewrite /pd; apply: Derive_plus. Qed.

Lemma ex_pd_plus F G i x : ex_pd i F x -> ex_pd i G x -> ex_pd i (fun z => F z + G z) x.
Proof. by move=> hF hG; apply: (@ex_derive_plus _ R_NormedModule). Qed.

Section Sums.
Variable (A : Type).
Implicit Types (s : seq A) (F : A -> point -> R).

Fixpoint Forall_in (P : A -> Prop) s : Prop :=
  match s with [::] => True | a :: s' => P a /\ Forall_in P s' end.

Lemma Forall_in_impl (P Q : A -> Prop) s : (forall a, P a -> Q a) -> Forall_in P s -> Forall_in Q s.
Proof. by move=> h; elim: s => //= a s IH [/h ? /IH ?]. Qed.

Lemma Forall_in_all (P : A -> Prop) s : (forall a, P a) -> Forall_in P s.
Proof. by move=> h; elim: s => //=. Qed.

Lemma Forall_in_cat (P : A -> Prop) s1 s2 :
  Forall_in P (s1 ++ s2) <-> Forall_in P s1 /\ Forall_in P s2.
Proof. by elim: s1 => [|a s IH] /=; tauto. Qed.

Lemma ex_pd_sum s F i x : Forall_in (fun a => ex_pd i (F a) x) s ->
  ex_pd i (fun z => \sum_(a <- s) F a z) x.
Proof.
elim: s => [_|a s IH] /=.
  by apply: (@ex_pd_ext (fun=> 0)) => [z|]; [rewrite big_nil | apply: ex_derive_const].
case=> ha hs; apply: (@ex_pd_ext (fun z => F a z + \sum_(b <- s) F b z)) => [z|].
  by rewrite big_cons.
by apply: ex_pd_plus => //; exact: IH.
Qed.

Lemma pd_sum s F i x : Forall_in (fun a => ex_pd i (F a) x) s ->
  pd i (fun z => \sum_(a <- s) F a z) x = \sum_(a <- s) pd i (F a) x.
Proof.
elim: s => [_|a s IH] /=.
  by rewrite big_nil (@pd_ext _ (fun=> 0)) ?pd_const // => z; rewrite big_nil.
case=> ha hs; rewrite big_cons -(IH hs).
rewrite (@pd_ext _ (fun z => F a z + \sum_(b <- s) F b z)); last by move=> z; rewrite big_cons.
by apply: pd_plus => //; exact: ex_pd_sum.
Qed.

Lemma locally_Forall_in (P : A -> R -> Prop) s (t0 : R) :
  Forall_in (fun a => locally t0 (P a)) s -> locally t0 (fun t => Forall_in (P^~ t) s).
Proof.
elim: s => [_|a s IH] /=; first exact: filter_true.
by case=> ha /IH hs; apply: filter_and.
Qed.

Lemma pd2_sum D s F i j x : (i < D)%N -> (j < D)%N -> Forall_in (fun a => twice_diff D (F a) x) s ->
  pd j (pd i (fun z => \sum_(a <- s) F a z)) x = \sum_(a <- s) pd j (pd i (F a)) x.
Proof.
move=> hi hj h; rewrite -pd_sum; last by apply: Forall_in_impl h => a /(_ i j hi hj) [].
apply: Derive_ext_loc.
have : locally (x j) (fun t => Forall_in (fun a => ex_pd i (F a) (upd x j t)) s).
  by apply: locally_Forall_in; apply: Forall_in_impl h => a /(_ i j hi hj) [].
by apply: filter_imp => t /pd_sum.
Qed.

End Sums.

Lemma pd2_scal c F i j x : pd j (pd i (fun z => c * F z)) x = c * pd j (pd i F) x.
Proof. by rewrite -pd_scal; apply: Derive_ext => t; rewrite pd_scal. Qed.

(* A function that does not look at coordinate i has zero derivative there. *)
Lemma pd_indep F i x : (forall t, F (upd x i t) = F x) -> pd i F x = 0.
Proof.
by move=> h; rewrite /pd (@Derive_ext _ (fun=> F x)) // Derive_const.
Qed.

(* a coordinate projection *)
Lemma pd_coord i j x : pd i (fun z => z j) x = (j == i)%:R.
Proof.
rewrite /pd /upd; case: eqP => _; [exact: Derive_id | exact: Derive_const].
Qed.
Lemma ex_pd_coord i j x : ex_pd i (fun z => z j) x.
Proof. rewrite /ex_pd /upd; case: eqP => _; [exact: ex_derive_id | exact: ex_derive_const]. Qed.

(* turn mathcomp's operations on R into the standard library's, for lra/field *)
Ltac toR := cbv beta; try match goal with |- @eq _ ?x ?y => change (@eq R x y) end; repeat match goal with
  | |- context [@GRing.add ?T ?x ?y] => change (@GRing.add T x y) with (Rplus x y)
  | |- context [@GRing.opp ?T ?x] => change (@GRing.opp T x) with (Ropp x)
  | |- context [@GRing.mul ?T ?x ?y] => change (@GRing.mul T x y) with (Rmult x y)
  | |- context [@GRing.zero ?T] => change (@GRing.zero T) with (IZR 0)
  | |- context [@GRing.one ?T] => change (@GRing.one T) with (IZR 1)
  | |- context [@GRing.natmul ?T ?x 2] => change (@GRing.natmul T x 2) with (Rplus x x)
  | |- context [@intmul ?T ?x (Posz 2)] => change (@intmul T x (Posz 2)) with (Rplus x x)
  end.

(* order and absolute value with ring_scope arguments *)
Notation rle x y := (Rle x%R y%R).
Notation rlt x y := (Rlt x%R y%R).
Notation rabs x := (Rabs x%R).

(* Total differentiability in the first n coordinates with gradient g, stated
   with the sum norm. *)
Definition tdiff (n : nat) (F : point -> R) (x : point) (g : nat -> R) : Prop :=
  forall eps, rlt 0 eps -> exists2 del, rlt 0 del & forall y,
    (forall c, (c < n)%N -> rlt (rabs (y c - x c)) del) ->
    (forall c, (n <= c)%N -> y c = x c) ->
    rle (rabs (F y - F x - \sum_(c < n) g c * (y c - x c)))
        (eps * \sum_(c < n) rabs (y c - x c)).

Lemma Rabs_sum n (f : nat -> R) :
  rle (rabs (\sum_(c < n) f c)) (\sum_(c < n) rabs (f c)).
Proof.
elim: n => [|n IH]; first by rewrite !big_ord0 Rabs_R0; apply: Rle_refl.
rewrite !big_ord_recr /=; apply: Rle_trans (Rabs_triang _ _) _.
by apply: Rplus_le_compat_r.
Qed.

Lemma Rle_sum n (f g : nat -> R) : (forall c, (c < n)%N -> rle (f c) (g c)) ->
  rle (\sum_(c < n) f c) (\sum_(c < n) g c).
Proof.
elim: n => [_|n IH h]; first by rewrite !big_ord0; apply: Rle_refl.
rewrite !big_ord_recr /=; apply: Rplus_le_compat; last exact: h.
by apply: IH => c hc; apply: h; apply: ltnW.
Qed.

Lemma Rsum_ge0 n (f : nat -> R) : (forall c, (c < n)%N -> rle 0 (f c)) -> rle 0 (\sum_(c < n) f c).
Proof.
move=> h; apply: Rle_trans (Rle_sum h); rewrite big1 //; apply: Rle_refl.
Qed.

(* chain rule along a curve that moves the first n coordinates *)
Lemma chain_rule n F (u : R -> point) (du : nat -> R) t0 g :
  tdiff n F (u t0) g ->
  (forall c, (c < n)%N -> is_derive (fun t => u t c) t0 (du c)) ->
  (forall t c, (n <= c)%N -> u t c = u t0 c) ->
  is_derive (fun t => F (u t)) t0 (\sum_(c < n) g c * du c).
Proof.
move=> hF hu hout.
(* linear growth of the curve *)
pose B := (\sum_(c < n) (rabs (du c) + 1) : R).
have B0 : rle 0 B.
  by apply: (@Rsum_ge0 n (fun c => rabs (du c) + 1)) => c _; move: (Rabs_pos (du c)); toR; lra.
pose G := (\sum_(c < n) rabs (g c) : R).
have G0 : rle 0 G.
  by apply: (@Rsum_ge0 n (fun c => rabs (g c))) => c _; apply: Rabs_pos.
have expand : forall e : posreal, exists2 d : posreal, rle (d : R) 1 & forall t : R, rlt (rabs (t - t0)) (d : R) ->
    forall c, (c < n)%N -> rle (rabs (u t c - u t0 c - du c * (t - t0))) ((e : R) * rabs (t - t0)).
  move=> e; elim: n {F g hF B B0 G G0 hout} hu => [_|n IH hu].
    by exists (mkposreal 1 Rlt_0_1) => //=; apply: Rle_refl.
  have [d1 d11 h1] := IH (fun c hc => hu c (ltnW hc)).
  have [_ /(_ t0) hd] := hu n (ltnSn n).
  have /(_ e) [d2 h2] := hd (fun P => id).
  have hm : rlt 0 (Rmin d1 d2) by apply: Rmin_pos; apply: cond_pos.
  exists (mkposreal _ hm) => /=; first by apply: Rle_trans d11; apply: Rmin_l.
  move=> t ht c; rewrite ltnS leq_eqVlt => /orP[/eqP ->|hc]; last first.
    by apply: h1 => //; apply: Rlt_le_trans ht (Rmin_l _ _).
  have := h2 t (Rlt_le_trans _ _ _ ht (Rmin_r _ _)).
  rewrite /norm /= /abs /= /minus /= /plus /= /opp /= /scal /= /mult /= => h.
  by rewrite mulrC.
split; first exact: is_linear_scal_l.
move=> x hx; have <- : t0 = x by apply: is_filter_lim_locally_unique hx.
move=> {hx} e.
pose e1 := Rdiv e (2 * (B + 1)); pose e2 := Rdiv e (2 * (G + 1)).
have e0 : rlt 0 e by apply: cond_pos.
have he1 : rlt 0 e1.
  by apply: Rdiv_lt_0_compat; move: B0 e0; toR; lra.
have he2 : rlt 0 e2.
  by apply: Rdiv_lt_0_compat; move: G0 e0; toR; lra.
have [dF dF0 hF'] := hF e1 he1.
have [d1 d11 h1] := expand (mkposreal _ he2).
have [d2 d21 h2] := expand (mkposreal _ Rlt_0_1).
have hd3 : rlt 0 (Rdiv dF (B + 1)).
  by apply: Rdiv_lt_0_compat; move: B0 dF0; toR; lra.
have hm : rlt 0 (Rmin (Rmin d1 d2) (Rdiv dF (B + 1))).
  by apply: Rmin_pos => //; apply: Rmin_pos; apply: cond_pos.
exists (mkposreal _ hm) => t /= ht.
have ht' : rlt (rabs (t - t0)) (Rmin (Rmin d1 d2) (Rdiv dF (B + 1))) by [].
have ht1 : rlt (rabs (t - t0)) d1.
  by apply: Rlt_le_trans ht' _; apply: Rle_trans (Rmin_l _ _) (Rmin_l _ _).
have ht2 : rlt (rabs (t - t0)) d2.
  by apply: Rlt_le_trans ht' _; apply: Rle_trans (Rmin_l _ _) (Rmin_r _ _).
have ht3 : rlt (rabs (t - t0)) (Rdiv dF (B + 1)).
  by apply: Rlt_le_trans ht' _; apply: Rmin_r.
have grow : forall c, (c < n)%N -> rle (rabs (u t c - u t0 c)) ((rabs (du c) + 1) * rabs (t - t0)).
  move=> c hc; have h := h2 t ht2 c hc; rewrite /= in h.
  have -> : u t c - u t0 c = (u t c - u t0 c - du c * (t - t0)) + du c * (t - t0) by rewrite addrNK.
  apply: Rle_trans (Rabs_triang _ _) _.
  rewrite -[du c * (t - t0)]RmultE Rabs_mult; move: h; toR; lra.
have bound : rle (\sum_(c < n) rabs (u t c - u t0 c)) (B * rabs (t - t0)).
  rewrite /B mulr_suml.
  by apply: (@Rle_sum n (fun c => rabs (u t c - u t0 c)) (fun c => (rabs (du c) + 1) * rabs (t - t0))).
have near : forall c, (c < n)%N -> rlt (rabs (u t c - u t0 c)) dF.
  move=> c hc.
  have le1 : rle (rabs (u t c - u t0 c)) (B * rabs (t - t0)).
    apply: Rle_trans bound; rewrite (bigD1 (Ordinal hc)) //= -[X in Rle X]addr0 -!RplusE.
    apply: Rplus_le_compat_l.
    rewrite big_mkcond /=.
    apply: (@Rsum_ge0 n (fun i => if i != c then rabs (u t i - u t0 i) else 0)) => i _.
    by case: ifP => _; [apply: Rabs_pos | apply: Rle_refl].
  apply: Rle_lt_trans le1 _.
  have b1 : rlt 0 (B + 1) by move: B0; toR; lra.
  have : rlt ((B + 1) * rabs (t - t0)) dF.
    have := Rmult_lt_compat_l _ _ _ b1 ht3; congr (rlt _ _).
    by rewrite /Rdiv -Rmult_assoc Rinv_r_simpl_m //; apply: Rgt_not_eq.
  by move: (Rabs_pos (t - t0)%R); toR; lra.
have key := hF' (u t) near (fun c hc => hout t c hc).
rewrite /norm /= /abs /= /minus /= /plus /= /opp /= /scal /= /mult /=.
have -> : Rplus (Rplus (F (u t)) (Ropp (F (u t0))))
   (Ropp (Rmult (Rplus t (Ropp t0)) (\sum_(c < n) g c * du c))) =
   (F (u t) - F (u t0) - \sum_(c < n) g c * (u t c - u t0 c)) +
   \sum_(c < n) g c * (u t c - u t0 c - du c * (t - t0)).
  rewrite !RplusE !RoppE RmultE.
  have -> : \sum_(c < n) g c * (u t c - u t0 c - du c * (t - t0)) =
            \sum_(c < n) g c * (u t c - u t0 c) - (t - t0) * \sum_(c < n) g c * du c.
    rewrite mulr_sumr -sumrB; apply: eq_bigr => c _.
    by rewrite mulrBr [(t - t0) * _]mulrC -mulrA.
  by rewrite addrA addrNK.
apply: Rle_trans (Rabs_triang _ _) _.
have p1 : rle (e1 * \sum_(c < n) rabs (u t c - u t0 c)) (Rmult (Rdiv e 2) (rabs (t - t0))).
  apply: Rle_trans (Rmult_le_compat_l _ _ _ (Rlt_le _ _ he1) bound) _.
  rewrite /e1 -!RmultE -!RplusE.
  change (2 : R) with (Rplus R1 R1); change (1:R) with R1.
  have bb : B = Rminus (Rplus B R1) R1 by lra.
  have b1 : rlt 0 (Rplus B R1) by move: B0; toR; lra.
  have -> : Rmult (Rdiv e (Rmult (Rplus R1 R1) (Rplus B R1))) (Rmult B (rabs (t - t0))) =
     Rmult (Rmult (Rdiv e 2) (rabs (t - t0))) (Rdiv B (Rplus B R1)).
    by toR; field; apply: Rgt_not_eq; move: b1; toR; lra.
  rewrite -[X in Rle _ X]Rmult_1_r; apply: Rmult_le_compat_l.
    by apply: Rmult_le_pos; [move: e0; toR; lra | apply: Rabs_pos].
  apply/(Rle_div_l _ _ _ b1); move: B0; toR; lra.
have p2 : rle (rabs (\sum_(c < n) g c * (u t c - u t0 c - du c * (t - t0))))
              (Rmult (Rdiv e 2) (rabs (t - t0))).
  apply: Rle_trans (@Rabs_sum n (fun c => g c * (u t c - u t0 c - du c * (t - t0)))) _.
  have : rle (\sum_(c < n) rabs (g c * (u t c - u t0 c - du c * (t - t0))))
             (\sum_(c < n) rabs (g c) * (e2 * rabs (t - t0))).
    apply: (@Rle_sum n (fun c => rabs (g c * (u t c - u t0 c - du c * (t - t0))))
       (fun c => rabs (g c) * (e2 * rabs (t - t0)))) => c hc.
    rewrite -RmultE Rabs_mult; apply: Rmult_le_compat_l; first exact: Rabs_pos.
    exact: (h1 t ht1 c hc).
  move/Rle_trans; apply; rewrite -mulr_suml -/G /e2 -!RmultE -!RplusE.
  change (2 : R) with (Rplus R1 R1); change (1:R) with R1.
  have g1 : rlt 0 (Rplus G R1) by move: G0; toR; lra.
  have -> : Rmult G (Rmult (Rdiv e (Rmult (Rplus R1 R1) (Rplus G R1))) (rabs (t - t0))) =
     Rmult (Rmult (Rdiv e 2) (rabs (t - t0))) (Rdiv G (Rplus G R1)).
    by toR; field; apply: Rgt_not_eq; move: g1; toR; lra.
  rewrite -[X in Rle _ X]Rmult_1_r; apply: Rmult_le_compat_l.
    by apply: Rmult_le_pos; [move: e0; toR; lra | apply: Rabs_pos].
  apply/(Rle_div_l _ _ _ g1); move: G0; toR; lra.
have -> : Rmult e (rabs (Rplus t (Ropp t0))) =
  Rplus (Rmult (Rdiv e 2) (rabs (t - t0))) (Rmult (Rdiv e 2) (rabs (t - t0))).
  by toR; field.
by apply: Rplus_le_compat p2; apply: Rle_trans key p1.
Qed.

(* Twice continuously differentiable around x, in the coordinates below D. *)
Definition C2_at (D : nat) (F : point -> R) (x : point) : Prop :=
  forall i j, (i < D)%N -> (j < D)%N -> i != j ->
  [/\ locally_2d (fun u v => let z := upd (upd x i u) j v in
        [/\ ex_pd i F z, ex_pd j F z, ex_pd i (pd j F) z & ex_pd j (pd i F) z]) (x i) (x j),
      continuity_2d_pt (fun u v => pd i (pd j F) (upd (upd x i u) j v)) (x i) (x j) &
      continuity_2d_pt (fun u v => pd j (pd i F) (upd (upd x i u) j v)) (x i) (x j)].

Lemma pd_line_i F x i j u v : i != j ->
  pd i F (upd (upd x i u) j v) = Derive (fun z => F (upd (upd x i z) j v)) u.
Proof.
move=> hij; rewrite /pd.
have -> : upd (upd x i u) j v i = u by rewrite /upd (negbTE hij) eqxx.
apply: Derive_ext => t; congr F.
by rewrite (upd_comm _ _ _ hij) upd_upd (upd_comm _ _ _ hij).
Qed.

Lemma pd_line_j F x i j u v :
  pd j F (upd (upd x i u) j v) = Derive (fun z => F (upd (upd x i u) j z)) v.
Proof. by rewrite /pd upd_same; apply: Derive_ext => t; rewrite upd_upd. Qed.

Lemma ex_pd_line_i F x i j u v : i != j ->
  ex_pd i F (upd (upd x i u) j v) -> ex_derive (fun z => F (upd (upd x i z) j v)) u.
Proof.
move=> hij; rewrite /ex_pd.
have -> : upd (upd x i u) j v i = u by rewrite /upd (negbTE hij) eqxx.
apply: ex_derive_ext => t; congr F.
by rewrite (upd_comm _ _ _ hij) upd_upd (upd_comm _ _ _ hij).
Qed.

Lemma ex_pd_line_j F x i j u v :
  ex_pd j F (upd (upd x i u) j v) -> ex_derive (fun z => F (upd (upd x i u) j z)) v.
Proof. by rewrite /ex_pd upd_same; apply: ex_derive_ext => t; rewrite upd_upd. Qed.

Lemma upd2_id x i j : upd (upd x i (x i)) j (x j) = x.
Proof. by rewrite upd_id upd_id. Qed.

Lemma pd_symm D F x i j : (i < D)%N -> (j < D)%N -> C2_at D F x ->
  pd j (pd i F) x = pd i (pd j F) x.
Proof.
move=> hi hj hF; case: (eqVneq i j) => [->//|hij].
have [h1 h2 h3] := hF i j hi hj hij.
pose f u v := F (upd (upd x i u) j v).
have e1 : forall u v, pd i (pd j F) (upd (upd x i u) j v) =
    Derive (fun z => Derive (fun t => f z t) v) u.
  by move=> u v; rewrite (pd_line_i _ _ _ _ hij); apply: Derive_ext => t; apply: pd_line_j.
have e2 : forall u v, pd j (pd i F) (upd (upd x i u) j v) =
    Derive (fun z => Derive (fun t => f t z) u) v.
  by move=> u v; rewrite pd_line_j; apply: Derive_ext => t; apply: (pd_line_i _ _ _ _ hij).
have := @Schwarz f (x i) (x j); rewrite -e1 -e2 upd2_id => ->; first by [].
- apply: locally_2d_impl h1; apply: locally_2d_forall => u v [k1 k2 k3 k4]; split; [|split; [|split]].
  + exact: ex_pd_line_i k1.
  + exact: ex_pd_line_j k2.
  + move: (ex_pd_line_i hij k3); apply: ex_derive_ext => t; exact: pd_line_j.
  + move: (ex_pd_line_j k4); apply: ex_derive_ext => t; exact: (pd_line_i _ _ _ _ hij).
- by move=> eps; move: (h2 eps); apply: locally_2d_impl; apply: locally_2d_forall => u v; rewrite !e1.
- by move=> eps; move: (h3 eps); apply: locally_2d_impl; apply: locally_2d_forall => u v; rewrite !e2.
Qed.
