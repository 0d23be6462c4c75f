(* Second moments of the estimators of Estimators.v: specification side.  Expectations
   are functionals as in Estimators.white; nothing here models code. *)
From Coq Require Import String.
From mathcomp Require Import all_ssreflect all_algebra.
From Verif Require Import PyPrelude Tensor Spec Numpy Submatrix Inverse Estimators.
Set Implicit Arguments.
Unset Strict Implicit.
Unset Printing Implicit Defensive.
Import Order.Theory GRing.Theory Num.Theory.
Local Open Scope ring_scope.

Section Variance.
Variable R : realFieldType.
Implicit Types (E : ((nat -> R) -> R) -> R) (M : nat -> nat -> R).

(* fourth moments of independent symmetric coordinates with kurtosis kap: 1 for
   random signs, 3 for normal variables *)
Definition fourth (n : nat) E (kap : R) : Prop :=
  forall i j k l, (i < n)%N -> (j < n)%N -> (k < n)%N -> (l < n)%N ->
  E (fun x => x i * x j * (x k * x l)) =
    (i == j)%:R * (k == l)%:R + (i == k)%:R * (j == l)%:R + (i == l)%:R * (j == k)%:R
    + (kap - 3%:R) * ((i == j)%:R * (k == l)%:R * (i == k)%:R).

(* m independent draws from E *)
Definition iid (m : nat) E (EE : ((nat -> nat -> R) -> R) -> R) : Prop :=
  [/\ forall f g, (forall x, f x = g x) -> EE f = EE g,
      forall f g, EE (fun x => f x + g x) = EE f + EE g,
      forall c f, EE (fun x => c * f x) = c * EE f,
      forall a f, (a < m)%N -> EE (fun x => f (x a)) = E f &
      forall a b f g, (a < m)%N -> (b < m)%N -> a != b -> EE (fun x => f (x a) * g (x b)) = E f * E g].

Section Mean.
Variables (n m : nat) (E : ((nat -> R) -> R) -> R) (EE : ((nat -> nat -> R) -> R) -> R).
Hypotheses (hE : white n E) (hm : (0 < m)%N) (hEE : iid m E EE).

Lemma iid_sum (I : Type) (r : seq I) (F : I -> (nat -> nat -> R) -> R) :
  EE (fun x => \sum_(i <- r) F i x) = \sum_(i <- r) EE (F i).
Proof.
have [h1 h2 h3 _ _] := hEE; elim: r => [|i r IH].
  rewrite big_nil (h1 _ (fun x => 0 * 1)) ?h3 ?mul0r // => x.
  by rewrite big_nil ?mul0r.
by rewrite big_cons -IH -h2; apply: h1 => x; rewrite big_cons.
Qed.

(* the mean of m independent draws has the m-th part of the variance *)
Lemma mean_variance (f : (nat -> R) -> R) (mu : R) : E f = mu ->
  EE (fun x => ((\sum_(a < m) f (x a)) / m%:R - mu) ^+ 2) = E (fun x => (f x - mu) ^+ 2) / m%:R.
Proof.
move=> hmu; have [e1 e2 e3 e4 _] := hE; have [h1 h2 h3 h4 h5] := hEE.
have hm0 : m%:R != 0 :> R by rewrite pnatr_eq0 -lt0n.
pose g x := f x - mu.
have hg : E g = 0.
  rewrite (e1 _ (fun x => f x + - mu * 1)); last by move=> x; rewrite mulr1.
  by rewrite e2 e3 e4 hmu mulr1 subrr.
rewrite (h1 _ (fun x => (m%:R^-1 * m%:R^-1) * (\sum_(a < m) \sum_(b < m) g (x a) * g (x b)))); last first.
  move=> x; have -> : (\sum_(a < m) f (x a)) / m%:R - mu = (\sum_(a < m) g (x a)) / m%:R.
    by rewrite sumrB mulrBl sumr_const card_ord -[mu *+ _]mulr_natr mulfK.
  rewrite expr2 mulrACA mulrC; congr (_ * _); rewrite mulr_suml.
  by apply: eq_bigr => a _; rewrite mulr_sumr.
rewrite h3 iid_sum (eq_bigr (fun=> E (fun x => g x ^+ 2))); last first.
  move=> a _; rewrite iid_sum (bigD1 a) //= big1 ?addr0 => [|b ne]; last first.
    by rewrite h5 // ?hg ?mul0r // eq_sym.
  by rewrite -(h4 a) //; apply: h1 => x; rewrite expr2.
rewrite sumr_const card_ord -[X in _ * X]mulr_natl mulrA -[m%:R^-1 * m%:R^-1 * m%:R]mulrA mulVf // mulr1.
by rewrite mulrC.
Qed.
End Mean.

Section Quadratic.
Variables (n : nat) (E : ((nat -> R) -> R) -> R) (kap : R).
Hypotheses (hE : white n E) (h4 : fourth n E kap).

Definition quad M (x : nat -> R) : R := \sum_(i < n) x i * (\sum_(j < n) M i j * x j).
Definition tr M : R := \sum_(i < n) M i i.
Definition frob2 M : R := \sum_(i < n) \sum_(j < n) M i j ^+ 2.

Lemma delta_sum (c : nat -> R) (i : 'I_n) : \sum_(j < n) c j * (i == j :> nat)%:R = c i.
Proof.
rewrite (bigD1 i) //= eqxx mulr1 big1 ?addr0 // => j ne.
by rewrite [_ == _](negbTE (_ : nat_of_ord i != j)) ?mulr0 // eq_sym.
Qed.

Lemma variance_mean f mu : E f = mu -> E (fun x => (f x - mu) ^+ 2) = E (fun x => f x * f x) - mu ^+ 2.
Proof.
move=> hmu; have [e1 e2 e3 e4 _] := hE.
rewrite (e1 _ (fun x => f x * f x + ((- mu *+ 2) * f x + mu ^+ 2 * 1))); last first.
  move=> x; rewrite sqrrB mulr1 expr2 -addrA; congr (_ + _); congr (_ + _).
  by rewrite mulrnAl mulNr mulNrn mulrC.
rewrite e2 e2 !e3 e4 hmu mulr1; congr (_ + _).
by rewrite mulrnAl mulNr -expr2 mulr2n -addrA addNr addr0.
Qed.

Lemma quad_second M : E (fun x => quad M x * quad M x) =
  tr M ^+ 2 + frob2 M + (\sum_(i < n) \sum_(j < n) M i j * M j i) + (kap - 3%:R) * \sum_(i < n) M i i ^+ 2.
Proof.
have [e1 e2 e3 e4 _] := hE.
rewrite (e1 _ (fun x => \sum_(i < n) \sum_(j < n) \sum_(k < n) \sum_(l < n) (M i j * M k l) * (x i * x j * (x k * x l)))); last first.
  move=> x; rewrite /quad mulr_suml; apply: eq_bigr => i _.
  rewrite [x i * _]mulr_sumr mulr_suml; apply: eq_bigr => j _.
  rewrite mulr_sumr; apply: eq_bigr => k _.
  rewrite !mulr_sumr; apply: eq_bigr => l _.
  rewrite [x i * (_ * _)]mulrCA [x k * (_ * _)]mulrCA mulrACA.
  by [].
rewrite (white_sum hE).
under eq_bigr => i _.
  rewrite (white_sum hE).
  under eq_bigr => j _.
    rewrite (white_sum hE).
    under eq_bigr => k _.
      rewrite (white_sum hE).
      under eq_bigr => l _.
        rewrite e3 h4 // !mulrDr; over.
      rewrite !big_split /=; over.
    rewrite !big_split /=; over.
  rewrite !big_split /=; over.
rewrite !big_split /=; congr (_ + _ + _ + _).
- rewrite /tr expr2 mulr_suml; apply: eq_bigr => i _.
  transitivity (\sum_(j < n) M i j * (i == j :> nat)%:R * \sum_(k < n) M k k); last first.
    by rewrite -mulr_suml (delta_sum (M i)).
  apply: eq_bigr => j _; rewrite mulr_sumr; apply: eq_bigr => k _.
  rewrite -(delta_sum (M k)) mulr_sumr; apply: eq_bigr => l _.
  by rewrite mulrACA.
- apply: eq_bigr => i _; apply: eq_bigr => j _; rewrite expr2.
  transitivity (\sum_(k < n) M i j * M k j * (i == k :> nat)%:R).
    apply: eq_bigr => k _; rewrite -[in RHS](delta_sum (M k) j) mulr_sumr mulr_suml; apply: eq_bigr => l _.
    by rewrite -!mulrA; congr (_ * (_ * _)); rewrite mulrC.
  exact: (delta_sum (fun k => M i j * M k j)).
- apply: eq_bigr => i _; apply: eq_bigr => j _.
  transitivity (\sum_(k < n) M i j * M k i * (j == k :> nat)%:R).
    apply: eq_bigr => k _; rewrite -[in RHS](delta_sum (M k) i) mulr_sumr mulr_suml; apply: eq_bigr => l _.
    by rewrite -!mulrA.
  exact: (delta_sum (fun k => M i j * M k i)).
- rewrite mulr_sumr; apply: eq_bigr => i _.
  transitivity (\sum_(j < n) (kap - 3%:R) * (M i j * M i i) * (i == j :> nat)%:R).
    apply: eq_bigr => j _.
    transitivity (\sum_(k < n) (kap - 3%:R) * (M i j * M k k) * (i == j :> nat)%:R * (i == k :> nat)%:R).
      apply: eq_bigr => k _; rewrite -[in RHS](delta_sum (M k) k) !mulr_sumr !mulr_suml; apply: eq_bigr => l _.
      rewrite [LHS]mulrCA -!mulrA; congr (_ * (_ * (_ * _))).
      by rewrite [RHS]mulrCA.
    exact: (delta_sum (fun k => (kap - 3%:R) * (M i j * M k k) * (i == j :> nat)%:R)).
  rewrite (delta_sum (fun j => (kap - 3%:R) * (M i j * M i i))).
  by rewrite expr2.
Qed.

(* the variance of x^T M x *)
Lemma quad_variance M : E (fun x => (quad M x - tr M) ^+ 2) =
  frob2 M + (\sum_(i < n) \sum_(j < n) M i j * M j i) + (kap - 3%:R) * \sum_(i < n) M i i ^+ 2.
Proof.
rewrite variance_mean; last exact: (white_quadratic hE M).
by rewrite quad_second addrC -!addrA addKr.
Qed.
End Quadratic.
End Variance.

(* ---- finite product distributions ---- *)
Section Product.
Variable R : realFieldType.
(* uniform averages over a finite set, and over families of independent elements *)
Definition fmean (T : finType) (f : T -> R) : R := (\sum_t f t) / #|T|%:R.

Lemma fmean_ext (T : finType) (f g : T -> R) : f =1 g -> fmean f = fmean g.
Proof. by move=> h; rewrite /fmean (eq_bigr _ (fun b _ => h b)). Qed.
Lemma fmeanD (T : finType) (f g : T -> R) : fmean (fun t => f t + g t) = fmean f + fmean g.
Proof. by rewrite /fmean big_split mulrDl. Qed.
Lemma fmeanZ (T : finType) c (f : T -> R) : fmean (fun t => c * f t) = c * fmean f.
Proof. by rewrite /fmean -mulr_sumr mulrA. Qed.

Variables (T I : finType).
Hypothesis hT : (0 < #|T|)%N.

Lemma cardR_neq0 : #|T|%:R != 0 :> R. Proof. by rewrite pnatr_eq0 -lt0n. Qed.
Lemma fmean_const c : fmean (fun _ : T => c) = c.
Proof. by rewrite /fmean sumr_const -[c *+ _]mulr_natr mulfK // cardR_neq0. Qed.

Lemma fmean_prod (F : I -> T -> R) : fmean (fun w : {ffun I -> T} => \prod_i F i (w i)) = \prod_i fmean (F i).
Proof.
rewrite /fmean card_ffun natrX -exprVn.
have -> : \prod_i ((\sum_t F i t) / #|T|%:R) = \prod_i \sum_t (F i t / #|T|%:R).
  by apply: eq_bigr => i _; rewrite mulr_suml.
rewrite bigA_distr_bigA mulr_suml; apply: eq_bigr => w _.
by rewrite big_split prodr_const.
Qed.

Lemma fmean_two (a b : I) (f g : T -> R) : a != b ->
  fmean (fun w : {ffun I -> T} => f (w a) * g (w b)) = fmean f * fmean g.
Proof.
move=> ne; pose F i t := if i == a then f t else if i == b then g t else 1.
have h (h : (I -> T -> R) -> I -> R) : (forall i, i != a -> i != b -> h F i = 1) ->
    \prod_i h F i = h F a * h F b.
  move=> h1; rewrite (bigD1 a) //= (bigD1 b) /=; last by rewrite eq_sym.
  by rewrite big1 ?mulr1 // => i /andP [n1 n2]; apply: h1.
have Fb : F b =1 g by move=> t; rewrite /F eq_sym (negbTE ne) eqxx.
have Fa : F a =1 f by move=> t; rewrite /F eqxx.
have F1 i : i != a -> i != b -> F i =1 fun=> 1 by move=> n1 n2 t; rewrite /F (negbTE n1) (negbTE n2).
rewrite -(fmean_ext Fa) -(fmean_ext Fb) -(h (fun F i => fmean (F i))); last first.
  by move=> i n1 n2; rewrite (fmean_ext (F1 i n1 n2)) fmean_const.
rewrite -fmean_prod; apply: fmean_ext => w.
rewrite (h (fun F i => F i (w i))) => [|i n1 n2]; last exact: F1.
by rewrite /= Fa Fb.
Qed.

Lemma fmean_one (a : I) (f : T -> R) : fmean (fun w : {ffun I -> T} => f (w a)) = fmean f.
Proof.
pose F i t := if i == a then f t else 1.
have Fa : F a =1 f by move=> t; rewrite /F eqxx.
have F1 i : i != a -> F i =1 fun=> 1 by move=> n1 t; rewrite /F (negbTE n1).
transitivity (\prod_i fmean (F i)); last first.
  rewrite (bigD1 a) //= big1 ?mulr1 ?(fmean_ext Fa) // => i ne.
  by rewrite (fmean_ext (F1 i ne)) fmean_const.
rewrite -fmean_prod; apply: fmean_ext => w.
rewrite (bigD1 a) //= big1 ?mulr1 ?Fa // => i ne; exact: F1.
Qed.
End Product.

Section FiniteVectors.
Variables (R : realFieldType) (T : finType) (v : T -> R) (neg : T -> T) (kap : R).
Hypotheses (hT : (0 < #|T|)%N) (negK : involutive neg) (v_neg : forall t, v (neg t) = - v t).
Hypotheses (v2 : fmean (fun t => v t * v t) = 1) (v4 : fmean (fun t => v t * v t * (v t * v t)) = kap).

Definition fvec n (b : {ffun 'I_n -> T}) (i : nat) : R := if insub i is Some i' then v (b i') else 0.
Definition fin_E n (f : (nat -> R) -> R) : R := fmean (fun b : {ffun 'I_n -> T} => f (fvec b)).
Definition fin_EE n m (f : (nat -> nat -> R) -> R) : R :=
  fmean (fun w : {ffun 'I_m -> {ffun 'I_n -> T}} => f (fun a => if insub a is Some a' then fvec (w a') else fun=> 0)).

Lemma fvec_ord n (b : {ffun 'I_n -> T}) (i : 'I_n) : fvec b i = v (b i).
Proof. by rewrite /fvec valK. Qed.

Lemma fin_ext n f g : (forall x, f x = g x) -> fin_E n f = fin_E n g.
Proof. by move=> h; apply: fmean_ext => b. Qed.

(* replacing one coordinate by its negative *)
Definition negate n (i : 'I_n) (b : {ffun 'I_n -> T}) : {ffun 'I_n -> T} :=
  [ffun j => if j == i then neg (b j) else b j].
Lemma negateK n (i : 'I_n) : involutive (negate i).
Proof. by move=> b; apply/ffunP => j; rewrite !ffunE; case: eqP => //; rewrite negK. Qed.

Lemma fmean_odd n (i : 'I_n) (f : {ffun 'I_n -> T} -> R) : (forall b, f (negate i b) = - f b) -> fmean f = 0.
Proof.
move=> h; rewrite /fmean; set S := \sum_b _.
have e : S = - S.
  by rewrite {1}/S (reindex_inj (inv_inj (negateK i))) /= -sumrN; apply: eq_bigr => b _; rewrite h.
have -> : S = 0.
  apply/eqP; have : S + S == 0 by rewrite {1}e addNr.
  by rewrite -mulr2n mulrn_eq0.
by rewrite mul0r.
Qed.

Lemma second_ord n (i j : 'I_n) : fmean (fun b : {ffun 'I_n -> T} => v (b i) * v (b j)) = (i == j)%:R.
Proof.
have [->|ne] := eqVneq i j; first by rewrite (fmean_one hT j (fun t => v t * v t)) v2.
apply: (@fmean_odd n i) => b; rewrite !ffunE eqxx eq_sym (negbTE ne) v_neg.
by rewrite mulNr.
Qed.

Lemma fin_white n : white n (fin_E n).
Proof.
split.
- exact: fin_ext.
- by move=> f g; rewrite /fin_E fmeanD.
- by move=> c f; rewrite /fin_E fmeanZ.
- by rewrite /fin_E fmean_const // card_ffun expn_gt0 hT.
- move=> i j hi hj; rewrite -(second_ord (Ordinal hi) (Ordinal hj)).
  by apply: fmean_ext => b; rewrite -!fvec_ord.
Qed.

Lemma fourth_ord n (i j k l : 'I_n) : fmean (fun b : {ffun 'I_n -> T} => v (b i) * v (b j) * (v (b k) * v (b l))) =
    (i == j)%:R * (k == l)%:R + (i == k)%:R * (j == l)%:R + (i == l)%:R * (j == k)%:R
    + (kap - 3%:R) * ((i == j)%:R * (k == l)%:R * (i == k)%:R).
Proof.
have e3 : 1 + 1 + 1 = 3%:R :> R by rewrite !mulrSr add0r.
have pair (p q : 'I_n) : fmean (fun b : {ffun 'I_n -> T} => v (b p) * v (b p) * (v (b q) * v (b q))) =
    if p == q then kap else 1.
  case: eqVneq => [->|ne]; first by rewrite (fmean_one hT q (fun t => v t * v t * (v t * v t))) v4.
  by rewrite (fmean_two hT (fun t => v t * v t) (fun t => v t * v t) ne) v2 mulr1.
have [->|n1] := eqVneq i j.
  have [->|n2] := eqVneq k l.
    rewrite pair; case: eqVneq => [_|_] /=; rewrite ?mulr1 ?mulr0 ?addr0 //.
    by rewrite e3 addrC subrK.
  rewrite !mulr0 ?mul0r ?mulr0 addr0 add0r.
  rewrite (@fmean_odd n k) => [|b]; last first.
    rewrite !ffunE eqxx [l == k]eq_sym (negbTE n2) v_neg.
    by case: eqP => _; rewrite ?v_neg ?mulrNN mulNr mulrN.
  have [->|n3] := eqVneq j k; last by rewrite mul0r mulr0 addr0.
  by rewrite (negbTE n2) mulr0 mul0r addr0.
rewrite !mul0r add0r mulr0 addr0.
have odd_j (p q : 'I_n) : j != p -> j != q -> fmean (fun b : {ffun 'I_n -> T} => v (b p) * v (b p) * (v (b j) * v (b q))) = 0.
  move=> n2 n3; apply: (@fmean_odd n j) => b.
  by rewrite !ffunE eqxx [p == j]eq_sym [q == j]eq_sym (negbTE n2) (negbTE n3) v_neg mulNr mulrN.
have [e|n2] := eqVneq i k.
  subst k; rewrite mul1r [j == i]eq_sym (negbTE n1) mulr0 addr0.
  rewrite (@fmean_ext _ _ _ (fun b : {ffun 'I_n -> T} => v (b i) * v (b i) * (v (b j) * v (b l)))); last by move=> b; rewrite mulrACA.
  have [<-|n3] := eqVneq j l; first by rewrite pair (negbTE n1).
  by apply: odd_j => //; rewrite eq_sym.
rewrite mul0r add0r.
have [e|n3] := eqVneq i l.
  subst l; rewrite mul1r.
  rewrite (@fmean_ext _ _ _ (fun b : {ffun 'I_n -> T} => v (b i) * v (b i) * (v (b j) * v (b k)))); last first.
    by move=> b; rewrite [v (b k) * _]mulrC mulrACA.
  have [<-|n3] := eqVneq j k; first by rewrite pair (negbTE n1).
  by apply: odd_j => //; rewrite eq_sym.
rewrite mul0r; apply: (@fmean_odd n i) => b.
by rewrite !ffunE eqxx ![_ == i]eq_sym (negbTE n1) (negbTE n2) (negbTE n3) v_neg !mulNr.
Qed.

Lemma fin_fourth n : fourth n (fin_E n) kap.
Proof.
move=> i j k l hi hj hk hl.
rewrite -[RHS](fourth_ord (Ordinal hi) (Ordinal hj) (Ordinal hk) (Ordinal hl)).
by apply: fmean_ext => b; rewrite -!fvec_ord.
Qed.

Lemma fin_iid n m : iid m (fin_E n) (fin_EE n m).
Proof.
have hT' : (0 < #|{ffun 'I_n -> T}|)%N by rewrite card_ffun expn_gt0 hT.
split.
- by move=> f g h; apply: fmean_ext => w.
- by move=> f g; rewrite /fin_EE fmeanD.
- by move=> c f; rewrite /fin_EE fmeanZ.
- move=> a f ha; rewrite /fin_E -(fmean_one hT' (Ordinal ha) (fun b => f (fvec b))).
  by apply: fmean_ext => w; rewrite insubT.
- move=> a b f g ha hb ne.
  rewrite /fin_E -(@fmean_two _ _ _ hT' (Ordinal ha) (Ordinal hb) (fun b => f (fvec b)) (fun b => g (fvec b))) //.
  by apply: fmean_ext => w; rewrite !insubT.
Qed.
End FiniteVectors.
