(* Backward functions of backward functions, from the derivatives of the backward functions
   themselves: linear layers, entrywise activations, the squared error, and fully connected
   networks of any depth. *)
From Coq Require Import Reals FunctionalExtensionality.
From Coquelicot Require Import Coquelicot.
From mathcomp Require Import all_ssreflect all_algebra.
From Verif Require Import PyPrelude Tensor RInst Calculus Losses Curvature ActHess Autograd AutogradProof AutogradLoss DoubleBack.
Set Implicit Arguments.
Unset Strict Implicit.
Unset Printing Implicit Defensive.
Import GRing.Theory.
Local Open Scope ring_scope.

Local Notation vec := (seq R).

(* xs with entry (i, c) replaced by s *)
Definition put (xs : seq vec) (i c : nat) (s : R) : seq vec :=
  mkseq (fun k => mkseq (fun d => if (k == i) && (d == c) then s else en xs k d) (size (nth [::] xs k))) (size xs).
(* the transposed Jacobian of f at xs, applied to u *)
Definition exact_vjp (f : seq vec -> vec) (sz : nat) (xs : seq vec) (u : vec) : seq vec :=
  mkseq (fun i => mkseq (fun c => \sum_(o < sz) nth 0 u o * Derive (fun s => nth 0 (f (put xs i c s)) o) (en xs i c))
    (size (nth [::] xs i))) (size xs).
(* the backward functions of the backward functions *)
Definition exact_vjp2 (n : node) (k : nat) (xs : seq vec) (u : vec) : seq vec :=
  exact_vjp (fun xs => nth [::] (nd_vjp n (take (size (nd_args n)) xs) (nth [::] xs (size (nd_args n)))) k) (size u) xs u.

Lemma put_size xs i c s : map size (put xs i c s) = map size xs.
Proof.
apply: map_size_eq; rewrite ?size_mkseq // => k; case: (ltnP k (size xs)) => h; first by rewrite nth_mkseq // size_mkseq.
by rewrite !nth_default ?size_mkseq.
Qed.
Lemma en_put xs i c s k d : (d < size (nth [::] xs k))%N -> en (put xs i c s) k d = if (k == i) && (d == c) then s else en xs k d.
Proof.
move=> h; have hk : (k < size xs)%N by move: h; case: (ltnP k (size xs)) => // hk; rewrite (nth_default _ hk).
by rewrite /en nth_mkseq // nth_mkseq.
Qed.
Lemma put_moves xs i c : moves (fun s => put xs i c s) xs
  (mkseq (fun k => mkseq (fun d => ((k == i) && (d == c))%:R) (size (nth [::] xs k))) (size xs)) (en xs i c).
Proof.
split=> [|s||k d h].
- apply: (@eq_from_nth _ [::]); rewrite ?size_mkseq // => k hk; rewrite nth_mkseq //.
  apply: (@eq_from_nth _ 0); rewrite ?size_mkseq // => d hd; rewrite nth_mkseq //.
  by case: andP => // -[/eqP -> /eqP ->].
- exact: put_size.
- apply: map_size_eq; rewrite ?size_mkseq // => k; case: (ltnP k (size xs)) => h; first by rewrite nth_mkseq // size_mkseq.
  by rewrite !nth_default ?size_mkseq.
have hk : (k < size xs)%N by move: h; case: (ltnP k (size xs)) => // hk; rewrite (nth_default _ hk).
set du := mkseq _ (size xs); have -> : en du k d = ((k == i) && (d == c))%:R by rewrite /en nth_mkseq // nth_mkseq.
apply: (@derive_ext (fun s => if (k == i) && (d == c) then s else en xs k d)) => [s|]; first by rewrite en_put.
by case: (_ && _); [apply: is_derive_id | apply: is_derive_const].
Qed.

(* derivatives along curves given as sums over a list of coefficients and entries *)
Definition lin (l : seq (R * (nat * nat))) (du : seq vec) : R := \sum_(a <- l) a.1 * en du a.2.1 a.2.2.
Definition in_range (xs : seq vec) (l : seq (R * (nat * nat))) : bool :=
  all (fun a => (a.2.1 < size xs)%N && (a.2.2 < size (nth [::] xs a.2.1))%N) l.
Definition coef (l : seq (R * (nat * nat))) (k c : nat) : R := \sum_(a <- l) a.1 * ((a.2.1 == k) && (a.2.2 == c))%:R.
Lemma lin_coef xs l du : in_range xs l ->
  lin l du = \sum_(k < size xs) \sum_(c < size (nth [::] xs k)) coef l k c * en du k c.
Proof.
elim: l => [_|[a [k c]] l IH] /=.
  rewrite /lin big_nil big1 // => k _; rewrite big1 // => c _; by rewrite /coef big_nil mul0r.
move=> /andP[/andP[hk hc] /IH {}IH]; rewrite /lin big_cons -/(lin l du) IH /=.
rewrite [RHS](eq_bigr (fun k' : 'I__ => \sum_(c' < size (nth [::] xs k')) (a * ((k == k') && (c == c' :> nat))%:R * en du k' c') +
  \sum_(c' < size (nth [::] xs k')) coef l k' c' * en du k' c')) => [|k' _]; last first.
  by rewrite -big_split /=; apply: eq_bigr => c' _; rewrite {1}/coef big_cons /= mulrDl.
rewrite big_split /=; congr (_ + _).
rewrite (bigD1 (Ordinal hk)) //= [X in _ + X]big1 ?addr0 => [|k' hk']; last first.
  rewrite big1 // => c' _; rewrite (_ : (k == k' :> nat) = false) ?mulr0 ?mul0r //.
  by apply/negbTE; rewrite eq_sym; apply: contraNN hk' => /eqP e; apply/eqP/val_inj.
rewrite (bigD1 (Ordinal hc)) //= !eqxx mulr1 big1 ?addr0 // => c' hc'.
rewrite (_ : (c == c' :> nat) = false) ?andbF ?mulr0 ?mul0r //.
by apply/negbTE; rewrite eq_sym; apply: contraNN hc' => /eqP e; apply/eqP/val_inj.
Qed.

Lemma exact_ok args sz (f : seq vec -> vec) (vj : seq vec -> vec -> seq vec) xs (G : nat -> seq vec -> R) :
  (forall ys, f ys = mkseq (fun o => G o ys) sz) ->
  (forall u, size u = sz -> vj xs u = exact_vjp f sz xs u) ->
  (forall o, (o < sz)%N -> exists2 l, in_range xs l &
     forall us du t0, moves us xs du t0 -> is_derive (fun s => G o (us s)) t0 (lin l du)) ->
  vjp_ok (Node args sz f vj) xs.
Proof.
move=> hf hv hd.
have hvx : vjp_ok (Node args sz f (exact_vjp f sz)) xs.
  apply: (@vjp_ok_of _ _ G (fun o i c => Derive (fun s => G o (put xs i c s)) (en xs i c))) => //= [u|us du t0 o mv ho].
    rewrite /exact_vjp; apply/eq_mkseq => i; apply/eq_mkseq => c; apply: eq_bigr => o _; congr (_ * _).
    by apply: Derive_ext => s; rewrite hf nth_mkseq.
  have [l hl h] := hd o ho; have := h us du t0 mv; rewrite (lin_coef _ hl); apply: derive_val.
  apply: eq_bigr => k _; apply: eq_bigr => c _; congr (_ * _).
  apply/esym/is_derive_unique; have := h _ _ _ (put_moves xs k c); apply: derive_val.
  rewrite /lin /coef big_seq [RHS]big_seq; apply: eq_bigr => a /(allP hl)/andP[h1 h2].
  by rewrite /en nth_mkseq // nth_mkseq.
case: hvx => /= h1 h2 h3; split=> //= [w hw|us du t0 mv]; first by rewrite hv // h2.
have [d [e1 e2 e3]] := h3 us du t0 mv; exists d; split=> // w hw; by rewrite hv // e3.
Qed.

Lemma prod_rule (f g : R -> R) t0 (a b : R) : is_derive f t0 a -> is_derive g t0 b ->
  is_derive (fun s => f s * g s) t0 (g t0 * a + f t0 * b).
Proof.
move=> hf hg; have := is_derive_mult _ _ _ _ _ hf hg (fun _ _ => Rmult_comm _ _).
by apply: derive_val; rewrite /plus /mult /= !(RplusE, RmultE) [a * _]mulrC.
Qed.
Lemma lin2 a b du : lin [:: a; b] du = a.1 * en du a.2.1 a.2.2 + b.1 * en du b.2.1 b.2.2.
Proof. by rewrite /lin big_cons big_seq1. Qed.

Lemma linear2_ok w x O I k pos (W X u : vec) : (0 < I)%N -> size W = (O * I)%N -> size X = I -> size u = O -> (k < 2)%N ->
  vjp_ok (vjp_node exact_vjp2 (linear_node w x O I) k pos (size (nth [::] [:: W; X] k))) [:: W; X; u].
Proof.
move=> hI sW sX su; case: k => [|[|//]] _ /=.
  rewrite sW; apply: (@exact_ok _ _ _ _ _ (fun e ys => en ys 2 (e %/ I) * en ys 1 (e %% I))) => [ys|v <- //|e he].
    by rewrite /= /en nth_take.
  have h1 : (e %/ I < O)%N by rewrite ltn_divLR.
  have h2 : (e %% I < I)%N by rewrite ltn_mod.
  exists [:: (nth 0 X (e %% I), (2, e %/ I)%N); (nth 0 u (e %/ I), (1, e %% I)%N)]; first by rewrite /in_range /= su sX h1 h2.
  move=> us du t0 [e0 _ _ h]; rewrite lin2 /=.
  have := prod_rule (h 2%N (e %/ I)%N (ltac:(by rewrite /= su))) (h 1%N (e %% I)%N (ltac:(by rewrite /= sX))).
  by rewrite e0.
rewrite sX; apply: (@exact_ok _ _ _ _ _ (fun i ys => \sum_(o < O) en ys 2 o * en ys 0 (o * I + i))) => [ys|v <- //|i hi].
  by rewrite /= /en nth_take.
have hidx o : (o < O)%N -> (o * I + i < O * I)%N.
  by move=> ho; apply: leq_trans (leq_mul ho (leqnn I)); rewrite mulSn addnC ltn_add2r.
exists ([seq (nth 0 W (o * I + i), (2, o)%N) | o <- iota 0 O] ++ [seq (nth 0 u o, (0, o * I + i)%N) | o <- iota 0 O]).
  rewrite /in_range all_cat !all_map; apply/andP; split; apply/allP => o; rewrite mem_iota /= => ho; first by rewrite su.
  by rewrite sW hidx.
move=> us du t0 [e0 _ _ h]; rewrite /lin big_cat !big_map /= -big_split /=.
have -> : iota 0 O = index_iota 0 O by rewrite /index_iota subn0.
rewrite big_mkord.
apply: (@is_derive_sum_ord O (fun o s => en (us s) 2 o * en (us s) 0 (o * I + i))
  (fun o => nth 0 W (o * I + i) * en du 2 o + nth 0 u o * en du 0 (o * I + i))) => o ho.
have := prod_rule (h 2%N o (ltac:(by rewrite /= su))) (h 0%N (o * I + i)%N (ltac:(by rewrite /= sW hidx))).
by rewrite e0.
Qed.

Lemma map2_ok (f df ddf : R -> R) x n k pos (X u : vec) : size X = n -> size u = n ->
  (forall c, (c < n)%N -> is_derive df (nth 0 X c) (ddf (nth 0 X c))) -> (k < 1)%N ->
  vjp_ok (vjp_node exact_vjp2 (map_node f df x n) k pos (size (nth [::] [:: X] k))) [:: X; u].
Proof.
move=> sX su hf; case: k => [|//] _ /=.
rewrite sX; apply: (@exact_ok _ _ _ _ _ (fun c ys => en ys 1 c * df (en ys 0 c))) => [ys|v <- //|c hc].
  by rewrite /= /en nth_take.
exists [:: (df (nth 0 X c), (1, c)%N); (nth 0 u c * ddf (nth 0 X c), (0, c)%N)]; first by rewrite /in_range /= su sX hc.
move=> us du t0 [e0 _ _ h]; rewrite lin2 /=.
have d0 := h 0%N c (ltac:(by rewrite /= sX)).
have d1 : is_derive (fun s => df (en (us s) 0 c)) t0 (en du 0 c * ddf (nth 0 X c)).
  by apply: is_derive_comp d0; rewrite e0; apply: hf.
have := prod_rule (h 1%N c (ltac:(by rewrite /= su))) d1; rewrite e0; apply: derive_val.
by rewrite /en /= [_ * ddf _]mulrC mulrA.
Qed.

Lemma sqerr2_ok y x n k pos (X u : vec) : size X = n -> size u = 1%N -> (k < 1)%N ->
  vjp_ok (vjp_node exact_vjp2 (sqerr_node y x n) k pos (size (nth [::] [:: X] k))) [:: X; u].
Proof.
move=> sX su; case: k => [|//] _ /=.
rewrite sX; apply: (@exact_ok _ _ _ _ _ (fun c ys => en ys 1 0 * (2%:R * (en ys 0 c - nth 0 y c)))) => [ys|v <- //|c hc].
  by rewrite /= /en nth_take.
exists [:: (2%:R * (nth 0 X c - nth 0 y c), (1, 0)%N); (nth 0 u 0 * 2%:R, (0, c)%N)]; first by rewrite /in_range /= su sX hc.
move=> us du t0 [e0 _ _ h]; rewrite lin2 /=.
have d0 := h 0%N c (ltac:(by rewrite /= sX)).
have d1 := is_derive_minus _ _ _ _ _ d0 (is_derive_const (nth 0 y c) t0).
have d2 := is_derive_scal _ _ (2%:R : R) _ d1.
have := prod_rule (h 1%N 0%N (ltac:(by rewrite /= su))) d2; rewrite e0.
rewrite /minus /plus /opp /zero /scal /= /mult /= !(RplusE, RoppE, RmultE) /en /= oppr0 addr0; apply: derive_val.
by rewrite mulrA.
Qed.

(* ---- tapes all of whose calls have such backward functions ---- *)
Definition twice (vs : seq vec) (it : item) : Prop :=
  match it with
  | Data _ => True
  | Call n => forall k w pos, (k < size (nd_args n))%N -> size w = nd_size n ->
      vjp_ok (vjp_node exact_vjp2 n k pos (size (nth [::] (args_of vs n) k))) (rcons (args_of vs n) w)
  end.
Fixpoint tape_twice (L : seq vec) (t : seq item) : Prop :=
  match t with [::] => True | it :: t' => twice L it /\ tape_twice (rcons L (item_val L it)) t' end.
Lemma tape_twice_cat L t1 t2 : tape_twice L (t1 ++ t2) <-> tape_twice L t1 /\ tape_twice (tape_vals L t1) t2.
Proof.
elim: t1 L => [|i t IH] L /=; first by split=> [|[]].
rewrite IH /tape_vals /=; split=> [[? [? ?]]|[[? ?] ?]]; by [].
Qed.
Lemma twice_vjp2 Sz t : (forall z, tape_ok (leaves Sz z) t) -> (forall z, tape_twice (leaves Sz z) t) -> vjp2_ok exact_vjp2 Sz t.
Proof.
move=> ok tw z j n k w pos hj en_ hk hw; have [ha _ _] := tape_call (ok z) hj en_.
have := tw z; rewrite -{1}(cat_take_drop j t) => /tape_twice_cat[_].
rewrite (drop_nth (Data [::]) hj) en_ => -[/(_ k w pos hk hw) + _].
have ea : args_of (tape_vals (leaves Sz z) (take j t)) n = args_of (tape_vals (leaves Sz z) t) n.
  by apply/eq_in_map => a /(allP ha) h; rewrite tape_vals_take // ltnW.
rewrite ea [nth [::] (args_of _ _) k](nth_map 0%N) // item_sizeE //.
apply: leq_trans (allP ha _ (mem_nth 0%N hk)) _; by rewrite size_leaves leq_add2l ltnW.
Qed.
