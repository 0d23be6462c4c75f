(* C88: report_nonclose. *)
From mathcomp Require Import all_ssreflect all_algebra.
From Verif Require Import PyPrelude Tensor Report.
Set Implicit Arguments.
Unset Strict Implicit.
Unset Printing Implicit Defensive.
Import Order.TTheory GRing.Theory Num.Theory.
Local Open Scope ring_scope.

Section Props.
Variable F : realFieldType.
Local Notation num := (num F).
Variables (ndiv : num -> num -> num) (nmax nmin : seq num -> num).
Local Notation report := (report_nonclose ndiv nmax nmin).

(* entries that count as equal *)
Definition agree (rtol atol : F) (equal_nan : bool) (a b : num) : Prop :=
  (exists x y, [/\ a = Num x, b = Num y & `|x - y| <= atol + rtol * `|y|]) \/
  [\/ a = PInf F /\ b = PInf F, a = NInf F /\ b = NInf F | [/\ a = NaN F, b = NaN F & equal_nan]].

Lemma agreeP rtol atol equal_nan a b : 0 <= rtol -> 0 <= atol ->
  reflect (agree rtol atol equal_nan a b) (isclose rtol atol equal_nan a b).
Proof.
move=> h1 h2; apply: (iffP idP).
  case: a => [x|||]; case: b => [y|||] //= h; [|by right; constructor 1|by right; constructor 2|by right; constructor 3].
  left; exists x, y; split=> //; case/orP: h => // /eqP ->.
  by rewrite subrr normr0 addr_ge0 // mulr_ge0.
case=> [[x [y [-> -> /= ->]]] //|[[-> ->]|[-> ->]|[-> -> /= ->]]] //.
Qed.

Section Arrays.
Variables (a b : tensor num) (rtol atol : F) (equal_nan : bool).
Hypotheses (wa : wf a) (wb : wf b) (rtol0 : 0 <= rtol) (atol0 : 0 <= atol).
Let x0 := NaN F.
Local Notation close := (isclose rtol atol equal_nan).
Local Notation far k := (~~ close (nth x0 (tdata a) k) (nth x0 (tdata b) k)).
Let res := report a b rtol atol equal_nan.

Lemma zipE : tshape a = tshape b ->
  zip (tdata a) (tdata b) = mkseq (fun k => (nth x0 (tdata a) k, nth x0 (tdata b) k)) (numel (tshape a)).
Proof.
move=> e; have sa : size (tdata a) = numel (tshape a) by apply/eqP.
have sb : size (tdata b) = numel (tshape a) by rewrite e; apply/eqP.
apply: (@eq_from_nth _ (x0, x0)); first by rewrite size_zip size_mkseq sa sb minnn.
by move=> k; rewrite size_zip sa sb minnn => hk; rewrite nth_zip ?sa ?sb // nth_mkseq.
Qed.

Lemma loopE s : foldl (fun (acc : seq (line F) * nat) (p : num * num) =>
      if ~~ close p.1 p.2 then (rcons acc.1 (Pair p.1 p.2 (ndiv p.1 p.2)), acc.2.+1) else acc) ([::], 0%N) s =
  ([seq Pair p.1 p.2 (ndiv p.1 p.2) | p <- s & ~~ close p.1 p.2], count (fun p => ~~ close p.1 p.2) s).
Proof.
elim/last_ind: s => // s p IH; rewrite foldl_rcons IH filter_rcons -(cats1 s p) count_cat /=.
by case: ifP => /= h; rewrite ?map_rcons ?addn0 ?addn1.
Qed.

(* the call returns exactly if the shapes agree and all entries do; else ValueError *)
Theorem C88_outcome :
  (res.2 = Ok tt <-> tshape a = tshape b /\
     forall k, (k < numel (tshape a))%N -> agree rtol atol equal_nan (nth x0 (tdata a) k) (nth x0 (tdata b) k)) /\
  (res.2 = Ok tt \/ res.2 = Err ValueError).
Proof.
rewrite /res /report_nonclose; case: eqP => [e|ne] /=; last by split; [split=> // -[]|right].
rewrite /allclose (zipE e) all_map; case: allP => h.
  split; last by left.
  by split=> // _; split=> // k hk; apply/agreeP => //; apply: h; rewrite mem_iota.
have n0 : (0 < numel (tshape a))%N by case: posnP h => // -> [].
have sa : size (tdata a) = numel (tshape a) by apply/eqP.
have sb : size (tdata b) = numel (tshape a) by rewrite e; apply/eqP.
rewrite /extremum /nilp sa sb (gtn_eqF n0) /=; split; last by right.
split=> // -[_ h']; case: h => k hk; apply/agreeP => //; apply: h'.
by rewrite mem_iota in hk.
Qed.

(* if the entries differ, exactly the differing pairs are printed, in the order of the
   entries, and counted *)
Theorem C88_report : tshape a = tshape b -> res.2 <> Ok tt ->
  let ks := [seq k <- iota 0 (numel (tshape a)) | far k] in
  [/\ ks <> [::], take (size ks) res.1 =
        [seq Pair (nth x0 (tdata a) k) (nth x0 (tdata b) k) (ndiv (nth x0 (tdata a) k) (nth x0 (tdata b) k)) | k <- ks] &
      drop (size ks) res.1 = [:: MaxLine (nmax (tdata a)) (nmax (tdata b)); MinLine (nmin (tdata a)) (nmin (tdata b));
        CountLine F (size ks) (numel (tshape a)); TolLine rtol atol]].
Proof.
move=> e hres ks; move: hres; rewrite /res /report_nonclose; case: eqP => // _ /=.
case hall : allclose => //= _.
have hks : ks <> [::].
  move=> hks; case/negP: (negbT hall); rewrite /allclose (zipE e) all_map; apply/allP => k hk /=.
  by apply/negPn/negP => hf; have : k \in ks by [rewrite mem_filter hf hk]; rewrite hks.
have n0 : (0 < numel (tshape a))%N by case: posnP hks => // h0; rewrite /ks h0.
have sa : size (tdata a) = numel (tshape a) by apply/eqP.
have sb : size (tdata b) = numel (tshape a) by rewrite e; apply/eqP.
have -> : pair_loop ndiv rtol atol equal_nan (tdata a) (tdata b) =
    ([seq Pair (nth x0 (tdata a) k) (nth x0 (tdata b) k) (ndiv (nth x0 (tdata a) k) (nth x0 (tdata b) k)) | k <- ks], size ks).
  by rewrite /pair_loop loopE (zipE e) filter_map -map_comp count_map size_filter.
rewrite /extremum /nilp sa sb (gtn_eqF n0) /=; split=> //.
  by rewrite take_size_cat ?size_map.
by rewrite drop_size_cat ?size_map.
Qed.

(* after a successful comparison the arrays may be swapped, with larger tolerances *)
Theorem C88_swap : rtol < 1 -> res.2 = Ok tt ->
  (report b a (rtol / (1 - rtol)) (atol / (1 - rtol)) equal_nan).2 = Ok tt.
Proof.
move=> r1; rewrite /res /report_nonclose eq_sym; case: eqP => //= e.
case hall : (allclose rtol); last by do 4?case: (extremum _ _) => [?|?] //=.
move=> _.
have d0 : 0 < 1 - rtol by rewrite subr_gt0.
rewrite (_ : allclose _ _ _ _ _ = true) //; move: hall; rewrite /allclose.
have -> : zip (tdata b) (tdata a) = [seq (p.2, p.1) | p <- zip (tdata a) (tdata b)].
  by elim: (tdata a) (tdata b) => [|x s IH] [|y t] //=; rewrite IH.
rewrite (zipE (esym e)) !all_map => /allP h; apply/allP => k /h /=.
case: nth => [x|||]; case: nth => [y|||] //= /orP[hxy|/eqP ->]; last by rewrite eqxx orbT.
apply/orP; left; rewrite distrC mulrAC -mulrDl ler_pdivl_mulr //.
rewrite mulrBr mulr1 ler_subl_addr (le_trans hxy) // -addrA ler_add2l mulrC.
have : `|y| <= `|x| + `|x - y| by rewrite -{1}(subKr x y) (le_trans (ler_norm_sub _ _)).
by move=> hy; rewrite -mulrDl [rtol * _]mulrC ler_wpmul2r.
Qed.
End Arrays.

(* an array compared with itself *)
Theorem C88_same (a : tensor num) rtol atol equal_nan : wf a -> 0 <= rtol -> 0 <= atol ->
  (report a a rtol atol equal_nan).2 = Ok tt <->
  (equal_nan \/ forall k, (k < numel (tshape a))%N -> nth (NaN F) (tdata a) k <> NaN F).
Proof.
move=> wa r0 a0; rewrite (C88_outcome equal_nan wa wa r0 a0).1; split.
  case=> _ h; case: equal_nan h => h; [by left|right=> k hk hn].
  have := h k hk; rewrite hn => -[[x [y []]]|[[]|[]|[]]] //.
move=> h; split=> // k hk; case e : nth => [x|||].
- by left; exists x, x; rewrite subrr normr0 addr_ge0 // mulr_ge0.
- by right; constructor 1.
- by right; constructor 2.
- by right; constructor 3; split=> //; case: h => // /(_ k hk).
Qed.
End Props.
Print Assumptions C88_outcome.
Print Assumptions C88_report.
Print Assumptions C88_swap.
Print Assumptions C88_same.

(* 1 and 2 agree with rtol = 1/2 in this order only; an infinite entry agrees with itself *)
Example C88_ex : let A := Tensor [:: 3%N] [:: Num (1 : rat); PInf _; NaN _] in let B := Tensor [:: 3%N] [:: Num (2%:R : rat); PInf _; NaN _] in
  let rep a b nan := report_nonclose (fun x y => x) (head (NaN _)) (last (NaN _)) a b (1 / 2%:R) 0 nan in
  [/\ wf A, rep A B true = ([:: Match _], Ok tt), (rep A B false).2 = Err ValueError &
      (rep B A true).2 = Err ValueError /\ size (rep B A true).1 = 5%N].
Proof. by split=> //; vm_compute. Qed.
