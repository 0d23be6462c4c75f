(* C84: sums over the batches in floating point. *)
From Coq Require Import Reals Lra Permutation.
From mathcomp Require Import all_ssreflect all_algebra.
From Verif Require Import PyPrelude Tensor Spec TorchBase RInst ROrd Calculus Curvature HessGGN Risk Determinism Props_Det Rounding.
Set Implicit Arguments.
Unset Strict Implicit.
Unset Printing Implicit Defensive.
Import GRing.Theory Order.TTheory Num.Theory.
Local Open Scope ring_scope.
Local Notation RF := [realFieldType of R].

(* growth of the error after n roundings with unit u *)
Definition gam (u : R) (n : nat) : R := (1 + u) ^+ n - 1.

Section Err.
Variable u : R.
Hypothesis u_ge0 : 0 <= u.

Lemma onep : 1 <= 1 + u. Proof. by rewrite ler_addl. Qed.
Lemma gam_ge0 n : 0 <= gam u n.
Proof. by rewrite subr_ge0 exprn_ege1 // onep. Qed.
Lemma gam_mono m n : (m <= n)%N -> gam u m <= gam u n.
Proof. by move=> h; rewrite ler_sub // ler_weexpn2l // onep. Qed.

Lemma gamS n (a b x y t d e : R) : `|a - b| <= gam u n * x -> `|b| <= x -> `|d| <= y -> y <= gam u n -> 0 <= y -> `|e| <= u ->
  `|(a + t * (1 + d)) * (1 + e) - (b + t)| <= gam u n.+1 * (x + `|t|).
Proof.
move=> h1 h2 h3 hy y0 h4.
have g1 : gam u n.+1 = gam u n + u * (1 + gam u n) by rewrite /gam exprS mulrDl mul1r addrCA subrr addr0 addrAC.
have -> : (a + t * (1 + d)) * (1 + e) - (b + t) = (a - b) + t * d + e * (a + t * (1 + d)).
  rewrite mulrDr mulr1 [_ * e]mulrC [t * (1 + d)]mulrDr mulr1 opprD addrAC; congr (_ + _).
  by rewrite -!addrA; congr (_ + _); rewrite addrCA [in RHS]addrC; congr (_ + _); rewrite addrCA subrr addr0.
have ha : `|a| <= (1 + gam u n) * x.
  have -> : a = (a - b) + b by rewrite subrK.
  by apply: le_trans (ler_norm_add _ _) _; rewrite mulrDl mul1r addrC ler_add.
have ht : `|t * d| <= gam u n * `|t|.
  rewrite normrM mulrC ler_wpmul2r //; exact: le_trans h3 hy.
have htd : `|t * (1 + d)| <= (1 + gam u n) * `|t|.
  rewrite normrM mulrC ler_wpmul2r //; apply: le_trans (ler_norm_add _ _) _.
  by rewrite normr1 ler_add2l; exact: le_trans h3 hy.
apply: le_trans (ler_norm_add _ _) _; rewrite g1 mulrDl; apply: ler_add.
  by apply: le_trans (ler_norm_add _ _) _; rewrite mulrDr ler_add.
rewrite normrM -mulrA; apply: ler_pmul => //.
by apply: le_trans (ler_norm_add _ _) _; rewrite [X in _ <= X]mulrDr ler_add.
Qed.

(* a relative error at most gam n, written as a factor *)
Definition factor (n : nat) (x y : R) : Prop := exists2 d, `|d| <= gam u n & y = x * (1 + d).

Lemma gam_mul m n : gam u m + gam u n + gam u m * gam u n = gam u (m + n).
Proof. by rewrite /gam exprD; toR; ring. Qed.

Lemma factor_trans m n x y z : factor m x y -> factor n y z -> factor (m + n) x z.
Proof.
move=> [d hd ->] [e he ->]; exists (d + e + d * e); last by toR; ring.
rewrite -gam_mul; apply: le_trans (ler_norm_add _ _) _; apply: ler_add.
  by apply: le_trans (ler_norm_add _ _) _; apply: ler_add.
by rewrite normrM ler_pmul.
Qed.

Lemma gam1 : gam u 1 = u. Proof. by rewrite /gam expr1 addrAC subrr add0r. Qed.

(* rounding with unit u *)
Definition rounds (rnd : R -> R) : Prop := forall x, `|rnd x - x| <= u * `|x|.

Lemma rounds_factor rnd x : rounds rnd -> factor 1 x (rnd x).
Proof.
move=> h; have := h x; have [->|hx] := eqVneq x 0.
  rewrite normr0 mulr0 subr0 normr_le0 => /eqP ->; exists 0; first by rewrite normr0 gam_ge0.
  by rewrite mul0r.
move=> hr; exists ((rnd x - x) / x).
  by rewrite gam1 normrM normfV ler_pdivr_mulr // normr_gt0.
by rewrite mulrDr mulr1 mulrCA divff // mulr1 addrC subrK.
Qed.

(* what is known of the kernel of a.add_(b, alpha=c) *)
Definition axpy_rounds (axpy : R -> R -> R -> R) : Prop :=
  forall c a b, exists t, factor 2 (c * b) t /\ factor 1 (a + t) (axpy c a b).

Lemma unfused_rounds rnd : rounds rnd -> axpy_rounds (axpy_unfused rnd).
Proof.
move=> h c a b; exists (rnd (rnd c * b)); split; last exact: rounds_factor.
apply: (@factor_trans 1 1 _ (rnd c * b)); last exact: rounds_factor.
have [d hd ->] := rounds_factor c h; exists d => //; by rewrite mulrAC.
Qed.
Lemma fused_rounds rnd : rounds rnd -> axpy_rounds (axpy_fused rnd).
Proof.
move=> h c a b; exists (rnd c * b); split; last exact: rounds_factor.
have [d hd ->] := rounds_factor c h; exists d; last by rewrite mulrAC.
exact: le_trans hd (gam_mono _).
Qed.

(* one step of a sum: n roundings so far, p roundings in the term, one for the addition *)
Lemma sum_step n p a b x t y z : (p <= n)%N -> `|a - b| <= gam u n * x -> `|b| <= x -> factor p t y ->
  factor 1 (a + y) z -> `|z - (b + t)| <= gam u n.+1 * (x + `|t|).
Proof.
move=> hp h1 h2 [d hd ->] [e he ->]; rewrite gam1 in he.
by apply: (@gamS n a b x (gam u p)) => //; [exact: gam_mono|exact: gam_ge0].
Qed.
End Err.

(* ---- sums of products over the batches ---- *)
Section Sums.
Variables (u : R) (rpy : R -> R) (axpy : R -> R -> R -> R).
Hypothesis u_ge0 : 0 <= u.
Hypothesis py_rounds : rounds u rpy.
Hypothesis kernel_rounds : axpy_rounds u axpy.
Variables (batch : Type) (bsize : batch -> nat).
Local Notation tens := (tensor R).

Lemma fl_adds_valid S K (A B : seq tens) c : valid_mat S K A -> valid_mat S K B ->
  exists X, [/\ fl_adds_alpha axpy c A B = Ok X, valid_mat S K X &
    forall i k, (i < total S)%N -> (k < K)%N ->
      entry K (flat X) i k = axpy c (entry K (flat A) i k) (entry K (flat B) i k)].
Proof.
elim: S A B => [|s S IH] A B hA hB.
  by rewrite (valid_mat_nil hA) (valid_mat_nil hB); exists [::].
have [a [A0 [-> ha hda hA0]]] := valid_mat_cons hA.
have [b [B0 [-> hb hdb hB0]]] := valid_mat_cons hB.
have [X [e1 e2 e3]] := IH _ _ hA0 hB0.
rewrite /= /fl_add_alpha ha hb eqxx /= e1 /=; eexists; split; first by [].
  by apply: valid_mat_consI => //=; rewrite size_mkseq.
move=> i k hi hk; rewrite /flat /= -!/(flat _) /entry !nth_cat size_mkseq hda hdb.
case: (ltnP i (numel s)) => his.
  have hlt : (i * K + k < numel s * K)%N.
    by apply: (@leq_trans (i.+1 * K)%N); rewrite ?leq_mul2r ?his ?orbT // mulSn addnC ltn_add2r.
  by rewrite hlt nth_mkseq.
have hge : (i * K + k < numel s * K)%N = false.
  by apply/negbTE; rewrite -leqNgt; apply: leq_trans (leq_addr _ _); rewrite leq_mul2r his orbT.
rewrite hge.
have -> : (i * K + k - numel s * K = (i - numel s) * K + k)%N.
  by rewrite mulnBl addnBAC // leq_mul2r his orbT.
by rewrite -/(entry K (flat X) (i - numel s) k) e3 ?ltn_subLR.
Qed.

Lemma fl_nf red bs N : red <> ROther -> (0 < N)%N ->
  exists2 c, fl_normalization_factor rpy red bs N = Ok c & factor u 1 (nfac red bs N) c.
Proof.
move=> hr hN; rewrite /fl_normalization_factor /py_div (negbTE (natr_neq0 hN)) /=.
case: red hr => [_|_|[]//]; eexists; [by []|exact: (@rounds_factor u u_ge0 rpy _ py_rounds)|by []|].
by exists 0; rewrite ?normr0 ?gam_ge0 // addr0 mulr1.
Qed.

(* the contributions of the batches, without signs *)
Definition magnitude red N (B : batch -> seq tens) K data i k : R :=
  \sum_(b <- data) `|nfac red (bsize b) N * entry K (flat (B b)) i k|.

Lemma products_rounded red N data mb M S K (B : batch -> seq tens) : red <> ROther -> (0 < N)%N -> valid_mat S K M ->
  Forall_in (fun b => mb b M = Ok (B b) /\ valid_mat S K (B b)) data ->
  exists Y Y', [/\ base_matmat bsize red N data mb M = Ok Y, fl_base_matmat rpy axpy bsize red N data mb M = Ok Y',
    valid_mat S K Y, valid_mat S K Y' &
    forall i k, (i < total S)%N -> (k < K)%N ->
      entry K (flat Y) i k = \sum_(b <- data) nfac red (bsize b) N * entry K (flat (B b)) i k /\
      `|entry K (flat Y') i k - entry K (flat Y) i k| <= gam u (size data + 3) * magnitude red N B K data i k].
Proof.
move=> hr hN hM hB; rewrite /base_matmat /fl_base_matmat /magnitude.
have := zeros_valid hM; have := @zeros_entry _ K M.
move: [seq zeros_like m | m <- M] => Z hZ0 hZ.
suff main : forall n Z Z' (x : nat -> nat -> R), valid_mat S K Z -> valid_mat S K Z' ->
    (forall i k, (i < total S)%N -> (k < K)%N ->
      `|entry K (flat Z') i k - entry K (flat Z) i k| <= gam u (n + 3) * x i k /\ `|entry K (flat Z) i k| <= x i k) ->
    exists Y Y', [/\ foldM (fun AM b =>
      let! nf := normalization_factor red (bsize b) N in
      let! BM := mb b M in adds_alpha nf AM BM) Z data = Ok Y,
      foldM (fun AM b =>
      let! nf := fl_normalization_factor rpy red (bsize b) N in
      let! BM := mb b M in fl_adds_alpha axpy nf AM BM) Z' data = Ok Y',
      valid_mat S K Y, valid_mat S K Y' & forall i k, (i < total S)%N -> (k < K)%N ->
      entry K (flat Y) i k = entry K (flat Z) i k + \sum_(b <- data) nfac red (bsize b) N * entry K (flat (B b)) i k /\
      `|entry K (flat Y') i k - entry K (flat Y) i k| <= gam u (n + size data + 3) *
         (x i k + \sum_(b <- data) `|nfac red (bsize b) N * entry K (flat (B b)) i k|)].
  have [|Y [Y' [e1 e2 e3 e4 e5]]] := main 0%N Z Z (fun _ _ => 0) hZ hZ.
    by move=> i k _ _; rewrite subrr hZ0 normr0 mulr0.
  exists Y, Y'; split=> // i k hi hk; have [h' h] := e5 i k hi hk; split; first by rewrite h' hZ0 add0r.
  by move: h; rewrite !add0n add0r.
elim: data hB => [_|b data IH [[hb1 hb2] /IH IHd]] {Z hZ0 hZ} n Z Z' x hZ hZ' hx /=.
  exists Z, Z'; split=> // i k hi hk; rewrite !big_nil !addr0 !addn0; split=> //; exact: (hx i k hi hk).1.
rewrite normalization_ok //= hb1 /=; have [c -> hc] /= := fl_nf (bsize b) hr hN.
have [A [-> a2 a3]] /= := adds_alpha_valid (nfac red (bsize b) N) hZ hb2.
have [A' [-> a2' a3']] /= := fl_adds_valid c hZ' hb2.
have [|Y [Y' [e1 e2 e3 e4 e5]]] := IHd n.+1 A A' (fun i k => x i k + `|nfac red (bsize b) N * entry K (flat (B b)) i k|) a2 a2'.
  move=> i k hi hk; have [h1 h2] := hx i k hi hk; rewrite a3 // a3' //; split; last first.
    by apply: le_trans (ler_norm_add _ _) _; apply: ler_add.
  have [t [t1 t2]] := kernel_rounds c (entry K (flat Z') i k) (entry K (flat (B b)) i k).
  rewrite addSn; apply: (@sum_step u u_ge0 (n + 3) 3 (entry K (flat Z') i k) _ _ _ t) => //; first by rewrite leq_addl.
  apply: (@factor_trans u 1 2 _ (c * entry K (flat (B b)) i k)) => //.
  by have [d hd ->] := hc; exists d => //; rewrite mulrAC.
exists Y, Y'; split=> // i k hi hk; have [f1 f2] := e5 i k hi hk.
rewrite !big_cons; split; first by rewrite f1 a3 // addrA.
by move: f2; rewrite addrA addSnnS.
Qed.

(* the result of a product differs from the exact sum over the batches by at most
   ((1 + u)^(n + 3) - 1) times the sum of the magnitudes *)
Theorem C84_products red N data mb M S K (B : batch -> seq tens) : red <> ROther -> (0 < N)%N -> valid_mat S K M ->
  Forall_in (fun b => mb b M = Ok (B b) /\ valid_mat S K (B b)) data ->
  exists Y Y', [/\ base_matmat bsize red N data mb M = Ok Y, fl_base_matmat rpy axpy bsize red N data mb M = Ok Y',
    valid_mat S K Y' &
    forall i k, (i < total S)%N -> (k < K)%N ->
      `|entry K (flat Y') i k - entry K (flat Y) i k| <= gam u (size data + 3) * magnitude red N B K data i k].
Proof.
move=> hr hN hM hB; have [Y [Y' [e1 e2 e3 e4 e5]]] := products_rounded hr hN hM hB.
by exists Y, Y'; split=> // i k hi hk; exact: (e5 i k hi hk).2.
Qed.

Lemma Forall_in_perm' (P : batch -> Prop) s t : Permutation s t -> Forall_in P s -> Forall_in P t.
Proof.
elim=> [//|x l l' _ IH /= [h /IH]//|x y l /= [h1 [h2 h3]]//|l l' l'' _ IH1 _ IH2 h].
by apply: IH2; apply: IH1.
Qed.

(* the order of the batches: results are close, not equal *)
Theorem C84_order red N data data2 mb M S K (B : batch -> seq tens) : red <> ROther -> (0 < N)%N -> valid_mat S K M ->
  Forall_in (fun b => mb b M = Ok (B b) /\ valid_mat S K (B b)) data -> Permutation data data2 ->
  exists Y1 Y2, [/\ fl_base_matmat rpy axpy bsize red N data mb M = Ok Y1,
    fl_base_matmat rpy axpy bsize red N data2 mb M = Ok Y2 &
    forall i k, (i < total S)%N -> (k < K)%N ->
      `|entry K (flat Y1) i k - entry K (flat Y2) i k| <= gam u (size data + 3) * magnitude red N B K data i k *+ 2].
Proof.
move=> hr hN hM hB hp; have [Y [Y1 [_ e2 _ _ e5]]] := products_rounded hr hN hM hB.
have [Z [Y2 [_ f2 _ _ f5]]] := products_rounded hr hN hM (Forall_in_perm' hp hB).
exists Y1, Y2; split=> // i k hi hk; have [g1 g2] := e5 i k hi hk; have [h1 h2] := f5 i k hi hk.
have hsz : size data2 = size data by exact/esym/(Permutation_length hp).
move: h2; rewrite hsz /magnitude -(sum_permutation _ hp) h1 -(sum_permutation _ hp) -g1 -/(magnitude red N B K data i k) => h2.
have -> : entry K (flat Y1) i k - entry K (flat Y2) i k =
  (entry K (flat Y1) i k - entry K (flat Y) i k) - (entry K (flat Y2) i k - entry K (flat Y) i k).
  by rewrite opprB addrA subrK.
by apply: le_trans (ler_norm_sub _ _) _; rewrite mulr2n ler_add.
Qed.

Lemma nfac_ge0 red bs N : 0 <= nfac red bs N.
Proof. by rewrite /nfac; case: red; rewrite ?ler01 ?divr_ge0 ?ler0n. Qed.

Lemma norm_sum (A : Type) (l : seq A) (f : A -> R) : Forall_in (fun a => 0 <= f a) l ->
  \sum_(a <- l) `|f a| = `|\sum_(a <- l) f a|.
Proof.
move=> h; have [-> hs] : \sum_(a <- l) `|f a| = \sum_(a <- l) f a /\ 0 <= \sum_(a <- l) f a; last by rewrite ger0_norm.
elim: l h => [|a l IH] /=; first by rewrite !big_nil.
by move=> [ha /IH [e1 e2]]; rewrite !big_cons e1 ger0_norm // addr_ge0.
Qed.

(* without cancellation: a relative error *)
Theorem C84_relative red N data mb M S K (B : batch -> seq tens) : red <> ROther -> (0 < N)%N -> valid_mat S K M ->
  Forall_in (fun b => mb b M = Ok (B b) /\ valid_mat S K (B b)) data ->
  exists Y Y', [/\ base_matmat bsize red N data mb M = Ok Y, fl_base_matmat rpy axpy bsize red N data mb M = Ok Y' &
    forall i k, (i < total S)%N -> (k < K)%N ->
      Forall_in (fun b => 0 <= entry K (flat (B b)) i k) data ->
      `|entry K (flat Y') i k - entry K (flat Y) i k| <= gam u (size data + 3) * `|entry K (flat Y) i k|].
Proof.
move=> hr hN hM hB; have [Y [Y' [e1 e2 e3 e4 e5]]] := products_rounded hr hN hM hB.
exists Y, Y'; split=> // i k hi hk hpos; have [h1 h2] := e5 i k hi hk; apply: le_trans h2 _.
suff -> : magnitude red N B K data i k = `|entry K (flat Y) i k| by [].
rewrite h1 /magnitude; apply: norm_sum.
by apply: Forall_in_impl hpos => b hb; rewrite mulr_ge0 // nfac_ge0.
Qed.
End Sums.
Print Assumptions C84_products.
Print Assumptions C84_order.
Print Assumptions C84_relative.

(* ---- gradient and loss ---- *)
Section Gradient.
Variables (u : R) (rnd : R -> R).
Hypothesis u_ge0 : 0 <= u.
Hypothesis rnd_rounds : rounds u rnd.
Local Notation tens := (tensor R).

Definition gshaped (S : seq (seq nat)) (G : seq tens) : Prop := [seq tshape t | t <- G] = S /\ all (@wf R) G.

Lemma gshaped_cons s S G : gshaped (s :: S) G -> exists t G', [/\ G = t :: G', tshape t = s, wf t & gshaped S G'].
Proof. by case: G => [[]|t G] // [[h1 h2] /= /andP[h3 h4]]; exists t, G. Qed.

Lemma fl_adds_flat r S (G g : seq tens) : gshaped S G -> gshaped S g ->
  exists G', [/\ fl_adds r G g = Ok G', gshaped S G' &
    forall e, (e < total S)%N -> nth 0 (flat G') e = r (nth 0 (flat G) e + nth 0 (flat g) e)].
Proof.
elim: S G g => [|s S IH] G g.
  by case: G => [|? ?] [] // _ _; case: g => [|? ?] [] // _ _; exists [::].
move=> /gshaped_cons [t [G' [-> ht wt hG]]] /gshaped_cons [v [g' [-> hu wu hg]]].
have [H [hr hH eH]] := IH _ _ hG hg.
rewrite /= /fl_add ht hu eqxx /= hr /=; eexists; split; first by [].
  case: hH => h1 h2; split; first by rewrite /= h1.
  by rewrite /= h2 andbT /wf /= size_mkseq -ht.
move/eqP: wt => wt; move/eqP: wu => wu.
move=> e; rewrite /total /= => he; rewrite /flat /= !nth_cat size_mkseq wt wu ht hu.
case: ltnP => h; first by rewrite nth_mkseq // wt ht.
by apply: eH; rewrite ltn_subLR.
Qed.

Lemma gshaped_zeros S : gshaped S [seq Tensor s (nseq (numel s) 0) | s <- S].
Proof.
split; first by rewrite -map_comp map_id.
by rewrite all_map; apply/allP => s _; rewrite /wf /= size_nseq.
Qed.
Lemma gzeros_flat S e : nth 0 (flat [seq Tensor s (nseq (numel s) (0 : R)) | s <- S]) e = 0.
Proof.
elim: S e => [|s S IH] e /=; first by rewrite nth_nil.
by rewrite /flat /= nth_cat size_nseq nth_nseq; case: ltnP => // h'; apply: IH.
Qed.

(* the sums over the batches differ from the exact sums by at most ((1 + u)^n - 1) times the
   sum of the magnitudes *)
Theorem C84_gradient_and_loss (batch : Type) (ev : batch -> res (seq tens * R)) g l S data :
  Forall_in (fun b => ev b = Ok (g b, l b) /\ gshaped S (g b)) data ->
  exists G L, [/\ fl_gradient_and_loss rnd ev S data = Ok (G, L), gshaped S G,
    `|L - \sum_(b <- data) l b| <= gam u (size data) * \sum_(b <- data) `|l b| &
    forall e, (e < total S)%N ->
      `|nth 0 (flat G) e - \sum_(b <- data) nth 0 (flat (g b)) e| <=
      gam u (size data) * \sum_(b <- data) `|nth 0 (flat (g b)) e|].
Proof.
move=> hB; rewrite /fl_gradient_and_loss.
suff main : forall n G0 L0 (S0 X0 : R) (s x : nat -> R), gshaped S G0 ->
    `|L0 - S0| <= gam u n * X0 -> `|S0| <= X0 ->
    (forall e, (e < total S)%N -> `|nth 0 (flat G0) e - s e| <= gam u n * x e /\ `|s e| <= x e) ->
    exists G L, [/\ foldM (fun (tgl : seq tens * R) b => let '(total_grad, total_loss) := tgl in
      let! '(g, l) := ev b in
      let! tg := fl_adds rnd total_grad g in
      Ok (tg, rnd (total_loss + l))) (G0, L0) data = Ok (G, L), gshaped S G,
    `|L - (S0 + \sum_(b <- data) l b)| <= gam u (n + size data) * (X0 + \sum_(b <- data) `|l b|) &
    forall e, (e < total S)%N ->
      `|nth 0 (flat G) e - (s e + \sum_(b <- data) nth 0 (flat (g b)) e)| <=
      gam u (n + size data) * (x e + \sum_(b <- data) `|nth 0 (flat (g b)) e|)].
  have [|||G [L [e1 e2 e3 e4]]] := main 0%N _ 0 0 0 (fun _ => 0) (fun _ => 0) (gshaped_zeros S).
  - by rewrite subrr normr0 mulr0.
  - by rewrite normr0.
  - by move=> e _; rewrite gzeros_flat subrr normr0 mulr0.
  exists G, L; split=> //; first by move: e3; rewrite !add0r add0n.
  by move=> e he; move: (e4 e he); rewrite !add0r add0n.
elim: data hB => [_|b data IH [[hb1 hb2] /IH IHd]] n G0 L0 S0 X0 s x hG hL hS hs /=.
  exists G0, L0; split=> //; first by rewrite !big_nil !addr0 addn0.
  by move=> e he; rewrite !big_nil !addr0 addn0; exact: (hs e he).1.
rewrite hb1 /=; have [G' [-> h1 h2]] /= := fl_adds_flat rnd hG hb2.
have step : forall a0 s0 x0 t, `|a0 - s0| <= gam u n * x0 -> `|s0| <= x0 ->
    `|rnd (a0 + t) - (s0 + t)| <= gam u n.+1 * (x0 + `|t|) /\ `|s0 + t| <= x0 + `|t|.
  move=> a0 s0 x0 t k1 k2; split; last by apply: le_trans (ler_norm_add _ _) _; rewrite ler_add2r.
  apply: (@sum_step u u_ge0 n 0 a0 s0 x0 t t) => //; last exact: rounds_factor.
  by exists 0; rewrite ?normr0 ?gam_ge0 // addr0 mulr1.
have [k1 k2] := step _ _ _ (l b) hL hS.
have [|G [L [e1 e2 e3 e4]]] := IHd n.+1 G' _ _ _ (fun e => s e + nth 0 (flat (g b)) e) (fun e => x e + `|nth 0 (flat (g b)) e|) h1 k1 k2.
  by move=> e he; have [m1 m2] := hs e he; rewrite h2 //; apply: step.
exists G, L; split=> //; first by move: e3; rewrite !big_cons !addrA addSnnS.
by move=> e he; move: (e4 e he); rewrite !big_cons !addrA addSnnS.
Qed.
End Gradient.
Print Assumptions C84_gradient_and_loss.

(* ---- exact arithmetic gives the models used in the other properties ---- *)
Lemma fl_adds_id (A B : seq (tensor R)) : fl_adds id A B = adds_alpha 1 A B.
Proof.
elim: A B => [|a A IH] [|b B] //=; rewrite /fl_add /add_alpha IH; case: eqP => //= _.
case: (adds_alpha 1 A B) => //= x; congr (Ok (Tensor _ _ :: x)); apply: eq_mkseq => e; by rewrite mul1r.
Qed.

Theorem C84_exact_arithmetic (X Y : Type) (O : nat) (net : X -> point -> seq R) (lossd : seq R -> Y -> R) red num_data
    (loader : seq (seq (X * Y))) S th :
  (forall (batch : Type) (bsize : batch -> nat) N data mb M,
     fl_base_matmat id (axpy_unfused id) bsize red N data mb M = base_matmat bsize red N data mb M) /\
  gradient_and_loss O net lossd true red num_data loader S th =
    fl_gradient_and_loss id (fun b =>
      let! nf := normalization_factor red (size b) (infer_num_data (@size _) num_data loader) in
      let loss z := batch_loss O net lossd red b z * nf in
      Ok ([seq Tensor (tshape g) [seq f th | f <- tdata g] | g <- autograd (pack 0 S) loss], loss th)) S loader /\
  forall has_loss fixed_order p1 p2,
    fl_check_passes id has_loss fixed_order S p1 p2 = check_passes has_loss fixed_order S p1 p2.
Proof.
split; [by []|split; last by []].
rewrite /gradient_and_loss /fl_gradient_and_loss /=; set N := infer_num_data _ _ _.
  move: ([seq _ | _ <- S], 0); move: N => N.
  elim: loader => //= b l IH [G L].
  case: (normalization_factor _ _ _) => //= nf; rewrite fl_adds_id.
  by case: (adds_alpha _ _ _) => //= tg; apply: IH.
Qed.
Print Assumptions C84_exact_arithmetic.

(* ---- the determinism check on a shuffling loader ---- *)
Section Check.
Variables (u : R) (rnd : R -> R).
Hypothesis u_ge0 : 0 <= u.
Hypothesis rnd_rounds : rounds u rnd.
Local Notation num := (option R).
Local Notation item := (item RF).

Definition fl_gsum (a : seq item) (e : nat) (x : num) : num :=
  foldl (fun s it => fl_num_add rnd s (nth None (flat (it_grad it)) e)) x a.

Lemma fl_all_add_flat S (G g : seq (tensor num)) : shaped S G -> shaped S g ->
  exists G', [/\ fl_all_add rnd G g = Ok G', shaped S G' &
    forall e, (e < total S)%N -> nth None (flat G') e = fl_num_add rnd (nth None (flat G) e) (nth None (flat g) e)].
Proof.
elim: S G g => [|s S IH] G g.
  by case: G => [|? ?] [] // _ _; case: g => [|? ?] [] // _ _; exists [::].
move=> /shaped_cons [t [G' [-> ht wt hG]]] /shaped_cons [v [g' [-> hu wu hg]]].
have [H [hr hH eH]] := IH _ _ hG hg.
rewrite /= /fl_tens_add ht hu eqxx /= hr /=; eexists; split; first by [].
  case: hH => h1 h2; split; first by rewrite /= h1.
  by rewrite /= h2 andbT /wf /= size_mkseq -ht.
move/eqP: wt => wt; move/eqP: wu => wu.
move=> e; rewrite /total /= => he; rewrite /flat /= !nth_cat size_mkseq wt wu ht hu.
case: ltnP => h; first by rewrite nth_mkseq // wt ht.
by apply: eH; rewrite ltn_subLR.
Qed.

Lemma fl_loop S st (a b : seq item) : size a = size b ->
  Forall_items (item_ok S) a -> Forall_items (item_ok S) b ->
  tshape (tot_loss1 st) = [::] -> tshape (tot_loss2 st) = [::] ->
  shaped S (tot_grad1 st) -> shaped S (tot_grad2 st) ->
  exists st', [/\ fl_check_loop rnd true false st (map Ok a) (map Ok b) = Ok st',
    cur st' = last_losses a b (cur st), shaped S (tot_grad1 st'), shaped S (tot_grad2 st') &
    forall e, (e < total S)%N ->
      nth None (flat (tot_grad1 st')) e = fl_gsum a e (nth None (flat (tot_grad1 st)) e) /\
      nth None (flat (tot_grad2 st')) e = fl_gsum b e (nth None (flat (tot_grad2 st)) e)].
Proof.
elim: a b st => [|x a IH] [|y b] // st; first by move=> _ _ _ _ _ h1 h2; exists st; split.
move=> [hs] [[lx wx gx] ha] [[ly wy gy] hb] l1 l2 g1 g2; rewrite /= /fl_check_step /= /fl_tens_add l1 lx eqxx l2 ly eqxx /=.
have [G1 [-> s1 e1]] /= := fl_all_add_flat g1 gx.
have [G2 [-> s2 e2]] /= := fl_all_add_flat g2 gy.
set st1 := Totals _ _ _ _ _.
have [||st' [r1 r2 r3 r4 r5]] := IH b st1 hs ha hb _ _ s1 s2; rewrite ?l1 ?l2 //.
exists st'; split=> // e he; have [-> ->] := r5 e he.
by rewrite /= e1 // e2.
Qed.

(* a total gradient in floating point *)
Lemma fl_gsum_close a e n (x s m : R) : Forall_items (fun it => isSome (nth None (flat (it_grad it)) e)) a ->
  `|x - s| <= gam u n * m -> `|s| <= m ->
  exists2 y, fl_gsum a e (Some x) = Some y &
    `|y - (s + total_grad a e)| <= gam u (n + size a) * (m + \sum_(it <- a) `|odflt 0 (nth None (flat (it_grad it)) e)|).
Proof.
rewrite /total_grad; elim: a n x s m => [|it a IH] n x s m /=; first by move=> _ h _; exists x; rewrite // !big_nil !addr0 addn0.
move=> [h1 h2] h3 h4; rewrite !big_cons /fl_gsum /=; case: (nth _ _ _) h1 => //= t _.
have k1 : `|rnd (x + t) - (s + t)| <= gam u n.+1 * (m + `|t|).
  apply: (@sum_step u u_ge0 n 0 x s m t t) => //; last exact: rounds_factor.
  by exists 0; rewrite ?normr0 ?gam_ge0 // addr0 mulr1.
have k2 : `|s + t| <= m + `|t| by apply: le_trans (ler_norm_add _ _) _; rewrite ler_add2r.
have [y e1 e2] := IH _ _ _ _ h2 k1 k2; exists y => //.
by move: e2; rewrite !addrA addSnnS.
Qed.

Lemma Forall_items_perm (P : item -> Prop) s t : Permutation s t -> Forall_items P s -> Forall_items P t.
Proof.
elim=> [//|x l l' _ IH /= [h /IH]//|x y l /= [h1 [h2 h3]]//|l l' l'' _ IH1 _ IH2 h].
by apply: IH2; apply: IH1.
Qed.

(* Two passes over the same batches in different orders are accepted if the batch
   gradients do not cancel too much (factor kappa) for the number of batches. *)
Theorem C84_check_accepts S (a b : seq item) kappa : a <> [::] -> Permutation a b ->
  Forall_items (item_ok S) a -> grads_nan_free S a -> t_close (last_loss a) (last_loss b) ->
  (forall e, (e < total S)%N ->
     \sum_(it <- a) `|odflt 0 (nth None (flat (it_grad it)) e)| <= kappa * `|total_grad a e|) ->
  gam u (size a) * kappa * (2%:R + Determinism.rtol RF) <= Determinism.rtol RF ->
  fl_check_passes rnd true false S (map Ok a) (map Ok b) = Ok tt.
Proof.
move=> ha hp hok hnf hl hk hu; have hs : size a = size b := Permutation_length hp.
have hokb := Forall_items_perm hp hok.
rewrite /fl_check_passes; set st0 := Totals _ _ _ _ _.
have [||||st' [-> c1 c2 c3 c4]] /= := @fl_loop S st0 a b hs hok hokb; rewrite //=; try exact: shaped_zeros.
rewrite c1 last_lossesE //.
have hlast : same_shape (last_loss a) (last_loss b).
  have lastP : forall P l, l <> [::] -> Forall_items P l -> P (last (@dummy RF) l).
    move=> P; case=> [//|x l _ /=]; elim: l x => [x []//|y l IH x [_ h]]; exact: IH.
  have [l1 w1 _] := lastP _ _ ha hok; have hb : b <> [::] by move=> e; rewrite e in hs; case: (a) ha hs.
  by have [l2 w2 _] := lastP _ _ hb hokb; rewrite /same_shape /last_loss w1 w2 l1 l2.
rewrite expect_close_same // (introT (t_closeP hlast)) //=.
rewrite expect_all_close_same; last exact: zip_same c2 c3.
rewrite (all_close_flat c2 c3); case: ifP => // /negP []; apply/allP => e; rewrite mem_iota add0n => /andP[_ he].
have [-> ->] := c4 e he; rewrite zeros_flat //.
have z1 : `|0 - 0 : R| <= gam u 0 * 0 by rewrite subrr normr0 mulr0.
have z2 : `|0 : R| <= 0 by rewrite normr0.
have [y1 -> b1] := fl_gsum_close (hnf e he) z1 z2.
have [y2 -> b2] := fl_gsum_close (Forall_items_perm hp (hnf e he)) z1 z2.
rewrite /= add0r add0n in b1; rewrite /= add0r add0n in b2.
have eT : total_grad b e = total_grad a e by rewrite /total_grad -(sum_permutation _ hp).
rewrite -hs eT -(sum_permutation _ hp) in b2; move: (hk e he) b1 b2; rewrite !add0r.
move: (total_grad a e) (\sum_(_ <- _) _) => T m hm b1 b2.
set eta := gam u (size a) * kappa in hu.
have hmT : gam u (size a) * m <= eta * `|T| by rewrite -mulrA; apply: ler_wpmul2l => //; exact: gam_ge0.
have {}b1 := le_trans b1 hmT; have {}b2 := le_trans b2 hmT.
have r0 : 0 <= Determinism.rtol RF by rewrite /Determinism.rtol divr_ge0 ?exprn_ge0 ?ler0n.
have a0 : 0 <= Determinism.atol RF by rewrite /Determinism.atol divr_ge0 ?exprn_ge0 ?ler0n ?ler01.
have h12 : `|y1 - y2| <= eta * `|T| *+ 2.
  have -> : y1 - y2 = (y1 - T) - (y2 - T) by rewrite opprB addrA subrK.
  by apply: le_trans (ler_norm_sub _ _) _; rewrite mulr2n ler_add.
have h2 : (1 - eta) * `|T| <= `|y2|.
  rewrite mulrBl mul1r ler_subl_addl.
  have {1}-> : T = y2 - (y2 - T) by rewrite opprB addrCA subrr addr0.
  by rewrite [X in _ <= X]addrC; apply: le_trans (ler_norm_sub _ _) _; rewrite ler_add2l.
apply: (le_trans h12); apply: (@le_trans _ _ (Determinism.rtol RF * ((1 - eta) * `|T|))); last first.
  by apply: (@le_trans _ _ (Determinism.rtol RF * `|y2|)); [apply: ler_wpmul2l | rewrite ler_addr].
have -> : eta * `|T| *+ 2 = (eta * 2%:R) * `|T| by rewrite -mulr_natr mulrAC.
rewrite mulrA; apply: ler_wpmul2r => //; rewrite mulrBr mulr1 ler_subr_addr [Determinism.rtol RF * eta]mulrC -mulrDr.
exact: hu.
Qed.
End Check.
Print Assumptions C84_check_accepts.
