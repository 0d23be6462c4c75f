(* Lemmas: a Kronecker-factored matrix is, up to the order of coordinates, block
   diagonal with Kronecker products as blocks; sums, determinants and quadratic
   forms over such a matrix. *)
From mathcomp Require Import all_ssreflect all_algebra all_fingroup.
From Verif Require Import PyPrelude Tensor Spec KfacSpec KfacProof.
Set Implicit Arguments.
Unset Strict Implicit.
Unset Printing Implicit Defensive.
Import GRing.Theory.
Local Open Scope ring_scope.

(* ---- determinants indexed by lists of coordinates ---- *)
Section DetL.
Variable F : comRingType.
Implicit Types (M : nat -> nat -> F) (s t : seq nat).

Definition detn (n : nat) M : F := \det (\matrix_(i < n, j < n) M i j).
Definition detL s M : F := detn (size s) (fun i j => M (nth 0%N s i) (nth 0%N s j)).

Lemma detn_ext n M M' : (forall i j, (i < n)%N -> (j < n)%N -> M i j = M' i j) -> detn n M = detn n M'.
Proof. by move=> h; congr (\det _); apply/matrixP => i j; rewrite !mxE h. Qed.

Lemma detL_iota n M : detL (iota 0 n) M = detn n M.
Proof. by rewrite /detL size_iota; apply: detn_ext => i j hi hj; rewrite !nth_iota. Qed.

Lemma detL_ext s M M' : (forall i j, i \in s -> j \in s -> M i j = M' i j) -> detL s M = detL s M'.
Proof. by move=> h; apply: detn_ext => i j hi hj; apply: h; rewrite mem_nth. Qed.

Lemma detL_map (f : nat -> nat) s M : detL (map f s) M = detL s (fun i j => M (f i) (f j)).
Proof. by rewrite /detL size_map; apply: detn_ext => i j hi hj; rewrite !(nth_map 0%N). Qed.

Lemma detL_perm s t M : perm_eq s t -> detL s M = detL t M.
Proof.
move=> h; have hsz := perm_size h.
have /tuple_permP[p hp] : perm_eq (in_tuple s) (tcast (esym hsz) (in_tuple t)) by rewrite val_tcast.
rewrite /detL /detn -hsz.
set A := (X in _ = \det X).
have -> : \matrix_(i < size s, j < size s) M (nth 0%N s i) (nth 0%N s j) = row_perm p (col_perm p A).
  apply/matrixP => i j; rewrite !mxE.
  have e (k : 'I_(size s)) : nth 0%N s k = nth 0%N t (p k).
    have -> : nth 0%N s k = nth 0%N (tval (in_tuple s)) k by [].
    rewrite hp (nth_map k) ?size_enum_ord // nth_ord_enum (tnth_nth 0%N) val_tcast //.
  by rewrite !e.
rewrite row_permE col_permE !det_mulmx !det_perm mulrC -mulrA -signr_addb odd_permV addbb mulr1 //.
Qed.

Lemma detL_cat s t M : (forall i j, i \in s -> j \in t -> M i j = 0) ->
  detL (s ++ t) M = detL s M * detL t M.
Proof.
move=> h; rewrite /detL /detn size_cat.
rewrite -(@det_lblock _ (size s) (size t) (\matrix_(i, j) M (nth 0%N s i) (nth 0%N s j))
   (\matrix_(i, j) M (nth 0%N t i) (nth 0%N s j)) (\matrix_(i, j) M (nth 0%N t i) (nth 0%N t j))).
congr (\det _); apply/matrixP => i j; rewrite !mxE.
case: splitP => i' hi; rewrite mxE; case: splitP => j' hj; rewrite !mxE hi hj !nth_cat ?ltn_ord ?ltnNge ?leq_addr /= ?addKn //.
by rewrite h // mem_nth.
Qed.

Lemma detL_flatten (ss : seq (seq nat)) M :
  (forall i j, (i < j)%N -> (j < size ss)%N -> forall a b, a \in nth [::] ss i -> b \in nth [::] ss j -> M a b = 0) ->
  detL (flatten ss) M = \prod_(s <- ss) detL s M.
Proof.
elim: ss => [|s ss IH] h; first by rewrite big_nil /detL /detn det_mx00.
rewrite big_cons /= detL_cat; first by rewrite IH // => i j hij hj; exact: (h i.+1 j.+1).
move=> a b ha /flattenP[t ht hb].
have [j hj e] : exists2 j, (j < size ss)%N & nth [::] ss j = t by exists (index t ss); rewrite ?index_mem ?nth_index.
by apply: (h 0%N j.+1) => //=; rewrite e.
Qed.

(* Kronecker product of an m x m and an n x n matrix, row-major pairs *)
Definition kron n (B A : nat -> nat -> F) (r s : nat) : F := B (r %/ n)%N (s %/ n)%N * A (r %% n)%N (s %% n)%N.

Lemma prod_const_iota (x : F) n (f : nat -> F) : (forall i, (i < n)%N -> f i = x) -> \prod_(i <- iota 0 n) f i = x ^+ n.
Proof.
move=> h; rewrite -{1}(subn0 n) -/(index_iota 0 n) big_mkord.
rewrite (eq_bigr (fun=> x)); last by move=> i _; apply: h.
by rewrite prodr_const card_ord.
Qed.

Lemma iota_rows m n : iota 0 (m * n) = flatten [seq [seq (a * n + c)%N | c <- iota 0 n] | a <- iota 0 m].
Proof.
elim: m => // m IH; rewrite mulSnr iotaD IH -addn1 iotaD map_cat flatten_cat /= cats0; congr (_ ++ _).
rewrite add0n -[in LHS](addn0 (m * n)%N) iotaDl; by apply: eq_map => c.
Qed.

Lemma perm_cols m n : perm_eq (iota 0 (m * n)) (flatten [seq [seq (a * n + c)%N | a <- iota 0 m] | c <- iota 0 n]).
Proof.
have hu : uniq (flatten [seq [seq (a * n + c)%N | a <- iota 0 m] | c <- iota 0 n]).
  apply: allpairs_uniq_dep => [|c _|]; rewrite ?iota_uniq //.
  move=> [c1 a1] [c2 a2] /allpairsPdep[c [a [hc ha [-> ->]]]] /allpairsPdep[c' [a' [hc' ha' [-> ->]]]] /= e.
  move: hc hc'; rewrite !mem_iota !add0n /= => hc hc'.
  have n0 : (0 < n)%N by apply: leq_ltn_trans hc.
  have := congr1 (divn^~ n) e; have := congr1 (modn^~ n) e.
  by rewrite !divnMDl // !modnMDl !modn_small // !divn_small // !addn0 => -> ->.
apply: uniq_perm => //; first exact: iota_uniq.
move=> x; rewrite mem_iota add0n /=; apply/idP/allpairsPdep.
  move=> hx; have n0 : (0 < n)%N by case: n hx {hu} => //; rewrite muln0.
  exists (x %% n)%N, (x %/ n)%N; rewrite !mem_iota !add0n /= ltn_mod n0 ltn_divLR // hx; split=> //; exact: divn_eq.
move=> [c [a [hc ha ->]]]; move: hc ha; rewrite !mem_iota !add0n /= => hc ha; exact: idx2_bound.
Qed.

Lemma det_kron_id m n (A : nat -> nat -> F) :
  detL (iota 0 (m * n)) (kron n (fun i j => (i == j)%:R) A) = detn n A ^+ m.
Proof.
case: (posnP n) => [->|n0].
  by rewrite muln0 /detL /detn /= !det_mx00 expr1n.
rewrite iota_rows detL_flatten.
  rewrite big_map; apply: prod_const_iota => a _.
  rewrite detL_map -detL_iota; apply: detL_ext => i j; rewrite !mem_iota !add0n /= => hi hj.
  by rewrite /kron !divnMDl // !modnMDl !divn_small // eqxx mul1r !modn_small.
rewrite size_map size_iota => i j hij hj x y.
rewrite !(nth_map 0%N) ?size_iota ?(ltn_trans hij) // !nth_iota ?(ltn_trans hij) // !add0n.
move=> /mapP[c + ->] /mapP[d + ->]; rewrite !mem_iota !add0n /= => hc hd.
by rewrite /kron !divnMDl // !divn_small // !addn0 ltn_eqF // mul0r.
Qed.

Lemma det_id_kron m n (B : nat -> nat -> F) :
  detL (iota 0 (m * n)) (kron n B (fun i j => (i == j)%:R)) = detn m B ^+ n.
Proof.
case: (posnP n) => [->|n0].
  by rewrite muln0 /detL /detn /= det_mx00 expr0.
rewrite (detL_perm _ (perm_cols m n)) detL_flatten.
  rewrite big_map; apply: prod_const_iota => c hc.
  rewrite detL_map -detL_iota; apply: detL_ext => i j; rewrite !mem_iota !add0n /= => hi hj.
  by rewrite /kron !divnMDl // !modnMDl !divn_small // !addn0 eqxx mulr1.
rewrite size_map size_iota => i j hij hj x y.
rewrite !(nth_map 0%N) ?size_iota ?(ltn_trans hij) // !nth_iota ?(ltn_trans hij) // !add0n.
move=> /mapP[c + ->] /mapP[d + ->]; rewrite !mem_iota !add0n /= => hc hd.
by rewrite /kron !modnMDl !modn_small // ?(ltn_trans hij) // ltn_eqF // mulr0.
Qed.

Lemma sum_nat_delta n (f : nat -> F) i : (i < n)%N -> \sum_(t < n) (i == t :> nat)%:R * f t = f i.
Proof.
move=> hi; rewrite (bigD1 (Ordinal hi)) //= eqxx mul1r big1 ?addr0 // => t ht.
by rewrite (_ : (i == t) = false) ?mul0r //; apply/eqP => e; move/eqP: ht; apply; apply: val_inj.
Qed.

Lemma det_kron m n (B A : nat -> nat -> F) : detn (m * n) (kron n B A) = detn m B ^+ n * detn n A ^+ m.
Proof.
rewrite -det_id_kron -det_kron_id !detL_iota /detn -det_mulmx; congr (\det _).
apply/matrixP => i j; rewrite !mxE.
have [hi1 hi2] := modn_ltn (ltn_ord i); have [hj1 hj2] := modn_ltn (ltn_ord j).
under eq_bigr => t _ do rewrite !mxE.
rewrite (sum_divmod m n (fun a c => B (i %/ n)%N a * ((i %% n)%N == c :> nat)%:R * ((a == (j %/ n)%N :> nat)%:R * A c (j %% n)%N))).
under eq_bigr => a _ do under eq_bigr => c _ do rewrite -mulrA [X in _ * X]mulrCA.
rewrite /kron.
have -> : \sum_(a < m) \sum_(c < n) B (i %/ n)%N a * ((a == (j %/ n)%N :> nat)%:R * (((i %% n)%N == c :> nat)%:R * A c (j %% n)%N)) =
  \sum_(a < m) ((j %/ n)%N == a :> nat)%:R * (B (i %/ n)%N a * A (i %% n)%N (j %% n)%N).
  apply: eq_bigr => a _; rewrite -(sum_nat_delta (fun c => A c (j %% n)%N) hi1) !mulr_sumr; apply: eq_bigr => c _.
  by rewrite [in RHS]mulrCA eq_sym.
by rewrite (sum_nat_delta (fun a => B (i %/ n)%N a * A (i %% n)%N (j %% n)%N) hj2).
Qed.
End DetL.

(* ---- block structure ---- *)
Section Blocks.
Variable F : comRingType.
Record block := Block { b_o : nat; b_n : nat; b_at : nat -> nat; b_B : nat -> nat -> F; b_A : nat -> nat -> F }.
Definition coords (b : block) : seq nat := [seq b_at b r | r <- iota 0 (b_o b * b_n b)].

Definition crosses (ss : seq (seq nat)) (g : nat -> nat -> F) : Prop :=
  forall i j, (i < j)%N -> (j < size ss)%N -> forall a b, a \in nth [::] ss i -> b \in nth [::] ss j ->
    g a b = 0 /\ g b a = 0.

Definition blocked (N : nat) (M : nat -> nat -> F) (bs : seq block) : Prop :=
  [/\ perm_eq (flatten (map coords bs)) (iota 0 N),
      (forall b, List.In b bs -> forall r s, (r < b_o b * b_n b)%N -> (s < b_o b * b_n b)%N ->
         M (b_at b r) (b_at b s) = kron (b_n b) (b_B b) (b_A b) r s) &
      crosses (map coords bs) M].

Lemma crosses_cons c cs g : crosses (c :: cs) g -> crosses cs g.
Proof. by move=> h i j hij hj; exact: (h i.+1 j.+1). Qed.

Lemma crosses_head c cs g a b : crosses (c :: cs) g -> a \in c -> b \in flatten cs -> g a b = 0 /\ g b a = 0.
Proof.
move=> h ha /flattenP[t ht hb].
by apply: (h 0%N (index t cs).+1); rewrite //= ?ltnS ?index_mem ?nth_index.
Qed.

Lemma sum_iota n (f : nat -> F) : \sum_(i < n) f i = \sum_(i <- iota 0 n) f i.
Proof. by rewrite -(big_mkord xpredT f) /index_iota subn0. Qed.

Lemma sum_flatten2 cs (g : nat -> nat -> F) : crosses cs g ->
  \sum_(i <- flatten cs) \sum_(j <- flatten cs) g i j = \sum_(c <- cs) \sum_(i <- c) \sum_(j <- c) g i j.
Proof.
elim: cs => [|c cs IH] h; first by rewrite !big_nil.
rewrite big_cons -IH; last exact: crosses_cons h.
rewrite /= big_cat /=; congr (_ + _).
  rewrite big_seq [RHS]big_seq; apply: eq_bigr => i hi; rewrite big_cat /= [X in _ + X]big1_seq ?addr0 // => j /andP[_ hj].
  by case: (crosses_head h hi hj).
rewrite big_seq [RHS]big_seq; apply: eq_bigr => i hi; rewrite big_cat /= [X in X + _]big1_seq ?add0r // => j /andP[_ hj].
by case: (crosses_head h hj hi).
Qed.

Lemma sum_pairs N bs (g : nat -> nat -> F) : perm_eq (flatten (map coords bs)) (iota 0 N) -> crosses (map coords bs) g ->
  \sum_(i < N) \sum_(j < N) g i j =
  \sum_(b <- bs) \sum_(r < b_o b * b_n b) \sum_(s < b_o b * b_n b) g (b_at b r) (b_at b s).
Proof.
move=> hp hc; rewrite (sum_iota N (fun i => \sum_(j < N) g i j)) -(perm_big _ hp) /=.
under eq_bigr => i _ do rewrite (sum_iota N (g i)) -(perm_big _ hp) /=.
rewrite (sum_flatten2 hc) big_map; apply: eq_bigr => b _.
rewrite [RHS](sum_iota _ (fun r => \sum_(s < _) g (b_at b r) (b_at b s))) big_map; apply: eq_bigr => r _.
by rewrite (sum_iota _ (fun s => g (b_at b r) (b_at b s))) big_map.
Qed.

Lemma crosses_imp cs (g g' : nat -> nat -> F) : crosses cs g -> (forall a b, g a b = 0 -> g' a b = 0) -> crosses cs g'.
Proof. by move=> h hg i j hij hj a b ha hb; have [h1 h2] := h i j hij hj a b ha hb; split; apply: hg. Qed.

Lemma eq_big_In (T : Type) (bs : seq T) (f g : T -> F) : (forall b, List.In b bs -> f b = g b) ->
  \sum_(b <- bs) f b = \sum_(b <- bs) g b.
Proof.
elim: bs => [|b bs IH] h; first by rewrite !big_nil.
by rewrite !big_cons h ?IH //; [move=> b' hb'; apply: h; right|left].
Qed.
Lemma eq_prod_In (T : Type) (bs : seq T) (f g : T -> F) : (forall b, List.In b bs -> f b = g b) ->
  \prod_(b <- bs) f b = \prod_(b <- bs) g b.
Proof.
elim: bs => [|b bs IH] h; first by rewrite !big_nil.
by rewrite !big_cons h ?IH //; [move=> b' hb'; apply: h; right|left].
Qed.

Lemma blocked_trace N M bs : blocked N M bs ->
  \sum_(i < N) M i i = \sum_(b <- bs) (\sum_(i < b_o b) b_B b i i) * (\sum_(j < b_n b) b_A b j j).
Proof.
move=> [hp he _]; rewrite (sum_iota N (fun i => M i i)) -(perm_big _ hp) /= big_flatten big_map /=.
apply: eq_big_In => b hb; rewrite big_map -(sum_iota _ (fun r => M (b_at b r) (b_at b r))).
transitivity (\sum_(r < b_o b * b_n b) b_B b (r %/ b_n b)%N (r %/ b_n b)%N * b_A b (r %% b_n b)%N (r %% b_n b)%N).
  by apply: eq_bigr => r _; rewrite he.
rewrite (sum_divmod _ _ (fun a c => b_B b a a * b_A b c c)) mulr_suml; apply: eq_bigr => a _.
by rewrite mulr_sumr.
Qed.

Lemma blocked_det N M bs : blocked N M bs ->
  detn N M = \prod_(b <- bs) (detn (b_o b) (b_B b) ^+ b_n b * detn (b_n b) (b_A b) ^+ b_o b).
Proof.
move=> [hp he hc]; rewrite -detL_iota -(detL_perm _ hp) detL_flatten.
  rewrite big_map; apply: eq_prod_In => b hb; rewrite detL_map -det_kron -detL_iota.
  by apply: detL_ext => r s; rewrite !mem_iota !add0n /= => hr hs; exact: he.
by move=> i j hij hj a b ha hb; case: (hc i j hij hj a b ha hb).
Qed.

Lemma blocked_frob N M bs : blocked N M bs ->
  \sum_(i < N) \sum_(j < N) M i j ^+ 2 =
  \sum_(b <- bs) (\sum_(i < b_o b) \sum_(j < b_o b) b_B b i j ^+ 2) * (\sum_(i < b_n b) \sum_(j < b_n b) b_A b i j ^+ 2).
Proof.
move=> [hp he hc]; rewrite (sum_pairs (g := fun i j => M i j ^+ 2) hp); last first.
  by apply: crosses_imp hc _ => a b ->; rewrite expr0n.
apply: eq_big_In => b hb.
transitivity (\sum_(r < b_o b * b_n b) \sum_(s < b_o b * b_n b)
   (b_B b (r %/ b_n b)%N (s %/ b_n b)%N ^+ 2 * b_A b (r %% b_n b)%N (s %% b_n b)%N ^+ 2)).
  by apply: eq_bigr => r _; apply: eq_bigr => s _; rewrite he // /kron exprMn.
under eq_bigr => r _ do rewrite (sum_divmod _ _ (fun a c => b_B b (r %/ b_n b)%N a ^+ 2 * b_A b (r %% b_n b)%N c ^+ 2)).
rewrite (sum_divmod _ _ (fun r1 r2 => \sum_(a < b_o b) \sum_(c < b_n b) b_B b r1 a ^+ 2 * b_A b r2 c ^+ 2)).
rewrite mulr_suml; apply: eq_bigr => a _; rewrite mulr_sumr; apply: eq_bigr => c _.
by rewrite mulr_suml; apply: eq_bigr => a' _; rewrite mulr_sumr.
Qed.
End Blocks.

(* ---- the blocks of a list of layers ---- *)
Section LayerBlocks.
Variable F : comRingType.

(* output dimension of a layer, and the shapes its parameters must have *)
Definition l_out S (l : layer F) : nat :=
  match l_w l, l_b l with
  | Some w, _ => head 0%N (pshape S w)
  | None, Some b => head 0%N (pshape S b)
  | _, _ => 0%N
  end.
Definition shaped S (l : layer F) : Prop :=
  (forall w, l_w l = Some w -> exists rest, pshape S w = l_out S l :: rest) /\
  (forall b, l_b l = Some b -> pshape S b = [:: l_out S l]).

Definition wblock S (l : layer F) w : block F := Block (l_out S l) (ncol S w) (fun r => off S w + r)%N (l_B l) (l_A l).
Definition bblock S (l : layer F) b : block F := Block (l_out S l) 1 (fun r => off S b + r)%N (l_B l) (fun _ _ => 1).
Definition jblock S (l : layer F) w b : block F :=
  Block (l_out S l) (ncol S w).+1
    (fun r => if (r %% (ncol S w).+1 < ncol S w)%N
              then (off S w + (r %/ (ncol S w).+1 * ncol S w + r %% (ncol S w).+1))%N
              else (off S b + r %/ (ncol S w).+1)%N)
    (l_B l) (l_A l).

Definition layer_blocks sep S (l : layer F) : seq (block F) :=
  match l_w l, l_b l with
  | Some w, Some b => if sep then [:: wblock S l w; bblock S l b] else [:: jblock S l w b]
  | Some w, None => [:: wblock S l w]
  | None, Some b => [:: bblock S l b]
  | None, None => [::]
  end.

Definition pos_coords S (ps : seq nat) : seq nat := flatten [seq iota (off S p) (numel (pshape S p)) | p <- ps].

Lemma pos_coords_all S : pos_coords S (iota 0 (size S)) = iota 0 (total S).
Proof.
have H : forall k, (k <= size S)%N -> pos_coords S (iota 0 k) = iota 0 (off S k).
  elim=> [|k IH] hk; first by rewrite off0.
  rewrite /pos_coords -addn1 iotaD map_cat flatten_cat -/(pos_coords S _) IH ?(ltnW hk) //= cats0 add0n.
  have -> : off S (k + 1) = (off S k + numel (pshape S k))%N.
    by rewrite addn1 /off /pshape /total (take_nth [::]) // map_rcons sumn_rcons.
  by rewrite iotaD.
by rewrite H // /off take_size.
Qed.

Lemma coords_w S (l : layer F) w : shaped S l -> l_w l = Some w -> coords (wblock S l w) = pos_coords S [:: w].
Proof.
move=> [h _] hw; have [rest e] := h w hw.
rewrite /coords /pos_coords /= cats0 /ncol e /= -[in RHS](addn0 (off S w)) iotaDl; by [].
Qed.

Lemma coords_b S (l : layer F) b : shaped S l -> l_b l = Some b -> coords (bblock S l b) = pos_coords S [:: b].
Proof.
move=> [_ h] hb; have e := h b hb.
by rewrite /coords /pos_coords /= cats0 e /= -[in RHS](addn0 (off S b)) iotaDl.
Qed.

Lemma mem_pos S p x : (p < size S)%N -> (x \in pos_coords S [:: p]) = (off S p <= x < off S p + numel (pshape S p))%N.
Proof. by rewrite /pos_coords /= cats0 mem_iota. Qed.

Lemma perm_flatten_cat (T : eqType) (I : Type) (f g : I -> seq T) (s : seq I) :
  perm_eq (flatten [seq f a ++ g a | a <- s]) (flatten (map f s) ++ flatten (map g s)).
Proof.
elim: s => //= a s IH; rewrite -!catA perm_cat2l.
apply: (perm_trans (perm_cat (perm_refl (g a)) IH)); by rewrite perm_catCA.
Qed.

Lemma coords_j S (l : layer F) w b : shaped S l -> l_w l = Some w -> l_b l = Some b ->
  perm_eq (coords (jblock S l w b)) (pos_coords S [:: w; b]).
Proof.
move=> [h1 h2] hw hb; have [rest e] := h1 w hw; have e' := h2 b hb.
rewrite /coords /=; set n := ncol S w; set o := l_out S l.
have -> : [seq (if (r %% n.+1 < n)%N then (off S w + (r %/ n.+1 * n + r %% n.+1))%N else (off S b + r %/ n.+1)%N) | r <- iota 0 (o * n.+1)]
  = flatten [seq [seq (off S w + (a * n + c))%N | c <- iota 0 n] ++ [:: (off S b + a)%N] | a <- iota 0 o].
  rewrite iota_rows map_flatten -map_comp; congr flatten; apply: eq_map => a.
  rewrite /comp -map_comp -[in iota 0 n.+1]addn1 iotaD map_cat /= add0n; congr (_ ++ _).
    apply/eq_in_map => c; rewrite mem_iota add0n /= => hc.
    by rewrite modnMDl divnMDl // modn_small ?(ltnW hc) ?hc ?divn_small ?addn0 //; exact: leqW.
  by rewrite modnMDl divnMDl // modn_small // ltnn divn_small // addn0.
apply: (perm_trans (perm_flatten_cat _ _ _)).
rewrite /pos_coords /= cats0; apply: perm_cat.
  rewrite e /= -/o (_ : numel rest = n); last by rewrite /n /ncol e.
  rewrite -[in X in perm_eq _ X](addn0 (off S w)) iotaDl iota_rows map_flatten -map_comp.
  by rewrite (eq_map (f2 := fun a => [seq (off S w + i)%N | i <- [seq (a * n + c)%N | c <- iota 0 n]])) // => a; rewrite -map_comp.
rewrite e' /= muln1 -/o -[in X in perm_eq _ X](addn0 (off S b)) iotaDl.
by elim: (iota 0 o) => //= a s IH; rewrite perm_cons.
Qed.

Lemma layer_coords sep S (l : layer F) : shaped S l ->
  perm_eq (flatten (map (@coords F) (layer_blocks sep S l))) (pos_coords S (l_pos l)).
Proof.
move=> hs; rewrite /layer_blocks /l_pos; case ew : (l_w l) => [w|]; case eb : (l_b l) => [b|] //=.
- case: sep => /=; last by rewrite cats0; exact: coords_j.
  by rewrite coords_w // coords_b // /pos_coords /= !cats0.
- by rewrite cats0 coords_w.
by rewrite cats0 coords_b.
Qed.

Lemma param_of_coords S ps a : all (fun p => p < size S)%N ps -> a \in pos_coords S ps ->
  exists p r, [/\ p \in ps, (p < size S)%N, (r < numel (pshape S p))%N & a = (off S p + r)%N].
Proof.
move=> hall /flattenP[c /mapP[p hp ->]]; rewrite mem_iota => /andP[h1 h2].
exists p, (a - off S p)%N; split=> //; first exact: (allP hall).
  by rewrite ltn_subLR.
by rewrite subnKC.
Qed.

Section Matrix.
Variables (sep : bool) (S : seq (seq nat)) (ls : seq (layer F)).
Hypothesis hun : unshared S ls.
Hypothesis hshape : forall l, List.In l ls -> shaped S l.
Local Notation M := (kfac_matrix sep S ls).

Let hu : uniq (flatten (map (@l_pos F) ls)). Proof. by rewrite (perm_uniq hun) iota_uniq. Qed.
Let hall l : List.In l ls -> all (fun p => p < size S)%N (l_pos l).
Proof. by move=> hl; apply/allP => p hp; have := in_pos hl hp; rewrite (perm_mem hun) mem_iota add0n. Qed.

Lemma sum_one (f : layer F -> F) l (p : nat) : (forall l', p \notin l_pos l' -> f l' = 0) -> List.In l ls -> p \in l_pos l ->
  \sum_(l' <- ls) f l' = f l.
Proof.
move=> hf; move: hu; elim: ls => //= l' ls' IH; rewrite cat_uniq => /and3P[u1 /hasPn u2 u3] hin hp; rewrite big_cons.
have Z ls2 : p \notin flatten (map (@l_pos F) ls2) -> \sum_(l2 <- ls2) f l2 = 0.
  elim: ls2 => [|l2 ls2 IH2] /=; first by rewrite big_nil.
  by rewrite mem_cat negb_or big_cons => /andP[q1 q2]; rewrite hf // add0r IH2.
case: hin => [e|hin].
  subst l'; rewrite Z ?addr0 //; apply/negP => h; by move: (u2 _ h); rewrite /= hp.
rewrite hf ?add0r ?IH //; exact: (u2 _ (in_pos hin hp)).
Qed.

Lemma out1 (l : layer F) (p : nat) r q s : p \notin l_pos l -> layer_entry sep S l p r q s = 0.
Proof. exact: layer_entry_out. Qed.
Lemma out2 (l : layer F) (p : nat) r (q : nat) s : q \notin l_pos l -> layer_entry sep S l p r q s = 0.
Proof. by move=> h; rewrite /layer_entry (negbTE (_ : ~~ l_mem l q)) ?andbF // l_memE. Qed.

Lemma M_layer l p r q s : List.In l ls -> p \in l_pos l -> (q < size S)%N ->
  (r < numel (pshape S p))%N -> (s < numel (pshape S q))%N ->
  M (off S p + r) (off S q + s) = layer_entry sep S l p r q s.
Proof.
move=> hl hp hq hr hs; have hp' := allP (hall hl) p hp.
rewrite /kfac_matrix; have [-> ->] := locate_off hp' hr; have [-> ->] := locate_off hq hs.
by rewrite (sum_one (p := p) (l := l)) // => l' h; exact: out1.
Qed.

Lemma M_zero l a b : List.In l ls -> a \in pos_coords S (l_pos l) ->
  (exists q s, [/\ q \notin l_pos l, (q < size S)%N, (s < numel (pshape S q))%N & b = (off S q + s)%N]) ->
  M a b = 0 /\ M b a = 0.
Proof.
move=> hl /(param_of_coords (hall hl))[p [r [hp hp' hr ->]]] [q [s [hq hq' hs ->]]]; split.
  by rewrite (M_layer hl) // out2.
rewrite /kfac_matrix; have [-> ->] := locate_off hp' hr; have [-> ->] := locate_off hq' hs.
by rewrite (sum_one (p := p) (l := l)) ?out1 // => l' h; exact: out2.
Qed.

Lemma crosses_cat cs ds (g : nat -> nat -> F) : crosses cs g -> crosses ds g ->
  (forall a b, a \in flatten cs -> b \in flatten ds -> g a b = 0 /\ g b a = 0) -> crosses (cs ++ ds) g.
Proof.
move=> h1 h2 h3 i j hij; rewrite size_cat => hj a b; rewrite !nth_cat.
have fl (ss : seq (seq nat)) k x : (k < size ss)%N -> x \in nth [::] ss k -> x \in flatten ss.
  by move=> hk hx; apply/flattenP; exists (nth [::] ss k) => //; exact: mem_nth.
case: (ltnP j (size cs)) => hjc; first by rewrite (ltn_trans hij hjc); exact: h1.
case: (ltnP i (size cs)) => hic ha hb.
  by apply: h3; [exact: fl ha|apply: fl hb; rewrite ltn_subLR].
by apply: (h2 (i - size cs)%N (j - size cs)%N); rewrite ?ltn_sub2r ?ltn_subLR //; exact: leq_ltn_trans hij.
Qed.

Lemma layer_inner l : List.In l ls -> crosses (map (@coords F) (layer_blocks sep S l)) M.
Proof.
move=> hl; have hs := hshape hl; rewrite /layer_blocks.
case ew : (l_w l) => [w|]; case eb : (l_b l) => [b|] //=; try by move=> i [|j].
have [es|es] : sep = true \/ sep = false by case: (sep); auto.
2: by rewrite {1}es => i [|j].
rewrite {1}es.
move=> [|i] [|[|j]] //= _ _ x y; rewrite coords_w // coords_b // => hx hy.
have hu' : uniq (l_pos l).
  elim: (ls) hl hu => //= l' ls' IH [->|h]; rewrite cat_uniq => /and3P[u1 _ u2] //; exact: IH.
have hw : w \in l_pos l by rewrite /l_pos ew mem_cat inE eqxx.
have hb : b \in l_pos l by rewrite /l_pos eb mem_cat inE eqxx orbT.
have hwb : w != b by move: hu'; rewrite /l_pos ew eb /= inE andbT.
have hw' := allP (hall hl) w hw; have hb' := allP (hall hl) b hb.
have [p [r [+ _ hr ->]]] := @param_of_coords S [:: w] x (ltac:(by rewrite /= hw')) hx; rewrite inE => /eqP ep; subst p.
have [q [s [+ _ hs' ->]]] := @param_of_coords S [:: b] y (ltac:(by rewrite /= hb')) hy; rewrite inE => /eqP eq; subst q.
rewrite !(M_layer hl) // /layer_entry /joint es /= ew.
have -> : (Some w == Some b) = false by apply/eqP => -[e]; rewrite e eqxx in hwb.
by rewrite (negbTE hwb) eq_sym (negbTE hwb) /= !andbF /= !mulr0 !if_same.
Qed.

Lemma kfac_crosses_sub ls' : uniq (flatten (map (@l_pos F) ls')) -> (forall l, List.In l ls' -> List.In l ls) ->
  crosses (map (@coords F) (flatten (map (layer_blocks sep S) ls'))) M.
Proof.
elim: ls' => [|l ls' IH] /= hu' hin; first by move=> i j.
move: hu'; rewrite cat_uniq => /and3P[_ /hasPn u2 u3].
rewrite map_cat; apply: crosses_cat.
- by apply: layer_inner; apply: hin; left.
- by apply: IH => // l' h; apply: hin; right.
move=> a b; rewrite (perm_mem (layer_coords sep (hshape (hin l (or_introl erefl))))) => ha hb.
apply: (M_zero (hin l (or_introl erefl)) ha).
have {hb} [l' hl' hb] : exists2 l', List.In l' ls' & b \in pos_coords S (l_pos l').
  have hin' l' : List.In l' ls' -> List.In l' ls by move=> h; apply: hin; right.
  elim: ls' hin' hb {IH u2 u3 hin} => //= l' ls' IH hin'; rewrite map_cat flatten_cat mem_cat => /orP[h|h].
    by exists l'; [left|rewrite -(perm_mem (layer_coords sep (hshape (hin' l' (or_introl erefl)))))].
  by have [|l2 h1 h2] := IH _ h; [move=> l2 h2; apply: hin'; right|exists l2 => //; right].
have [q [s [hq hq' hs ->]]] := param_of_coords (hall (hin l' (or_intror hl'))) hb.
exists q, s; split=> //; exact: (u2 _ (in_pos hl' hq)).
Qed.

Lemma kfac_crosses : crosses (map (@coords F) (flatten (map (layer_blocks sep S) ls))) M.
Proof. exact: kfac_crosses_sub. Qed.

Lemma kfac_cover : perm_eq (flatten (map (@coords F) (flatten (map (layer_blocks sep S) ls)))) (iota 0 (total S)).
Proof.
rewrite -pos_coords_all.
apply: (@perm_trans _ (pos_coords S (flatten (map (@l_pos F) ls)))); last first.
  by apply: perm_flatten; apply: perm_map.
elim: ls hshape => //= l ls' IH hs; rewrite map_cat flatten_cat /pos_coords map_cat flatten_cat.
by apply: perm_cat; [apply: layer_coords; apply: hs; left|apply: IH => l' h; apply: hs; right].
Qed.

Lemma block_entries l b : List.In l ls -> List.In b (layer_blocks sep S l) -> forall r s, (r < b_o b * b_n b)%N -> (s < b_o b * b_n b)%N ->
   M (b_at b r) (b_at b s) = kron (b_n b) (b_B b) (b_A b) r s.
Proof.
move=> hl; have [h1 h2] := hshape hl; rewrite /layer_blocks.
have hu' : uniq (l_pos l).
  elim: (ls) hl hu => //= l' ls' IH [->|h]; rewrite cat_uniq => /and3P[u1 _ u2] //; exact: IH.
case ew : (l_w l) => [w|]; case eb : (l_b l) => [c|] //=; last first.
- case=> // <- r s /=; rewrite muln1 => hr hs.
  have hc : c \in l_pos l by rewrite /l_pos eb mem_cat inE eqxx orbT.
  have hc' := allP (hall hl) c hc.
  have e := h2 c eb.
  rewrite (M_layer hl) ?e /= ?muln1 // /layer_entry /l_mem eb eqxx orbT /joint ew /= andbF /lrow /kron /ncol e /= !divn1 eqxx.
  by [].
- case=> // <- r s /= hr hs; have [rest e] := h1 w ew.
  have hw : w \in l_pos l by rewrite /l_pos ew mem_cat inE eqxx.
  have hw' := allP (hall hl) w hw.
  move: hr hs; rewrite /ncol e /= => hr hs.
  rewrite (M_layer hl) ?e //= /layer_entry /l_mem ew eqxx /= orbT /lrow /lcol ew eqxx /kron /ncol e //.
have [rest e] := h1 w ew; have e' := h2 c eb.
have hw : w \in l_pos l by rewrite /l_pos ew mem_cat inE eqxx.
have hw' := allP (hall hl) w hw.
have hc : c \in l_pos l by rewrite /l_pos eb mem_cat inE eqxx orbT.
have hc' := allP (hall hl) c hc.
have hwc : w != c by move: hu'; rewrite /l_pos ew eb /= inE andbT.
have hwc' : (Some w == Some c) = false by apply/eqP => -[e2]; rewrite e2 eqxx in hwc.
have [es|es] : sep = true \/ sep = false by case: (sep); auto.
  rewrite {1}es /=; case=> [<-|[<-|//]] r s /= hr hs.
    move: hr hs; rewrite /ncol e /= => hr hs.
    rewrite (M_layer hl) ?e //= /layer_entry /l_mem ew eqxx /= orbT /lrow /lcol ew eqxx /kron /ncol e //.
  move: hr hs; rewrite muln1 => hr hs.
  rewrite (M_layer hl) ?e' /= ?muln1 // /layer_entry /l_mem eb eqxx orbT /joint es ew hwc' /= /lrow /kron /ncol e' /= !divn1 eqxx.
  by [].
rewrite {1}es /=; case=> // <- r s /= hr hs.
have hn : ncol S w = numel rest by rewrite /ncol e.
have [r1 r2] := modn_ltn hr; have [s1 s2] := modn_ltn hs.
rewrite /kron; move: r1 r2 s1 s2; move: (r %% _)%N (r %/ _)%N (s %% _)%N (s %/ _)%N => rc ra sc sa r1 r2 s1 s2.
have hj : joint sep l by rewrite /joint es ew eb.
have n0 x : (x < ncol S w)%N -> (0 < ncol S w)%N by apply: leq_ltn_trans.
have big x y : (x < l_out S l)%N -> (y < ncol S w)%N -> (x * ncol S w + y < numel (pshape S w))%N.
  by move=> hx hy; rewrite e /= -hn; exact: idx2_bound.
have small x : (x < l_out S l)%N -> (x < numel (pshape S c))%N by rewrite e' /= muln1.
have last x : (x < (ncol S w).+1)%N -> (ncol S w <= x)%N -> x = ncol S w by move=> ? ?; apply/eqP; rewrite eqn_leq -ltnS; apply/andP.
have nc1 : ncol S c = 1%N by rewrite /ncol e'.
have cw : (Some c == Some w) = false by rewrite eq_sym.
case: (ltnP rc (ncol S w)) => hrc; case: (ltnP sc (ncol S w)) => hsc;
 rewrite (M_layer hl) ?big ?small // /layer_entry /l_mem ew eb ?eqxx ?hwc' ?cw /= ?orbT ?hj /= /lrow /lcol ew ?eqxx ?hwc' ?nc1 ?divn1 ?divnMDl ?(n0 _ hrc) ?(n0 _ hsc) // ?modnMDl ?[(rc %/ _)%N]divn_small ?[(sc %/ _)%N]divn_small ?addn0 ?[(rc %% _)%N]modn_small ?[(sc %% _)%N]modn_small //.
- by rewrite (last _ s1 hsc).
- by rewrite (last _ r1 hrc).
by rewrite (last _ r1 hrc) (last _ s1 hsc).
Qed.

Theorem kfac_blocked : blocked (total S) M (flatten (map (layer_blocks sep S) ls)).
Proof.
split; [exact: kfac_cover| |exact: kfac_crosses].
move=> b hb; have [l hl hb'] : exists2 l, List.In l ls & List.In b (layer_blocks sep S l).
  elim: (ls) hb => //= l ls' IH /List.in_app_iff [h|/IH[l2 h1 h2]]; first by exists l => //; left.
  by exists l2 => //; right.
exact: (block_entries hl hb').
Qed.
End Matrix.
End LayerBlocks.
