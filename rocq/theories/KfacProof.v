(* Lemmas: what the loop of KFAC's matrix product computes. *)
From mathcomp Require Import all_ssreflect all_algebra.
From Verif Require Import PyPrelude Tensor Spec KfacSpec Kfac.
Set Implicit Arguments.
Unset Strict Implicit.
Unset Printing Implicit Defensive.
Import GRing.Theory.
Local Open Scope ring_scope.

Section Proof.
Variable F : comRingType.
Local Notation tens := (tensor F).
Local Notation t0 := (Tensor [::] [::] : tens).

Lemma idx3_bound m n K i j k : (i < m)%N -> (j < n)%N -> (k < K)%N -> ((i * n + j) * K + k < m * n * K)%N.
Proof.
move=> hi hj hk; have h1 : (i * n + j < m * n)%N.
  by apply: leq_trans (_ : (i.+1 * n <= _)%N); rewrite ?leq_mul2r ?hi ?orbT // mulSn addnC ltn_add2r.
by apply: leq_trans (_ : ((i * n + j).+1 * K <= _)%N); rewrite ?leq_mul2r ?h1 ?orbT // mulSn addnC ltn_add2r.
Qed.

Lemma nth_mk3 m n K (f : nat -> nat -> nat -> F) i j k : (i < m)%N -> (j < n)%N -> (k < K)%N ->
  entry K (mk3 m n K f) (i * n + j) k = f i j k.
Proof.
move=> hi hj hk; rewrite /entry nth_mkseq; last exact: idx3_bound.
have hK : (0 < K)%N by apply: leq_ltn_trans hk.
have hn : (0 < n)%N by apply: leq_ltn_trans hj.
by rewrite divnMDl // modnMDl [(k %/ K)%N]divn_small // addn0 [(k %% K)%N]modn_small // divnMDl // modnMDl divn_small // modn_small // addn0.
Qed.

Lemma size_mk3 m n K (f : nat -> nat -> nat -> F) : size (mk3 m n K f) = (m * n * K)%N.
Proof. by rewrite size_mkseq. Qed.

Lemma lget_nth (A : Type) (a : A) (s : seq A) i : (i < size s)%N -> lget s i = Ok (nth a s i).
Proof. by move=> h; rewrite /lget (drop_nth a). Qed.

Lemma rearr_wE (t : tens) m rest K : tshape t = rcons (m :: rest) K ->
  rearr_w t = Ok (Tensor [:: m; numel rest; K] (tdata t)).
Proof.
rewrite /rearr_w => -> /=; case: rest => [|n rest] //=.
by rewrite size_rcons /= -cats1 take_size_cat //= ?muln1 // ?cats1 ?last_rcons.
Qed.

Definition numel_rcons' := numel_rcons.

(* what the loop must write at position p *)
Definition okval sep S K (X : seq tens) (l : layer F) (p : nat) (t : tens) : Prop :=
  [/\ tshape t = rcons (pshape S p) K, wf t &
   forall r k, (r < numel (pshape S p))%N -> (k < K)%N ->
    entry K (tdata t) r k = \sum_(q < size S) \sum_(s < numel (pshape S q))
       layer_entry sep S l p r q s * entry K (tdata (nth t0 X q)) s k].

Lemma sep_sum sep S l p r (x : nat -> nat -> F) : ~~ joint sep l -> (p < size S)%N ->
  \sum_(q < size S) \sum_(s < numel (pshape S q)) layer_entry sep S l p r q s * x q s =
  \sum_(s < numel (pshape S p)) layer_entry sep S l p r p s * x p s.
Proof.
move=> /negbTE hj hp; rewrite (bigD1 (Ordinal hp)) //= [X in _ + X]big1 ?addr0 // => q hq.
have hpq : p != q by apply: contra hq => /eqP e; apply/eqP/val_inj.
apply: big1 => s _; rewrite /layer_entry; case: ifP => _; last by rewrite mul0r.
rewrite hj /=; case: ifP => [/andP[/eqP -> /eqP [e]]|_]; first by rewrite e eqxx in hpq.
by rewrite (negbTE hpq) mulr0 mul0r.
Qed.

Lemma joint_sum sep S l w b r p (x : nat -> nat -> F) : l_w l = Some w -> l_b l = Some b -> w != b ->
  (w < size S)%N -> (b < size S)%N ->
  \sum_(q < size S) \sum_(s < numel (pshape S q)) layer_entry sep S l p r q s * x q s =
  \sum_(s < numel (pshape S w)) layer_entry sep S l p r w s * x w s +
  \sum_(s < numel (pshape S b)) layer_entry sep S l p r b s * x b s.
Proof.
move=> hw hb hwb h1 h2; rewrite (bigD1 (Ordinal h1)) //=; congr (_ + _).
rewrite (bigD1 (Ordinal h2)) /=; last by rewrite -val_eqE /= eq_sym.
rewrite [X in _ + X]big1 ?addr0 // => q /andP[hq1 hq2].
apply: big1 => s _; rewrite /layer_entry /l_mem hw hb.
have -> : (Some w == Some (q : nat)) = false by apply/eqP => -[e]; move/eqP: hq1; apply; apply: val_inj.
have -> : (Some b == Some (q : nat)) = false by apply/eqP => -[e]; move/eqP: hq2; apply; apply: val_inj.
by rewrite /= andbF mul0r.
Qed.

Lemma entry_regroup n K (d : seq F) i c k : entry (n * K) d i (c * K + k) = entry K d (i * n + c) k.
Proof. by rewrite /entry addnA mulnA -mulnDl. Qed.

Lemma idx2_bound m n i j : (i < m)%N -> (j < n)%N -> (i * n + j < m * n)%N.
Proof.
by move=> hi hj; apply: leq_trans (_ : (i.+1 * n <= _)%N); rewrite ?leq_mul2r ?hi ?orbT // mulSn addnC ltn_add2r.
Qed.

(* a weight, separately: G X A *)
Lemma weight_val (G A : tens) (d : seq F) m n K : tshape G = [:: m; m] -> tshape A = [:: n; n] ->
  exists T1 T2, [/\ mm_right (Tensor [:: m; n; K] d) A = Ok T1, mm_left G T1 = Ok T2, tshape T2 = [:: m; n; K],
    size (tdata T2) = (m * n * K)%N &
    forall a c k, (a < m)%N -> (c < n)%N -> (k < K)%N ->
      entry K (tdata T2) (a * n + c) k =
      \sum_(t < m) \sum_(j < n) entry m (tdata G) a t * entry n (tdata A) j c * entry K d (t * n + j) k].
Proof.
move=> hG hA; rewrite /mm_right hA /= eqxx; eexists; eexists; split; first reflexivity.
- by rewrite /mm_left hG /= eqxx; reflexivity.
- by [].
  by rewrite /= size_mk3 muln1 muln1 mulnA.
move=> a c k ha hc hk; rewrite /= -entry_regroup muln1.
rewrite -[in LHS](addn0 a) -[in LHS](muln1 a) addn0.
have hck := idx2_bound hc hk.
rewrite -{1}[(a * 1)%N]addn0 nth_mk3 // sumrE; apply: eq_bigr => t _.
rewrite /e2 entry_regroup nth_mk3 // sumrE mulr_sumr; apply: eq_bigr => j _.
by rewrite /e3 /e2 /= [entry K d _ _ * _]mulrC mulrA.
Qed.

(* a bias, separately: G x *)
Lemma bias_val (G : tens) (d : seq F) m K : tshape G = [:: m; m] ->
  exists T2, [/\ mm_left G (Tensor [:: m; K] d) = Ok T2, tshape T2 = [:: m; K],
    size (tdata T2) = (m * K)%N &
    forall a k, (a < m)%N -> (k < K)%N ->
      entry K (tdata T2) a k = \sum_(t < m) entry m (tdata G) a t * entry K d t k].
Proof.
move=> hG; rewrite /mm_left hG /= eqxx; eexists; split; first reflexivity.
- by [].
  by rewrite /= size_mk3 !muln1.
move=> a k ha hk; rewrite /= !muln1.
by rewrite -[in LHS](muln1 a) -[in LHS](addn0 (a * 1)%N) nth_mk3 // sumrE.
Qed.

(* weight and bias, jointly: G [W b] A *)
Lemma joint_val (G A : tens) (dw db : seq F) m n K : tshape G = [:: m; m] -> tshape A = [:: n.+1; n.+1] ->
  exists MJ Y yw yb, [/\ cat_mid (Tensor [:: m; n; K] dw) (Tensor [:: m; 1; K]%N db) = Ok MJ,
    sandwich G MJ A = Ok Y, split_mid n Y = Ok (yw, yb),
    [/\ tshape yw = [:: m; n; K], size (tdata yw) = (m * n * K)%N, tshape yb = [:: m; K] & size (tdata yb) = (m * K)%N] &
    forall a k, (a < m)%N -> (k < K)%N ->
      (forall c, (c < n)%N -> entry K (tdata yw) (a * n + c) k =
        \sum_(t < m) (\sum_(j < n) entry m (tdata G) a t * entry n.+1 (tdata A) j c * entry K dw (t * n + j) k +
                      entry m (tdata G) a t * entry n.+1 (tdata A) n c * entry K db t k)) /\
      entry K (tdata yb) a k =
        \sum_(t < m) (\sum_(j < n) entry m (tdata G) a t * entry n.+1 (tdata A) j n * entry K dw (t * n + j) k +
                      entry m (tdata G) a t * entry n.+1 (tdata A) n n * entry K db t k)].
Proof.
move=> hG hA; rewrite /cat_mid /= !eqxx /=; do 4 eexists; split; first reflexivity.
- by rewrite /sandwich hG hA /= eqxx addn1 eqxx /=; reflexivity.
- by rewrite /split_mid /= addn1 eqxx; reflexivity.
  by split; rewrite //= size_mk3 ?muln1.
move=> a k ha hk.
have hY c : (c < n.+1)%N ->
   sumr m (fun t => sumr n.+1 (fun u => e2 m G a t *
      e3 n.+1 K (Tensor [:: m; n.+1; K] (mk3 m n.+1 K (fun i j k0 => if (j < n)%N then e3 n K (Tensor [:: m; n; K] dw) i j k0
           else e3 1 K (Tensor [:: m; 1; K]%N db) i (j - n) k0))) t u k * e2 n.+1 A u c)) =
   \sum_(t < m) (\sum_(j < n) entry m (tdata G) a t * entry n.+1 (tdata A) j c * entry K dw (t * n + j) k +
                      entry m (tdata G) a t * entry n.+1 (tdata A) n c * entry K db t k).
  move=> hc; rewrite sumrE; apply: eq_bigr => t _; rewrite sumrE big_ord_recr /=; congr (_ + _).
    apply: eq_bigr => j _; rewrite /e3 nth_mk3 ?ltn_ord //; last exact: leq_trans (ltn_ord j) (leqnSn _).
    by rewrite /e2 mulrAC.
  rewrite /e3 nth_mk3 // ltnn subnn /= /e2 muln1 addn0.
  by rewrite mulrAC.
split.
  move=> c hc; rewrite nth_mk3 // /e3 nth_mk3 //; last exact: leqW.
  by rewrite -hY //; exact: leqW.
by rewrite -[in LHS](muln1 a) -[in LHS](addn0 (a * 1)%N) nth_mk3 // /e3 nth_mk3 // -hY.
Qed.

(* ---- vocabulary: entry e of the mapping, with the stored factors, is layer l ----
   The factors are square, as large as the parameters need (one larger for the
   input factor if weight and bias are treated jointly), and the input factor is
   symmetric. *)
Definition describes sep S (inC grC : dict nat_eqType tens) (e : nat * dict pname_eqType nat) (l : layer F) : Prop :=
  [/\ uniq (dkeys e.2), all (fun p => (p.1 == Weight) || (p.1 == Bias)) e.2,
      dget Weight e.2 = l_w l, dget Bias e.2 = l_b l &
  exists m G,
   [/\ dget e.1 grC = Some G, tshape G = [:: m; m],
       (forall i j, (i < m)%N -> (j < m)%N -> l_B l i j = entry m (tdata G) i j),
       (forall w, l_w l = Some w -> exists rest, pshape S w = m :: rest /\
          let n := (numel rest + joint sep l)%N in
          exists A, [/\ dget e.1 inC = Some A, tshape A = [:: n; n],
            (forall i j, (i < n)%N -> (j < n)%N -> l_A l i j = entry n (tdata A) i j) &
            (forall i j, (i < n)%N -> (j < n)%N -> l_A l i j = l_A l j i)]) &
       (forall b, l_b l = Some b -> pshape S b = [:: m])]].

Lemma dict_forms (d : dict pname_eqType nat) : uniq (dkeys d) ->
  all (fun p => (p.1 == Weight) || (p.1 == Bias)) d ->
  d = [::] \/ (exists w, d = [:: (Weight, w)]) \/ (exists b, d = [:: (Bias, b)]) \/
  (exists w b, d = [:: (Weight, w); (Bias, b)]) \/ (exists w b, d = [:: (Bias, b); (Weight, w)]).
Proof.
case: d => [|[k1 v1] [|[k2 v2] [|[k3 v3] d]]] /=; first by left.
- by move=> _ /andP[/orP[/eqP ->|/eqP ->] _]; right; [left|right; left]; exists v1.
- move=> hu /and3P[/orP[/eqP e1|/eqP e1] /orP[/eqP e2|/eqP e2] _]; move: hu; rewrite e1 e2 // => _.
    by right; right; right; left; exists v1, v2.
  by right; right; right; right; exists v2, v1.
move=> hu /and4P[/orP[/eqP e1|/eqP e1] /orP[/eqP e2|/eqP e2] /orP[/eqP e3|/eqP e3] _]; move: hu; by rewrite e1 e2 e3 !inE /= ?andbF.
Qed.

Lemma modn_ltn r n m : (r < m * n)%N -> (r %% n < n)%N /\ (r %/ n < m)%N.
Proof.
case: n => [|n]; first by rewrite muln0.
by move=> h; rewrite ltn_mod ltn_divLR.
Qed.

Section Layer.
Variables (sep : bool) (S : seq (seq nat)) (K : nat) (X : seq tens) (l : layer F).
Hypothesis hX : valid_mat S K X.

Lemma valid_nth p : (p < size S)%N -> [/\ (p < size X)%N, tshape (nth t0 X p) = rcons (pshape S p) K & wf (nth t0 X p)].
Proof.
case: hX => hs hw hp; have hsz : size X = size S by rewrite -(size_map (@tshape F)) hs size_map.
rewrite hsz hp; split=> //; last by apply: (allP hw); rewrite mem_nth // hsz.
by rewrite -(nth_map t0 (tshape t0)) ?hsz // hs (nth_map [::]).
Qed.

Lemma weight_ok w m rest (G A : tens) T : ~~ joint sep l -> l_w l = Some w -> (w < size S)%N ->
  pshape S w = m :: rest ->
  (forall i j, (i < m)%N -> (j < m)%N -> l_B l i j = entry m (tdata G) i j) ->
  (forall i j, (i < numel rest)%N -> (j < numel rest)%N -> l_A l i j = entry (numel rest) (tdata A) i j) ->
  (forall i j, (i < numel rest)%N -> (j < numel rest)%N -> l_A l i j = l_A l j i) ->
  size T = (m * numel rest * K)%N ->
  (forall a c k, (a < m)%N -> (c < numel rest)%N -> (k < K)%N ->
      entry K T (a * numel rest + c) k =
      \sum_(t < m) \sum_(j < numel rest) entry m (tdata G) a t * entry (numel rest) (tdata A) j c *
         entry K (tdata (nth t0 X w)) (t * numel rest + j) k) ->
  okval sep S K X l w (Tensor (rcons (pshape S w) K) T).
Proof.
move=> hj hw hlt hs hB hA hsym hsz hT; split=> //; first by rewrite /wf /= hsz numel_rcons hs.
move=> r k hr hk; rewrite (sep_sum r (fun q s => entry K (tdata (nth t0 X q)) s k) hj hlt).
move: hr; rewrite hs /= => hr; have [hr1 hr2] := modn_ltn hr.
rewrite [in LHS](divn_eq r (numel rest)) hT //.
rewrite -(sum_divmod m (numel rest) (fun t j => entry m (tdata G) (r %/ numel rest) t *
   entry (numel rest) (tdata A) j (r %% numel rest) * entry K (tdata (nth t0 X w)) (t * numel rest + j) k)).
apply: eq_bigr => s _; have [hs1 hs2] := modn_ltn (ltn_ord s); rewrite -divn_eq; congr (_ * _).
rewrite /layer_entry /l_mem /lrow /lcol hw !eqxx /= orbT /ncol hs /=.
by rewrite hB // hsym // hA.
Qed.

Lemma bias_ok b m (G : tens) T : ~~ joint sep l -> l_b l = Some b -> l_w l != Some b -> (b < size S)%N ->
  pshape S b = [:: m] ->
  (forall i j, (i < m)%N -> (j < m)%N -> l_B l i j = entry m (tdata G) i j) ->
  size T = (m * K)%N ->
  (forall a k, (a < m)%N -> (k < K)%N ->
      entry K T a k = \sum_(t < m) entry m (tdata G) a t * entry K (tdata (nth t0 X b)) t k) ->
  okval sep S K X l b (Tensor (rcons (pshape S b) K) T).
Proof.
move=> hj hb hwb hlt hs hB hsz hT; split=> //; first by rewrite /wf /= hsz numel_rcons hs /= muln1.
move=> r k hr hk; rewrite (sep_sum r (fun q s => entry K (tdata (nth t0 X q)) s k) hj hlt).
move: hr; rewrite hs /= muln1 => hr; rewrite hT //.
apply: eq_bigr => s _; congr (_ * _).
rewrite /layer_entry /l_mem /lrow hb eqxx orbT /= (negbTE hwb) (negbTE hj) eqxx mulr1 /ncol hs /= !divn1 hB //.
Qed.

Lemma joint_ok w b m rest (G A : tens) Tw Tb : joint sep l -> l_w l = Some w -> l_b l = Some b -> w != b ->
  (w < size S)%N -> (b < size S)%N -> pshape S w = m :: rest -> pshape S b = [:: m] ->
  (forall i j, (i < m)%N -> (j < m)%N -> l_B l i j = entry m (tdata G) i j) ->
  let n := numel rest in
  (forall i j, (i < n.+1)%N -> (j < n.+1)%N -> l_A l i j = entry n.+1 (tdata A) i j) ->
  (forall i j, (i < n.+1)%N -> (j < n.+1)%N -> l_A l i j = l_A l j i) ->
  size Tw = (m * n * K)%N -> size Tb = (m * K)%N ->
  let dw := tdata (nth t0 X w) in let db := tdata (nth t0 X b) in
  (forall a k, (a < m)%N -> (k < K)%N ->
      (forall c, (c < n)%N -> entry K Tw (a * n + c) k =
        \sum_(t < m) (\sum_(j < n) entry m (tdata G) a t * entry n.+1 (tdata A) j c * entry K dw (t * n + j) k +
                      entry m (tdata G) a t * entry n.+1 (tdata A) n c * entry K db t k)) /\
      entry K Tb a k =
        \sum_(t < m) (\sum_(j < n) entry m (tdata G) a t * entry n.+1 (tdata A) j n * entry K dw (t * n + j) k +
                      entry m (tdata G) a t * entry n.+1 (tdata A) n n * entry K db t k)) ->
  okval sep S K X l w (Tensor (rcons (pshape S w) K) Tw) /\ okval sep S K X l b (Tensor (rcons (pshape S b) K) Tb).
Proof.
move=> hj hw hb hwb hlw hlb hsw hsb hB n hA hsym hszw hszb dw db hT.
have hsum a c k p r : (a < m)%N -> (c < n.+1)%N -> (k < K)%N -> l_mem l p -> lrow S p r = a -> lcol S l p r = c ->
  \sum_(q < size S) \sum_(s < numel (pshape S q)) layer_entry sep S l p r q s * entry K (tdata (nth t0 X q)) s k =
  \sum_(t < m) (\sum_(j < n) entry m (tdata G) a t * entry n.+1 (tdata A) j c * entry K dw (t * n + j) k +
                      entry m (tdata G) a t * entry n.+1 (tdata A) n c * entry K db t k).
  move=> ha hc hk hp hr hcol.
  rewrite (joint_sum sep r p (fun q s => entry K (tdata (nth t0 X q)) s k) hw hb hwb hlw hlb).
  rewrite big_split /=; congr (_ + _).
    rewrite hsw /= -(sum_divmod m n (fun t j => entry m (tdata G) a t *
      entry n.+1 (tdata A) j c * entry K dw (t * n + j) k)).
    apply: eq_bigr => s _; have [hs1 hs2] := modn_ltn (ltn_ord s); rewrite -divn_eq; congr (_ * _).
    rewrite /layer_entry hp hj {1}/l_mem hw eqxx /= hr hcol /lrow /lcol hw eqxx /ncol hsw /=.
    have hs1' := leqW hs1.
    by rewrite hB // hsym // hA.
  rewrite hsb /= muln1; apply: eq_bigr => s _; congr (_ * _).
  have hwb' : (Some w == Some b) = false by apply/eqP => -[e]; rewrite e eqxx in hwb.
  rewrite /layer_entry hp hj {1}/l_mem hb eqxx orbT /= hr hcol /lrow /lcol hw hwb' /ncol hsb hsw /= divn1.
  by rewrite hB // hsym // hA.
split; split=> //; first by rewrite /wf /= hszw numel_rcons hsw.
- move=> r k hr hk; move: hr; rewrite hsw /= => hr; have [hr1 hr2] := modn_ltn hr.
  rewrite (hsum (r %/ n)%N (r %% n)%N) //; first by have [h _] := hT _ _ hr2 hk; rewrite -h // -divn_eq.
  + exact: leqW.
  + by rewrite /l_mem hw eqxx.
  + by rewrite /lrow /ncol hsw.
  + by rewrite /lcol hw eqxx /ncol hsw.
- by rewrite /wf /= hszb numel_rcons hsb /= muln1.
move=> r k hr hk; move: hr; rewrite hsb /= muln1 => hr.
rewrite (hsum r n) //; first by have [_ h] := hT _ _ hr hk; rewrite -h.
+ by rewrite /l_mem hb eqxx orbT.
+ by rewrite /lrow /ncol hsb /= divn1.
by rewrite /lcol hw; case: eqP => [[e]|_]; [rewrite e eqxx in hwb|rewrite /ncol hsw].
Qed.
End Layer.

Lemma kset_ok (KM : seq (option tens)) i t : (i < size KM)%N ->
  exists KM', [/\ kset KM i t = Ok KM', size KM' = size KM, nth None KM' i = Some t &
     forall p, p != i -> nth None KM' p = nth None KM p].
Proof.
move=> hi; rewrite /kset hi; eexists; split; first reflexivity.
- by rewrite size_set_nth; apply/maxn_idPr.
- by rewrite nth_set_nth /= eqxx.
by move=> p hp; rewrite nth_set_nth /= (negbTE hp).
Qed.

Lemma kget_ok (KM : seq (option tens)) i t : (i < size KM)%N -> nth None KM i = Some t -> kget KM i = Ok t.
Proof. by move=> hi h; rewrite /kget (lget_nth None hi) h. Qed.

Lemma single_weight sep S K (X : seq tens) (l : layer F) inC grC name w KM m rest G A : valid_mat S K X ->
  (w < size S)%N -> size KM = size S -> ~~ joint sep l -> l_w l = Some w -> pshape S w = m :: rest ->
  dget name grC = Some G -> tshape G = [:: m; m] ->
  (forall i j, (i < m)%N -> (j < m)%N -> l_B l i j = entry m (tdata G) i j) ->
  dget name inC = Some A -> tshape A = [:: numel rest; numel rest] ->
  (forall i j, (i < numel rest)%N -> (j < numel rest)%N -> l_A l i j = entry (numel rest) (tdata A) i j) ->
  (forall i j, (i < numel rest)%N -> (j < numel rest)%N -> l_A l i j = l_A l j i) ->
  exists KM' T, [/\ kfac_single inC grC X name KM (Weight, w) = Ok KM', size KM' = size S,
    nth None KM' w = Some (Tensor [:: m; numel rest; K] T),
    size T = (m * numel rest * K)%N /\ okval sep S K X l w (Tensor (rcons (pshape S w) K) T) &
    forall p, p != w -> nth None KM' p = nth None KM p].
Proof.
move=> hX hw hsz hj hlw hs hG hGs hB hA hAs hAe hsym.
have [h1 h2 h3] := valid_nth hX hw.
have hre := @rearr_wE (nth t0 X w) m rest K (ltac:(by rewrite h2 hs)).
rewrite /kfac_single /= (lget_nth t0 h1) /= hre /= /dgetE hA /=.
have [T1 [T2 [-> /= e2 e3 e4 e5]]] := @weight_val G A (tdata (nth t0 X w)) m (numel rest) K hGs hAs.
rewrite hG /= e2 /=.
have [KM' [-> k2 k3 k4]] := @kset_ok KM w T2 (ltac:(by rewrite hsz)).
exists KM', (tdata T2); split=> //; first by rewrite k2.
- by rewrite k3 -e3; case: (T2).
split=> //; exact: (@weight_ok sep S K X l w m rest G A).
Qed.

Lemma single_bias sep S K (X : seq tens) (l : layer F) inC grC name b KM m G : valid_mat S K X ->
  (b < size S)%N -> size KM = size S -> ~~ joint sep l -> l_b l = Some b -> l_w l != Some b -> pshape S b = [:: m] ->
  dget name grC = Some G -> tshape G = [:: m; m] ->
  (forall i j, (i < m)%N -> (j < m)%N -> l_B l i j = entry m (tdata G) i j) ->
  exists KM' t, [/\ kfac_single inC grC X name KM (Bias, b) = Ok KM', size KM' = size S,
    nth None KM' b = Some t, okval sep S K X l b t &
    forall p, p != b -> nth None KM' p = nth None KM p].
Proof.
move=> hX hb hsz hj hlb hlw hs hG hGs hB.
have [h1 h2 h3] := valid_nth hX hb.
rewrite /kfac_single /= (lget_nth t0 h1) /= /dgetE hG /=.
have [T2 [e1 e3 e4 e5]] := @bias_val G (tdata (nth t0 X b)) m K hGs.
have -> : nth t0 X b = Tensor [:: m; K] (tdata (nth t0 X b)).
  by move: h2; rewrite hs /=; case: (nth t0 X b) => s d /= ->.
rewrite e1 /=.
have [KM' [-> k2 k3 k4]] := @kset_ok KM b T2 (ltac:(by rewrite hsz)).
exists KM', T2; split=> //; first by rewrite k2.
have -> : T2 = Tensor (rcons (pshape S b) K) (tdata T2) by rewrite hs /= -e3; case: (T2).
exact: (@bias_ok sep S K X l b m G).
Qed.

Lemma kfac_layer_ok sep S K (X : seq tens) inC grC e (l : layer F) KM : valid_mat S K X -> size KM = size S ->
  all (fun p => p < size S)%N (l_pos l) -> uniq (l_pos l) -> describes sep S inC grC e l ->
  exists KM', [/\ kfac_layer sep inC grC X KM e = Ok KM', size KM' = size S,
    (forall p, p \in l_pos l -> exists2 t, nth None KM' p = Some t & okval sep S K X l p t) &
    (forall p, p \notin l_pos l -> nth None KM' p = nth None KM p)].
Proof.
move=> hX hsz hpos hu [hk hn hw hb [m [G [hG hGs hB hA hbs]]]].
case: e hk hn hw hb hG hA => name d /= hk hn hw hb hG hA.
(* writing back the weight's shape *)
have hview (KM1 : seq (option tens)) w rest (T : seq F) : size KM1 = size S -> (w < size S)%N -> pshape S w = m :: rest ->
    nth None KM1 w = Some (Tensor [:: m; numel rest; K] T) -> size T = (m * numel rest * K)%N ->
    exists KM', [/\ (let! kw := kget KM1 w in let! kw' := treshape (tshape (nth t0 X w)) kw in kset KM1 w kw') = Ok KM',
      size KM' = size S, nth None KM' w = Some (Tensor (rcons (pshape S w) K) T) &
      forall p, p != w -> nth None KM' p = nth None KM1 p].
  move=> s1 s2 s3 s4 s5; have [h1 h2 h3] := valid_nth hX s2.
  rewrite (kget_ok _ s4) ?s1 //= h2 /treshape /= numel_rcons s3 s5 /= eqxx /=.
  have [KM' [-> k2 k3 k4]] := @kset_ok KM1 w (Tensor (m :: rcons rest K) T) (ltac:(by rewrite s1)).
  by exists KM'; split=> //; rewrite k2.
have [hd|[[w hd]|[[b hd]|[[w [b hd]]|[w [b hd]]]]]] := dict_forms hk hn; rewrite hd in hw hb *.
- by exists KM; split=> //; [rewrite /kfac_layer /=; case: (sep)|move=> p; rewrite /l_pos -hw -hb..].
- (* weight only *)
  have hj : ~~ joint sep l by rewrite /joint -hb /= !andbF.
  rewrite /dget /= in hw hb; have [rest [hs hA']] := hA w (esym hw); move: hA'; rewrite (negbTE hj) addn0 /=.
  move=> [A [a1 a2 a3 a4]].
  have hlt : (w < size S)%N by move: hpos; rewrite /l_pos -hw -hb /= andbT.
  rewrite /kfac_layer /= (lget_nth t0); last by have [] := valid_nth hX hlt.
  rewrite /=.
  have [KM1 [T [c1 c2 c3 [c4 c4'] c5]]] := @single_weight sep S K X l inC grC name w KM m rest G A hX hlt hsz hj (esym hw) hs hG hGs hB a1 a2 a3 a4.
  have -> : (match sep with true => foldM (kfac_single inC grC X name) KM [:: (Weight, w)]
     | false => match None : option nat with Some b => kfac_joint inC grC X name KM w b
         | None => foldM (kfac_single inC grC X name) KM [:: (Weight, w)] end end) = Ok KM1.
    by case: (sep); rewrite /= c1.
  have [KM' [d1 d2 d3 d4]] := hview KM1 w rest T c2 hlt hs c3 c4.
  exists KM'; split=> //.
    by move=> p; rewrite /l_pos -hw -hb /= inE => /eqP ->; eexists; first exact: d3.
  by move=> p; rewrite /l_pos -hw -hb /= inE => hp; rewrite d4 // c5.
- (* bias only *)
  have hj : ~~ joint sep l by rewrite /joint -hw /= !andbF.
  rewrite /dget /= in hw hb; have hs := hbs b (esym hb).
  have hlt : (b < size S)%N by move: hpos; rewrite /l_pos -hw -hb /= andbT.
  have hne : l_w l != Some b by rewrite -hw.
  have [KM1 [t [c1 c2 c3 c4 c5]]] := @single_bias sep S K X l inC grC name b KM m G hX hlt hsz hj (esym hb) hne hs hG hGs hB.
  rewrite /kfac_layer /=.
  have -> : (match sep with true => foldM (kfac_single inC grC X name) KM [:: (Bias, b)]
     | false => foldM (kfac_single inC grC X name) KM [:: (Bias, b)] end) = Ok KM1.
    by case: (sep); rewrite /= c1.
  exists KM1; split=> //.
    by move=> p; rewrite /l_pos -hw -hb /= inE => /eqP ->; exists t.
  by move=> p; rewrite /l_pos -hw -hb /= inE => hp; rewrite c5.
all: rewrite /dget /= in hw hb; have hs := hbs b (esym hb).
all: have [rest [hsw hA']] := hA w (esym hw).
all: have hwlt : (w < size S)%N by move: hpos; rewrite /l_pos -hw -hb /= andbT => /andP[].
all: have hblt : (b < size S)%N by move: hpos; rewrite /l_pos -hw -hb /= andbT => /andP[].
all: have hwb : w != b by move: hu; rewrite /l_pos -hw -hb /= inE andbT.
all: have hne : l_w l != Some b by rewrite -hw; apply: contra hwb => /eqP [->].
all: have hlw := valid_nth hX hwlt; case: hlw => hlw hlw2 _.
all: have hlb := valid_nth hX hblt; case: hlb => hlb hlb2 _.
all: have hin p : (p \in l_pos l) = (p == w) || (p == b) by rewrite /l_pos -hw -hb /= !inE.
all: rewrite /kfac_layer /= (lget_nth t0 hlw) /=.
- case hj : (joint sep l); last first.
    move/negbT: hj hA' => hj; rewrite (negbTE hj) addn0 /= => -[A [a1 a2 a3 a4]].
    have hsep : sep by move: hj; rewrite /joint -hw -hb /= !andbT negbK.
    rewrite hsep -hsep /=.
    have [KM1 [T [c1 c2 c3 [c4 c4'] c5]]] := @single_weight sep S K X l inC grC name w KM m rest G A hX hwlt hsz hj (esym hw) hsw hG hGs hB a1 a2 a3 a4.
    have [KM2 [t [b1 b2 b3 b4 b5]]] := @single_bias sep S K X l inC grC name b KM1 m G hX hblt c2 hj (esym hb) hne hs hG hGs hB.
    have c3' : nth None KM2 w = Some (Tensor [:: m; numel rest; K] T) by rewrite b5.
    have [KM' [d1 d2 d3 d4]] := hview KM2 w rest T b2 hwlt hsw c3' c4.
    exists KM'; rewrite c1 /= b1 /= d1; split=> // p; rewrite hin.
      move=> /orP[/eqP ->|/eqP ->]; first by eexists; first exact: d3.
      by exists t; rewrite // d4 // eq_sym.
    by rewrite negb_or => /andP[p1 p2]; rewrite d4 // b5 // c5.
  have hsep : sep = false by move: hj; rewrite /joint; case: (sep).
  rewrite hj addn1 /= in hA'; case: hA' => A [a1 a2 a3 a4]; rewrite hsep.
  rewrite /kfac_joint (lget_nth t0 hlw) /= (@rearr_wE _ m rest K) ?hlw2 ?hsw //= (lget_nth t0 hlb) /=.
  rewrite /unsqueeze_mid hlb2 hs /= /dgetE a1 hG.
  have [MJ [Y [yw [yb [-> /= -> /= -> /= [y1 y2 y3 y4] y5]]]]] :=
    @joint_val G A (tdata (nth t0 X w)) (tdata (nth t0 X b)) m (numel rest) K hGs a2.
  have [KM1 [-> k2 k3 k4]] /= := @kset_ok KM w yw (ltac:(by rewrite hsz)).
  have [KM2 [-> j2 j3 j4]] /= := @kset_ok KM1 b yb (ltac:(by rewrite k2 hsz)).
  have [ow ob] := @joint_ok sep S K X l w b m rest G A (tdata yw) (tdata yb) hj (esym hw) (esym hb) hwb hwlt hblt hsw hs hB a3 a4 y2 y4 y5.
  have := hview KM2 w rest (tdata yw); rewrite hlw2 hsw => /(_ _ hwlt _ _ y2) [|||KM' [d1 d2 d3 d4]] //.
  + by rewrite j2 k2.
  + by rewrite j4 // k3 -y1; case: (yw).
  exists KM'; rewrite /= d1; split=> // p; rewrite hin.
    move=> /orP[/eqP ->|/eqP ->]; first by eexists; [exact: d3|move: ow; rewrite hsw hsep].
    exists yb; first by rewrite d4 // eq_sym.
    by move: ob; rewrite hs hsep /= -y3; case: (yb).
  by rewrite negb_or => /andP[p1 p2]; rewrite d4 // j4 // k4.
- case hj : (joint sep l); last first.
    move/negbT: hj hA' => hj; rewrite (negbTE hj) addn0 /= => -[A [a1 a2 a3 a4]].
    have hsep : sep by move: hj; rewrite /joint -hw -hb /= !andbT negbK.
    rewrite hsep -hsep /=.
    have [KM1 [t [b1 b2 b3 b4 b5]]] := @single_bias sep S K X l inC grC name b KM m G hX hblt hsz hj (esym hb) hne hs hG hGs hB.
    have [KM2 [T [c1 c2 c3 [c4 c4'] c5]]] := @single_weight sep S K X l inC grC name w KM1 m rest G A hX hwlt b2 hj (esym hw) hsw hG hGs hB a1 a2 a3 a4.
    have [KM' [d1 d2 d3 d4]] := hview KM2 w rest T c2 hwlt hsw c3 c4.
    exists KM'; rewrite b1 /= c1 /= d1; split=> // p; rewrite hin.
      move=> /orP[/eqP ->|/eqP ->]; first by eexists; first exact: d3.
      by exists t; rewrite // d4 ?c5 // eq_sym.
    by rewrite negb_or => /andP[p1 p2]; rewrite d4 // c5 // b5.
  have hsep : sep = false by move: hj; rewrite /joint; case: (sep).
  rewrite hj addn1 /= in hA'; case: hA' => A [a1 a2 a3 a4]; rewrite hsep.
  rewrite /kfac_joint (lget_nth t0 hlw) /= (@rearr_wE _ m rest K) ?hlw2 ?hsw //= (lget_nth t0 hlb) /=.
  rewrite /unsqueeze_mid hlb2 hs /= /dgetE a1 hG.
  have [MJ [Y [yw [yb [-> /= -> /= -> /= [y1 y2 y3 y4] y5]]]]] :=
    @joint_val G A (tdata (nth t0 X w)) (tdata (nth t0 X b)) m (numel rest) K hGs a2.
  have [KM1 [-> k2 k3 k4]] /= := @kset_ok KM w yw (ltac:(by rewrite hsz)).
  have [KM2 [-> j2 j3 j4]] /= := @kset_ok KM1 b yb (ltac:(by rewrite k2 hsz)).
  have [ow ob] := @joint_ok sep S K X l w b m rest G A (tdata yw) (tdata yb) hj (esym hw) (esym hb) hwb hwlt hblt hsw hs hB a3 a4 y2 y4 y5.
  have := hview KM2 w rest (tdata yw); rewrite hlw2 hsw => /(_ _ hwlt _ _ y2) [|||KM' [d1 d2 d3 d4]] //.
  + by rewrite j2 k2.
  + by rewrite j4 // k3 -y1; case: (yw).
  exists KM'; rewrite /= d1; split=> // p; rewrite hin.
    move=> /orP[/eqP ->|/eqP ->]; first by eexists; [exact: d3|move: ow; rewrite hsw hsep].
    exists yb; first by rewrite d4 // eq_sym.
    by move: ob; rewrite hs hsep /= -y3; case: (yb).
  by rewrite negb_or => /andP[p1 p2]; rewrite d4 // j4 // k4.
Qed.

(* mapping and layers, entry by entry *)
Definition describes_all sep S inC grC (m : mapping) (ls : seq (layer F)) : Prop :=
  List.Forall2 (describes sep S inC grC) m ls.

Lemma kfac_loop sep S K (X : seq tens) inC grC m (ls : seq (layer F)) KM : valid_mat S K X -> size KM = size S ->
  all (fun p => p < size S)%N (flatten (map (@l_pos F) ls)) -> uniq (flatten (map (@l_pos F) ls)) ->
  describes_all sep S inC grC m ls ->
  exists KM', [/\ foldM (kfac_layer sep inC grC X) KM m = Ok KM', size KM' = size S,
    (forall l p, List.In l ls -> p \in l_pos l -> exists2 t, nth None KM' p = Some t & okval sep S K X l p t) &
    (forall p, p \notin flatten (map (@l_pos F) ls) -> nth None KM' p = nth None KM p)].
Proof.
move=> hX + + + hd; elim: hd KM => {m ls} [|e l m ls hd hds IH] KM hsz hall hu; first by exists KM.
rewrite /= all_cat cat_uniq in hall hu *; case/andP: hall => ha1 ha2; case/and3P: hu => u1 /hasPn u2 u3.
have [KM1 [-> /= s1 p1 n1]] := kfac_layer_ok hX hsz ha1 u1 hd.
have [KM2 [-> s2 p2 n2]] := IH KM1 s1 ha2 u3.
exists KM2; split=> // [l' p [<-|hin] hp|p]; last by rewrite mem_cat negb_or => /andP[q1 q2]; rewrite n2 // n1.
  have hn : p \notin flatten (map (@l_pos F) ls) by apply/negP => h; move: (u2 _ h); rewrite /= hp.
  by rewrite n2 //; exact: p1.
exact: p2.
Qed.

Lemma l_memE (l : layer F) p : l_mem l p = (p \in l_pos l).
Proof.
rewrite /l_mem /l_pos mem_cat; case: (l_w l) => [w|]; case: (l_b l) => [b|] //=; rewrite ?inE ?in_nil ?orbF //.
- by congr (_ || _); rewrite eq_sym; apply/eqP/eqP => [[->]|->].
- by rewrite eq_sym; apply/eqP/eqP => [[->]|->].
by rewrite eq_sym; apply/eqP/eqP => [[->]|->].
Qed.

Lemma layer_entry_out sep S (l : layer F) (p : nat) r q s : p \notin l_pos l -> layer_entry sep S l p r q s = 0.
Proof. by move=> h; rewrite /layer_entry (negbTE (_ : ~~ l_mem l p)) // l_memE. Qed.

Lemma sum_none sep S (ls : seq (layer F)) (p : nat) r q s : p \notin flatten (map (@l_pos F) ls) ->
  \sum_(l' <- ls) layer_entry sep S l' p r q s = 0.
Proof.
elim: ls => [|l ls IH] /=; first by rewrite big_nil.
by rewrite mem_cat negb_or big_cons => /andP[h1 h2]; rewrite layer_entry_out // add0r IH.
Qed.

Lemma in_pos (l : layer F) ls (p : nat) : List.In l ls -> p \in l_pos l -> p \in flatten (map (@l_pos F) ls).
Proof. by move=> + hp; elim: ls => //= a ls IH [->|h]; rewrite mem_cat ?hp // IH ?orbT. Qed.

Lemma pos_in ls (p : nat) : p \in flatten (map (@l_pos F) ls) -> exists2 l, List.In l ls & p \in l_pos l.
Proof.
elim: ls => //= a ls IH; rewrite mem_cat => /orP[h|/IH[l h1 h2]]; first by exists a => //; left.
by exists l => //; right.
Qed.

Lemma sum_owner sep S (ls : seq (layer F)) l (p : nat) r q s : uniq (flatten (map (@l_pos F) ls)) -> List.In l ls -> p \in l_pos l ->
  \sum_(l' <- ls) layer_entry sep S l' p r q s = layer_entry sep S l p r q s.
Proof.
elim: ls => //= l' ls IH; rewrite cat_uniq => /and3P[u1 /hasPn u2 u3] hin hp; rewrite big_cons.
case: hin => [e|hin].
  subst l'; rewrite sum_none ?addr0 //; apply/negP => h; by move: (u2 _ h); rewrite /= hp.
rewrite layer_entry_out ?add0r ?IH //; exact: (u2 _ (in_pos hin hp)).
Qed.

Theorem kfac_matmat_multiplies sep S inC grC m (ls : seq (layer F)) : unshared S ls ->
  describes_all sep S inC grC m ls ->
  multiplies 0 (kfac_matmat sep inC grC m) S S (kfac_matrix sep S ls).
Proof.
move=> hun hd K X _ hX.
have hu : uniq (flatten (map (@l_pos F) ls)) by rewrite (perm_uniq hun) iota_uniq.
have hm p : (p \in flatten (map (@l_pos F) ls)) = (p < size S)%N by rewrite (perm_mem hun) mem_iota add0n.
have hall : all (fun p => p < size S)%N (flatten (map (@l_pos F) ls)) by apply/allP => p; rewrite hm.
have hszX : size X = size S by case: (hX) => h _; rewrite -(size_map (@tshape F)) h size_map.
have [KM [e1 e2 e3 e4]] := kfac_loop hX (ltac:(by rewrite size_nseq) : size (nseq (size S) (None : option tens)) = size S) hall hu hd.
have hown p : (p < size S)%N -> exists l t, [/\ List.In l ls, p \in l_pos l, nth None KM p = Some t & okval sep S K X l p t].
  by rewrite -hm => /pos_in[l h1 h2]; have [t h3 h4] := e3 l p h1 h2; exists l, t.
pose Y := [seq (if o is Some t then t else t0) | o <- KM].
have hget : mapM (fun o => if o is Some t then Ok t else Err AttributeError) KM = Ok Y.
  have : forall p, (p < size KM)%N -> nth None KM p != None.
    by move=> p; rewrite e2 => /hown[l [t [_ _ -> _]]].
  rewrite /Y; elim: (KM) => //= o KM' IH h; case: o h => [t|] h; last by have := h 0%N isT.
  by rewrite IH // => p hp; exact: (h p.+1).
have hY p : (p < size S)%N -> exists l, [/\ List.In l ls, p \in l_pos l & okval sep S K X l p (nth t0 Y p)].
  by move=> hp; have [l [t [h1 h2 h3 h4]]] := hown p hp; exists l; rewrite /Y (nth_map None) ?e2 // h3.
have hvY : valid_mat S K Y.
  split.
    apply: (@eq_from_nth _ [::]); first by rewrite !size_map.
    rewrite !size_map e2 => p hp; rewrite (nth_map t0) ?size_map ?e2 // (nth_map [::]) //.
    by have [l [_ _ [-> _ _]]] := hY p hp.
  apply/(all_nthP t0) => p; rewrite size_map e2 => hp.
  by have [l [_ _ [_ h _]]] := hY p hp.
exists Y; split=> //; first by rewrite /kfac_matmat hszX e1 /= hget.
apply: product_coord => // p r k hp hr hk.
have [l [h1 h2 [_ _ ->]]] := hY p hp => //.
apply: eq_bigr => q _; apply: eq_bigr => s _; congr (_ * _).
rewrite /kfac_matrix; have [-> ->] := locate_off hp hr; have [-> ->] := locate_off (ltn_ord q) (ltn_ord s).
by rewrite (sum_owner _ _ _ _ _ hu h1 h2).
Qed.
End Proof.
