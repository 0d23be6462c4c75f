(* The Kronecker factors computed by KfacCov.v: batch by batch. *)
From Coq Require Import Reals Lra FunctionalExtensionality.
From Coquelicot Require Import Coquelicot.
From mathcomp Require Import all_ssreflect all_algebra.
From Verif Require Import PyPrelude Tensor Spec TorchBase Submatrix RInst Calculus Curvature HessGGN Risk Losses Fisher FisherMC LossHess Props_LossHess Conv Props_Conv Kfac KfacCov KfacCovHooks KfacCovSpec.
Set Implicit Arguments.
Unset Strict Implicit.
Unset Printing Implicit Defensive.
Import GRing.Theory.
Local Open Scope ring_scope.

Section Batch.
Variables (X Y : Type) (T C : nat) (kind : loss_kind).
Local Notation batch := (seq (X * Y)).
Hypothesis T_gt0 : (0 < T)%N.
Hypothesis C_gt0 : (0 < C)%N.
Implicit Type (l : nlayer X) (b : batch).

Lemma nth_in_tensor (A : Type) (f : X -> seq A) (x0 : A) m b (d0 : X * Y) n k : (forall x, size (f x) = m) ->
  (n < size b)%N -> (k < m)%N -> nth x0 (flatten [seq f d.1 | d <- b]) (n * m + k) = nth x0 (f (nth d0 b n).1) k.
Proof.
move=> hs hn hk; rewrite (@nth_flatten_uniform _ x0 _ m) ?size_map //; first by rewrite (nth_map d0).
by rewrite all_map (@eq_all _ _ predT) ?all_predT // => d /=; rewrite hs eqxx.
Qed.

Lemma sum_data (d0 : X * Y) b m (f : X * Y -> nat -> R) :
  \sum_(r < size b * m) f (nth d0 b (r %/ m)) (r %% m)%N = \sum_(d <- b) \sum_(s < m) f d s.
Proof.
case: m => [|m]; first by rewrite muln0 big_ord0; under eq_bigr => d _ do rewrite big_ord0; rewrite big1.
rewrite (sum_rows (size b) m.+1 (fun r => f (nth d0 b (r %/ m.+1)) (r %% m.+1)%N)) (sum_nth d0).
apply: eq_bigr => n _; apply: eq_bigr => s _.
by have [-> ->] := dm n (ltn_ord s).
Qed.

Lemma group_pixel_batch l b (d0 : X * Y) g Cc I1 I2 n e h w :
  (forall x, size (nl_in l x) = (Cc * (I1 * I2))%N) -> (n < size b)%N -> (0 < g)%N -> (g %| Cc)%N -> (e < Cc %/ g)%N ->
  group_pixel g Cc I1 I2 (Tensor [:: size b; Cc; I1; I2] (flatten [seq nl_in l d.1 | d <- b])) n e h w =
  group_pixel g Cc I1 I2 (Tensor [:: 1; Cc; I1; I2]%N (nl_in l (nth d0 b n).1)) 0 e h w.
Proof.
move=> hs hn g0 gC he; rewrite /group_pixel; congr (_ / _); apply: eq_bigr => t _.
rewrite /pixel; case: h => // h; case: w => // w; case: ifP => // /andP[hh hw] /=.
rewrite mul0n add0n.
have hc : (t * (Cc %/ g) + e < Cc)%N by rewrite -[X in (_ < X)%N](divnK gC) (mulnC (Cc %/ g)%N g); apply: idx_lt.
rewrite (_ : ((n * Cc + (t * (Cc %/ g) + e)) * I1 + h) * I2 + w = n * (Cc * (I1 * I2)) + (((t * (Cc %/ g) + e) * I1 + h) * I2 + w))%N; last first.
  by rewrite !mulnDl !mulnA !addnA.
rewrite (nth_in_tensor _ d0 hs) //.
by rewrite mulnA; do 2 apply: idx_lt => //.
Qed.

(* the input factor's increment of one batch *)
Lemma input_batch ap l joint N b S d act : layer_ok T C l -> input_geometry ap l S d act -> exists t,
  [/\ input_covariance ap (nl_conv l) joint N (in_tensor l b) = Ok t,
      tshape t = [:: (d + joint)%N; (d + joint)%N], wf t &
   forall i j, (i < d + joint)%N -> (j < d + joint)%N -> entry (d + joint) (tdata t) i j =
     N%:R^-1 * \sum_(x <- b) in_term ap joint S d (act x.1) i j].
Proof.
move=> [hin _ _ _] hg.
(* the tensor after patch extraction: entries are act *)
have rows (x2 : tensor R) : tshape x2 = [:: size b * S; d]%N ->
    (forall d0 n s j, (n < size b)%N -> (s < S)%N -> (j < d)%N -> nth 0 (tdata x2) ((n * S + s) * d + j) = act (nth d0 b n).1 s j) ->
    exists t, [/\ (let! x3 := if joint then cat_ones x2 else Ok x2 in covariance ((N%:R * S%:R)^-1) x3) = Ok t,
      tshape t = [:: (d + joint)%N; (d + joint)%N], wf t &
     forall i j, (i < d + joint)%N -> (j < d + joint)%N -> entry (d + joint) (tdata t) i j =
       N%:R^-1 * \sum_(x <- b) in_term Expand joint S d (act x.1) i j].
  move=> s2 v2; have [t [h1 h2 h3 h4]] := input_covariance_rows joint ((N%:R * S%:R)^-1) s2.
  exists t; split=> // i j hi hj; rewrite h4 // invfM -mulrA; congr (_ * _).
  rewrite -mulr_sumr; congr (_ * _).
  case eb : b => [|d0 b']; first by rewrite mul0n big_ord0 big_nil.
  rewrite -eb -(sum_data d0 b S (fun x s => aug d (act x.1 s) i * aug d (act x.1 s) j)).
  apply: eq_bigr => r _; have S0 : (0 < S)%N by case: (posnP S) => // e; have := ltn_ord r; rewrite {2}e muln0.
  have rn : (r %/ S < size b)%N by rewrite ltn_divLR.
  have e j' : aug d (fun j0 => nth 0 (tdata x2) (r * d + j0)) j' = aug d (act (nth d0 b (r %/ S)).1 (r %% S)%N) j'.
    by rewrite /aug; case: ifP => // hj'; rewrite {1}(divn_eq r S) (v2 d0) // ltn_mod.
  by rewrite !e.
have means (x2 : tensor R) : tshape x2 = [:: size b; d]%N ->
    (forall d0 n j, (n < size b)%N -> (j < d)%N -> nth 0 (tdata x2) (n * d + j) = S%:R^-1 * \sum_(s < S) act (nth d0 b n).1 s j) ->
    exists t, [/\ (let! x3 := if joint then cat_ones x2 else Ok x2 in covariance ((N%:R * 1%:R)^-1) x3) = Ok t,
      tshape t = [:: (d + joint)%N; (d + joint)%N], wf t &
     forall i j, (i < d + joint)%N -> (j < d + joint)%N -> entry (d + joint) (tdata t) i j =
       N%:R^-1 * \sum_(x <- b) in_term Reduce joint S d (act x.1) i j].
  move=> s2 v2; have [t [h1 h2 h3 h4]] := input_covariance_rows joint ((N%:R * 1%:R)^-1) s2.
  exists t; split=> // i j hi hj; rewrite h4 // mulr1; congr (_ * _).
  case eb : b => [|d0 b']; first by rewrite big_ord0 big_nil.
  rewrite -eb (sum_nth d0); apply: eq_bigr => n _ /=.
  have e j' : aug d (fun j0 => nth 0 (tdata x2) (n * d + j0)) j' = aug d (fun j => S%:R^-1 * \sum_(s < S) act (nth d0 b n).1 s j) j'.
    by rewrite /aug; case: ifP => // hj'; rewrite (v2 d0).
  by rewrite !e.
case: hg rows means => [s d' hc hi|c Cc I1 I2 p1 q1 p2 q2 O1 O2 hc hi g0 gC hpad ho1 ho2 hpq] rows means.
  rewrite /input_covariance hc /=.
  have sx : tshape (in_tensor l b) = size b :: rcons s d' by rewrite /= hi.
  case: ap => /=; rewrite ?hi.
    rewrite (rows_expandP sx) /= size_rcons /= -cats1 take_size_cat //.
    apply: rows => // d0 n u j hn hu hj; rewrite /= mulnDl -mulnA -addnA.
    rewrite (@nth_in_tensor _ (nl_in l) 0 (numel s * d')%N b d0) //; last exact: idx_lt.
    by move=> x; rewrite hin hi numel_rcons.
  have [x2 [-> sx2 vx2]] := rows_reduceP true sx; rewrite /=.
  apply: means => // d0 n j hn hj; rewrite vx2 // mulrC; congr (_ * _); apply: eq_bigr => u _.
  rewrite /= mulnDl -mulnA -addnA (@nth_in_tensor _ (nl_in l) 0 (numel s * d')%N b d0) //; last exact: idx_lt.
  by move=> x; rewrite hin hi numel_rcons.
have sx : tshape (in_tensor l b) = [:: size b; Cc; I1; I2] by rewrite /= hi.
have hin' x : size (nl_in l x) = (Cc * (I1 * I2))%N by rewrite hin hi /= muln1.
rewrite /input_covariance hc; set E := (Cc %/ c_groups c)%N in rows means *.
case: ap hpq => hpq.
  have [e1 e2] := hpq erefl; subst q1 q2.
  have [P [-> sP vP]] := extract_patches_ok sx g0 gC hpad ho1 ho2.
  rewrite /= sP /= muln1 (@rows_expandP _ P (size b) [:: O1 * O2]%N _ sP) /= muln1.
  apply: rows => // d0 n u j hn hu hj; rewrite /= vP // /conv_act.
  have k2p : (0 < c_k2 c)%N by move: hj; case: (c_k2 c) => //; rewrite muln0.
  have k1p : (0 < c_k1 c)%N by move: hj; case: (c_k1 c) => //; rewrite muln0 mul0n.
  have le : (j %/ c_k2 c %/ c_k1 c < E)%N by rewrite !ltn_divLR.
  by rewrite /in_tensor hi (group_pixel_batch d0).
have [Q [-> sQ vQ]] := C46_average_content sx g0 gC hpad ho1 ho2.
rewrite /=; have [x2 [-> sx2 vx2]] := @rows_reduceP _ true Q (size b) [::] _ sQ.
apply: means => // d0 n j hn hj; rewrite vx2 //= big_ord1 muln1 addn0 divr1.
have k2p : (0 < c_k2 c)%N by move: hj; case: (c_k2 c) => //; rewrite muln0.
have k1p : (0 < c_k1 c)%N by move: hj; case: (c_k1 c) => //; rewrite muln0 mul0n.
have le : (j %/ c_k2 c %/ c_k1 c < E)%N by rewrite !ltn_divLR.
have := vQ n _ _ _ hn le (_ : j %/ c_k2 c %% c_k1 c < c_k1 c)%N (_ : j %% c_k2 c < c_k2 c)%N.
rewrite !ltn_mod -!divn_eq => /(_ k1p k2p) ->; rewrite mulrC; congr (_ * _).
rewrite -(pair_mean O1 O2 (fun y z => group_pixel (c_groups c) Cc I1 I2 (in_tensor l b) n (j %/ c_k2 c %/ c_k1 c)
  (hpos (c_s1 c) (c_d1 c) p1 y (j %/ c_k2 c %% c_k1 c)%N) (hpos (c_s2 c) (c_d2 c) p2 z (j %% c_k2 c)%N))).
apply: eq_bigr => u _; rewrite /conv_act /in_tensor hi (group_pixel_batch d0) //.
Qed.

(* ---- gradients ---- *)
Lemma tail2dE l b (d0 : X * Y) Z r c : layer_ok T C l -> (r < size b * T)%N -> (c < C)%N ->
  tail2d T C kind l b Z (r * C + c)%N =
  nth 0 (nl_tail l (nth d0 b (r %/ T)).1 (row_pt (numel (nl_oshape l)) (r %/ T) Z)) (term_pos T C kind (r %% T) c).
Proof.
move=> [_ _ ht _] hr hc; rewrite /tail2d /raw_idx modnMDl (modn_small hc) divnMDl // (divn_small hc) addn0.
have hn : (r %/ T < size b)%N by rewrite ltn_divLR.
rewrite (@nth_flatten_uniform _ 0 _ (T * C)%N) ?size_map ?size_zip ?size_iota ?minnn //; last first.
- by apply: term_pos_lt => //; rewrite ltn_mod.
- by rewrite all_map (@eq_all _ _ predT) ?all_predT // => d /=; rewrite ht eqxx.
rewrite (nth_map (d0, 0%N)) ?size_zip ?size_iota ?minnn // nth_zip ?size_iota //=.
by rewrite nth_iota // add0n.
Qed.

Lemma datum_loss_local l x phi : layer_ok T C l -> local_fun (numel (nl_oshape l)) (datum_loss T C kind l x phi).
Proof. by move=> [_ _ _ hl] z z' h; rewrite /datum_loss (hl x z z'). Qed.

Lemma grad_tensorE l b (d0 : X * Y) (phi : point -> R) k (psi : nat -> point -> R) n q :
  layer_ok T C l -> (forall o, phi o = k * \sum_(r < size b * T) psi r (row_pt C r o)) ->
  (forall r, local_fun C (psi r)) -> (n < size b)%N -> (q < numel (nl_oshape l))%N ->
  nth 0 (tdata (grad_tensor T C kind l b phi)) (n * numel (nl_oshape l) + q) =
  k * ograd T C kind l (nth d0 b n).1 (fun t => psi (n * T + t)%N) q.
Proof.
move=> hl hphi hloc hn hq; rewrite /= nth_mkseq; last exact: idx_lt.
set O := numel (nl_oshape l).
pose G n := datum_loss T C kind l (nth d0 b n).1 (fun t => psi (n * T + t)%N).
rewrite (@pd_ext _ (fun Z => k * \sum_(m < size b) G m (row_pt O m Z))); last first.
  move=> Z; rewrite hphi; congr (_ * _).
  rewrite (sum_rows (size b) T (fun r => psi r (row_pt C r (tail2d T C kind l b Z)))).
  apply: eq_bigr => m _; apply: eq_bigr => t _; apply: hloc => c hc; rewrite /row_pt.
  have hr : (m * T + t < size b * T)%N by apply: idx_lt.
  by rewrite (tail2dE d0) //; have [-> ->] := dm m (ltn_ord t).
rewrite pd_scal (@pd_rows _ _ G) // => [|m]; last exact: datum_loss_local.
congr (_ * _); apply: (@pd_local O) => //; first exact: datum_loss_local.
case: hl => _ ho _ _ c hc; rewrite /row_pt.
by rewrite (@nth_in_tensor _ (nl_out l) 0 O b d0).
Qed.

Definition corr (red : reduction) (N M n : nat) : R :=
  match red with RMean => ((n * T) ^ 2)%:R / (N * M * T)%:R | _ => M%:R^-1 end.

Lemma grad_batch ap l red N M b (d0 : X * Y) (phi : point -> R) (k : R) (psi : nat -> point -> R) S d pos :
  layer_ok T C l -> output_geometry l S d pos -> red <> ROther -> (0 < N)%N -> (0 < M)%N ->
  (forall o, phi o = k * \sum_(r < size b * T) psi r (row_pt C r o)) -> (forall r, local_fun C (psi r)) ->
  exists t, [/\ gradient_covariance ap (nl_conv l) red N M T (grad_tensor T C kind l b phi) = Ok t,
    tshape t = [:: d; d], wf t &
    forall i j, (i < d)%N -> (j < d)%N -> entry d (tdata t) i j =
      corr red N M (size b) * (k * k) * \sum_(n < size b)
        grad_term ap S (fun s i => ograd T C kind l (nth d0 b n).1 (fun t => psi (n * T + t)%N) (pos s i)) i j].
Proof.
move=> hl hg hr hN hM hphi hloc.
pose gr n s i := ograd T C kind l (nth d0 b n).1 (fun t => psi (n * T + t)%N) (pos s i).
have [t1 [e1 [s [sh hS]] v1]] : exists t1,
    [/\ (if nl_conv l is Some _ then channels_last (grad_tensor T C kind l b phi) else Ok (grad_tensor T C kind l b phi)) = Ok t1,
        (exists s, tshape t1 = size b :: rcons s d /\ numel s = S) &
        forall n u i, (n < size b)%N -> (u < S)%N -> (i < d)%N -> nth 0 (tdata t1) ((n * S + u) * d + i) = k * gr n u i].
  case: hg @gr => [s d' hc ho|c d' O1 O2 hc ho] gr; rewrite hc.
    exists (grad_tensor T C kind l b phi); split=> //; first by exists s; rewrite /= ho.
    move=> n u i hn hu hi.
    have nO : numel (nl_oshape l) = (numel s * d')%N by rewrite ho numel_rcons.
    rewrite mulnDl -mulnA -addnA -nO (grad_tensorE d0 hl hphi) // nO; exact: idx_lt.
  have sg : tshape (grad_tensor T C kind l b phi) = [:: size b; d'; O1; O2] by rewrite /= ho.
  have [t1 [e1 s1 v1]] := channels_lastP sg; exists t1; split=> //.
    by exists [:: O1; O2]; rewrite s1 /= muln1.
  move=> n u i hn hu hi; rewrite v1 //.
  have nO : numel (nl_oshape l) = (d' * (O1 * O2))%N by rewrite ho /= muln1.
  by rewrite -nO (grad_tensorE d0 hl hphi) // nO; exact: idx_lt.
rewrite /gradient_covariance e1 /=.
have Tn0 := T_gt0.
case: ap => /=.
  rewrite (rows_expandP sh) /= correctionP //=; have [t [-> st wt vt]] := @covarianceP _ (corr red N M (size b)) (Tensor [:: size b * numel s; d]%N (tdata t1)) _ _ erefl.
  exists t; split=> // i j hi hj; rewrite vt //= -mulrA; congr (_ * _).
  rewrite hS (sum_rows (size b) S (fun r => nth 0 (tdata t1) (r * d + i) * nth 0 (tdata t1) (r * d + j))).
  rewrite mulr_sumr; apply: eq_bigr => n _; rewrite mulr_sumr; apply: eq_bigr => u _.
  by rewrite !v1 // mulrACA.
have [t2 [-> s2 v2]] := rows_reduceP false sh; rewrite /= correctionP //=.
have [t [-> st wt vt]] := covarianceP (corr red N M (size b)) s2.
exists t; split=> // i j hi hj; rewrite vt //= -mulrA; congr (_ * _).
rewrite mulr_sumr; apply: eq_bigr => n _; rewrite !v2 // hS mulrACA.
congr (_ * _); rewrite mulr_sumr; apply: eq_bigr => u _; exact: v1.
Qed.
End Batch.

(* ---- sequences of updates ---- *)
Section Adds.
Variables (szin szgr : nat -> nat).
Local Notation update := (update [fieldType of R]).

(* the events all succeed, hit the keys h1 (input) and h2 (gradient), and add up to v1 and v2 *)
Definition adds (ev : seq (res update)) (h1 h2 : nat -> bool) (v1 v2 : nat -> nat -> nat -> R) : Prop :=
  exists us, [/\ ev = [seq Ok u | u <- us], (forall u, List.In u us -> sized szin szgr u),
    (forall k, has (hits_in k) us = h1 k) /\ (forall k, has (hits_grad k) us = h2 k),
    (forall k i j, (i < szin k)%N -> (j < szin k)%N -> \sum_(u <- us) in_part k (szin k) i j u = v1 k i j) &
    (forall k i j, (i < szgr k)%N -> (j < szgr k)%N -> \sum_(u <- us) grad_part k (szgr k) i j u = v2 k i j)].

Lemma adds_ext ev h1 h2 v1 v2 h1' h2' v1' v2' : adds ev h1 h2 v1 v2 ->
  (forall k, h1 k = h1' k) -> (forall k, h2 k = h2' k) ->
  (forall k i j, (i < szin k)%N -> (j < szin k)%N -> v1 k i j = v1' k i j) ->
  (forall k i j, (i < szgr k)%N -> (j < szgr k)%N -> v2 k i j = v2' k i j) -> adds ev h1' h2' v1' v2'.
Proof.
move=> [us [e s [a1 a2] b1 b2]] e1 e2 e3 e4; exists us; split=> //.
- by split=> k; rewrite ?a1 ?a2.
- by move=> k i j hi hj; rewrite b1 // e3.
by move=> k i j hi hj; rewrite b2 // e4.
Qed.

Lemma adds_nil : adds [::] xpred0 xpred0 (fun _ _ _ => 0) (fun _ _ _ => 0).
Proof. by exists [::]; split=> // k i j _ _; rewrite big_nil. Qed.

Lemma adds_cat ev ev' h1 h2 v1 v2 h1' h2' v1' v2' : adds ev h1 h2 v1 v2 -> adds ev' h1' h2' v1' v2' ->
  adds (ev ++ ev') (fun k => h1 k || h1' k) (fun k => h2 k || h2' k)
    (fun k i j => v1 k i j + v1' k i j) (fun k i j => v2 k i j + v2' k i j).
Proof.
move=> [us [e s [a1 a2] b1 b2]] [us' [e' s' [a1' a2'] b1' b2']]; exists (us ++ us'); split.
- by rewrite e e' map_cat.
- by move=> u /List.in_app_iff []; [apply: s|apply: s'].
- by split=> k; rewrite has_cat ?a1 ?a2 ?a1' ?a2'.
- by move=> k i j hi hj; rewrite big_cat /= b1 // b1'.
by move=> k i j hi hj; rewrite big_cat /= b2 // b2'.
Qed.

Lemma adds_in k t : tshape t = [:: szin k; szin k] -> wf t ->
  adds [:: Ok (UIn k t)] (pred1 k) xpred0 (fun k' i j => if k' == k then entry (szin k') (tdata t) i j else 0) (fun _ _ _ => 0).
Proof.
move=> st wt; exists [:: UIn k t]; split=> //.
- by move=> u /= [<-|[]].
- by split=> // k'; rewrite /= orbF eq_sym.
- by move=> k' i j _ _; rewrite big_seq1 /= eq_sym.
by move=> k' i j _ _; rewrite big_seq1.
Qed.

Lemma adds_grad k t : tshape t = [:: szgr k; szgr k] -> wf t ->
  adds [:: Ok (UGrad k t)] xpred0 (pred1 k) (fun _ _ _ => 0) (fun k' i j => if k' == k then entry (szgr k') (tdata t) i j else 0).
Proof.
move=> st wt; exists [:: UGrad k t]; split=> //.
- by move=> u /= [<-|[]].
- by split=> // k'; rewrite /= orbF eq_sym.
- by move=> k' i j _ _; rewrite big_seq1.
by move=> k' i j _ _; rewrite big_seq1 /= eq_sym.
Qed.

Lemma adds_run ev h1 h2 v1 v2 : adds ev h1 h2 v1 v2 -> exists st,
  [/\ run_updates ([::], [::]) ev = (st, Ok tt),
    (forall k, isSome (dget k st.1) = h1 k) /\ (forall k, isSome (dget k st.2) = h2 k),
    (forall k t, dget k st.1 = Some t -> [/\ tshape t = [:: szin k; szin k], wf t &
       forall i j, (i < szin k)%N -> (j < szin k)%N -> entry (szin k) (tdata t) i j = v1 k i j]) &
    (forall k t, dget k st.2 = Some t -> [/\ tshape t = [:: szgr k; szgr k], wf t &
       forall i j, (i < szgr k)%N -> (j < szgr k)%N -> entry (szgr k) (tdata t) i j = v2 k i j])].
Proof.
move=> [us [-> s [a1 a2] b1 b2]].
have [//|//|st [e [d1 d2] [p1 p2] q1 q2]] := @run_updatesP _ szin szgr us ([::], [::]) s.
exists st; split=> //.
- by split=> k; rewrite ?p1 ?p2 /= ?a1 ?a2.
- move=> k t hk; have [st1 wt] := d1 _ _ hk; split=> // i j hi hj.
  by have := q1 k i j hi hj; rewrite hk /= add0r b1.
move=> k t hk; have [st1 wt] := d2 _ _ hk; split=> // i j hi hj.
by have := q2 k i j hi hj; rewrite hk /= add0r b2.
Qed.

(* one event per entry of a dictionary *)
Lemma adds_map_in V (s : dict nat_eqType V) (f : nat * V -> res update) (v : nat -> nat -> nat -> R) :
  uniq (dkeys s) ->
  (forall k x, dget k s = Some x -> exists t, [/\ f (k, x) = Ok (UIn k t), tshape t = [:: szin k; szin k], wf t &
     forall i j, (i < szin k)%N -> (j < szin k)%N -> entry (szin k) (tdata t) i j = v k i j]) ->
  adds [seq f e | e <- s] (fun k => isSome (dget k s)) xpred0
    (fun k i j => if dget k s is Some _ then v k i j else 0) (fun _ _ _ => 0).
Proof.
elim: s => [|[k x] s IH] /=; first by move=> _ _; apply: adds_nil.
case/andP=> nk us h.
have hk : dget k ((k, x) :: s) = Some x by rewrite /dget /= eqxx.
have [t [-> st wt vt]] := h k x hk.
have keys k' : dget k' s <> None -> k' \in dkeys s.
  elim: (s) => [|[a y] s' IH'] //; rewrite /dget /= inE; case: eqP => [->|ne]; first by rewrite eqxx.
  by rewrite -/(dget k' s') => /IH' ->; rewrite orbT.
have nks : dget k s = None.
  by case e : (dget k s) => [y|] //; have := keys k; rewrite e (negbTE nk) => h'; case: (h' _).
have hd k' : dget k' ((k, x) :: s) = if k' == k then Some x else dget k' s.
  by rewrite /dget /= eq_sym; case: eqP.
have h' k' x' : dget k' s = Some x' -> exists t, [/\ f (k', x') = Ok (UIn k' t), tshape t = [:: szin k'; szin k'], wf t &
     forall i j, (i < szin k')%N -> (j < szin k')%N -> entry (szin k') (tdata t) i j = v k' i j].
  by move=> e; apply: h; rewrite hd; case: eqP e => [->|//]; rewrite nks.
apply: adds_ext (adds_cat (adds_in st wt) (IH us h')) _ _ _ _ => //=.
- by move=> k'; rewrite hd; case: eqP.
- move=> k' i j hi hj; rewrite hd; case: eqP => [e|_]; last by rewrite add0r.
  by rewrite e nks addr0 -vt // -e.
by move=> k' i j _ _; rewrite addr0.
Qed.

Lemma adds_map_grad V (s : dict nat_eqType V) (f : nat * V -> res update) (v : nat -> nat -> nat -> R) :
  uniq (dkeys s) ->
  (forall k x, dget k s = Some x -> exists t, [/\ f (k, x) = Ok (UGrad k t), tshape t = [:: szgr k; szgr k], wf t &
     forall i j, (i < szgr k)%N -> (j < szgr k)%N -> entry (szgr k) (tdata t) i j = v k i j]) ->
  adds [seq f e | e <- s] xpred0 (fun k => isSome (dget k s)) (fun _ _ _ => 0)
    (fun k i j => if dget k s is Some _ then v k i j else 0).
Proof.
elim: s => [|[k x] s IH] /=; first by move=> _ _; apply: adds_nil.
case/andP=> nk us h.
have hk : dget k ((k, x) :: s) = Some x by rewrite /dget /= eqxx.
have [t [-> st wt vt]] := h k x hk.
have keys k' : dget k' s <> None -> k' \in dkeys s.
  elim: (s) => [|[a y] s' IH'] //; rewrite /dget /= inE; case: eqP => [->|ne]; first by rewrite eqxx.
  by rewrite -/(dget k' s') => /IH' ->; rewrite orbT.
have nks : dget k s = None.
  by case e : (dget k s) => [y|] //; have := keys k; rewrite e (negbTE nk) => h'; case: (h' _).
have hd k' : dget k' ((k, x) :: s) = if k' == k then Some x else dget k' s.
  by rewrite /dget /= eq_sym; case: eqP.
have h' k' x' : dget k' s = Some x' -> exists t, [/\ f (k', x') = Ok (UGrad k' t), tshape t = [:: szgr k'; szgr k'], wf t &
     forall i j, (i < szgr k')%N -> (j < szgr k')%N -> entry (szgr k') (tdata t) i j = v k' i j].
  by move=> e; apply: h; rewrite hd; case: eqP e => [->|//]; rewrite nks.
apply: adds_ext (adds_cat (adds_grad st wt) (IH us h')) _ _ _ _ => //=.
- by move=> k'; rewrite hd; case: eqP.
- by move=> k' i j _ _; rewrite addr0.
move=> k' i j hi hj; rewrite hd; case: eqP => [e|_]; last by rewrite add0r.
by rewrite e nks addr0 -vt // -e.
Qed.
End Adds.

Section DictFacts.
Variables (V : Type).
Implicit Type s : dict nat_eqType V.

Lemma dget_cons k k' x s : dget k' ((k, x) :: s) = if k' == k then Some x else dget k' s.
Proof. by rewrite /dget /= eq_sym; case: eqP. Qed.

Lemma dget_notin k s : k \notin dkeys s -> dget k s = None.
Proof.
elim: s => [|[a y] s IH] //=; rewrite inE negb_or => /andP[/negbTE h1 h2].
by rewrite dget_cons h1 IH.
Qed.

Lemma dget_filter (p : V -> bool) k s : uniq (dkeys s) ->
  dget k [seq e <- s | p e.2] = if dget k s is Some x then if p x then Some x else None else None.
Proof.
elim: s => [|[a y] s IH] //= /andP[na us].
rewrite dget_cons; case: ifP => py; first by rewrite dget_cons; case: eqP => [_|_]; rewrite ?py // IH.
case: eqP => [e|_]; last exact: IH.
by rewrite IH // e dget_notin // py.
Qed.

Lemma dkeys_filter_uniq (p : nat * V -> bool) s : uniq (dkeys s) -> uniq (dkeys [seq e <- s | p e]).
Proof.
have sub k s' : k \in dkeys [seq e <- s' | p e] -> k \in dkeys s'.
  elim: s' => //= e s' IH; case: ifP => _ /=; rewrite !inE; last by move/IH ->; rewrite orbT.
  by case: eqP => // _ /IH.
elim: s => //= e s IH /andP[ne us]; case: ifP => _ /=; last exact: IH.
by rewrite IH // andbT; apply/negP => /sub; rewrite (negbTE ne).
Qed.
End DictFacts.

(* ---- the whole computation ---- *)
Section Run.
Variables (X Y : Type) (T C : nat) (kind : loss_kind).
Local Notation batch := (seq (X * Y)).
Hypothesis T_gt0 : (0 < T)%N.
Hypothesis C_gt0 : (0 < C)%N.
Variable net : X -> seq R.
Variable tgt : Y -> nat -> target.
Variable mods : nat -> nlayer X.
Variable shapes : seq (seq nat).
Variables (sep : bool) (ap : kfac_approx) (red : reduction) (N M : nat) (mp : mapping) (ge : geometry X).
Hypothesis net_size : forall x, size (net x) = (T * C)%N.
Hypothesis mp_uniq : uniq (dkeys mp).
Hypothesis hge : fits_geometry T C ap mods mp ge.
Hypothesis hred : red <> ROther.
Hypothesis N_gt0 : (0 < N)%N.
Hypothesis M_gt0 : (0 < M)%N.

Definition jk (k : nat) : bool := if dget k mp is Some ps then joint_params sep ps else false.
Definition has_w (k : nat) : bool := if dget k mp is Some ps then dmem Weight ps else false.
Definition has_k (k : nat) : bool := isSome (dget k mp).
Definition szin (k : nat) : nat := (g_d1 ge k + jk k)%N.
Definition szgr (k : nat) : nat := g_d2 ge k.
Local Notation adds := (adds szin szgr).

Lemma forward_adds (b : batch) :
  adds (forward_events mods sep ap N mp b) has_w xpred0
    (fun k i j => if has_w k then N%:R^-1 * \sum_(x <- b) in_term ap (jk k) (g_S1 ge k) (g_d1 ge k) (g_act ge k x.1) i j else 0)
    (fun _ _ _ => 0).
Proof.
rewrite /forward_events.
pose v k i j := N%:R^-1 * \sum_(x <- b) in_term ap (jk k) (g_S1 ge k) (g_d1 ge k) (g_act ge k x.1) i j.
set s := [seq e <- mp | dmem Weight e.2].
have hs k : dget k s = if dget k mp is Some x then if dmem Weight x then Some x else None else None.
  exact: dget_filter (fun ps => dmem Weight ps) _ _ mp_uniq.
set f := (fun e : nat * dict pname_eqType nat => _).
have hf k x : dget k s = Some x -> exists t, [/\ f (k, x) = Ok (UIn k t), tshape t = [:: szin k; szin k], wf t &
     forall i j, (i < szin k)%N -> (j < szin k)%N -> entry (szin k) (tdata t) i j = v k i j].
  rewrite hs; case e : (dget k mp) => [ps|] //; case: ifP => // hw [<-].
  have [hl _ /(_ hw) hi] := hge e.
  have [t [e1 s1 w1 v1]] := input_batch (joint_params sep ps) N b hl hi.
  exists t; rewrite /f /=; split; rewrite /v /szin /jk ?e //.
  by move: e1; rewrite /joint_params => ->.
have hu : uniq (dkeys s) by apply: dkeys_filter_uniq.
apply: (adds_ext (@adds_map_in szin szgr _ s f v hu hf)) => //.
- by move=> k; rewrite hs /has_w; case: (dget k mp) => // ps; case: ifP.
by move=> k i j _ _; rewrite hs /has_w; case: (dget k mp) => // ps; case: ifP.
Qed.

Lemma backward_adds (b : batch) d0 (phi : point -> R) (kk : R) (psi : nat -> point -> R) :
  (forall o, phi o = kk * \sum_(r < size b * T) psi r (row_pt C r o)) -> (forall r, local_fun C (psi r)) ->
  adds (backward_events T C kind mods ap red N M T mp b phi) xpred0 has_k (fun _ _ _ => 0)
    (fun k i j => if has_k k then corr T red N M (size b) * (kk * kk) * \sum_(n < size b)
        grad_term ap (g_S2 ge k) (fun s i => ograd T C kind (mods k) (nth d0 b n).1 (fun t => psi (n * T + t)%N) (g_pos ge k s i)) i j else 0).
Proof.
move=> hphi hloc; rewrite /backward_events.
set f := (fun e : nat * dict pname_eqType nat => _).
pose v k i j := corr T red N M (size b) * (kk * kk) * \sum_(n < size b)
        grad_term ap (g_S2 ge k) (fun s i => ograd T C kind (mods k) (nth d0 b n).1 (fun t => psi (n * T + t)%N) (g_pos ge k s i)) i j.
have hf k x : dget k mp = Some x -> exists t, [/\ f (k, x) = Ok (UGrad k t), tshape t = [:: szgr k; szgr k], wf t &
     forall i j, (i < szgr k)%N -> (j < szgr k)%N -> entry (szgr k) (tdata t) i j = v k i j].
  move=> e; have [hl ho _] := hge e.
  have [t [e1 s1 w1 v1]] := grad_batch kind T_gt0 C_gt0 ap d0 hl ho hred N_gt0 M_gt0 hphi hloc.
  by exists t; rewrite /f /= e1.
apply: (adds_ext (@adds_map_grad szin szgr _ mp f v mp_uniq hf)) => // k i j _ _.
by rewrite /has_k; case: (dget k mp).
Qed.

(* several passes over one batch *)
Lemma passes_adds (b : batch) d0 (A : Type) (ps : seq A) (phi : A -> point -> R) (kk : R) (psi : A -> nat -> point -> R) :
  (forall a o, List.In a ps -> phi a o = kk * \sum_(r < size b * T) psi a r (row_pt C r o)) -> (forall a r, local_fun C (psi a r)) ->
  adds (flatten [seq backward_events T C kind mods ap red N M T mp b (phi a) | a <- ps]) xpred0
    (fun k => (0 < size ps)%N && has_k k) (fun _ _ _ => 0)
    (fun k i j => if has_k k then corr T red N M (size b) * (kk * kk) * \sum_(a <- ps) \sum_(n < size b)
        grad_term ap (g_S2 ge k) (fun s i => ograd T C kind (mods k) (nth d0 b n).1 (fun t => psi a (n * T + t)%N) (g_pos ge k s i)) i j else 0).
Proof.
move=> + hloc; elim: ps => [|a ps IH] hphi /=.
  apply: adds_ext (adds_nil _ _) _ _ _ _ => // k i j _ _.
  by rewrite big_nil mulr0; case: ifP.
have h1 := @backward_adds b d0 (phi a) kk (psi a) (fun o => hphi a o (or_introl erefl)) (hloc a).
have h2 := IH (fun a' o h => hphi a' o (or_intror h)).
apply: adds_ext (adds_cat h1 h2) _ _ _ _ => //=.
- by move=> k; case: (has_k k); rewrite ?orbT ?andbF.
- by move=> k i j _ _; rewrite addr0.
by move=> k i j _ _; rewrite big_cons; case: (has_k k); rewrite ?addr0 // -mulrDr.
Qed.

(* the loop over the loader: every batch's loss events add v(b) *)
Section Loader.
Variables (ft : fisher_type) (G : Type).
Variable normal_o : G -> nat -> (nat -> R) * G.
Variable multinomial_o : G -> nat -> nat -> (nat -> nat -> R) -> nat -> (nat -> nat -> nat) * G.
Variable bernoulli_o : G -> nat -> (nat -> R) -> (nat -> bool) * G.
Local Notation backward := (backward_events T C kind mods ap red N M T mp).
Local Notation loss_events := (loss_events T C kind net tgt shapes ft red M mp normal_o multinomial_o bernoulli_o backward).
Local Notation kfac_events := (kfac_events T C kind net tgt shapes ft red M mp normal_o multinomial_o bernoulli_o (forward_events mods sep ap N mp) backward).
Local Notation compute_kfac := (compute_kfac T C kind net tgt mods shapes sep ap ft red N M T mp normal_o multinomial_o bernoulli_o).

(* generator states at the start of the batches *)
Fixpoint gens (loader : seq batch) (g : G) : seq (batch * G) :=
  if loader is b :: rest then (b, g) :: gens rest (loss_events b g).2 else [::].

Lemma gens_fst loader g : [seq p.1 | p <- gens loader g] = loader.
Proof. by elim: loader g => //= b l IH g; rewrite IH. Qed.

Lemma loader_adds loader g (v : batch * G -> nat -> nat -> nat -> R) :
  (forall p, List.In p (gens loader g) -> adds (loss_events p.1 p.2).1 xpred0 has_k (fun _ _ _ => 0) (v p)) ->
  adds (kfac_events loader g) (fun k => (0 < size loader)%N && has_w k) (fun k => (0 < size loader)%N && has_k k)
    (fun k i j => if has_w k then N%:R^-1 * \sum_(x <- flatten loader) in_term ap (jk k) (g_S1 ge k) (g_d1 ge k) (g_act ge k x.1) i j else 0)
    (fun k i j => \sum_(p <- gens loader g) v p k i j).
Proof.
elim: loader g => [|b l IH] g h /=.
  apply: adds_ext (adds_nil _ _) _ _ _ _ => // k i j _ _; last by rewrite big_nil.
  by rewrite big_nil mulr0; case: ifP.
have h1 := h (b, g) (or_introl erefl); have := IH (loss_events b g).2 (fun p hp => h p (or_intror hp)).
rewrite /= in h1; move: h1; case: (loss_events b g) => ev g' /= h1 h2.
apply: adds_ext (adds_cat (forward_adds b) (adds_cat h1 h2)) _ _ _ _ => //=.
- by move=> k; case: (has_w k); rewrite ?orbT ?andbF.
- by move=> k; case: (has_k k); rewrite ?orbT ?andbF.
- by move=> k i j _ _; rewrite add0r big_cat; case: (has_w k); rewrite ?addr0 //= -mulrDr.
by move=> k i j _ _; rewrite add0r big_cons.
Qed.

Lemma loader_run loader g (v : batch * G -> nat -> nat -> nat -> R) : loader <> [::] ->
  (forall p, List.In p (gens loader g) -> adds (loss_events p.1 p.2).1 xpred0 has_k (fun _ _ _ => 0) (v p)) ->
  exists st, compute_kfac loader g = (st, Ok tt) /\ forall k,
    match dget k mp with
    | None => dget k st.1 = None /\ dget k st.2 = None
    | Some ps =>
        (if dmem Weight ps then is_factor st.1 k (g_d1 ge k + joint_params sep ps)
           (input_factor ap (joint_params sep ps) N (g_S1 ge k) (g_d1 ge k) (g_act ge k) (flatten loader))
         else dget k st.1 = None) /\
        is_factor st.2 k (g_d2 ge k) (fun i j => \sum_(p <- gens loader g) v p k i j)
    end.
Proof.
move=> hl h; have [st [e [p1 p2] q1 q2]] := adds_run (loader_adds h).
have sl : (0 < size loader)%N by case: (loader) hl.
exists st; split=> // k; have := p1 k; have := p2 k; rewrite sl /= /has_w /has_k.
case ek : (dget k mp) => [ps|] /=; last by case: (dget k st.2) => //; case: (dget k st.1).
case e2 : (dget k st.2) => [t2|] // _ h1; split; last first.
  by have [s2 w2 v2] := q2 _ _ e2; exists t2.
case: ifP h1 => // hw; last by case: (dget k st.1).
case e1 : (dget k st.1) => [t1|] // _; have [s1 w1 v1] := q1 _ _ e1.
by exists t1; move: s1 v1; rewrite /szin /jk /has_w ek hw.
Qed.

(* ---- forward-only: the gradient dictionary is only assigned to ---- *)
Local Notation update := (update [fieldType of R]).
Definition is_in (u : update) : bool := if u is UIn _ _ then true else false.
Definition is_ugrad (u : update) : bool := if u is UGrad _ _ then true else false.
Definition set_one (D : dict nat_eqType (tensor R)) (u : update) := if u is USet k t then dset k t D else D.

Lemma run_sets (us : seq update) d1 d2 d2' st : all (predC is_ugrad) us ->
  run_updates (d1, d2') [seq Ok u | u <- us & is_in u] = (st, Ok tt) ->
  run_updates (d1, d2) [seq Ok u | u <- us] = ((st.1, foldl set_one d2 us), Ok tt).
Proof.
elim: us d1 d2 d2' => [|[k t|k t|k t] us IH] d1 d2 d2' //=; first by move=> _ [<-].
  move=> hu; case: accumulate => [d|e] //=; exact: IH.
exact: IH.
Qed.

Lemma all_In (A : Type) (p : A -> bool) (s : seq A) : (forall a, List.In a s -> p a) -> all p s.
Proof. by elim: s => //= a s IH h; rewrite h ?IH //; [move=> b hb; apply: h; right|left]. Qed.

Lemma forward_only_run loader g : loader <> [::] -> ft = ForwardOnly ->
  (forall k ps, dget k mp = Some ps -> exists n p rest, ps = (n, p) :: rest /\ head 0%N (nth [::] shapes p) = g_d2 ge k) ->
  exists st, compute_kfac loader g = (st, Ok tt) /\ forall k,
    match dget k mp with
    | None => dget k st.1 = None /\ dget k st.2 = None
    | Some ps =>
        (if dmem Weight ps then is_factor st.1 k (g_d1 ge k + joint_params sep ps)
           (input_factor ap (joint_params sep ps) N (g_S1 ge k) (g_d1 ge k) (g_act ge k) (flatten loader))
         else dget k st.1 = None) /\ dget k st.2 = Some (eye [fieldType of R] (g_d2 ge k))
    end.
Proof.
move=> hl hft hps.
have sets : exists ss, [/\ (forall b g, loss_events b g = ([seq Ok u | u <- ss], g)),
    all (fun u => ~~ is_in u && ~~ is_ugrad u) ss &
    forall k D, dget k (foldl set_one D ss) = if dget k mp is Some _ then Some (eye [fieldType of R] (g_d2 ge k)) else dget k D].
  rewrite /loss_events hft; have {hl}: forall k ps, List.In (k, ps) mp -> dget k mp = Some ps.
    elim: (mp) mp_uniq => [|[a y] s IH] //= /andP[na us] k ps [[<- <-]|h]; rewrite dget_cons ?eqxx //.
    case: eqP => [e|_]; last exact: IH.
    move: na; rewrite -e; have : k \in dkeys s by elim: (s) h => //= z s' IH' [->|/IH']; rewrite inE ?eqxx // => ->; rewrite orbT.
    by move=> ->.
  move=> hin.
  have {hin hps} : forall k ps, List.In (k, ps) mp -> exists n p rest, ps = (n, p) :: rest /\ head 0%N (nth [::] shapes p) = g_d2 ge k.
    by move=> k ps /hin; apply: hps.
  elim: (mp) => [|[a y] s IH] /= h; first by exists [::].
  have [|ss [e1 e2 e3]] := IH; first by move=> k ps hk; apply: h; right.
  have [n [p [rest [-> ha]]]] := h a y (or_introl erefl).
  exists (USet a (eye [fieldType of R] (g_d2 ge a)) :: ss); split.
  - by move=> b g'; have := e1 b g' => -[->]; rewrite ha.
  - by rewrite /= e2.
  move=> k D; rewrite /= e3 dget_dset dget_cons eq_sym; case: eqP => [->|_]; last by [].
  by case: (dget a s).
have [ss [e1 e2 e3]] := sets.
have events : exists us, [/\ kfac_events loader g = [seq Ok u | u <- us], all (predC is_ugrad) us,
     adds [seq Ok u | u <- us & is_in u] (fun k => (0 < size loader)%N && has_w k) xpred0
      (fun k i j => if has_w k then N%:R^-1 * \sum_(x <- flatten loader) in_term ap (jk k) (g_S1 ge k) (g_d1 ge k) (g_act ge k x.1) i j else 0) (fun _ _ _ => 0) &
     forall k D, dget k (foldl set_one D us) = if has_k k && (0 < size loader)%N then Some (eye [fieldType of R] (g_d2 ge k)) else dget k D].
  elim: (loader) g => [|b l IH] g' /=.
    exists [::]; split=> //; last by move=> k D; rewrite andbF.
    by apply: adds_ext (adds_nil _ _) _ _ _ _ => // k i j _ _; rewrite big_nil mulr0; case: ifP.
  rewrite e1; have [us [f1 f2 f3 f4]] := IH g'.
  have [uf [ef sf [hf1 hf2] _ _]] := forward_adds b.
  have inf : all is_in uf.
    apply: all_In => u hu; have := sf _ hu; move: hu; case: u => //= k t hu _.
    have := hf2 k; rewrite (_ : has (hits_grad k) uf = true) //.
    elim: (uf) hu => //= u us' IH' [->|/IH' ->] /=; rewrite ?eqxx // orbT; by [].
  exists (uf ++ ss ++ us); split.
  - by rewrite !map_cat ef f1.
  - rewrite !all_cat f2 andbT; apply/andP; split.
      by apply: sub_all inf => -[].
    by apply: sub_all e2 => u /= /andP[].
  - rewrite !filter_cat.
    have -> : [seq u <- uf | is_in u] = uf by apply/all_filterP.
    have -> : [seq u <- ss | is_in u] = [::].
      by elim: (ss) e2 => //= u s' IH' /andP[/andP[/negbTE -> _] /IH'].
    rewrite /= map_cat -ef.
    apply: adds_ext (adds_cat (forward_adds b) f3) _ _ _ _ => //=.
    + by move=> k; case: (has_w k); rewrite ?orbT ?andbF.
    + by move=> k i j _ _; rewrite big_cat; case: (has_w k); rewrite ?addr0 //= -mulrDr.
    by move=> k i j _ _; rewrite addr0.
  move=> k D; rewrite !foldl_cat f4 e3 /has_k andbT.
  have -> : foldl set_one D uf = D by elim: (uf) inf D => //= -[].
  by case: (dget k mp) => //= _; case: ifP.
have [us [f1 f2 f3 f4]] := events.
have [st [h1 [p1 _] q1 _]] := adds_run f3.
have sl : (0 < size loader)%N by case: (loader) hl.
exists (st.1, foldl set_one [::] us); split; first by rewrite /compute_kfac f1 (run_sets _ f2 h1).
move=> k /=; rewrite f4 sl andbT /has_k; have := p1 k; rewrite sl /has_w /=.
case ek : (dget k mp) => [ps|] /=; last by case: (dget k st.1).
case: ifP => hw; last by case: (dget k st.1).
case e1' : (dget k st.1) => [t1|] // _; split=> //; have [s1 w1 v1] := q1 _ _ e1'.
by exists t1; move: s1 v1; rewrite /szin /jk /has_w ek hw.
Qed.
End Loader.
End Run.
