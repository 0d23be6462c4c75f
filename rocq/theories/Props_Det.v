(* C26-C28: the determinism check and the operator's device. *)
From mathcomp Require Import all_ssreflect all_algebra.
From mathcomp Require Import ring.
From Verif Require Import PyPrelude Tensor Spec Determinism.
Set Implicit Arguments.
Unset Strict Implicit.
Unset Printing Implicit Defensive.
Import GRing.Theory Num.Theory.
Local Open Scope ring_scope.

Section Props.
Variable F : realFieldType.
Local Notation num := (option F).
Local Notation tens := (tensor num).

(* ---- vocabulary ---- *)

(* two numbers agree up to the tolerances 1e-6 + 5e-5 |b| *)
Definition close_to (a b : F) : bool := `|a - b| <= 1 / 10%:R ^+ 6 + 5%:R / 10%:R ^+ 5 * `|b|.
(* a tensor without NaN, and its entries *)
Definition nan_free (t : tens) : bool := all isSome (tdata t).
Definition val (t : tens) (i : nat) : F := odflt 0 (nth None (tdata t) i).
(* same shape and all entries close *)
Definition t_close (a b : tens) : Prop :=
  [/\ tshape a = tshape b, nan_free a, nan_free b &
      forall i, (i < numel (tshape a))%N -> close_to (val a i) (val b i)].
Definition same_shape (a b : tens) : bool := [&& wf a, wf b & tshape a == tshape b].

(* ---- lemmas ---- *)
Lemma bshape_refl r : bshape r r = Some r.
Proof. by elim: r => //= n r ->; rewrite eqxx /=; case: ifP => // /eqP ->. Qed.

Lemma bidx_refl r e : (e < numel r)%N -> bidx r r e = e.
Proof.
elim: r e => [|n r IH] e /=; first by case: e.
case: n => [|n] // he; rewrite IH ?ltn_divLR // 1?mulnC //.
rewrite [RHS](divn_eq e n.+1) addnC mulnC; congr (_ + _)%N.
by case: n {he} => //=; rewrite modn1.
Qed.

Lemma numel_rev s : numel (rev s) = numel s.
Proof.
elim: s => //= n s IH; rewrite rev_cons numel_rcons IH mulnC //.
Qed.

Lemma isclose_nth (a b : seq num) n : size a = n -> size b = n ->
  all (fun e => isclose (nth None a e) (nth None b e)) (iota 0 n) <->
  [/\ all isSome a, all isSome b & forall i, (i < n)%N -> close_to (odflt 0 (nth None a i)) (odflt 0 (nth None b i))].
Proof.
move=> ha hb; split.
  move=> /allP h.
  have h' : forall i, (i < n)%N -> isclose (nth None a i) (nth None b i) by move=> i hi; apply: h; rewrite mem_iota.
  split.
  - apply/(all_nthP None) => i; rewrite ha => /h'.
    by case: (nth None a i).
  - apply/(all_nthP None) => i; rewrite hb => /h'.
    by case: (nth None a i) => //; case: (nth None b i).
  move=> i /h'; by case: (nth None a i) => // x; case: (nth None b i).
move=> [h1 h2 h3]; apply/allP => i; rewrite mem_iota add0n => /andP[_ hi].
have := h3 i hi.
have := all_nthP None h1 i; rewrite ha => /(_ hi).
have := all_nthP None h2 i; rewrite hb => /(_ hi).
by case: (nth None a i) => // x; case: (nth None b i).
Qed.

Definition t_closeb (a b : tens) : bool :=
  all (fun e => isclose (nth None (tdata a) e) (nth None (tdata b) e)) (iota 0 (numel (tshape a))).

Lemma t_closeP a b : same_shape a b -> reflect (t_close a b) (t_closeb a b).
Proof.
move=> /and3P[/eqP wa /eqP wb /eqP e]; rewrite -e in wb.
apply: (iffP idP) => [/(isclose_nth wa wb) [h1 h2 h3]|[_ h1 h2 h3]]; first by split.
by apply/(isclose_nth wa wb); split.
Qed.

Lemma allclose_same a b : same_shape a b -> allclose_report a b = Ok (t_closeb a b).
Proof.
move=> /and3P[/eqP wa /eqP wb /eqP e]; rewrite /allclose_report -e bshape_refl numel_rev.
have -> : all (fun e0 => isclose (nth None (tdata a) (bidx (rev (tshape a)) (rev (tshape a)) e0))
       (nth None (tdata b) (bidx (rev (tshape a)) (rev (tshape a)) e0))) (iota 0 (numel (tshape a))) = t_closeb a b.
  by apply: eq_in_all => i; rewrite mem_iota add0n => /andP[_ hi]; rewrite !bidx_refl ?numel_rev.
by case: t_closeb => //; rewrite revK eqxx.
Qed.

Lemma expect_close_same a b : same_shape a b ->
  expect_close a b = if t_closeb a b then Ok tt else Err RuntimeError.
Proof. by move=> h; rewrite /expect_close allclose_same //=; case: t_closeb. Qed.

Lemma expect_all_close_same (s : seq (tens * tens)) : all (fun p => same_shape p.1 p.2) s ->
  expect_all_close s = if all (fun p => t_closeb p.1 p.2) s then Ok tt else Err RuntimeError.
Proof.
elim: s => //= p s IH /andP[h1 h2]; rewrite allclose_same //=.
by case: t_closeb => //=; apply: IH.
Qed.

Definition shaped (S : seq (seq nat)) (G : seq tens) : Prop := [seq tshape t | t <- G] = S /\ all (@wf num) G.

Lemma shaped_cons s S G : shaped (s :: S) G -> exists t G', [/\ G = t :: G', tshape t = s, wf t & shaped S G'].
Proof. by case: G => [[]|t G] // [[h1 h2] /= /andP[h3 h4]]; exists t, G. Qed.

Lemma all_add_flat S (G g : seq tens) : shaped S G -> shaped S g ->
  exists G', [/\ all_add G g = Ok G', shaped S G' &
    forall e, (e < total S)%N -> nth None (flat G') e = num_add (nth None (flat G) e) (nth None (flat g) e)].
Proof.
elim: S G g => [|s S IH] G g.
  by case: G => [|? ?] [] // _ _; case: g => [|? ?] [] // _ _; exists [::].
move=> /shaped_cons [t [G' [-> ht wt hG]]] /shaped_cons [u [g' [-> hu wu hg]]].
have [H [hr hH eH]] := IH _ _ hG hg.
rewrite /= /tens_add ht hu eqxx /= hr /=; eexists; split; first by [].
  case: hH => h1 h2; split; first by rewrite /= h1.
  by rewrite /= h2 andbT /wf /= size_mkseq -ht.
move/eqP: wt => wt; move/eqP: wu => wu.
move=> e; rewrite /total /= => he; rewrite /flat /= !nth_cat size_mkseq wt wu ht hu.
case: ltnP => h; first by rewrite nth_mkseq // wt ht.
by apply: eH; rewrite ltn_subLR.
Qed.

Lemma iota_cat_all (p : nat -> bool) a b : all p (iota 0 (a + b)) = all p (iota 0 a) && all (fun i => p (a + i)%N) (iota 0 b).
Proof. by rewrite iotaD all_cat add0n -{2}[a]addn0 iotaDl all_map. Qed.

Lemma all_close_flat S (G g : seq tens) : shaped S G -> shaped S g ->
  all (fun p => t_closeb p.1 p.2) (zip G g) =
  all (fun e => isclose (nth None (flat G) e) (nth None (flat g) e)) (iota 0 (total S)).
Proof.
elim: S G g => [|s S IH] G g.
  by case: G => [|? ?] [] // _ _; case: g => [|? ?] [] // _ _.
move=> /shaped_cons [t [G' [-> ht wt hG]]] /shaped_cons [u [g' [-> hu wu hg]]].
move/eqP: wt => wt; move/eqP: wu => wu.
rewrite /total /= iota_cat_all IH // /t_closeb ht; congr (_ && _).
  by apply: eq_in_all => i; rewrite mem_iota add0n => /andP[_ hi]; rewrite /flat /= !nth_cat wt wu ht hu hi.
by apply: eq_in_all => i _; rewrite /flat /= !nth_cat wt wu ht hu ltnNge leq_addr /= addKn.
Qed.

Lemma zip_same S (G g : seq tens) : shaped S G -> shaped S g -> all (fun p => same_shape p.1 p.2) (zip G g).
Proof.
elim: S G g => [|s S IH] G g.
  by case: G => [|? ?] [] // _ _; case: g => [|? ?] [] // _ _.
move=> /shaped_cons [t [G' [-> ht wt hG]]] /shaped_cons [u [g' [-> hu wu hg]]].
by rewrite /= IH // /same_shape wt wu ht hu eqxx.
Qed.

Lemma shaped_zeros S : shaped S (zeros F S).
Proof.
split; first by rewrite -map_comp map_id.
by rewrite all_map; apply/allP => s _; rewrite /wf /= size_nseq.
Qed.

Lemma zeros_flat S e : (e < total S)%N -> nth None (flat (zeros F S)) e = Some 0.
Proof.
elim: S e => //= s S IH e; rewrite /total /= /flat /= nth_cat size_nseq nth_nseq => h.
by case: ltnP => // h'; apply: IH; rewrite ltn_subLR.
Qed.

(* a batch result whose loss is a scalar and whose gradient has the parameters'
   shapes *)
Definition item_ok (S : seq (seq nat)) (a : item F) : Prop :=
  [/\ tshape (it_loss a) = [::], wf (it_loss a) & shaped S (it_grad a)].

Fixpoint Forall_items (P : item F -> Prop) (s : seq (item F)) : Prop :=
  if s is a :: s' then P a /\ Forall_items P s' else True.

Definition gsum (a : seq (item F)) (e : nat) (x : num) : num :=
  foldl (fun s it => num_add s (nth None (flat (it_grad it)) e)) x a.


(* comparing two batches *)
Definition x_same (X1 X2 : xval F) : Prop :=
  match X1, X2 with
  | XTensor a, XTensor b => same_shape a b : Prop
  | XDict d1, XDict d2 => forall k v1, List.In (k, v1) d1 ->
      match v1, lookup k d2 with
      | DTensor a, Some (DTensor b) => same_shape a b : Prop
      | DOther, Some _ => True
      | _, _ => False
      end
  | _, _ => False
  end.
Definition x_close (X1 X2 : xval F) : Prop :=
  match X1, X2 with
  | XTensor a, XTensor b => t_close a b
  | XDict d1, XDict d2 => forall k a b, List.In (k, DTensor a) d1 -> lookup k d2 = Some (DTensor b) -> t_close a b
  | _, _ => False
  end.
Fixpoint all_close2 (g1 g2 : seq tens) : Prop :=
  match g1, g2 with
  | a :: g1', b :: g2' => t_close a b /\ all_close2 g1' g2'
  | _, _ => True
  end.
(* the entries of the two batches can be compared: same kind, shapes and keys *)
Definition batch_same (a b : item F) : Prop :=
  [/\ x_same (it_X a) (it_X b), same_shape (it_y a) (it_y b) & same_shape (it_pred a) (it_pred b)].
Definition batch_close (has_loss : bool) (a b : item F) : Prop :=
  [/\ x_close (it_X a) (it_X b), t_close (it_y a) (it_y b), t_close (it_pred a) (it_pred b) &
      has_loss -> t_close (it_loss a) (it_loss b) /\ all_close2 (it_grad a) (it_grad b)].

(* r is Ok exactly if P holds, and RuntimeError otherwise *)
Definition decided (r : res unit) (P : Prop) : Prop := (r = Ok tt /\ P) \/ (r = Err RuntimeError /\ ~ P).

Lemma decided_and (r1 : res unit) (r2 : res unit) P Q : decided r1 P -> (P -> decided r2 Q) ->
  decided (bind r1 (fun _ => r2)) (P /\ Q).
Proof.
move=> [[-> hP] /(_ hP)|[-> hP] _] /=; last by right; split=> // -[].
by move=> [[-> hQ]|[-> hQ]]; [left|right; split=> // -[]].
Qed.

Lemma decided_iff r P Q : (P <-> Q) -> decided r P -> decided r Q.
Proof. by move=> [h1 h2] [[-> h]|[-> h]]; [left; split; auto|right; split=> // /h2]. Qed.

Lemma expect_close_dec a b : same_shape a b -> decided (expect_close a b) (t_close a b).
Proof. by move=> h; rewrite expect_close_same //; case: (t_closeP h) => h'; [left|right]. Qed.

Lemma check_X_dec X1 X2 : x_same X1 X2 -> decided (check_X X1 X2) (x_close X1 X2).
Proof.
case: X1 X2 => [a|d1] [b|d2] //=; first exact: expect_close_dec.
elim: d1 => [|[k v] d1 IH] h; first by left.
have {IH}hd : decided (foldM (fun _ p => match lookup p.1 d2 with
        | None => Err KeyError
        | Some v2 =>
            match p.2, v2 with
            | DOther, _ => Ok tt
            | DTensor v1, DTensor v2 => expect_close v1 v2
            | DTensor _, DOther => Err TypeError
            end
        end) tt d1) (forall k a b, List.In (k, DTensor a) d1 -> lookup k d2 = Some (DTensor b) -> t_close a b).
  by apply: IH => k' v' hk; apply: h; right.
have := h k v (or_introl erefl); rewrite /=.
case: v h => [a|] h; case hl: (lookup k d2) => [[b|]|] // hs /=.
- apply: (@decided_iff _ (t_close a b /\ (forall k a b, List.In (k, DTensor a) d1 -> lookup k d2 = Some (DTensor b) -> t_close a b))).
    split=> [[h1 h2] k' a' b' [[<- <-]|]|h'].
    + by rewrite hl => -[<-].
    + exact: h2.
    + by split; [exact: (h' k _ _ (or_introl erefl) hl)|move=> k' a' b' hk; apply: h'; right].
  have := decided_and (expect_close_dec hs) (fun _ => hd).
  by case: (expect_close a b) => // -[].
- apply: decided_iff hd; split=> h' k' a' b'.
    by move=> [[]|] //; apply: h'.
  by move=> hk; apply: h'; right.
- apply: decided_iff hd; split=> h' k' a' b'.
    by move=> [[]|] //; apply: h'.
  by move=> hk; apply: h'; right.
Qed.

Lemma all_close_dec S g1 g2 : shaped S g1 -> shaped S g2 ->
  decided (expect_all_close (zip g1 g2)) (all_close2 g1 g2).
Proof.
elim: S g1 g2 => [|s S IH] g1 g2.
  by case: g1 => [|? ?] [] // _ _; case: g2 => [|? ?] [] // _ _; left.
move=> /shaped_cons [t [G' [-> ht wt hG]]] /shaped_cons [u [g' [-> hu wu hg]]].
have hs : same_shape t u by rewrite /same_shape wt wu ht hu eqxx.
rewrite /= allclose_same //=.
case: (t_closeP hs) => h; last by right; split=> // -[].
by apply: decided_iff (IH _ _ hG hg); split=> // -[].
Qed.

Lemma check_batch_dec S (has_loss : bool) a b : batch_same a b -> (has_loss -> item_ok S a /\ item_ok S b) ->
  decided (check_batch has_loss a b) (batch_close has_loss a b).
Proof.
move=> [h1 h2 h3] h4; rewrite /check_batch.
apply: (@decided_iff _ (x_close (it_X a) (it_X b) /\ (t_close (it_y a) (it_y b) /\ (t_close (it_pred a) (it_pred b) /\
   (has_loss -> t_close (it_loss a) (it_loss b) /\ all_close2 (it_grad a) (it_grad b)))))).
  by split=> [[? [? [? ?]]]|[? ? ? ?]].
apply: decided_and (check_X_dec h1) _ => _.
apply: decided_and (expect_close_dec h2) _ => _.
apply: decided_and (expect_close_dec h3) _ => _.
case: has_loss h4 => [/(_ isT) [[la wa ga] [lb wb gb]]|_]; last by left.
apply: (@decided_iff _ (t_close (it_loss a) (it_loss b) /\ all_close2 (it_grad a) (it_grad b))).
  by split=> // /(_ isT).
apply: decided_and; first by apply: expect_close_dec; rewrite /same_shape wa wb la lb.
by move=> _; apply: all_close_dec ga gb.
Qed.

Fixpoint Forall2_items (P : item F -> item F -> Prop) (s t : seq (item F)) : Prop :=
  match s, t with
  | a :: s', b :: t' => P a b /\ Forall2_items P s' t'
  | _, _ => True
  end.

Definition last_losses (a b : seq (item F)) (x : option (tens * tens)) :=
  last x [seq Some (it_loss p.1, it_loss p.2) | p <- zip a b].

(* the state after a loop that did not raise *)
Definition loop_post S (has_loss : bool) st (a b : seq (item F)) st' : Prop :=
  cur st' = last_losses a b (cur st) /\
  (has_loss -> [/\ shaped S (tot_grad1 st'), shaped S (tot_grad2 st') &
    forall e, (e < total S)%N ->
      nth None (flat (tot_grad1 st')) e = gsum a e (nth None (flat (tot_grad1 st)) e) /\
      nth None (flat (tot_grad2 st')) e = gsum b e (nth None (flat (tot_grad2 st)) e)]).

Lemma check_loop_spec S (has_loss fixed : bool) st (a b : seq (item F)) : size a = size b ->
  (has_loss -> Forall_items (item_ok S) a /\ Forall_items (item_ok S) b) ->
  (fixed -> Forall2_items batch_same a b) ->
  tshape (tot_loss1 st) = [::] -> tshape (tot_loss2 st) = [::] ->
  shaped S (tot_grad1 st) -> shaped S (tot_grad2 st) ->
  (exists2 st', check_loop has_loss fixed st (map Ok a) (map Ok b) = Ok st' /\
                (fixed -> Forall2_items (batch_close has_loss) a b) & loop_post S has_loss st a b st') \/
  (check_loop has_loss fixed st (map Ok a) (map Ok b) = Err RuntimeError /\
    fixed /\ ~ Forall2_items (batch_close has_loss) a b).
Proof.
elim: a b st => [|x a IH] [|y b] // st; first by move=> _ _ _ _ _ h1 h2; left; exists st; split.
move=> [hs] hok hsame l1 l2 g1 g2; rewrite /= /check_step.
have hb : (fixed = false \/ check_batch has_loss x y = Ok tt /\ batch_close has_loss x y) \/
    (fixed /\ check_batch has_loss x y = Err RuntimeError /\ ~ batch_close has_loss x y).
  case: (fixed) hsame => [/(_ isT) [h _]|_]; last by left; left.
  have := @check_batch_dec S has_loss x y h.
  by case=> [/hok [[? _] [? _]]|[h1 h2]|[h1 h2]] //; [left; right|right].
case: hb => [hb|[hf [hb hn]]]; last by right; rewrite hf hb; split=> //; split=> // -[].
have -> : (if fixed then check_batch has_loss x y else Ok tt) = Ok tt.
  by case: hb => [->|[-> _]] //; case: (fixed).
have hb' : fixed -> batch_close has_loss x y by case: hb => [->|[_ h]].
case: has_loss hok IH hb' {hb} => [/(_ isT) [[[lx wx gx] ha] [[ly wy gy] hb]]|_] IH hb'.
  rewrite /tens_add /= l1 lx eqxx l2 ly eqxx /=.
  have [G1 [-> s1 e1]] /= := all_add_flat g1 gx.
  have [G2 [-> s2 e2]] /= := all_add_flat g2 gy.
  set st1 := Totals _ _ _ _ _.
  have [|||||||] := IH b st1 hs; rewrite ?l1 ?l2 //.
    by move=> hf; case: (hsame hf).
  move=> [st' [r1 r2] [r3 /(_ isT) [r4 r5 r6]]]; left; exists st'.
    by split=> // hf; split; auto.
  split=> //= _; split=> // e he; have [-> ->] := r6 e he.
  by rewrite /= e1 // e2.
move=> [-> [hf hn]]; right; split=> //; split=> // -[_]; exact: hn.
rewrite /=; set st1 := Totals _ _ _ _ _.
  have [|||||||] := IH b st1 hs; rewrite ?l1 ?l2 //.
    by move=> hf; case: (hsame hf).
  move=> [st' [r1 r2] [r3 r4]]; left; exists st'.
    by split=> // hf; split; auto.
  by split.
by move=> [hr [hf hn]]; right; split=> //=; split=> // -[_]; exact: hn.
Qed.

(* ---- the two passes as a user sees them ---- *)

(* total gradient of a pass, entry e of the concatenated gradient *)
Definition total_grad (a : seq (item F)) (e : nat) : F :=
  \sum_(it <- a) odflt 0 (nth None (flat (it_grad it)) e).
Definition grads_nan_free (S : seq (seq nat)) (a : seq (item F)) : Prop :=
  forall e, (e < total S)%N -> Forall_items (fun it => isSome (nth None (flat (it_grad it)) e)) a.
Definition total_grads_close S (a b : seq (item F)) : Prop :=
  [/\ grads_nan_free S a, grads_nan_free S b &
      forall e, (e < total S)%N -> close_to (total_grad a e) (total_grad b e)].
Definition dummy : item F := Item (XDict [::]) (scalar None) (scalar None) (scalar None) [::].
Definition last_loss (a : seq (item F)) : tens := it_loss (last dummy a).

Lemma gsum_some a e x : Forall_items (fun it => isSome (nth None (flat (it_grad it)) e)) a ->
  gsum a e (Some x) = Some (x + total_grad a e).
Proof.
rewrite /total_grad; elim: a x => [|it a IH] x /=; first by rewrite big_nil addr0.
rewrite big_cons => -[h1 h2]; move: h1; case: (nth _ _ _) => //= y _.
by rewrite /gsum /= -/(gsum a e (Some (x + y))) IH // addrA.
Qed.

Lemma gsum_None a e : gsum a e None = None.
Proof. by elim: a => //= it a IH. Qed.

Lemma gsum_isSome a e x : isSome (gsum a e x) ->
  isSome x /\ Forall_items (fun it => isSome (nth None (flat (it_grad it)) e)) a.
Proof.
elim: a x => [|it a IH] x /=; first by move=> h; split.
rewrite /gsum /= -/(gsum a e _) => /IH [h1 h2].
by move: h1; case: x => // x; case: (nth _ _ _).
Qed.

Lemma last_lossesE a b x : size a = size b -> a <> [::] ->
  last_losses a b x = Some (last_loss a, last_loss b).
Proof.
rewrite /last_losses /last_loss.
elim: a b x => [|c a IH] [|d b] // x [hs] _ /=.
case: a b hs IH => [|c' a] [|d' b] // hs IH.
by rewrite (IH (d' :: b)).
Qed.

Lemma grads_dec S a b (G1 G2 : seq tens) : shaped S G1 -> shaped S G2 ->
  (forall e, (e < total S)%N -> nth None (flat G1) e = gsum a e (Some 0) /\ nth None (flat G2) e = gsum b e (Some 0)) ->
  decided (expect_all_close (zip G1 G2)) (total_grads_close S a b).
Proof.
move=> h1 h2 he; rewrite expect_all_close_same; last exact: zip_same h1 h2.
rewrite (all_close_flat h1 h2).
have hiff : all (fun e => isclose (nth None (flat G1) e) (nth None (flat G2) e)) (iota 0 (total S)) <->
    total_grads_close S a b.
  split.
    move=> /allP h.
    have h' e : (e < total S)%N -> isclose (gsum a e (Some 0)) (gsum b e (Some 0)).
      by move=> hh; have [<- <-] := he e hh; apply: h; rewrite mem_iota.
    have ha e : (e < total S)%N -> Forall_items (fun it => isSome (nth None (flat (it_grad it)) e)) a.
      move=> /h' hh; apply: (proj2 (@gsum_isSome a e (Some 0) _)).
      by move: hh; case: (gsum a e _).
    have hb e : (e < total S)%N -> Forall_items (fun it => isSome (nth None (flat (it_grad it)) e)) b.
      move=> /h' hh; apply: (proj2 (@gsum_isSome b e (Some 0) _)).
      by move: hh; case: (gsum a e _) => //; case: (gsum b e _).
    split=> // e hh; have := h' e hh.
    by rewrite !gsum_some /= ?add0r; [|apply: hb|apply: ha].
  move=> [ha hb hc]; apply/allP => e; rewrite mem_iota add0n => /andP[_ hh].
  have [-> ->] := he e hh; rewrite !gsum_some /= ?add0r; [exact: hc|exact: hb|exact: ha].
case h: (all _ _); [left|right]; split=> //; first exact: hiff.1.
by move/hiff; rewrite h.
Qed.

(* Outcome of the check for two passes that can be compared.  [fixed]: the class
   fixes the data order; [has_loss]: the operator has a loss function. *)
Theorem C27_outcome S (has_loss fixed : bool) (a b : seq (item F)) (v1 v2 : tens) :
  size a = size b -> (has_loss -> a <> [::]) ->
  (has_loss -> Forall_items (item_ok S) a /\ Forall_items (item_ok S) b) ->
  (fixed -> Forall2_items batch_same a b) -> same_shape v1 v2 ->
  decided (check_deterministic has_loss fixed S (map Ok a) (map Ok b) (Ok v1, Ok v2))
    ((fixed -> Forall2_items (batch_close has_loss) a b) /\
     (has_loss -> t_close (last_loss a) (last_loss b) /\ total_grads_close S a b) /\
     t_close v1 v2).
Proof.
move=> hs hne hok hsame hv; rewrite /check_deterministic /check_passes.
have [] := @check_loop_spec S has_loss fixed (Totals (scalar (Some 0)) (scalar (Some 0)) (zeros F S) (zeros F S) None)
  a b hs hok hsame erefl erefl (shaped_zeros S) (shaped_zeros S); last first.
  by move=> [-> [hf hn]]; right; split=> // -[/(_ hf)].
move=> [st [-> hb] [hc hg]] /=.
have hp : decided (expect_close v1 v2) (t_close v1 v2) by exact: expect_close_dec.
case: has_loss hne hok hb hg => [/(_ isT) hne /(_ isT) [ha hb'] hb /(_ isT) [s1 s2 hg]|_ _ hb _] /=; last first.
  by apply: decided_iff hp; split=> [h|[_ []]] //; split.
rewrite hc (last_lossesE _ hs hne).
have hl : same_shape (last_loss a) (last_loss b).
  have hlast c : c <> [::] -> Forall_items (item_ok S) c -> item_ok S (last dummy c).
    elim: c => // x c IH _ [h1 h2] /=; case: c IH h2 => // y c IH h2.
    by have := IH (fun e => ltac:(discriminate)) h2.
  have [l1 w1 _] := hlast a hne ha.
  have hneb : b <> [::] by case: (b) hs => // hs e; apply: hne; apply/nilP; rewrite /nilp hs.
  have [l2 w2 _] := hlast b hneb hb'.
  by rewrite /same_shape /last_loss w1 w2 l1 l2.
have hgd := @grads_dec S a b _ _ s1 s2.
have {hg}hgd : decided (expect_all_close (zip (tot_grad1 st) (tot_grad2 st))) (total_grads_close S a b).
  by apply: hgd => e he; have [-> ->] := hg e he; rewrite !zeros_flat.
apply: (@decided_iff _ ((t_close (last_loss a) (last_loss b) /\ total_grads_close S a b) /\ t_close v1 v2)).
  by split=> [[h1 h2]|[_ [/(_ isT) h1 h2]]] //; split.
have h1 := decided_and (expect_close_dec hl) (fun _ => hgd).
exact: decided_and h1 (fun _ => hp).
Qed.

(* identical, NaN-free passes and probes always pass *)
Definition item_nan_free (has_loss : bool) (it : item F) : Prop :=
  [/\ match it_X it with
      | XTensor t => nan_free t && wf t : Prop
      | XDict d => uniq (map fst d) /\ forall k t, List.In (k, DTensor t) d -> nan_free t && wf t
      end,
      nan_free (it_y it) && wf (it_y it), nan_free (it_pred it) && wf (it_pred it) &
      has_loss -> nan_free (it_loss it) /\ all nan_free (it_grad it)].

Lemma close_refl x : close_to x x.
Proof.
rewrite /close_to subrr normr0 mul1r; apply: addr_ge0; first by rewrite invr_ge0 exprn_ge0 ?ler0n.
by apply: mulr_ge0; rewrite ?normr_ge0 // divr_ge0 ?exprn_ge0 ?ler0n.
Qed.

Lemma t_close_refl t : nan_free t -> t_close t t.
Proof.
by move=> h; split=> // i _; apply: close_refl.
Qed.

Lemma lookup_in (d : seq (nat * dval F)) k v : uniq (map fst d) -> List.In (k, v) d -> lookup k d = Some v.
Proof.
rewrite /lookup; elim: d => // -[k' v'] d IH /= /andP[h1 h2] [[-> ->]|hin]; first by rewrite eqxx.
case: eqP => [e|_] /=; last exact: IH.
move: h1; rewrite e; suff -> : k \in map fst d by [].
elim: d hin {IH h2} => // -[k2 v2] d IH /= [[-> _]|/IH h]; by rewrite inE ?eqxx ?h ?orbT.
Qed.

Lemma all_close2_refl g : all nan_free g -> all_close2 g g.
Proof. by elim: g => //= t g IH /andP[h1 h2]; split; [exact: t_close_refl|exact: IH]. Qed.

Lemma flat_some S g e : shaped S g -> all nan_free g -> (e < total S)%N -> isSome (nth None (flat g) e).
Proof.
elim: S g e => [|s S IH] g e //.
move=> /shaped_cons [t [G' [-> ht wt hG]]] /= /andP[h1 h2].
rewrite /total /= /flat /= nth_cat => he; move/eqP: wt => wt; rewrite wt ht.
case: ltnP => h; last by apply: IH => //; rewrite ltn_subLR.
by move/allP: h1; apply; rewrite mem_nth // wt ht.
Qed.

Theorem C27_deterministic_passes S (has_loss fixed : bool) (a : seq (item F)) (v : tens) :
  (has_loss -> a <> [::]) -> (has_loss -> Forall_items (item_ok S) a) ->
  Forall_items (item_nan_free has_loss) a -> nan_free v && wf v ->
  check_deterministic has_loss fixed S (map Ok a) (map Ok a) (Ok v, Ok v) = Ok tt.
Proof.
move=> hne hok hn /andP[hv wv].
have [|||[]|[_ []]] // := @C27_outcome S has_loss fixed a a v v erefl hne.
- by move=> h; split; apply: hok.
- move=> _; elim: a hn {hne hok} => //= it a IH [[hX /andP[ny wy] /andP[np wp] _] /IH ha]; split=> //.
  split; rewrite /same_shape ?wy ?wp ?eqxx //.
  move: hX; case: (it_X it) => [t /andP[_ wt]|d [hu hd]] /=; first by rewrite /same_shape wt eqxx.
  move=> k v1 hin; rewrite (lookup_in hu hin).
  by case: v1 hin => // t /hd /andP[_ wt]; rewrite /same_shape wt eqxx.
- by rewrite /same_shape wv eqxx.
split; [move=> _|split; last exact: t_close_refl].
  elim: a hn {hne hok} => //= it a IH [[hX /andP[ny wy] /andP[np wp] hl] /IH ha]; split=> //.
  split; try exact: t_close_refl.
    move: hX; case: (it_X it) => [t /andP[nt _]|d [hu hd]] /=; first exact: t_close_refl.
    by move=> k t1 t2 hin; rewrite (lookup_in hu hin) => -[<-]; have /andP[? _] := hd _ _ hin; apply: t_close_refl.
  by move=> /hl [h1 h2]; split; [exact: t_close_refl|exact: all_close2_refl].
move=> hh; have {}hne := hne hh; have {}hok := hok hh; split.
  apply: t_close_refl; rewrite /last_loss.
  elim: a hn hne {hok} => // x a IH [[_ _ _ /(_ hh) [h1 _]] h2] _ /=.
  by case: a IH h2 => // y a IH h2; apply: (IH h2).
have hnf : grads_nan_free S a.
  move=> e he; elim: a hn hok {hne} => // x a IH [[_ _ _ /(_ hh) [_ h1]] h2] [[_ _ hx] ha] /=; split; last exact: IH.
  exact: flat_some hx h1 he.
by split=> // e he; apply: close_refl.
Qed.

(* consequences for a user: what is caught *)
Theorem C27_gradient_difference_caught S (fixed : bool) (a b : seq (item F)) (v1 v2 : tens) e :
  size a = size b -> a <> [::] -> Forall_items (item_ok S) a -> Forall_items (item_ok S) b ->
  (fixed -> Forall2_items batch_same a b) -> same_shape v1 v2 ->
  (e < total S)%N -> ~~ close_to (total_grad a e) (total_grad b e) ->
  check_deterministic true fixed S (map Ok a) (map Ok b) (Ok v1, Ok v2) = Err RuntimeError.
Proof.
move=> h1 h2 h3 h4 h5 h6 he hc.
have [||[_ [_ [/(_ isT) [_ [_ _ h]] _]]]|[]] // := @C27_outcome S true fixed a b v1 v2 h1 _ _ h5 h6.
by move: hc; rewrite h.
Qed.

Theorem C27_probe_difference_caught S (has_loss fixed : bool) (a b : seq (item F)) (v1 v2 : tens) e :
  size a = size b -> (has_loss -> a <> [::]) ->
  (has_loss -> Forall_items (item_ok S) a /\ Forall_items (item_ok S) b) ->
  (fixed -> Forall2_items batch_same a b) -> same_shape v1 v2 ->
  (e < numel (tshape v1))%N -> ~~ close_to (val v1 e) (val v2 e) ->
  check_deterministic has_loss fixed S (map Ok a) (map Ok b) (Ok v1, Ok v2) = Err RuntimeError.
Proof.
move=> h1 h2 h3 h5 h6 he hc.
have [[_ [_ [_ [_ _ _ h]]]]|[]] // := @C27_outcome S has_loss fixed a b v1 v2 h1 h2 h3 h5 h6.
by move: hc; rewrite h.
Qed.

(* any batch in which a compared tensor differs, with a fixed data order *)
Theorem C27_batch_difference_caught S (has_loss : bool) (a b : seq (item F)) (v1 v2 : tens) k :
  size a = size b -> (has_loss -> a <> [::]) ->
  (has_loss -> Forall_items (item_ok S) a /\ Forall_items (item_ok S) b) ->
  Forall2_items batch_same a b -> same_shape v1 v2 ->
  (k < size a)%N -> ~ batch_close has_loss (nth dummy a k) (nth dummy b k) ->
  check_deterministic has_loss true S (map Ok a) (map Ok b) (Ok v1, Ok v2) = Err RuntimeError.
Proof.
move=> h1 h2 h3 h5 h6 he hc.
have [[_ [/(_ isT) h _]]|[]] // := @C27_outcome S has_loss true a b v1 v2 h1 h2 h3 (fun _ => h5) h6.
case: hc; elim: a b k h1 h he {h2 h3 h5} => [|x a IH] [|y b] // [|k] [h1] [hx ha] hk //=.
exact: IH.
Qed.

(* NaN in a gradient entry of either pass *)
Theorem C27_nan_gradient_caught S (fixed : bool) (a b : seq (item F)) (v1 v2 : tens) e k :
  size a = size b -> a <> [::] -> Forall_items (item_ok S) a -> Forall_items (item_ok S) b ->
  (fixed -> Forall2_items batch_same a b) -> same_shape v1 v2 ->
  (e < total S)%N -> (k < size a)%N ->
  nth None (flat (it_grad (nth dummy a k))) e = None \/ nth None (flat (it_grad (nth dummy b k))) e = None ->
  check_deterministic true fixed S (map Ok a) (map Ok b) (Ok v1, Ok v2) = Err RuntimeError.
Proof.
move=> h1 h2 h3 h4 h5 h6 he hk hc.
have [||[_ [_ [/(_ isT) [_ [ha hb _]] _]]]|[]] // := @C27_outcome S true fixed a b v1 v2 h1 _ _ h5 h6.
have hn c : Forall_items (fun it => isSome (nth None (flat (it_grad it)) e)) c -> (k < size c)%N ->
    isSome (nth None (flat (it_grad (nth dummy c k))) e).
  by elim: c (k) => // x c IH [|j] [hx hc'] //; apply: IH.
by case: hc => hc; [have := hn a (ha e he) hk|have := hn b (hb e he)]; rewrite hc // -h1 => /(_ hk).
Qed.

(* C26 in full is false of the code: the comparison after the loop uses the
   losses of the last batch, not the totals. *)
Definition total_loss (a : seq (item F)) : F := \sum_(it <- a) val (it_loss it) 0.

Definition ex_item (l : F) : item F :=
  Item (XTensor (scalar (Some 0))) (scalar (Some 0)) (scalar (Some 0)) (scalar (Some l)) [:: scalar (Some 1)].
Definition ex_S : seq (seq nat) := [:: [::]].

Lemma ex_not_close : close_to (1 + 1) 1 = false.
Proof.
rewrite /close_to addrK normr1 mulr1; apply/negbTE; rewrite -Order.TotalTheory.ltNge.
have h10 : 10%:R != 0 :> F by rewrite pnatr_eq0.
rewrite [X in X < _](_ : _ = 51%:R / 10%:R ^+ 6).
  rewrite ltr_pdivr_mulr ?exprn_gt0 ?ltr0n // mul1r -natrX ltr_nat.
  by apply: (@leq_trans (10 ^ 2)%N) => //; rewrite leq_pexp2l.
rewrite [10%:R ^+ 6]exprSr; set x := 10%:R ^+ 5.
have hx : x != 0 by rewrite expf_neq0.
by rewrite (_ : 51%:R = 1 + 5%:R * 10%:R); [field; rewrite hx|rewrite -natrM -[1]/(1%:R) -natrD].
Qed.

Lemma ex_ok (ls : seq F) : Forall_items (item_ok ex_S) (map ex_item ls).
Proof. by elim: ls => //= l ls IH; split. Qed.

Lemma ex_grads (ls ls' : seq F) : size ls = size ls' ->
  total_grads_close ex_S (map ex_item ls) (map ex_item ls').
Proof.
have hn (c : seq F) : grads_nan_free ex_S (map ex_item c) by case=> // _; elim: c => //= l c IH; split.
move=> h; split=> // -[] // _; rewrite /total_grad !big_map.
suff -> : \sum_(j <- ls) (1 : F) = \sum_(j <- ls') 1 by apply: close_refl.
by rewrite !big_const_seq !count_predT h.
Qed.

Theorem C26_total_loss_refuted :
  exists (S : seq (seq nat)) (a b : seq (item F)) (v : tens),
    [/\ size a = size b, Forall_items (item_ok S) a, Forall_items (item_ok S) b,
        ~~ close_to (total_loss a) (total_loss b) &
        check_deterministic true false S (map Ok a) (map Ok b) (Ok v, Ok v) = Ok tt].
Proof.
exists ex_S, (map ex_item [:: 1 + 1; 0]), (map ex_item [:: 1; 0]), (scalar (Some 0)).
split=> //; try exact: ex_ok.
  by rewrite /total_loss /= !big_cons !big_nil /val /= !addr0 ex_not_close.
have [||||[]|[_ []]] // := @C27_outcome ex_S true false (map ex_item [:: 1 + 1; 0]) (map ex_item [:: 1; 0]) (scalar (Some 0)) (scalar (Some 0)) erefl.
split=> //; split; last exact: t_close_refl.
by move=> _; split; [exact: t_close_refl|exact: ex_grads].
Qed.

Theorem C26_equal_totals_rejected_refuted :
  exists (S : seq (seq nat)) (a b : seq (item F)) (v : tens),
    [/\ size a = size b, total_loss a = total_loss b, total_grads_close S a b, t_close v v &
        check_deterministic true false S (map Ok a) (map Ok b) (Ok v, Ok v) = Err RuntimeError].
Proof.
exists ex_S, (map ex_item [:: 1; 1 + 1]), (map ex_item [:: 1 + 1; 1]), (scalar (Some 0)).
split=> //; try exact: ex_grads; try exact: t_close_refl.
  by rewrite /total_loss /= !big_cons !big_nil /val /= !addr0 addrC.
have [||||[_ [_ [/(_ isT) [[_ _ _ /(_ 0%N isT)]]]]]|[]] // :=
  @C27_outcome ex_S true false (map ex_item [:: 1; 1 + 1]) (map ex_item [:: 1 + 1; 1]) (scalar (Some 0)) (scalar (Some 0)) erefl.
by rewrite /val /= ex_not_close.
Qed.

(* A second pass with additional batches is accepted, whatever they contain: the
   passes are zipped and the longer one is cut off. *)
Lemma check_loop_cut (has_loss fixed : bool) st (a b : seq (item F)) (extra : seq (res (item F))) : (size a <= size b)%N ->
  check_loop has_loss fixed st (map Ok a) (map Ok b ++ extra) = check_loop has_loss fixed st (map Ok a) (map Ok b).
Proof.
elim: a b st => [|x a IH] [|y b] st //= h.
by case: (check_step _ _ _ _ _) => //= st'; apply: IH.
Qed.

Theorem C26_extra_batches_refuted S (has_loss fixed : bool) (a : seq (item F)) (v : tens) (extra : seq (res (item F))) :
  (has_loss -> a <> [::]) -> (has_loss -> Forall_items (item_ok S) a) ->
  Forall_items (item_nan_free has_loss) a -> nan_free v && wf v ->
  check_deterministic has_loss fixed S (map Ok a) (map Ok a ++ extra) (Ok v, Ok v) = Ok tt.
Proof.
move=> h1 h2 h3 h4; rewrite -(C27_deterministic_passes fixed h1 h2 h3 h4) /check_deterministic /check_passes.
by rewrite check_loop_cut.
Qed.

(* Additional batches in the first pass are cut off as well, except that the first of
   them is still computed: if that raises, the check raises. *)
Lemma check_loop_cut_first (has_loss fixed : bool) st (a b : seq (item F)) (r : res (item F)) extra st' : size a = size b ->
  check_loop has_loss fixed st (map Ok a) (map Ok b) = Ok st' ->
  check_loop has_loss fixed st (map Ok a ++ r :: extra) (map Ok b) = (let! _ := r in Ok st').
Proof.
elim: a b st => [|x a IH] [|y b] st //=; first by move=> _ [<-]; case: r.
by move=> [hs]; case: (check_step _ _ _ _ _) => //= s1; apply: IH.
Qed.

Theorem C26_extra_batches_first_refuted S (has_loss fixed : bool) (a : seq (item F)) (v : tens) (r : res (item F)) extra :
  (has_loss -> a <> [::]) -> (has_loss -> Forall_items (item_ok S) a) ->
  Forall_items (item_nan_free has_loss) a -> nan_free v && wf v ->
  check_deterministic has_loss fixed S (map Ok a ++ r :: extra) (map Ok a) (Ok v, Ok v) =
    match r with Ok _ => Ok tt | Err e => Err e end.
Proof.
move=> h1 h2 h3 h4; have := C27_deterministic_passes fixed h1 h2 h3 h4; rewrite /check_deterministic /check_passes.
case e: (check_loop _ _ _ _ _) => [st'|//] /= h.
rewrite (check_loop_cut_first r extra _ e) //.
by case: r.
Qed.

(* With a single batch the compared losses are the totals. *)
Theorem C26_single_batch_partial S (fixed : bool) (a b : seq (item F)) (v1 v2 : tens) :
  size a = 1%N -> size b = 1%N -> Forall_items (item_ok S) a -> Forall_items (item_ok S) b ->
  (fixed -> Forall2_items batch_same a b) -> same_shape v1 v2 ->
  Forall_items (fun it => nan_free (it_loss it)) a -> Forall_items (fun it => nan_free (it_loss it)) b ->
  (~~ close_to (total_loss a) (total_loss b) ->
     check_deterministic true fixed S (map Ok a) (map Ok b) (Ok v1, Ok v2) = Err RuntimeError) /\
  (close_to (total_loss a) (total_loss b) -> ~~ fixed -> total_grads_close S a b -> t_close v1 v2 ->
     check_deterministic true fixed S (map Ok a) (map Ok b) (Ok v1, Ok v2) = Ok tt).
Proof.
case: a => [|x [|? ?]] //; case: b => [|y [|? ?]] // _ _ ha hb hf hv [na _] [nb _].
have hl : t_close (it_loss x) (it_loss y) <-> close_to (total_loss [:: x]) (total_loss [:: y]).
  rewrite /total_loss !big_seq1; case: ha hb => [[lx wx _] _] [[ly wy _] _]; split=> [[_ _ _]|h]; first by apply; rewrite lx.
  by split; rewrite ?lx ?ly // => -[].
have [||[r1 [r2 [r3 r4]]]|[r1 r2]] // := @C27_outcome S true fixed [:: x] [:: y] v1 v2 erefl _ _ hf hv.
  split=> // /negP h; case: h; apply: hl.1; by case: (r3 isT).
split=> // h1 h2 h3 h4; case: r2; split; first by move=> h; rewrite h in h2.
by split=> // _; split=> //; apply: hl.2.
Qed.

(* Examples: the hypotheses of the theorems above are met. *)
Example C27_ex_passes : check_deterministic true true ex_S (map Ok [:: ex_item 1; ex_item 0]) (map Ok [:: ex_item 1; ex_item 0])
    (Ok (scalar (Some 1)), Ok (scalar (Some 1))) = Ok tt.
Proof.
exact: C27_deterministic_passes.
Qed.

(* two passes of a loader that shuffles: same totals, different batches; accepted
   unless the class fixes the data order *)
Definition shuf (l : F) : item F :=
  Item (XTensor (scalar (Some l))) (scalar (Some l)) (scalar (Some l)) (scalar (Some 1)) [:: scalar (Some l)].
Example C27_ex_shuffled :
  check_deterministic true false ex_S (map Ok [:: shuf (1 + 1); shuf 1]) (map Ok [:: shuf 1; shuf (1 + 1)])
    (Ok (scalar (Some 1)), Ok (scalar (Some 1))) = Ok tt /\
  check_deterministic true true ex_S (map Ok [:: shuf (1 + 1); shuf 1]) (map Ok [:: shuf 1; shuf (1 + 1)])
    (Ok (scalar (Some 1)), Ok (scalar (Some 1))) = Err RuntimeError.
Proof.
split.
  have [||||[]|[_ []]] // := @C27_outcome ex_S true false [:: shuf (1 + 1); shuf 1] [:: shuf 1; shuf (1 + 1)] (scalar (Some 1)) (scalar (Some 1)) erefl.
  split=> //; split; last exact: t_close_refl.
  move=> _; split; first exact: t_close_refl.
  split; try by case.
  by case=> // _; rewrite /total_grad !big_cons !big_nil /= addr0 addr0 addrC close_refl.
apply: (@C27_batch_difference_caught _ _ _ _ _ _ 0%N) => //.
by move=> [/= [_ _ _ /(_ 0%N isT)]]; rewrite /val /= ex_not_close.
Qed.

(* The comparison broadcasts: a first pass with a (2,)-shaped prediction and a
   second with a scalar are accepted if the numbers agree; if they do not, the
   report fails with an IndexError instead of the announced RuntimeError. *)
Theorem C27_broadcast_refuted :
  (exists a b : tens, tshape a <> tshape b /\ expect_close a b = Ok tt) /\
  (exists a b : tens, tshape a <> tshape b /\ nan_free a /\ nan_free b /\ expect_close a b = Err IndexError).
Proof.
split.
  exists (Tensor [:: 2%N] [:: Some 1; Some 1]), (scalar (Some 1)); split=> //.
  have h : isclose (Some 1) (Some (1 : F)) by apply: (close_refl 1).
  by move: h; rewrite /expect_close /allclose_report /= => ->.
exists (Tensor [:: 2%N] [:: Some (1 + 1); Some 1]), (scalar (Some 1)); split=> //; split=> //; split=> //.
have h : isclose (Some (1 + 1)) (Some (1 : F)) = false by apply: ex_not_close.
by move: h; rewrite /expect_close /allclose_report /= => ->.
Qed.

(* Values of the second pass under keys the first pass does not have, and values
   that are not tensors, are not compared, even with a fixed data order. *)
Theorem C27_dict_keys_refuted (d d' : seq (nat * dval F)) : uniq (map fst d) ->
  (forall k t, List.In (k, DTensor t) d -> nan_free t && wf t) ->
  check_X (XDict d) (XDict (d ++ d')) = Ok tt /\
  (forall k, check_X (XDict [:: (k, @DOther F)]) (XDict [:: (k, DTensor (scalar (Some 1)))]) = Ok tt).
Proof.
move=> hu hd; split; last by move=> k; rewrite /= /lookup /= eqxx.
have hl k v : List.In (k, v) d -> lookup k (d ++ d') = Some v.
  move=> /(lookup_in hu); rewrite /lookup filter_cat map_cat; by case: [seq _ | _ <- _ & _].
have [|[]|[_ []]] // := @check_X_dec (XDict d) (XDict (d ++ d')).
  move=> k v1 hin; rewrite (hl _ _ hin).
  by case: v1 hin => // t /hd /andP[_ wt]; rewrite /same_shape wt eqxx.
by move=> k a b hin; rewrite (hl _ _ hin) => -[<-]; have /andP[? _] := hd _ _ hin; apply: t_close_refl.
Qed.
End Props.

Section Dev.
Variable dev : eqType.
Variable cpu : dev.

(* Whatever the check does, the operator's device is the one from before and the
   constructor fails exactly as the check does. *)
Theorem C28_device_restored (model : option (seq nat)) (do_check : bool) (check : dev_state dev -> res unit) (s : dev_state dev) :
  d_dev (init_check cpu model do_check check s).2 = d_dev s /\
  (forall e, (forall t, check t = Err e) -> do_check -> (init_check cpu model do_check check s).1 = Err e).
Proof.
rewrite /init_check; case: do_check => //; rewrite /to_device.
case: (tensors_to _ _ _) => ps h /=; case: (tensors_to _ _ _) => ps' h' /=; split=> // e h1 _; exact: h1.
Qed.

(* the operator's view of its parameters: objects and the devices they are on *)
Definition on_device (d : dev) (s : dev_state dev) : Prop :=
  d_dev s = d /\ all (fun p => nth d (d_heap s) p == d) (d_params s).

Lemma tensors_to_id (d : dev) h ps : all (fun p => nth d h p == d) ps -> tensors_to d h ps = (ps, h).
Proof. by elim: ps => //= p ps IH /andP[h1 h2]; rewrite /tensor_to h1 IH. Qed.

Lemma module_to_nth (d : dev) h owned p : p \in owned -> nth d (module_to d h owned) p = d.
Proof.
move=> hp; case: (ltnP p (size h)) => hs; last by rewrite nth_default ?size_mkseq.
by rewrite nth_mkseq // hp.
Qed.

(* to_device(d): afterwards the operator says d and every parameter is on d,
   whatever kind of model it has and wherever the parameters were *)
Lemma tensors_to_on (d : dev) ps h : all (fun p => p < size h)%N ps ->
  let r := tensors_to d h ps in
  [/\ size r.1 = size ps, all (fun p => nth d r.2 p == d) r.1, (size h <= size r.2)%N &
      forall p, (p < size h)%N -> nth d r.2 p = nth d h p].
Proof.
elim: ps h => [|p ps IH] h /=; first by split.
move=> /andP[hp hps]; rewrite /tensor_to; case: eqP => e.
  have := IH h hps; case: (tensors_to _ _ _) => qs h2 /= [h1 h3 h4 h5]; split=> //; first by rewrite h1.
  by rewrite h5 // e eqxx.
have hps' : all (fun p => p < size (rcons h d))%N ps.
  by apply: sub_all hps => q hq; rewrite size_rcons ltnW.
have := IH (rcons h d) hps'; case: (tensors_to _ _ _) => qs h2 /= [h1 h3 h4 h5].
rewrite size_rcons in h4 h5; split; [by rewrite h1| |exact: ltnW|].
  by rewrite h5 // nth_rcons ltnn eqxx eqxx.
by move=> q hq; rewrite h5 ?ltnS 1?ltnW // nth_rcons hq.
Qed.
Theorem C28_to_device_moves (model : option (seq nat)) (d : dev) (s : dev_state dev) :
  all (fun p => p < size (d_heap s))%N (d_params s) ->
  on_device d (to_device model d s) /\ size (d_params (to_device model d s)) = size (d_params s).
Proof.
move=> hp; rewrite /to_device.
set h := if model is Some owned then _ else _.
have hs : all (fun p => p < size h)%N (d_params s).
  by apply: sub_all hp => q; rewrite /h; case: model {h} => // o; rewrite size_mkseq.
have := tensors_to_on d hs; case: (tensors_to _ _ _) => ps h' /= [h1 h2 _ _].
by split.
Qed.
Example C28_to_device_ex (gpu : dev) : on_device cpu (to_device None cpu (DevState gpu [:: 1%N; 0%N] [:: gpu; gpu])).
Proof. by have [] := @C28_to_device_moves None cpu (DevState gpu [:: 1%N; 0%N] [:: gpu; gpu]). Qed.

(* If the model is a Module that owns all parameters, the check runs on the same
   parameter objects, all of them on the CPU, and afterwards every object is back
   where it was. *)
Theorem C28_state_restored (owned : seq nat) (check : dev_state dev -> res unit) (s : dev_state dev) :
  all (fun p => p \in owned) (d_params s) ->
  all (fun p => nth (d_dev s) (d_heap s) p == d_dev s) owned ->
  exists s1, [/\ init_check cpu (Some owned) true check s = (check s1, s), d_params s1 = d_params s & on_device cpu s1].
Proof.
move=> hin hon; rewrite /init_check.
have h1 (d : dev) h : all (fun p => nth d (module_to d h owned) p == d) (d_params s).
  by apply/allP => p /(allP hin) hp; apply/eqP; exact: module_to_nth.
rewrite /to_device tensors_to_id //=.
rewrite tensors_to_id //=; exists (DevState cpu (d_params s) (module_to cpu (d_heap s) owned)).
split=> //; last by split=> //=; apply: h1.
congr (_, _); case: s hin hon h1 => d ps h /= hin hon h1; congr DevState.
apply: (@eq_from_nth _ d); rewrite ?size_mkseq // => i hi.
rewrite nth_mkseq ?size_mkseq //; case: ifP => ho.
  by rewrite (eqP (allP hon _ ho)).
by rewrite nth_mkseq // ho; apply: set_nth_default.
Qed.

(* With a model that is not a Module (a plain function) and parameters that are
   not on the CPU, moving there and back leaves the operator with other parameter
   objects than the ones the user passed (and the model uses). *)
Theorem C28_function_params_refuted (gpu : dev) (check : dev_state dev -> res unit) : gpu != cpu ->
  exists s : dev_state dev, on_device gpu s /\
    d_params (init_check cpu None true check s).2 <> d_params s.
Proof.
move=> h; exists (DevState gpu [:: 0%N] [:: gpu]); split; first by split; rewrite //= eqxx.
by rewrite /init_check /to_device /= /tensor_to /= (negbTE h) /= /tensor_to /= eq_sym (negbTE h).
Qed.

Example C28_ex (gpu : dev) (check : dev_state dev -> res unit) :
  exists s1, [/\ init_check cpu (Some [:: 0; 1]%N) true check (DevState gpu [:: 1%N] [:: gpu; gpu]) =
                 (check s1, DevState gpu [:: 1%N] [:: gpu; gpu]), d_params s1 = [:: 1%N] & on_device cpu s1].
Proof. by apply: (@C28_state_restored [:: 0; 1]%N check (DevState gpu [:: 1%N] [:: gpu; gpu])) => //=; rewrite eqxx. Qed.
End Dev.

Print Assumptions C26_total_loss_refuted.
Print Assumptions C26_equal_totals_rejected_refuted.
Print Assumptions C26_extra_batches_refuted.
Print Assumptions C26_extra_batches_first_refuted.
Print Assumptions C26_single_batch_partial.
Print Assumptions C27_outcome.
Print Assumptions C27_deterministic_passes.
Print Assumptions C27_gradient_difference_caught.
Print Assumptions C27_probe_difference_caught.
Print Assumptions C27_batch_difference_caught.
Print Assumptions C27_nan_gradient_caught.
Print Assumptions C27_broadcast_refuted.
Print Assumptions C27_dict_keys_refuted.
Print Assumptions C28_device_restored.
Print Assumptions C28_to_device_moves.
Print Assumptions C28_state_restored.
Print Assumptions C28_function_params_refuted.
