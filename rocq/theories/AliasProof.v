(* Facts about the memory of Alias.v: programs that write only to memory they have
   allocated themselves. *)
From Coq Require Import Reals.
From Coquelicot Require Import Coquelicot.
From mathcomp Require Import all_ssreflect all_algebra.
From Verif Require Import PyPrelude Tensor Spec TorchBase RInst ROrd Calculus Curvature HessGGN Jacobian Submatrix Kfac KfacInverse Alias.
Set Implicit Arguments.
Unset Strict Implicit.
Unset Printing Implicit Defensive.
Local Notation tens := (tensor R).
Local Open Scope nat_scope.

(* ---- all the memory of h0 is as in h0 ---- *)
Definition ext (h0 h : heap) : Prop :=
  exists bs ls, hbufs h = hbufs h0 ++ bs /\ hlists h = hlists h0 ++ ls.

Lemma ext_refl h : ext h h. Proof. by exists [::], [::]; rewrite !cats0. Qed.
Lemma ext_buf h0 h b : ext h0 h -> b < size (hbufs h0) -> buf h b = buf h0 b.
Proof. by case=> bs [ls [e _]] hb; rewrite /buf e nth_cat hb. Qed.
Lemma ext_list h0 h l : ext h0 h -> l < size (hlists h0) -> nth [::] (hlists h) l = nth [::] (hlists h0) l.
Proof. by case=> bs [ls [_ e]] hl; rewrite e nth_cat hl. Qed.
Lemma ext_szb h0 h : ext h0 h -> size (hbufs h0) <= size (hbufs h).
Proof. by case=> bs [ls [-> _]]; rewrite size_cat leq_addr. Qed.
Lemma ext_szl h0 h : ext h0 h -> size (hlists h0) <= size (hlists h).
Proof. by case=> bs [ls [_ ->]]; rewrite size_cat leq_addr. Qed.
Lemma set_nth_cat T (x0 : T) (a b : seq T) i y : size a <= i ->
  set_nth x0 (a ++ b) i y = a ++ set_nth x0 b (i - size a) y.
Proof.
elim: a i => [|x a IH] i /= h; first by rewrite subn0.
by case: i h => // i h; rewrite /= IH ?subSS.
Qed.

Definition fresh (h0 : heap) (v : view) : bool := size (hbufs h0) <= vb v.
(* a list object made after h0 that holds only tensors made after h0 *)
Definition flist (h0 : heap) (l : nat) (h : heap) : Prop :=
  size (hlists h0) <= l /\ all (fresh h0) (nth [::] (hlists h) l).

Section Triples.
Variable h0 : heap.
Implicit Types (P : heap -> Prop).
(* from a memory with h0's part intact and P to one with h0's part intact and, when
   the program returns, Q *)
Definition tr A (P : heap -> Prop) (m : hm A) (Q : A -> heap -> Prop) : Prop :=
  forall h, ext h0 h -> P h -> ext h0 (m h).1 /\ (forall a, (m h).2 = Ok a -> Q a (m h).1).
Definition any (h : heap) : Prop := True.
Definition ok A (a : A) (h : heap) : Prop := True.
Definition pure A (p : A -> Prop) (a : A) (h : heap) : Prop := p a.

Lemma tr_bind A B P (m : hm A) (k : A -> hm B) Q Q' :
  tr P m Q -> (forall a, tr (Q a) (k a) Q') -> tr P (hbind m k) Q'.
Proof.
move=> hm hk h he hP; rewrite /hbind; have := hm h he hP.
case: (m h) => h' [a|e] /= [e1 e2]; last by split.
exact: hk e1 (e2 _ erefl).
Qed.
(* the intermediate result does not matter *)
Lemma tr_bindA A B P (m : hm A) (k : A -> hm B) Q :
  tr P m (@ok A) -> (forall a, tr any (k a) Q) -> tr P (hbind m k) Q.
Proof. by move=> h1 h2; apply: tr_bind h1 _ => a h he _; exact: h2. Qed.
Lemma tr_bindP A B P (p : A -> Prop) (m : hm A) (k : A -> hm B) Q :
  tr P m (pure p) -> (forall a, p a -> tr any (k a) Q) -> tr P (hbind m k) Q.
Proof. by move=> h1 h2; apply: tr_bind h1 _ => a h he hp; exact: h2. Qed.
Lemma tr_weak A (P P' : heap -> Prop) (m : hm A) (Q Q' : A -> heap -> Prop) : (forall h, P' h -> P h) -> (forall a h, Q a h -> Q' a h) -> tr P m Q -> tr P' m Q'.
Proof. by move=> hP hQ hm h he /hP hp; have [e1 e2] := hm h he hp; split=> // a /e2 /hQ. Qed.
Lemma tr_any A P (m : hm A) Q : tr any m Q -> tr P m Q.
Proof. exact: tr_weak. Qed.
Lemma tr_ok A P (m : hm A) Q : tr P m Q -> tr P m (@ok A).
Proof. by apply: tr_weak. Qed.
Lemma tr_ret A P (a : A) (Q : A -> heap -> Prop) : (forall h, P h -> Q a h) -> tr P (hret a) Q.
Proof. by move=> hQ h he hP; split=> //= b [<-]; exact: hQ. Qed.
Lemma tr_lift A P (r : res A) (Q : A -> heap -> Prop) : (forall a h, r = Ok a -> P h -> Q a h) -> tr P (hlift r) Q.
Proof. by move=> hQ h he hP; split=> //= b e; exact: hQ e hP. Qed.
Lemma tr_liftA A P (r : res A) : tr P (hlift r) (@ok A).
Proof. by apply: tr_lift. Qed.
Lemma tr_readA P v : tr P (hread v) (@ok tens).
Proof. by []. Qed.
Lemma tr_getA P l : tr P (hgetlist l) (@ok (seq view)).
Proof. by []. Qed.
Lemma tr_mapA A B P (f : A -> hm B) xs : (forall x, tr any (f x) (@ok B)) -> tr P (hmap f xs) (@ok (seq B)).
Proof.
move=> hf; apply: tr_any; elim: xs => [|x xs IH] /=; first exact: tr_ret.
by apply: tr_bindA => // y; apply: tr_bindA => // ys; exact: tr_ret.
Qed.
Lemma tr_mapP A (B : Type) P (p : pred B) (f : A -> hm B) xs : (forall x, tr any (f x) (pure p)) ->
  tr P (hmap f xs) (pure (fun ys => all p ys)).
Proof.
move=> hf; apply: tr_any; elim: xs => [|x xs IH] /=; first exact: tr_ret.
apply: tr_bindP (hf x) _ => y hy; apply: tr_bindP IH _ => ys hys; apply: tr_ret => h _.
by rewrite /pure /= hy hys.
Qed.
Lemma tr_for A P (f : A -> hm unit) xs : (forall x, tr any (f x) (@ok unit)) -> tr P (hfor f xs) (@ok unit).
Proof.
move=> hf; apply: tr_any; elim: xs => [|x xs IH] /=; first exact: tr_ret.
by apply: tr_bindA.
Qed.
Lemma tr_alloc P t : tr P (halloc t) (pure (fresh h0)).
Proof.
move=> h he _ /=; split; last by move=> v [<-]; exact: (ext_szb he).
case: he => bs [ls [e1 e2]]; exists (rcons bs (tdata t)), ls; split=> //=.
by rewrite e1 rcons_cat.
Qed.
Lemma tr_newlist P vs : tr P (hnewlist vs) (fun l h => size (hlists h0) <= l /\ nth [::] (hlists h) l = vs).
Proof.
move=> h he _ /=; split; last first.
  by move=> l [<-] /=; split; [exact: ext_szl | rewrite nth_rcons ltnn eqxx].
case: he => bs [ls [e1 e2]]; exists bs, (rcons ls vs); split=> //=.
by rewrite e2 rcons_cat.
Qed.
Lemma tr_newflist P vs : all (fresh h0) vs -> tr P (hnewlist vs) (flist h0).
Proof. by move=> hv; apply: tr_weak (@tr_newlist P vs) => // l h [h1 h2]; split=> //; rewrite h2. Qed.
Lemma tr_inplace P v f : fresh h0 v -> tr P (hinplace v f) (@ok unit).
Proof.
move=> hv h he _; rewrite /hinplace; case: (f _) => [t|e] /=; split=> //.
case: he => bs [ls [e1 e2]]; eexists; exists ls; split=> //=; rewrite e1 set_nth_cat //.
Qed.
Lemma tr_setlist P l vs : size (hlists h0) <= l -> tr P (hsetlist l vs) (@ok unit).
Proof.
move=> hv h he _ /=; split=> //; case: he => bs [ls [e1 e2]]; exists bs; eexists; split=> //=.
by rewrite e2 set_nth_cat.
Qed.
Lemma tr_zip P f vs cs : all (fresh h0) vs -> tr P (hzip f vs cs) (@ok unit).
Proof.
move=> hv; apply: tr_any; elim: vs cs hv => [|v vs IH] [|c cs] //=; try by move=> _; exact: tr_ret.
by move=> /andP[hv hvs]; apply: tr_bindA => [|_]; [exact: tr_inplace | exact: IH].
Qed.
Lemma tr_zeros P vs : tr P (hzeros vs) (pure (all (fresh h0))).
Proof. by apply: tr_mapP => v; apply: tr_bindA => // t; exact: tr_alloc. Qed.
End Triples.

(* ---- the operators ---- *)
Section Programs.
Variable h0 : heap.
Implicit Types (P : heap -> Prop).
Local Notation tr := (tr h0).
Local Notation pf := (pure (fun vs => is_true (all (fresh h0) vs))).

Lemma tr_forP A (p : pred A) P (f : A -> hm unit) xs : (forall x, p x -> tr any (f x) (@ok unit)) -> all p xs ->
  tr P (hfor f xs) (@ok unit).
Proof.
move=> hf; elim: xs P => [|x xs IH] P /=; first by move=> _; exact: tr_ret.
by move=> /andP[hx hxs]; apply: tr_bindA => [|_]; [apply: tr_any; exact: hf | exact: IH].
Qed.
Lemma tr_reads P vs : tr P (hmap hread vs) (@ok (seq tens)).
Proof. by apply: tr_mapA => v; exact: tr_readA. Qed.

Lemma columns_fresh P f M : tr P (hcolumns f M) pf.
Proof.
apply: tr_bindA; first exact: tr_reads; move=> ts.
apply: tr_bindA; first exact: tr_liftA; move=> K.
apply: tr_bindP (@tr_zeros h0 any M) _ => G hG.
apply: (@tr_bindA _ _ _ _ _ _ pf); last by move=> _; apply: tr_ret.
apply: tr_for => n; apply: tr_bindA; first exact: tr_reads; move=> ts'.
by apply: tr_bindA => [|c]; [exact: tr_liftA | exact: tr_zip].
Qed.

Lemma all_drop T (p : pred T) n (x : seq T) : all p x -> all p (drop n x).
Proof. by rewrite -{1}(cat_take_drop n x) all_cat => /andP[]. Qed.
Lemma all_take T (p : pred T) n (x : seq T) : all p x -> all p (take n x).
Proof. by rewrite -{1}(cat_take_drop n x) all_cat => /andP[]. Qed.
Lemma split_list_all T (p : pred T) x sizes xs : split_list x sizes = Ok xs -> all p x -> all (all p) xs.
Proof.
rewrite /split_list; case: ifP => // _ [<-] hx; rewrite /mkseq all_map; apply/allP => i _ /=.
by rewrite /py_slice; apply: all_drop; exact: all_take.
Qed.
Lemma all_zip1 T U (p : pred T) (xs : seq T) (ys : seq U) : all p xs -> all (fun q => p q.1) (zip xs ys).
Proof. by elim: xs ys => [|x xs IH] [|y ys] //= /andP[-> /IH ->]. Qed.
Lemma all_zip2 T U (p : pred U) (xs : seq T) (ys : seq U) : all p ys -> all (fun q => p q.2) (zip xs ys).
Proof. by elim: xs ys => [|x xs IH] [|y ys] //= /andP[-> /IH ->]. Qed.

Lemma blocks_fresh P bs fs M : tr P (hblocks bs fs M) pf.
Proof.
apply: tr_bindA; first exact: tr_reads; move=> ts.
apply: tr_bindA; first exact: tr_liftA; move=> K.
apply: tr_bindP (@tr_zeros h0 any M) _ => HM hHM.
apply: tr_bindA; first exact: tr_liftA; move=> M_b.
apply: (@tr_bindP h0 _ _ _ (all (all (fresh h0)))).
  by apply: tr_lift => Hb h e _; exact: split_list_all e hHM.
move=> HM_b hb; apply: (@tr_bindA _ _ _ _ _ _ pf); last by move=> _; apply: tr_ret.
apply: (@tr_forP _ (fun q => all (fresh h0) q.1.2)); last first.
  by apply: (all_zip1 (p := fun q => all (fresh h0) q.2)); exact: all_zip2.
move=> q hq; apply: tr_for => n; apply: tr_bindA; first exact: tr_reads; move=> ts'.
by apply: tr_bindA => [|c]; [exact: tr_liftA | exact: tr_zip].
Qed.

Lemma curvature_fresh P batch bsz red N (data : seq batch) mb l :
  (forall b M, tr any (mb b M) (@ok (seq view))) -> tr P (hcurvature bsz red N data mb l) (flist h0).
Proof.
move=> hmb; apply: tr_bindA; first exact: tr_getA; move=> M.
apply: tr_bindP (@tr_zeros h0 any M) _ => AM hAM.
apply: (@tr_bindA h0 _ _ _ _ _ (flist h0)); last by move=> _; exact: tr_newflist.
apply: tr_for => b; apply: tr_bindA; first exact: tr_liftA; move=> nf.
apply: tr_bindA => [|BM]; first exact: hmb.
by apply: tr_bindA => [|ts]; [exact: tr_reads | exact: tr_zip].
Qed.

Lemma jac_fresh P X Y so net S th (loader : seq (seq (X * Y))) l : tr P (hjac so net S th loader l) (flist h0).
Proof.
apply: tr_bindA; first exact: tr_getA; move=> M.
apply: tr_bindA; first exact: tr_reads; move=> ts.
apply: tr_bindA; first exact: tr_liftA; move=> K.
apply: tr_bindA => [|JM].
  apply: tr_mapA => b; apply: tr_bindA; first exact: tr_reads; move=> ts'.
  by apply: tr_bindA => [|t]; [exact: tr_liftA | apply: tr_ok; exact: tr_alloc].
apply: tr_bindA; first exact: tr_reads; move=> ts'.
apply: tr_bindA; first exact: tr_liftA; move=> c.
by apply: tr_bindP (@tr_alloc h0 any c) _ => v hv; apply: tr_newflist; rewrite /= hv.
Qed.

Lemma jacT_fresh P X Y so net S th (loader : seq (seq (X * Y))) l : tr P (hjacT so net S th loader l) (flist h0).
Proof.
apply: tr_bindA; first exact: tr_getA; move=> M.
apply: tr_bindA; first exact: tr_reads; move=> ts.
apply: tr_bindA; first exact: tr_liftA; move=> K.
apply: (@tr_bindP h0 _ _ _ (all (fresh h0))).
  by apply: tr_mapP => s; exact: tr_alloc.
move=> JTM hJ; apply: (@tr_bindA h0 _ _ _ _ _ (flist h0)); last by move=> _; exact: tr_newflist.
apply: tr_for => q; apply: tr_for => n.
apply: tr_bindA; first exact: tr_reads; move=> ts'.
by apply: tr_bindA => [|c]; [exact: tr_liftA | exact: tr_zip].
Qed.

(* KFAC: every entry of the result list that is set is a new tensor *)
Definition kfresh (KM : seq (option view)) : bool := all (fun o => if o is Some v then fresh h0 v else true) KM.
Local Notation pk := (pure (fun KM => is_true (kfresh KM))).
Lemma kset_fresh KM i v KM' : kfresh KM -> fresh h0 v -> hkset KM i v = Ok KM' -> kfresh KM'.
Proof.
rewrite /hkset /kfresh; case: ltnP => // hi hK hv [<-].
elim: KM i hi hK => [|o KM IH] [|i] //= hi /andP[ho hK]; first by rewrite hv.
by rewrite ho IH.
Qed.
Lemma single_fresh P inC grC M name KM p : kfresh KM -> tr P (hkfac_single inC grC M name KM p) pk.
Proof.
move=> hK; apply: tr_bindA; first exact: tr_liftA; move=> m.
apply: (@tr_bindP h0 _ _ _ (fun KM1 => forall v KM2, fresh h0 v -> hkset KM1 p.2 v = Ok KM2 -> kfresh KM2)).
  case: ifP => _.
    apply: tr_bindA; first exact: tr_readA; move=> t.
    apply: tr_bindA; first exact: tr_liftA; move=> y.
    apply: tr_bindP (@tr_alloc h0 any y) _ => v hv; apply: tr_lift => KM1 h e _ w KM2 hw.
    by apply: kset_fresh hw; exact: kset_fresh e.
  apply: tr_lift => KM1 h e _ w KM2 hw; move: e; rewrite /hkset; case: ltnP => // hi [<-]; case: ifP => // _ [<-].
  rewrite set_set_nth eqxx; move: hK; rewrite /kfresh.
  elim: (KM) (p.2) hi => [|o KM0 IH] [|i] //= hi /andP[ho hK]; first by rewrite hw.
  by rewrite ho IH.
move=> KM1 hK1; apply: tr_bindA; first exact: tr_liftA; move=> x.
apply: tr_bindA; first exact: tr_readA; move=> t.
apply: tr_bindA; first exact: tr_liftA; move=> y.
by apply: tr_bindP (@tr_alloc h0 any y) _ => v hv; apply: tr_lift => KM2 h e _; exact: hK1 e.
Qed.
Lemma joint_fresh P inC grC M name KM w b : kfresh KM -> tr P (hkfac_joint inC grC M name KM w b) pk.
Proof.
move=> hK; apply: tr_bindA; first exact: tr_liftA; move=> vw.
apply: tr_bindA; first exact: tr_readA; move=> mw0.
apply: tr_bindA; first exact: tr_liftA; move=> mw.
apply: tr_bindA; first exact: tr_liftA; move=> vb.
apply: tr_bindA; first exact: tr_readA; move=> mb0.
apply: tr_bindA; first exact: tr_liftA; move=> y.
apply: tr_bindP (@tr_alloc h0 any y.1) _ => yw hw; apply: tr_bindP (@tr_alloc h0 any y.2) _ => yb hb.
apply: (@tr_bindP h0 _ _ _ (fun KM => kfresh KM)).
  by apply: tr_lift => KM1 h e _; exact: kset_fresh e.
by move=> KM1 hK1; apply: tr_lift => KM2 h e _; exact: kset_fresh e.
Qed.
Lemma tr_fold A P (f : seq (option view) -> A -> hm (seq (option view))) KM xs :
  (forall KM x, kfresh KM -> tr any (f KM x) pk) -> kfresh KM -> tr P (hfold f KM xs) pk.
Proof.
move=> hf; elim: xs KM P => [|x xs IH] KM P hK /=; first exact: tr_ret.
apply: (@tr_bindP h0 _ _ _ (fun KM => kfresh KM)); first by apply: tr_any; exact: hf.
by move=> KM1 hK1; exact: IH.
Qed.
Lemma layer_fresh P sep inC grC M KM e : kfresh KM -> tr P (hkfac_layer sep inC grC M KM e) pk.
Proof.
move=> hK; apply: tr_bindA; first exact: tr_liftA; move=> ws.
apply: (@tr_bindP h0 _ _ _ (fun KM => kfresh KM)).
  have hs : tr any (hfold (hkfac_single inC grC M e.1) KM e.2) pk.
    by apply: tr_fold => // KM1 p hK1; exact: single_fresh.
  by case: (sep); case: (dget Weight e.2) => [w|]; case: (dget Bias e.2) => [b|] //=; exact: joint_fresh.
move=> KM1 hK1; case: ws => [[w s]|]; last exact: tr_ret.
apply: (@tr_bindP h0 _ _ _ (fun v => fresh h0 v)).
  apply: tr_lift => v h + _; rewrite /hkget /lget; case E: (ohead _) => [[u|]|] //= [<-].
  have : all (fun o => if o is Some v then fresh h0 v else true) (drop w KM1) by exact: all_drop.
  by case: (drop w KM1) E => //= a s' [->] /andP[].
move=> kw hkw; apply: tr_bindA; first exact: tr_readA; move=> t.
apply: tr_bindA; first exact: tr_liftA; move=> t'.
by apply: tr_lift => KM2 h e2 _; exact: kset_fresh e2.
Qed.
Lemma kfac_fresh P sep inC grC mp l : tr P (hkfac sep inC grC mp l) (flist h0).
Proof.
apply: tr_bindA; first exact: tr_getA; move=> M.
apply: (@tr_bindP h0 _ _ _ (fun KM => kfresh KM)).
  apply: tr_fold => [KM x hK|]; first exact: layer_fresh.
  by rewrite /kfresh all_nseq orbT.
move=> KM hK; apply: (@tr_bindP h0 _ _ _ (all (fresh h0))); last by move=> vs; exact: tr_newflist.
apply: tr_lift => vs h + _; elim: KM vs hK => [|o KM IH] vs /=; first by move=> _ [<-].
case/andP; case: o => // v hv hK; case E: (mapM _ _) => [xs|] //= [<-] /=.
by apply/andP; split; [exact: hv | exact: IH hK E].
Qed.

(* the inverse KFAC operator writes to the list that it is given *)
Lemma inverse_tr g l : size (hlists h0) <= l -> tr any (hinverse g l) (flist h0).
Proof.
move=> hl; apply: tr_bindA; first exact: tr_getA; move=> vs.
apply: tr_bindA; first exact: tr_reads; move=> ts.
apply: (@tr_bindP h0 _ _ _ (all (fresh h0))) => [|vs' hv].
  by apply: tr_mapP => t; exact: tr_alloc.
apply: (@tr_bind h0 _ _ _ _ _ (fun _ => flist h0 l)).
  move=> h he _; have [e1 _] := @tr_setlist h0 any l vs' hl h he I; split=> //= _ _; split=> //=.
  by rewrite nth_set_nth /= eqxx.
move=> _; apply: (@tr_bind h0 _ _ _ _ _ (fun _ => flist h0 l)) => [|_]; first exact: tr_lift.
by apply: tr_ret.
Qed.

(* ---- __matmul__ ---- *)
Lemma pre_new A P X : tr P (hpreprocess A X) (@ok _).
Proof.
case: X => [v|l|] /=; last exact: tr_liftA.
  apply: tr_bindA; first exact: tr_readA; move=> t.
  apply: tr_bindA; first exact: tr_liftA; move=> r.
  by apply: tr_bindA => [|l]; [apply: tr_ok; exact: tr_newlist | exact: tr_ret].
apply: tr_bindA; first exact: tr_getA; move=> vs.
apply: tr_bindA; first exact: tr_reads; move=> ts.
apply: tr_bindA; first exact: tr_liftA; move=> r; case: ifP => _; last exact: tr_ret.
by apply: tr_bindA => [|l']; [apply: tr_ok; exact: tr_newlist | exact: tr_ret].
Qed.

(* a result that shares nothing with h0 *)
Definition fresh_result (Y : harg) (h : heap) : Prop :=
  match Y with HTensor v => fresh h0 v | HList l => flist h0 l h | HOther => False end.

Lemma post_fresh A l lf v n : tr (flist h0 l) (hpostprocess A l lf v n) fresh_result.
Proof.
apply: (@tr_bind h0 _ _ _ _ _ (fun vs h => all (fresh h0) vs /\ flist h0 l h)).
  by move=> h he hl; split=> //= vs [<-]; split=> //; case: hl.
move=> vs; apply: (@tr_bind h0 _ _ _ _ _ (fun _ h => all (fresh h0) vs /\ flist h0 l h)).
  move=> h he hP; have hr : forall us h', (hmap hread us h').1 = h'.
    by elim=> //= u us IH h'; rewrite /hbind /=; have := IH h'; case: (hmap _ _ _) => h'' [] //= _ ->.
  by rewrite hr.
move=> ts; apply: (@tr_bind h0 _ _ _ _ _ (fun _ h => all (fresh h0) vs /\ flist h0 l h)).
  by apply: tr_lift.
move=> Y; have hl : tr (fun h => all (fresh h0) vs /\ flist h0 l h)
    (if v then do! l' := hnewlist (map squeeze_view vs) in hret (HList l') else hret (HList l)) fresh_result.
  move=> h he [hv hl]; case: v; last by split=> //= a [<-].
  apply: (@tr_bind h0 _ _ any _ _ (flist h0)) => //.
    by apply: tr_newflist; rewrite all_map; apply: sub_all hv.
  by move=> l'; apply: tr_ret.
case: Y => [t|ts'| |] //.
move=> h he _; apply: (@tr_bind h0 _ _ any _ _ (pure (fresh h0))) => //; first exact: tr_alloc.
by move=> w; apply: tr_ret.
Qed.

Lemma matmul_fresh A mat X : (forall l, tr any (mat l) (flist h0)) -> tr any (hmatmul A mat X) fresh_result.
Proof.
move=> hm; apply: tr_bindA; first exact: pre_new; move=> p.
by apply: (@tr_bind h0 _ _ _ _ _ (flist h0)) => // l; exact: post_fresh.
Qed.
End Programs.
