(* The memory-level programs of Alias.v compute the values of the value-level model
   (TorchBase.v, Curvature.v, HessGGN.v, Jacobian.v, Kfac.v, KfacInverse.v). *)
From Coq Require Import Reals.
From Coquelicot Require Import Coquelicot.
From mathcomp Require Import all_ssreflect all_algebra.
From Verif Require Import PyPrelude Tensor Spec TorchBase RInst ROrd Calculus Curvature HessGGN Jacobian Submatrix Kfac KfacStateProof KfacInverse Alias AliasProof.
Set Implicit Arguments.
Unset Strict Implicit.
Unset Printing Implicit Defensive.
Local Notation tens := (tensor R).
Local Open Scope nat_scope.

(* ---- memory ---- *)
(* a view of existing memory *)
Definition inb (h : heap) (v : view) : bool :=
  (vb v < size (hbufs h)) && (voff v + numel (vsh v) <= size (buf h (vb v))).

Lemma vread_wf h v : inb h v -> wf (vread h v).
Proof. by case/andP=> _ hv; rewrite /wf /= size_takel // size_drop leq_subRL // (leq_trans _ hv) // leq_addr. Qed.
Lemma ext_inb h0 h v : ext h0 h -> inb h0 v -> inb h v.
Proof. by move=> he /andP[h1 h2]; rewrite /inb (ext_buf he) // h2 (leq_trans h1) ?(ext_szb he). Qed.
Lemma ext_read h0 h v : ext h0 h -> vb v < size (hbufs h0) -> vread h v = vread h0 v.
Proof. by move=> he hv; rewrite /vread (ext_buf he hv). Qed.
Lemma ext_reads h0 h vs : ext h0 h -> all (inb h0) vs -> map (vread h) vs = map (vread h0) vs.
Proof.
move=> he; elim: vs => //= v vs IH /andP[hv hvs]; rewrite (ext_read he) ?IH //.
by case/andP: hv.
Qed.
Lemma ext_trans h0 h1 h2 : ext h0 h1 -> ext h1 h2 -> ext h0 h2.
Proof.
move=> [b1 [l1 [e1 e2]]] [b2 [l2 [e3 e4]]]; exists (b1 ++ b2), (l1 ++ l2).
by rewrite e3 e4 e1 e2 !catA.
Qed.

Lemma splice_size d off (b : seq R) : off + size d <= size b -> size (splice d off b) = size b.
Proof.
move=> h; have h1 : off <= size b by rewrite (leq_trans _ h) // leq_addr.
by rewrite /splice !size_cat size_takel // size_drop addnA subnKC.
Qed.
Lemma splice_read d off (b : seq R) : off + size d <= size b -> take (size d) (drop off (splice d off b)) = d.
Proof.
move=> h; have h1 : off <= size b by rewrite (leq_trans _ h) // leq_addr.
by rewrite /splice drop_size_cat ?size_takel // take_size_cat.
Qed.

(* ---- programs against values ---- *)
Section Rel.
Variable h0 : heap.
(* the program returns (raises) when the value-level computation does *)
Definition rf A B (P : heap -> Prop) (m : hm A) (r : res B) (Q : A -> B -> heap -> Prop) : Prop :=
  forall h, ext h0 h -> P h -> ext h0 (m h).1 /\
    match (m h).2, r with Ok a, Ok b => Q a b (m h).1 | Err e, Err e' => e = e' | _, _ => False end.

Lemma rf_bind A B A' B' P (m : hm A) (r : res B) (k : A -> hm A') (k' : B -> res B') Q Q' :
  rf P m r Q -> (forall a b, rf (Q a b) (k a) (k' b) Q') -> rf P (hbind m k) (bind r k') Q'.
Proof.
move=> hm hk h he hP; have := hm h he hP; rewrite /hbind.
case: (m h) => h' [a|e] /=; case: r {hm} => [b|e'] //= [e1 e2] //; exact: (hk a b).
Qed.
Lemma rf_weak A B (P P' : heap -> Prop) (m : hm A) (r : res B) (Q Q' : A -> B -> heap -> Prop) :
  (forall h, P' h -> P h) -> (forall a b h, Q a b h -> Q' a b h) -> rf P m r Q -> rf P' m r Q'.
Proof.
move=> hP hQ hm h he /hP hp; have := hm h he hp; case: (m h) => h' [a|e] /=; case: (r) => // b [? ?].
by split=> //; exact: hQ.
Qed.
(* P holds on the way in; what is known of it may depend on the memory *)
Lemma rf_pre A B (P : heap -> Prop) (m : hm A) (r : res B) Q :
  (forall h, ext h0 h -> P h -> rf (fun h' => h' = h) m r Q) -> rf P m r Q.
Proof. by move=> hm h he hP; exact: (hm h he hP h he erefl). Qed.
Lemma rf_pure A B (p : Prop) (P : heap -> Prop) (m : hm A) (r : res B) Q :
  (p -> rf P m r Q) -> rf (fun h => p /\ P h) m r Q.
Proof. by move=> hm h he [hp hP]; exact: hm. Qed.
Lemma rf_lift A (P : heap -> Prop) (r : res A) : rf P (hlift r) r (fun a b h => a = b /\ P h).
Proof. by move=> h he hP; split=> //=; case: r. Qed.
Lemma rf_ret A B (P : heap -> Prop) (a : A) (b : B) (Q : A -> B -> heap -> Prop) : (forall h, ext h0 h -> P h -> Q a b h) -> rf P (hret a) (Ok b) Q.
Proof. by move=> hQ h he hP; split=> //=; exact: hQ. Qed.
(* a step without counterpart *)
Lemma rf_step A B A' B' (P : heap -> Prop) (m : hm A) (b : B) (k : A -> hm A') (r : res B') (Q : A -> B -> heap -> Prop) Q' :
  rf P m (Ok b) Q -> (forall a, rf (Q a b) (k a) r Q') -> rf P (hbind m k) r Q'.
Proof. by move=> h1 h2; apply: (@rf_bind _ unit _ _ _ _ (Ok tt) _ (fun=> r) (fun a _ => Q a b)); [move=> h he hP; have := h1 h he hP; case: (m h).2 | move=> a _; exact: h2]. Qed.
Lemma rf_post A B B' (P : heap -> Prop) (m : hm A) (r : res B) (g : B -> B') (Q : A -> B -> heap -> Prop) (Q' : A -> B' -> heap -> Prop) :
  (forall a b h, Q a b h -> Q' a (g b) h) -> rf P m r Q -> rf P m (let! b := r in Ok (g b)) Q'.
Proof.
move=> hQ hm h he hP; have [e1 e2] := hm h he hP; split=> //; move: e2.
by case: (m h).2 => [a|e]; case: (r) => //= b; exact: hQ.
Qed.
Lemma rf_seq A B A' (P : heap -> Prop) (m : hm A) (r : res B) (k : A -> hm A') Q Q' :
  rf P m r Q -> (forall a b, rf (Q a b) (k a) (Ok b) Q') -> rf P (hbind m k) r Q'.
Proof. by move=> h1 h2; have := rf_bind h1 h2; case: (r). Qed.
Lemma hmap_read vs h : hmap hread vs h = (h, Ok (map (vread h) vs)).
Proof. by elim: vs => //= v vs IH; rewrite /hbind /= IH. Qed.
Lemma rf_reads (P : heap -> Prop) vs ts : (forall h, ext h0 h -> P h -> map (vread h) vs = ts) ->
  rf P (hmap hread vs) (Ok ts) (fun a b h => a = ts /\ P h).
Proof. by move=> hr h he hP; rewrite hmap_read; split=> //=; rewrite hr. Qed.
Lemma rf_read (P : heap -> Prop) v t : (forall h, ext h0 h -> P h -> vread h v = t) ->
  rf P (hread v) (Ok t) (fun a b h => a = t /\ P h).
Proof. by move=> hr h he hP; split=> //=; rewrite hr. Qed.

(* accumulators: separate new buffers that hold given values *)
Definition own (vs : seq view) (ts : seq tens) (h : heap) : Prop :=
  [/\ uniq (map vb vs), all (fresh h0) vs, all (inb h) vs & map (vread h) vs = ts].

Lemma rf_own A B vs ts (m : hm A) (r : res B) Q : (size vs = size ts -> rf (own vs ts) m r Q) -> rf (own vs ts) m r Q.
Proof. by move=> hm h he ho; apply: hm => //; case: ho => _ _ _ <-; rewrite size_map. Qed.
Definition keeps_size (f : tens -> res tens) := forall t t', f t = Ok t' -> tshape t' = tshape t /\ size (tdata t') = size (tdata t).

(* the memory after an in-place operation *)
Definition poke (h : heap) (v : view) (t : tens) : heap :=
  Heap (set_nth [::] (hbufs h) (vb v) (splice (tdata t) (voff v) (buf h (vb v)))) (hlists h).
Lemma poke_other h v t u : vb u != vb v -> vread (poke h v t) u = vread h u.
Proof. by move=> hu; rewrite /vread /buf /= nth_set_nth /= (negbTE hu). Qed.
Lemma poke_same h v t : inb h v -> tshape t = vsh v -> size (tdata t) = numel (vsh v) -> vread (poke h v t) v = t.
Proof.
case/andP=> h1 h2 e1 e2; rewrite /vread /buf /= nth_set_nth /= eqxx -e2 splice_read ?e2 // -e1.
by case: t {e1 e2}.
Qed.
Lemma poke_inb h v t u : inb h v -> size (tdata t) = numel (vsh v) -> inb h u -> inb (poke h v t) u.
Proof.
case/andP=> h1 h2 e /andP[h3 h4]; rewrite /inb /buf /= size_set_nth (maxn_idPr _) // h3 nth_set_nth /=.
by case: eqP => // eu; rewrite splice_size ?e // -eu.
Qed.

Lemma map_catI (T U : Type) (f : T -> U) xs x ys us u ws : size xs = size us ->
  map f (xs ++ x :: ys) = us ++ u :: ws -> [/\ map f xs = us, f x = u & map f ys = ws].
Proof.
move=> hs; rewrite map_cat => e.
have := congr1 (take (size us)) e; rewrite take_size_cat ?size_map // take_size_cat // => e1.
have := congr1 (drop (size us)) e; rewrite drop_size_cat ?size_map // drop_size_cat //= => -[e2 e3].
by [].
Qed.

Lemma rf_inplace vs0 v vs ts0 t ts f : size vs0 = size ts0 -> keeps_size f ->
  rf (own (vs0 ++ v :: vs) (ts0 ++ t :: ts)) (hinplace v f) (f t) (fun _ t' => own (vs0 ++ v :: vs) (ts0 ++ t' :: ts)).
Proof.
move=> hs hf h he [n1 n2 n3 n4]; have [m1 m2 m3] := map_catI hs n4.
have fv : fresh h0 v by move: n2; rewrite all_cat /= => /and3P[].
have iv : inb h v by move: n3; rewrite all_cat /= => /and3P[].
have [ex _] := @tr_inplace h0 any v f fv h he I; split=> //; move: ex; rewrite /hinplace m2.
case E: (f t) => [t'|e] //= _; have [e1 e2] := hf _ _ E.
have s1 : tshape t' = vsh v by rewrite e1 -m2.
have s2 : size (tdata t') = numel (vsh v) by rewrite e2 -m2; apply/eqP; exact: (vread_wf iv).
split=> //; first by apply: sub_all n3 => u hu; exact: (poke_inb iv).
have ho us : vb v \notin map vb us -> map (vread (poke h v t')) us = map (vread h) us.
  elim: us => //= u us IH; rewrite inE negb_or => /andP[hu /IH ->].
  by rewrite poke_other // eq_sym.
move: n1; rewrite map_cat cat_uniq /= negb_or => /and3P[u1 /andP[u2 u3] /andP[u4 u5]].
by rewrite map_cat /= (poke_same iv s1 s2) !ho ?m1 ?m3.
Qed.

(* zip loops *)
Fixpoint zipv (f : tens -> tens -> res tens) (ts cs : seq tens) : res (seq tens) :=
  match ts, cs with
  | t :: ts', c :: cs' => let! x := f t c in let! xs := zipv f ts' cs' in Ok (x :: xs)
  | _, _ => Ok ts
  end.
Lemma cols_addE n ms cs : cols_add n ms cs = zipv (fun t c => col_add n t c) ms cs.
Proof. by elim: ms cs => [|m ms IH] [|c cs] //=; rewrite IH. Qed.
Lemma adds_alphaE c AM BM : adds_alpha c AM BM = zipv (fun t d => add_alpha c t d) AM BM.
Proof. by elim: AM BM => [|m ms IH] [|d cs] //=; rewrite IH. Qed.
Lemma col_add_size n c : keeps_size (fun t => col_add n t c).
Proof. by move=> t t'; rewrite /col_add; case: ifP => // _ [<-] /=; rewrite size_mkseq. Qed.
Lemma add_alpha_size a c : keeps_size (fun t => add_alpha a t c).
Proof. by move=> t t'; rewrite /add_alpha; case: ifP => // _ [<-] /=; rewrite size_mkseq. Qed.

Lemma zipv_size f ts cs ts' : zipv f ts cs = Ok ts' -> size ts' = size ts.
Proof.
elim: ts cs ts' => [|t ts IH] [|c cs] ts' //=; try by move=> [<-].
by case: (f t c) => //= x; case E: (zipv _ _ _) => [xs|] //= [<-] /=; rewrite (IH _ _ E).
Qed.

Lemma rf_zip f vs0 vs vs1 ts0 ts ts1 cs : size vs0 = size ts0 -> size vs = size ts -> (forall c, keeps_size (f^~ c)) ->
  rf (own (vs0 ++ vs ++ vs1) (ts0 ++ ts ++ ts1)) (hzip f vs cs) (zipv f ts cs)
     (fun _ ts' => own (vs0 ++ vs ++ vs1) (ts0 ++ ts' ++ ts1)).
Proof.
move=> h1 h2 hf; elim: vs vs0 ts ts0 cs h1 h2 => [|v vs IH] vs0 [|t ts] ts0 [|c cs] //= h1 h2;
  try by move=> h he hP; split.
apply: (rf_bind (@rf_inplace vs0 v (vs ++ vs1) ts0 t (ts ++ ts1) (f^~ c) h1 (hf c))).
move=> _ t' h he; rewrite -!cat_rcons => hP.
have hs : size (rcons vs0 v) = size (rcons ts0 t') by rewrite !size_rcons h1.
have [e1 e2] := IH (rcons vs0 v) ts (rcons ts0 t') cs hs (succn_inj h2) h he hP; split=> //; move: e2.
by case: (hzip _ _ _ _).2 => [a|e]; case: (zipv _ _ _) => //= xs; rewrite !cat_rcons.
Qed.

(* loops *)
Lemma rf_for A S (I : S -> heap -> Prop) (f : A -> hm unit) (g : S -> A -> res S) xs s :
  (forall x s, rf (I s) (f x) (g s x) (fun _ s' => I s')) ->
  rf (I s) (hfor f xs) (foldM g s xs) (fun _ s' => I s').
Proof.
move=> hf; elim: xs s => [|x xs IH] s /=; first by move=> h he hP; split.
by apply: (rf_bind (hf x s)) => u s'; exact: IH.
Qed.

(* allocation *)
Lemma alloc_ext t h : ext h (halloc t h).1.
Proof. by exists [:: tdata t], [::]; rewrite /= cats1 cats0. Qed.
Lemma alloc_inb t h : wf t -> inb (halloc t h).1 (View (size (hbufs h)) 0 (tshape t)).
Proof. by move/eqP=> hw; rewrite /inb /buf /= size_rcons ltnSn nth_rcons ltnn eqxx add0n hw leqnn. Qed.
Lemma alloc_read t h : wf t -> vread (halloc t h).1 (View (size (hbufs h)) 0 (tshape t)) = t.
Proof.
move/eqP=> hw; rewrite /vread /buf /= nth_rcons ltnn eqxx drop0 -hw take_size.
by case: t {hw}.
Qed.

Fixpoint newviews (n : nat) (ts : seq tens) : seq view :=
  if ts is t :: ts' then View n 0 (tshape t) :: newviews n.+1 ts' else [::].
Lemma allocs_run A (f : A -> hm view) (g : A -> tens) xs h :
  (forall x h', ext h h' -> List.In x xs -> f x h' = halloc (g x) h') ->
  hmap f xs h = (Heap (hbufs h ++ map (@tdata R) (map g xs)) (hlists h), Ok (newviews (size (hbufs h)) (map g xs))).
Proof.
elim: xs h => [|x xs IH] h hf /=; first by rewrite cats0; case: h {hf}.
have e := IH (halloc (g x) h).1 (fun y h' he hy => hf y h' (ext_trans (alloc_ext (g x) h) he) (or_intror hy)).
rewrite /hbind (hf x h (ext_refl h) (or_introl erefl)) /halloc /=.
by move: e; rewrite /= => ->; rewrite cat_rcons size_rcons.
Qed.
Lemma newviews_fresh n ts : size (hbufs h0) <= n -> all (fresh h0) (newviews n ts).
Proof. by elim: ts n => //= t ts IH n hn; rewrite /fresh /= hn IH // ltnW. Qed.
Lemma newviews_read h ts ls : all (@wf R) ts ->
  let h' := Heap (hbufs h ++ map (@tdata R) ts) ls in let vs := newviews (size (hbufs h)) ts in
  [/\ uniq (map vb vs), all (inb h') vs & map (vread h') vs = ts].
Proof.
move=> hw h' vs.
have hb n us : map vb (newviews n us) = iota n (size us) by elim: us n => //= u us IH n; rewrite IH.
have main us bs : all (@wf R) us -> let h'' := Heap (bs ++ map (@tdata R) us) ls in
    all (inb h'') (newviews (size bs) us) /\ map (vread h'') (newviews (size bs) us) = us.
  elim: us bs => //= u us IH bs /andP[hu /(IH (rcons bs (tdata u)))].
  rewrite size_rcons cat_rcons => -[i1 i2]; rewrite i1 i2.
  rewrite /inb /vread /buf /= size_cat /= -addn1 leq_add2l /= add0n nth_cat ltnn subnn /= (eqP hu) leqnn.
  by rewrite drop0 -(eqP hu) take_size; case: (u).
have [m1 m2] := main ts (hbufs h) hw; split=> //.
by rewrite /vs hb iota_uniq.
Qed.
Lemma rf_allocs A (P : heap -> Prop) (f : A -> hm view) (g : A -> tens) xs :
  (forall h x, ext h0 h -> List.In x xs -> f x h = halloc (g x) h) -> all (@wf R) (map g xs) ->
  rf P (hmap f xs) (Ok (map g xs)) (fun vs ts => own vs ts).
Proof.
move=> hf hw h he _; rewrite (@allocs_run _ f g) => [|x h' he' hx]; last by apply: hf => //; exact: ext_trans he'.
have [r1 r2 r3] := newviews_read h (hlists h) hw; split=> /=.
  by case: he => bs [ls [e1 e2]]; exists (bs ++ map (@tdata R) (map g xs)), ls; rewrite /= e1 catA.
by split=> //; apply: newviews_fresh; exact: ext_szb.
Qed.
End Rel.

Definition vals (vs : seq view) (ts : seq tens) (h : heap) : Prop := all (inb h) vs /\ map (vread h) vs = ts.
Lemma own_vals h0 vs ts h : own h0 vs ts h -> vals vs ts h. Proof. by case. Qed.
Lemma own_ext h0 vs ts h h' : ext h h' -> own h0 vs ts h -> own h0 vs ts h'.
Proof.
move=> he [o1 o2 o3 o4]; split=> //; last by rewrite (ext_reads he).
by apply: sub_all o3 => v; exact: ext_inb.
Qed.
Lemma vals_ext vs ts h h' : ext h h' -> vals vs ts h -> vals vs ts h'.
Proof. by move=> he [o1 o2]; split; [apply: sub_all o1 => v; exact: ext_inb | rewrite (ext_reads he)]. Qed.

(* a call, seen from the memory in which it starts *)
Lemma rf_call h0 A B (P : heap -> Prop) (m : hm A) (r : res B) Q :
  (forall h h', ext h h' -> P h -> P h') -> (forall h, ext h0 h -> P h -> rf h any m r Q) ->
  rf h0 P m r (fun a b h => Q a b h /\ P h).
Proof.
move=> hst hm h he hP; have [e1 e2] := hm h he hP h (ext_refl h) I; split; first exact: ext_trans e1.
by move: e2 (hst _ _ e1 hP); case: (m h).2 => [a|e]; case: (r).
Qed.

Section Progs.
Variable h0 : heap.
Local Notation own := (own h0).
Local Notation rf := (rf h0).

Lemma rf_zeros P M ts : all (inb h0) M -> map (vread h0) M = ts -> rf P (hzeros M) (Ok [seq zeros_like t | t <- ts]) own.
Proof.
move=> hM <-; rewrite -map_comp; apply: rf_allocs => [h v he hv|].
  rewrite /hbind /hread (ext_read he) //.
  by elim: M hM hv => //= u M IH /andP[/andP[hu _] hM] [<-|/IH]; [|apply].
elim: M hM => //= v M IH /andP[/vread_wf hv /IH ->]; rewrite andbT.
by move: hv; rewrite /wf /= size_nseq.
Qed.

Lemma rf_columns P f M ts : all (inb h0) M -> map (vread h0) M = ts -> rf P (hcolumns f M) (column_loop f ts) own.
Proof.
move=> hM hts; have hr h : ext h0 h -> map (vread h) M = ts by move=> he; rewrite (ext_reads he).
apply: (rf_step (@rf_reads h0 P M ts (fun h he _ => hr h he))) => a.
apply: rf_pure => ->; rewrite /column_loop.
apply: (rf_bind (@rf_lift h0 _ _ _)) => K K'; apply: rf_pure => ->.
apply: (rf_step (rf_zeros hM hts)) => G; rewrite /add_columns.
apply: (rf_seq (Q := fun _ => own G)); last by move=> u b; apply: rf_ret.
apply: rf_for => n ts'; apply: (rf_step (@rf_reads h0 (own G ts') M ts (fun h he _ => hr h he))) => a'.
apply: rf_pure => ->; apply: (rf_bind (@rf_lift h0 _ _ _)) => c c'; apply: rf_pure => ->.
apply: rf_own => hs; rewrite cols_addE; have := @rf_zip h0 (fun t c => col_add n t c) [::] G [::] [::] ts' [::] c' erefl hs (@col_add_size n).
by rewrite /= !cats0 => hz; apply: rf_weak hz => // u b k; rewrite cats0.
Qed.

(* one column into a block of the accumulators *)
Lemma rf_column n f M ts vs0 vs vs1 ts0 ts' ts1 : (forall h, ext h0 h -> map (vread h) M = ts) ->
  size vs0 = size ts0 -> size vs = size ts' ->
  rf (own (vs0 ++ vs ++ vs1) (ts0 ++ ts' ++ ts1))
    (do! us := hmap hread M in do! c := hlift (f [seq col_sel n m | m <- us]) in hzip (fun t c => col_add n t c) vs c)
    (let! c := f [seq col_sel n m | m <- ts] in cols_add n ts' c)
    (fun _ ts'' h => own (vs0 ++ vs ++ vs1) (ts0 ++ ts'' ++ ts1) h /\ size vs = size ts'').
Proof.
move=> hr h1 h2; set I := own _ _.
apply: (rf_step (@rf_reads h0 I M ts (fun h he _ => hr h he))) => a'; apply: rf_pure => ->.
apply: (rf_bind (@rf_lift h0 _ I _)) => c c'; apply: rf_pure => ->; rewrite cols_addE.
have hz := @rf_zip h0 (fun t c => col_add n t c) vs0 vs vs1 ts0 ts' ts1 c' h1 h2 (@col_add_size n).
move=> h he hP; have [e1 e2] := hz h he hP; split=> //; move: e2.
by case: (hzip _ _ _ _).2 => // u; case E: (zipv _ _ _) => [b|] // ho; split=> //; rewrite h2 -(zipv_size E).
Qed.

Definition block_step K (b : seq view * seq view * (seq tens -> res (seq tens))) : hm unit :=
  hfor (fun n =>
      do! ts := hmap hread b.1.1 in
      do! c := hlift (b.2 [seq col_sel n m | m <- ts]) in
      hzip (fun t c => col_add n t c) b.1.2 c) (iota 0 K).

Lemma rf_block_loop K ns fs M ts HM zs vs0 ts0 : size vs0 = size ts0 -> size HM = size zs ->
  size M = size HM -> size ns = size fs -> sumn ns = size M ->
  (forall h, ext h0 h -> map (vread h) M = ts) ->
  rf (own (vs0 ++ HM) (ts0 ++ zs)) (hfor (block_step K) (zip (zip (reshape ns M) (reshape ns HM)) fs))
    (mapM (fun q => add_columns q.2 q.1.1 q.1.2 (iota 0 K)) (zip (zip (reshape ns ts) (reshape ns zs)) fs))
    (fun _ out => own (vs0 ++ HM) (ts0 ++ flatten out)).
Proof.
elim: ns fs M ts HM zs vs0 ts0 => [|n ns IH] [|f fs] //= M ts HM zs vs0 ts0 h1 h2 h3 h4 h5 hr.
  have -> : HM = [::] by apply: size0nil; rewrite -h3 -h5.
  have -> : zs = [::] by apply: size0nil; rewrite -h2 -h3 -h5.
  by apply: rf_ret => h he; rewrite /= !cats0.
have hst : map (vread h0) M = ts by apply: hr; exact: ext_refl.
have sM : n <= size M by rewrite -h5 leq_addr.
have sts : size ts = size M by rewrite -hst size_map.
have eH := cat_take_drop n HM; have ez := cat_take_drop n zs.
apply: (rf_bind (Q := fun _ G h => own (vs0 ++ take n HM ++ drop n HM) (ts0 ++ G ++ drop n zs) h /\ size (take n HM) = size G)).
  apply: (rf_weak (P := fun h => own (vs0 ++ take n HM ++ drop n HM) (ts0 ++ take n zs ++ drop n zs) h /\ size (take n HM) = size (take n zs))).
  - by move=> h ho; rewrite eH ez; split=> //; rewrite !size_take h2.
  - by move=> u b h; exact.
  apply: (rf_for (I := fun G h => own (vs0 ++ take n HM ++ drop n HM) (ts0 ++ G ++ drop n zs) h /\ size (take n HM) = size G)).
  move=> k G /= h he [ho hsz]; move: h he ho; apply: rf_column => // h he.
  by rewrite map_take hr.
move=> u G h he [ho hsz].
have ho' : own ((vs0 ++ take n HM) ++ drop n HM) ((ts0 ++ G) ++ drop n zs) h by rewrite -!catA.
have hs0 : size (vs0 ++ take n HM) = size (ts0 ++ G) by rewrite !size_cat h1 hsz.
have q1 : size (drop n HM) = size (drop n zs) by rewrite !size_drop h2.
have q2 : size (drop n M) = size (drop n HM) by rewrite !size_drop h3.
have q3 : sumn ns = size (drop n M) by rewrite size_drop -h5 addKn.
have q4 h' : ext h0 h' -> map (vread h') (drop n M) = drop n ts by move=> he'; rewrite map_drop hr.
have hi := IH fs _ _ _ _ _ _ hs0 q1 q2 (succn_inj h4) q3 q4.
have hq (v : unit) out k : own ((vs0 ++ take n HM) ++ drop n HM) ((ts0 ++ G) ++ flatten out) k ->
  own (vs0 ++ HM) (ts0 ++ flatten (G :: out)) k by rewrite -!catA eH.
exact: (rf_post (g := cons G) (Q' := fun _ out => own (vs0 ++ HM) (ts0 ++ flatten out)) hq hi he ho').
Qed.

(* hessian.py 45-84 *)
Definition blocks_val (bs : seq int) (fs : seq (seq tens -> res (seq tens))) (ts : seq tens) : res (seq tens) :=
  let! K := the_one [seq last 0%N (tshape m) | m <- ts] in
  let! M_b := split_list ts bs in
  let! HM_b := split_list [seq zeros_like m | m <- ts] bs in
  let! out := mapM (fun q => add_columns q.2 q.1.1 q.1.2 (iota 0 K)) (zip (zip M_b HM_b) fs) in
  Ok (flatten out).
Lemma rf_blocks P ns fs M ts : all (inb h0) M -> map (vread h0) M = ts -> sumn ns = size M -> size ns = size fs ->
  rf P (hblocks [seq Posz n | n <- ns] fs M) (blocks_val [seq Posz n | n <- ns] fs ts) own.
Proof.
move=> hM hts h1 h2; have hr h : ext h0 h -> map (vread h) M = ts by move=> he; rewrite (ext_reads he).
have sts : size ts = size M by rewrite -hts size_map.
apply: (rf_step (@rf_reads h0 P M ts (fun h he _ => hr h he))) => a.
apply: rf_pure => ->; rewrite /blocks_val.
apply: (rf_bind (@rf_lift h0 _ _ _)) => K K'; apply: rf_pure => ->.
apply: (rf_step (rf_zeros hM hts)) => HM; apply: rf_own; rewrite size_map => hs.
rewrite !split_list_ok ?size_map ?sts ?hs ?sts //=.
apply: (rf_step (@rf_lift h0 _ (own HM [seq zeros_like t | t <- ts]) (Ok (reshape ns M)))) => Mb; apply: rf_pure => ->.
apply: (rf_step (@rf_lift h0 _ (own HM [seq zeros_like t | t <- ts]) (Ok (reshape ns HM)))) => Hb; apply: rf_pure => ->.
apply: (rf_bind (Q := fun _ out => own HM (flatten out))); last by move=> u out; apply: rf_ret.
by apply: (@rf_block_loop K' ns fs M ts HM _ [::] [::]); rewrite // ?size_map ?hs.
Qed.
End Progs.

(* ---- the whole product ---- *)
(* _matmat, given a list of n tensors, returns a list object with the values of f, or
   raises what f raises *)
Definition same_outcome A B (Q : A -> B -> Prop) (x : res A) (y : res B) : Prop :=
  match x, y with Ok a, Ok b => Q a b | Err e, Err e' => e = e' | _, _ => False end.
Definition mat_refines (n : nat) (mat : nat -> hm nat) (f : seq tens -> res (seq tens)) : Prop :=
  forall h l, all (inb h) (nth [::] (hlists h) l) -> size (nth [::] (hlists h) l) = n ->
    same_outcome (fun l' ts => vals (nth [::] (hlists (mat l h).1) l') ts (mat l h).1) (mat l h).2 (f (lread h l)).

Lemma rf_mat n mat f : (forall h l, all (inb h) (nth [::] (hlists h) l) -> size (nth [::] (hlists h) l) = n ->
    rf h (eq h) (mat l) (f (lread h l)) (fun l' ts h' => vals (nth [::] (hlists h') l') ts h')) -> mat_refines n mat f.
Proof. by move=> hm h l hl hn; have [_] := hm h l hl hn h (ext_refl h) erefl. Qed.

Lemma split_views_vals h v K S off : inb h v -> off + total S * K <= numel (vsh v) ->
  vals (split_views v off K S) (unflatten S K (drop off (tdata (vread h v)))) h.
Proof.
case/andP=> hv1 hv2; elim: S off => [|s S IH] off //=.
rewrite /total /= mulnDl addnA -/(total S) => hle.
have h1 : off + numel s * K <= numel (vsh v) by apply: leq_trans hle; exact: leq_addr.
have [i1 i2] := IH _ hle; split=> /=.
  rewrite i1 andbT /inb /= hv1 numel_rcons; apply: leq_trans hv2.
  by rewrite -addnA leq_add2l.
rewrite i2 /unflatten /=; congr cons; last by rewrite drop_drop addnC.
rewrite /vread /=; congr Tensor; rewrite numel_rcons addnC -drop_drop !take_drop take_take //.
by rewrite leq_add2r addnC.
Qed.

Lemma unsqueeze_vals h vs : all (inb h) vs ->
  vals (map unsqueeze_view vs) [seq unsqueeze_last t | t <- map (vread h) vs] h.
Proof.
elim: vs => //= v vs IH /andP[hv /IH [i1 i2]]; split=> /=; last first.
  by rewrite i2; congr cons; rewrite /vread /unsqueeze_last /= numel_rcons muln1.
by rewrite i1 andbT; move: hv; rewrite /inb /= numel_rcons muln1.
Qed.
Lemma squeeze_vals h vs : map (vread h) (map squeeze_view vs) = [seq squeeze_last t | t <- map (vread h) vs].
Proof.
elim: vs => //= v vs ->; congr cons; rewrite /squeeze_last /vread /=; case: ifP => //= hc.
congr Tensor; congr take.
case/lastP: (vsh v) hc => // s k; rewrite last_rcons size_rcons /= -cats1 take_size_cat // cats1 numel_rcons => /andP[_ /eqP ->].
by rewrite muln1.
Qed.

(* the arguments of a call exist *)
Definition arg_ok (h : heap) (X : harg) : Prop :=
  match X with HTensor v => inb h v | HList l => all (inb h) (nth [::] (hlists h) l) | HOther => True end.

Lemma pre_refines A X h : arg_ok h X ->
  same_outcome (fun p q => p.1.1.2 = q.1.1.2 /\ p.1.2 = q.1.2 /\ p.2 = q.2 /\
      vals (nth [::] (hlists (hpreprocess A X h).1) p.1.1.1) q.1.1.1 (hpreprocess A X h).1)
    (hpreprocess A X h).2 (check_input_and_preprocess A (arg_value h X)).
Proof.
case: X => [v|l|] //= hX.
- rewrite /hbind /=; case E: (check_tensor_and_preprocess A (vread h v)) => [[[Xp iv] n]|e] //=.
  rewrite nth_rcons ltnn eqxx; split=> //; split=> //; split=> //.
  have hw := vread_wf hX.
  have hd : tshape (vread h v) = [:: total (in_shape A)] \/ (exists K, tshape (vread h v) = [:: total (in_shape A); K]).
    move: E; rewrite /check_tensor_and_preprocess /ndim; case: (tshape (vread h v)) => [|m [|k [|? ?]]] //.
      by case: (m =P (op_shape A).2) => [->|] // _; left.
    by case: (m =P (op_shape A).2) => [->|] // _; right; exists k.
  have hk : tshape (vread h v) = [:: total (in_shape A)] /\ n = 1 \/ tshape (vread h v) = [:: total (in_shape A); n].
    case: hd => [hd|[k hd]]; [left|right].
      by move: E; rewrite (@check_tensor_ok _ A (vread h v) 1) //; [move=> [_ _ <-]|left].
    by move: E; rewrite (@check_tensor_ok _ A (vread h v) k) //; [move=> [_ _ <-]|right].
  move: E; rewrite (check_tensor_ok hw hk) => -[hXp _].
  have := @split_views_vals h v n (in_shape A) 0 hX; rewrite drop0 hXp; apply.
  by move: hk; rewrite /= => -[[-> ->]|->]; rewrite add0n /= ?muln1.
- rewrite /hbind /= hmap_read /=.
  rewrite -/(lread h l); case E: (check_tensor_list_and_preprocess A (lread h l)) => [[[Xp iv] n]|e] //=.
  move: E; rewrite /check_tensor_list_and_preprocess; case: ifP => // _; case: ifP => _.
    move=> [<- <- <-] /=; rewrite nth_rcons ltnn eqxx; split=> //; split=> //; split=> //.
    exact: unsqueeze_vals.
  by case: ifP => // _ [<- <- <-] /=.
Qed.

Lemma tcat_wf (ts : seq tens) t : all (@wf R) ts -> tcat ts = Ok t -> wf t.
Proof.
have main rest (us : seq tens) : all (fun t => (0 < ndim t) && (behead (tshape t) == rest)) us -> all (@wf R) us ->
    size (flatten [seq tdata t | t <- us]) = sumn [seq head 0 (tshape t) | t <- us] * numel rest.
  elim: us => //= u us IH /andP[/andP[hu /eqP e] /IH {}IH] /andP[/eqP wu /IH {}IH].
  by rewrite size_cat IH mulnDl wu -e; move: hu; rewrite /ndim; case: (tshape u).
case: ts => // t0 ts hw; rewrite /tcat; case: ifP => // hs [<-]; apply/eqP; exact: main hs hw.
Qed.
Lemma squeeze_wf (t : tens) : wf t -> wf (squeeze_last t).
Proof.
rewrite /squeeze_last; case: ifP => // hc; rewrite /wf /=.
case/lastP: (tshape t) hc => // s k; rewrite last_rcons size_rcons /= -cats1 take_size_cat // cats1 numel_rcons => /andP[_ /eqP ->].
by rewrite muln1.
Qed.
Lemma check_output_kind A AX lf v n Y : check_output_and_postprocess A AX lf v n = Ok Y -> all (@wf R) AX ->
  (exists2 t, Y = VTensor t & wf t) \/ Y = VList (if v then [seq squeeze_last x | x <- AX] else AX).
Proof.
rewrite /check_output_and_postprocess; case: ifP => // _; case: ifP => // _; case: lf => [[<-]|]; first by right.
case E: (mapM _ _) => [rows|] //=; case Ec: (tcat rows) => [c|] //= [<-] hw; left.
eexists; first reflexivity.
have wc : wf c.
  apply: tcat_wf Ec; elim: (AX) (out_shape_flat A) rows E {hw} => [|x X IH] [|k ks] rows //=; try by move=> [<-].
  rewrite /treshape; case: ifP => //= hk; case E: (mapM _ _) => [us|] //= [<-] /=.
  by rewrite (IH _ _ E) andbT /wf eq_sym; exact: hk.
by case: (v) => //; exact: squeeze_wf.
Qed.

Lemma post_refines A l lf v n h ys : vals (nth [::] (hlists h) l) ys h ->
  same_outcome (fun Y y => arg_value (hpostprocess A l lf v n h).1 Y = y)
    (hpostprocess A l lf v n h).2 (check_output_and_postprocess A ys lf v n).
Proof.
move=> [v1 v2]; rewrite /hpostprocess /hbind /= hmap_read /= v2.
have hw : all (@wf R) ys by rewrite -v2 all_map; apply: sub_all v1 => u; exact: vread_wf.
case E: (check_output_and_postprocess A ys lf v n) => [Y|e] //=.
have [[t -> wt]|->] := check_output_kind E hw; first by rewrite /= (alloc_read h wt).
by case: (v) => /=; rewrite /lread /= ?nth_rcons ?ltnn ?eqxx ?squeeze_vals v2.
Qed.

Lemma mapM_size A B (f : A -> res B) xs ys : mapM f xs = Ok ys -> size ys = size xs.
Proof. by elim: xs ys => [|x xs IH] ys /=; [move=> [<-] | case: (f x) => //= y; case E: (mapM f xs) => [zs|] //= [<-] /=; rewrite (IH _ E)]. Qed.
Lemma pre_size A (X : pyval R) q : check_input_and_preprocess A X = Ok q -> size q.1.1.1 = size (in_shape A).
Proof.
case: X => [t|ts| |] //=.
  rewrite /check_tensor_and_preprocess; case: ifP => // _; case: (tshape t) => // m r; case: ifP => // _.
  case Et: (tsplit _ t) => [xs|] //=; case E: (mapM _ _) => [Xp|] //= [<-] /=.
  rewrite (mapM_size E) size_zip; suff -> : size xs = size (in_shape A) by rewrite minnn.
  move: Et; rewrite /tsplit; case: ifP => // _ [<-].
  by rewrite size_map size_zip size_reshape_T size_map minnn size_map.
rewrite /check_tensor_list_and_preprocess; case: eqP => //= hs; case: ifP => _; first by move=> [<-] /=; rewrite size_map.
by case: ifP => // _ [<-].
Qed.

Theorem matmul_refines A mat X h : mat_refines (size (in_shape A)) mat (matmat A) -> arg_ok h X ->
  same_outcome (fun Y y => arg_value (hmatmul A mat X h).1 Y = y)
    (hmatmul A mat X h).2 (op_matmul A (arg_value h X)).
Proof.
move=> hm hX; have := pre_refines A hX; have := @pre_size A (arg_value h X); rewrite /hmatmul /op_matmul /hbind.
case: (hpreprocess A X h) => h1 [[[[l lf] v] n]|e] /=; case: (check_input_and_preprocess _ _) => [[[[Xl lf'] v'] n']|e'] //=.
move=> /(_ _ erefl) hsz [<- [<- [<- [i1 i2]]]].
have := hm h1 l i1; rewrite -[size _](size_map (vread h1)) i2 => /(_ hsz); rewrite /lread i2; case: (mat l h1) => h2 [l'|e] /=; case: (matmat A Xl) => [ys|e'] //= hv.
exact: post_refines.
Qed.

(* ---- the operators ---- *)
(* the list object made from given tensors *)
Lemma rf_newlist h0 (P : heap -> Prop) vs ts : (forall h, P h -> vals vs ts h) ->
  rf h0 P (hnewlist vs) (Ok ts) (fun l ts h => vals (nth [::] (hlists h) l) ts h).
Proof.
move=> hP h he hp; have [ex _] := @tr_newlist h0 any vs h he I; split=> //=.
by rewrite nth_rcons ltnn eqxx; exact: (hP h).
Qed.

Lemma rf_getlist h l : rf h (eq h) (hgetlist l) (Ok (nth [::] (hlists h) l)) (fun a b h' => a = b /\ any h').
Proof. by move=> h' he e; rewrite -e; split=> //; exact: ext_refl. Qed.

(* _matmat_batch on tensors and on values *)
Definition batch_refines (mb : seq view -> hm (seq view)) (f : seq tens -> res (seq tens)) : Prop :=
  forall h0 M, all (inb h0) M -> rf h0 any (mb M) (f (map (vread h0) M)) vals.
Lemma columns_refines f : batch_refines (hcolumns f) (column_loop f).
Proof. by move=> h0 M hM; have hc := @rf_columns h0 any f M _ hM erefl; apply: rf_weak hc => // vs ts h; exact: own_vals. Qed.
Lemma blocks_refines ns fs : size ns = size fs ->
  forall h0 M, all (inb h0) M -> sumn ns = size M ->
  rf h0 any (hblocks [seq Posz n | n <- ns] fs M) (blocks_val [seq Posz n | n <- ns] fs (map (vread h0) M)) vals.
Proof. by move=> hs h0 M hM hsM; have hc := @rf_blocks h0 any ns fs M _ hM erefl hsM hs; apply: rf_weak hc => // vs ts h; exact: own_vals. Qed.

Lemma curvature_refines (batch : Type) (bsz : batch -> nat) red N data (mb : batch -> seq view -> hm (seq view)) f (n : nat) :
  (forall b h0 M, all (inb h0) M -> size M = n -> rf h0 any (mb b M) (f b (map (vread h0) M)) vals) ->
  forall h l, all (inb h) (nth [::] (hlists h) l) -> size (nth [::] (hlists h) l) = n ->
    rf h (eq h) (hcurvature bsz red N data mb l) (base_matmat bsz red N data f (lread h l))
      (fun l' ts h' => vals (nth [::] (hlists h') l') ts h').
Proof.
move=> hmb h l hl hn; rewrite /base_matmat /hcurvature.
apply: (rf_step (@rf_getlist h l)) => M; apply: rf_pure => ->; set M' := nth _ _ _.
have rM h' : ext h h' -> map (vread h') M' = lread h l by move=> he; rewrite (ext_reads he).
apply: (rf_step (rf_zeros (P := any) hl (rM h (ext_refl h)))) => AM.
apply: (rf_seq (Q := fun _ => own h AM)); last first.
  by move=> u ts; apply: rf_newlist => h'; exact: own_vals.
apply: rf_for => b ts; apply: (rf_bind (@rf_lift h _ (own h AM ts) _)) => c c'; apply: rf_pure => ->.
apply: (rf_bind (rf_call (P := own h AM ts) (Q := vals) _ _)); first by move=> h1 h2; exact: own_ext.
  move=> h' he _; have := hmb b h' M' _ hn; rewrite (rM h' he); apply.
  by apply: sub_all hl => v; exact: ext_inb.
move=> BM bs; apply: (rf_step (b := bs) (Q := fun a b h' => a = b /\ own h AM ts h')).
  by move=> h' he [[v1 v2] ho]; rewrite hmap_read /= v2.
move=> ds; apply: rf_pure => ->; apply: rf_own => hs; rewrite adds_alphaE.
have := @rf_zip h (fun t c => add_alpha c' t c) [::] AM [::] [::] ts [::] bs erefl hs (@add_alpha_size c').
by rewrite /= !cats0 => hz; apply: rf_weak hz => // u b' k; rewrite cats0.
Qed.

Lemma vals_cons v vs t ts h : inb h v -> vread h v = t -> vals vs ts h -> vals (v :: vs) (t :: ts) h.
Proof. by move=> h1 h2 [h3 h4]; split; rewrite /= ?h1 ?h2 ?h4. Qed.

(* hmap with allocations against mapM *)
Lemma rf_hmap h0 A (f : A -> hm view) (g : A -> res tens) xs :
  (forall x h, ext h0 h -> rf h any (f x) (g x) (fun v t h' => inb h' v /\ vread h' v = t)) ->
  rf h0 any (hmap f xs) (mapM g xs) vals.
Proof.
move=> hf; elim: xs => [|x xs IH] /=; first by apply: rf_ret.
apply: (rf_bind (Q := fun v t h' => inb h' v /\ vread h' v = t)).
  by move=> h he _; have [e1 e2] := hf x h he h (ext_refl h) I; split=> //; exact: ext_trans e1.
move=> v t; apply: (rf_bind (Q := fun vs ts h' => vals vs ts h' /\ (inb h' v /\ vread h' v = t))).
  move=> h he [i1 i2]; have [e1 e2] := IH h he I.
  have e3 : ext h (hmap f xs h).1.
    elim: (xs) h he {i1 i2 IH e1 e2} => [|y ys IHy] h he /=; first exact: ext_refl.
    rewrite /hbind; have [e4 _] := hf y h he h (ext_refl h) I; case: (f y h) e4 => h' [w|e] //= e4.
    by have := IHy h' (ext_trans he e4); case: (hmap f ys h') => h'' [ws|e] /=; exact: ext_trans e4.
  split=> //; move: e2; case: (hmap f xs h).2 => // vs; case: (mapM g xs) => // ts hv; split=> //.
  split; first exact: ext_inb e3 i1.
  by rewrite (ext_read e3) //; case/andP: i1.
by move=> vs ts; apply: rf_ret => h he [hv [i1 i2]]; exact: vals_cons.
Qed.
Lemma rf_alloc h0 (P : heap -> Prop) t : wf t -> rf h0 P (halloc t) (Ok t) (fun v t h' => inb h' v /\ vread h' v = t).
Proof.
move=> hw h he hP; split; first exact: ext_trans he (alloc_ext _ _).
by split; [exact: alloc_inb | exact: alloc_read].
Qed.

Lemma stack_wf (ts : seq tens) t : all (@wf R) ts -> stack_last ts = Ok t -> wf t.
Proof.
case: ts => // t0 ts /= /andP[/eqP hw _]; case: ifP => // _ [<-]; rewrite /wf /= size_mkseq numel_rcons hw eqxx.
by [].
Qed.
Lemma jac_block_wf X Y so net S th K M (b : seq (X * Y)) t :
  (forall x th, size (net x th) = numel so) ->
  jac_block so net S th K M b = Ok t -> wf t.
Proof.
move=> hn; rewrite /jac_block; case E: (mapM _ _) => [cols|] //= h; apply: stack_wf h.
elim: (iota 0 K) cols E => [|n ns IH] cols //=; first by move=> [<-].
rewrite /R_op; case: ifP => //= _; case E: (mapM _ _) => [us|] //= [<-] /=.
by rewrite (IH _ E) andbT /wf /= size_map size_mkseq.
Qed.

Lemma jac_refines n X Y so net S th (loader : seq (seq (X * Y))) : (forall x th, size (net x th) = numel so) ->
  mat_refines n (hjac so net S th loader) (jac_matmat so net S th loader).
Proof.
move=> hn; apply: rf_mat => h l hl _; rewrite /hjac /jac_matmat.
apply: (rf_step (@rf_getlist h l)) => M; apply: rf_pure => ->; set M' := nth _ _ _.
have rM h' : ext h h' -> map (vread h') M' = lread h l by move=> he; rewrite (ext_reads he).
apply: (rf_step (@rf_reads h any M' _ (fun h' he _ => rM h' he))) => ts; apply: rf_pure => ->.
apply: (rf_bind (@rf_lift h _ any _)) => K K'; apply: rf_pure => ->.
apply: (rf_bind (Q := vals)).
  apply: rf_hmap => b h1 he1.
  apply: (rf_step (b := lread h l) (Q := fun a b h' => a = b /\ any h')).
    by move=> h2 he2 _; rewrite hmap_read; split=> //=; rewrite (rM h2) //; exact: ext_trans he2.
  move=> us; apply: rf_pure => ->.
  case E: (jac_block so net S th K' (lread h l) b) => [t|e]; last by move=> h' he' _; split.
  apply: (rf_step (@rf_lift h1 _ any (Ok t))) => t'; apply: rf_pure => ->.
  by apply: rf_alloc; exact: jac_block_wf E.
move=> JM js; apply: (rf_step (b := js) (Q := fun a b h' => a = b /\ vals JM js h')).
  by move=> h' he' hv; rewrite hmap_read; split=> //=; split=> //; case: hv.
move=> us; apply: rf_pure => ->.
case E: (tcat js) => [c|e] /=; last by move=> h' he' hv; split.
apply: (rf_step (b := c) (Q := fun a b h' => a = b /\ vals JM js h')); first by move=> h' he' hv; split.
move=> c'; apply: rf_pure => ->; apply: rf_pre => h' he' hv.
have wc : wf c by apply: tcat_wf E; case: hv => v1 <-; rewrite all_map; apply: sub_all v1 => v; exact: vread_wf.
apply: (rf_step (@rf_alloc h _ c wc)) => v; apply: rf_newlist => h'' [i1 i2].
exact: vals_cons.
Qed.

Lemma foldM_scan A (T : Type) (sz : A -> nat) (f : T -> A * nat -> res T) (g : T * nat -> A -> res (T * nat)) xs s n :
  (forall s n x, g (s, n) x = let! s' := f s (x, n) in Ok (s', n + sz x)) ->
  foldM f s (zip xs (n :: scanl addn n [seq sz x | x <- xs])) = let! st := foldM g (s, n) xs in Ok st.1.
Proof.
move=> hg; elim: xs s n => [|x xs IH] s n //=.
by rewrite hg; case: (f s (x, n)) => //= s'; rewrite -IH.
Qed.

Lemma jacT_refines n X Y so net S th (loader : seq (seq (X * Y))) :
  mat_refines n (hjacT so net S th loader) (jacT_matmat so net S th loader).
Proof.
apply: rf_mat => h l hl _; rewrite /hjacT /jacT_matmat.
apply: (rf_step (@rf_getlist h l)) => M; apply: rf_pure => ->; set M' := nth _ _ _.
have rM h' : ext h h' -> map (vread h') M' = lread h l by move=> he; rewrite (ext_reads he).
apply: (rf_step (@rf_reads h any M' _ (fun h' he _ => rM h' he))) => ts; apply: rf_pure => ->.
apply: (rf_bind (@rf_lift h _ any _)) => K K'; apply: rf_pure => ->.
have hz : rf h any (hmap (fun s => halloc (Tensor (rcons s K') (nseq (numel s * K') 0%R))) S)
   (Ok [seq Tensor (rcons s K') (nseq (numel s * K') 0%R) | s <- S]) (own h).
  apply: rf_allocs => //; elim: (S) => //= s S' ->; rewrite andbT /wf /= size_nseq numel_rcons; exact: eqxx.
apply: (rf_step hz) => JTM.
pose g (G : seq tens) (q : seq (X * Y) * nat) := add_columns
  (fun vs => let! v := Jacobian.single vs in vjp th (model_out so net q.1) (pack 0 S) v)
  [seq row_slice q.2 (q.2 + size q.1) m | m <- lread h l] G (iota 0 K').
rewrite -(@foldM_scan _ _ (@size _) g); last by move=> s n' b.
apply: (rf_seq (Q := fun _ => own h JTM)); last first.
  by move=> u us; apply: rf_newlist => h'; exact: own_vals.
apply: rf_for => q us; rewrite /g /add_columns; apply: rf_for => n' us' /=.
apply: (rf_step (@rf_reads h (own h JTM us') M' _ (fun h' he _ => rM h' he))) => ts'; apply: rf_pure => ->.
rewrite -map_comp; apply: (rf_bind (@rf_lift h _ (own h JTM us') _)) => c c'; apply: rf_pure => ->.
apply: rf_own => hs; rewrite cols_addE.
have := @rf_zip h (fun t c => col_add n' t c) [::] JTM [::] [::] us' [::] c' erefl hs (@col_add_size n').
by rewrite /= !cats0 => hzz; apply: rf_weak hzz => // u b' k; rewrite cats0.
Qed.

(* inverse.py 620-663 *)
Lemma inverse_refines n (g : seq tens -> lst R_rcfType) :
  (forall ts, all (@wf R) ts -> all (@wf R) (g ts).1) ->
  mat_refines n (hinverse g) (fun ts => let! _ := (g ts).2 in Ok (g ts).1).
Proof.
move=> hg h l hl _; rewrite /hinverse /hbind /= hmap_read /= -/(lread h l).
have wr : all (@wf R) (lread h l) by rewrite /lread all_map; apply: sub_all hl => v; exact: vread_wf.
have wg := hg _ wr; case: (g (lread h l)) wg => ys r /= wg.
rewrite (@allocs_run _ halloc id) //= map_id.
have [r1 r2 r3] := newviews_read h (set_nth [::] (hlists h) l (newviews (size (hbufs h)) ys)) wg.
case: r => [[]|e] //=; rewrite nth_set_nth /= eqxx; by split.
Qed.

(* ---- KFAC ---- *)
Section KFAC.
Variables (sep : bool) (inC grC : dict nat_eqType tens).
Local Notation Rr := [comRingType of R].
Definition orel (h : heap) (o : option view) (o' : option tens) : Prop :=
  match o, o' with Some v, Some t => inb h v /\ vread h v = t | None, None => True | _, _ => False end.
Fixpoint krel (KM : seq (option view)) (ks : seq (option tens)) (h : heap) : Prop :=
  match KM, ks with o :: KM', o' :: ks' => orel h o o' /\ krel KM' ks' h | [::], [::] => True | _, _ => False end.
Lemma orel_ext h h' o o' : ext h h' -> orel h o o' -> orel h' o o'.
Proof.
case: o o' => [v|] [t|] //= he [i1 i2]; split; first exact: ext_inb i1.
by rewrite (ext_read he) //; case/andP: i1.
Qed.
Lemma krel_ext KM ks h h' : ext h h' -> krel KM ks h -> krel KM ks h'.
Proof. by move=> he; elim: KM ks => [|o KM IH] [|o' ks] //= [/(orel_ext he) ? /IH]. Qed.
Lemma krel_size KM ks h : krel KM ks h -> size KM = size ks.
Proof. by elim: KM ks => [|o KM IH] [|o' ks] //= [_ /IH ->]. Qed.
Lemma krel_set KM ks h i v t : krel KM ks h -> inb h v -> vread h v = t -> i < size KM ->
  krel (set_nth None KM i (Some v)) (set_nth None ks i (Some t)) h.
Proof. by move=> + hv ht; elim: KM ks i => [|o KM IH] [|o' ks] [|i] //= [h1 h2] hi; split=> //; exact: IH. Qed.
Lemma krel_get KM ks h i : krel KM ks h ->
  same_outcome (fun v t => inb h v /\ vread h v = t) (hkget KM i) (kget (F := Rr) ks i).
Proof.
elim: KM ks i => [|o KM IH] [|o' ks] [|i] //= [h1 h2]; last exact: IH.
by case: o h1 => [v|]; case: o' => [t|].
Qed.

Lemma mk3_size m n K (f : nat -> nat -> nat -> Rr) : size (mk3 m n K f) = m * n * K. Proof. exact: size_mkseq. Qed.
Lemma mm_right_wf (X A t : tens) : mm_right (F := Rr) X A = Ok t -> wf t.
Proof.
rewrite /mm_right; case: (tshape X) => [|c [|j [|v [|? ?]]]] //; case: (tshape A) => [|j' [|k [|? ?]]] //.
by case: ifP => // _ [<-]; rewrite /wf mk3_size /= muln1 mulnA.
Qed.
Lemma mm_left_wf (X A t : tens) : mm_left (F := Rr) X A = Ok t -> wf t.
Proof.
rewrite /mm_left; case: (tshape X) => [|j [|k [|? ?]]] //; case: (tshape A) => [|k' [|r rest]] //.
by case: ifP => // _ [<-]; rewrite /wf mk3_size /= muln1.
Qed.
Lemma split_mid_wf w (X : tens) p : split_mid (F := Rr) w X = Ok p -> wf p.1 /\ wf p.2.
Proof.
rewrite /split_mid; case: (tshape X) => [|c [|a [|v [|? ?]]]] //; case: ifP => // _ [<-].
by rewrite /wf /= !mk3_size /= !muln1 mulnA.
Qed.

Lemma rf_kset h0 (P : heap -> Prop) KM ks i v t : (forall h, P h -> krel KM ks h /\ (inb h v /\ vread h v = t)) ->
  rf h0 P (hlift (hkset KM i v)) (kset (F := Rr) ks i t) krel.
Proof.
move=> hP h he /hP[hk [i1 i2]]; split=> //=; rewrite /hkset /kset -(krel_size hk).
by case: ltnP => // hi; exact: krel_set.
Qed.

(* allocation beside other facts *)
Lemma rf_allocP h0 (P : heap -> Prop) t : wf t -> (forall h h', ext h h' -> P h -> P h') ->
  rf h0 P (halloc t) (Ok t) (fun v t h' => (inb h' v /\ vread h' v = t) /\ P h').
Proof.
move=> hw hst h he hP; split; first exact: ext_trans he (alloc_ext _ _).
split; last exact: hst (alloc_ext _ _) hP.
by split; [exact: alloc_inb | exact: alloc_read].
Qed.

Section Layer.
Variables (h0 : heap) (M : seq view).
Hypothesis hM : all (inb h0) M.
Let ts := map (vread h0) M.
Lemma lget_M i : same_outcome (fun v t => (forall h, ext h0 h -> inb h v /\ vread h v = t) /\ vsh v = tshape t) (lget M i) (lget ts i).
Proof.
rewrite /ts /lget -map_drop; elim: (drop i M) (all_drop i hM) => //= v vs _ /andP[hv _]; split=> // h he.
split; first exact: ext_inb hv.
by rewrite (ext_read he) //; case/andP: hv.
Qed.
Lemma rf_lget (P : heap -> Prop) i : rf h0 P (hlift (lget M i)) (lget ts i)
  (fun v t h' => ((forall h, ext h0 h -> inb h v /\ vread h v = t) /\ vsh v = tshape t) /\ P h').
Proof. by move=> h he hP; have := lget_M i; rewrite /hlift /=; case: (lget M i); case: (lget ts i). Qed.

Lemma rf_bind_err A B A' B' (P : heap -> Prop) (m : hm A) (r : res B) (k : A -> hm A') (k' : B -> res B') Q Q' :
  rf h0 P m r Q -> (forall a b, r = Ok b -> rf h0 (Q a b) (k a) (k' b) Q') -> rf h0 P (hbind m k) (bind r k') Q'.
Proof.
move=> hm hk h he hP; have := hm h he hP; rewrite /hbind.
case: (m h) => h' [a|e] /=; case: r hm hk => [b|e'] //= hm hk [e1 e2] //; exact: (hk a b).
Qed.

(* a computation on values, then the allocation of its result *)
Lemma rf_compute A' B' (P : heap -> Prop) (r : res tens) (k : view -> hm A') (k' : tens -> res B') Q :
  (forall h h', ext h h' -> P h -> P h') -> (forall y, r = Ok y -> wf y) ->
  (forall v y, rf h0 (fun h => (inb h v /\ vread h v = y) /\ P h) (k v) (k' y) Q) ->
  rf h0 P (do! y := hlift r in do! v := halloc y in k v) (let! y := r in k' y) Q.
Proof.
move=> hst hw hk; case: r hw => [y|e] hw; last by move=> h he hP; split.
apply: (rf_step (@rf_lift h0 _ P (Ok y))) => y'; apply: rf_pure => ->.
by apply: (rf_step (rf_allocP (hw _ erefl) hst)) => v; exact: hk.
Qed.

Lemma kset_ok KM ks i v t h : krel KM ks h -> inb h v -> vread h v = t -> i < size KM ->
  hkset KM i v = Ok (set_nth None KM i (Some v)) /\ krel (set_nth None KM i (Some v)) (set_nth None ks i (Some t)) h.
Proof. by move=> hk h1 h2 hi; rewrite /hkset hi; split=> //; exact: krel_set. Qed.

Lemma rf_single name KM ks p : size ks = size M ->
  rf h0 (krel KM ks) (hkfac_single inC grC M name KM p) (kfac_single inC grC ts name ks p) krel.
Proof.
move=> hsz; rewrite /hkfac_single /kfac_single.
apply: (rf_bind_err (@rf_lget _ p.2)) => m t et; apply: rf_pure => -[hm hs].
have hp : p.2 < size M by have [] := lget_Ok et t; rewrite /ts size_map.
have hks : p.2 < size ks by rewrite hsz.
apply: (rf_bind (Q := fun KM1 x h => krel KM1 (set_nth None ks p.2 (Some x)) h)).
  case: ifP => _; last first.
    move=> h he hk /=; have [i1 i2] := hm h he.
    by have [-> ?] := kset_ok hk i1 i2 (etrans (congr1 (leq _) (krel_size hk)) hks).
  apply: (rf_step (b := t) (Q := fun a b h => a = b /\ krel KM ks h)).
    by move=> h he hk /=; split=> //; split=> //; have [] := hm h he.
  move=> t'; apply: rf_pure => ->.
  set E := (let! mw := rearr_w t in _).
  have hE y : E = Ok y -> wf y.
    by rewrite /E; case: (rearr_w t) => //= mw; case: (dgetE _ _) => //= A; exact: mm_right_wf.
  have eE : (let! y := E in Ok y) = E by case: (E).
  rewrite -[X in rf _ _ _ X _]eE.
  apply: (rf_compute (P := krel KM ks) (k := fun v => hlift (hkset KM p.2 v)) (k' := fun y => Ok y)).
  - by move=> h h'; exact: krel_ext.
  - exact: hE.
  move=> v y h he [[i1 i2] hk] /=.
  by have [-> ?] := kset_ok hk i1 i2 (etrans (congr1 (leq _) (krel_size hk)) hks).
move=> KM1 x; have hg : lget (set_nth None ks p.2 (Some x)) p.2 = Ok (Some x) by rewrite lget_set // eqxx.
apply: (rf_step (b := x) (Q := fun v t h => (inb h v /\ vread h v = t) /\ krel KM1 (set_nth None ks p.2 (Some x)) h)).
  move=> h he hk; split=> //=; have := krel_get p.2 hk; rewrite /kget hg /=.
  by case: (hkget KM1 p.2).
move=> v; apply: (rf_step (b := x) (Q := fun a b h => a = b /\ krel KM1 (set_nth None ks p.2 (Some x)) h)).
  by move=> h he [[i1 i2] hk].
move=> x'; apply: rf_pure => ->.
have -> : (let! ggT := dgetE name grC in let! y := mm_left ggT x in kset ks p.2 y) =
  (let! y := (let! ggT := dgetE name grC in mm_left (F := Rr) ggT x) in kset (F := Rr) (set_nth None ks p.2 (Some x)) p.2 y).
  case: (dgetE name grC) => //= G; case: (mm_left _ _) => //= y.
  by rewrite /kset size_set_nth (maxn_idPr _) // hks set_set_nth eqxx.
apply: rf_compute; first by move=> h h'; exact: krel_ext.
  by move=> y; case: (dgetE _ _) => //= G; exact: mm_left_wf.
by move=> w y; apply: rf_kset => h [? ?].
Qed.

Lemma rf_joint name KM ks w b : 
  rf h0 (krel KM ks) (hkfac_joint inC grC M name KM w b) (kfac_joint inC grC ts name ks w b) krel.
Proof.
rewrite /hkfac_joint /kfac_joint.
apply: (rf_bind (@rf_lget _ w)) => vw mw0; apply: rf_pure => -[hw _].
apply: (rf_step (b := mw0) (Q := fun a b h => a = b /\ krel KM ks h)).
  by move=> h he hk /=; split=> //; split=> //; have [] := hw h he.
move=> t'; apply: rf_pure => -> {t'}.
apply: (rf_bind (@rf_lift h0 _ (krel KM ks) _)) => mw' mw; apply: rf_pure => -> {mw'}.
apply: (rf_bind (@rf_lget _ b)) => vb mb0; apply: rf_pure => -[hb _].
apply: (rf_step (b := mb0) (Q := fun a b h => a = b /\ krel KM ks h)).
  by move=> h he hk /=; split=> //; split=> //; have [] := hb h he.
move=> t'; apply: rf_pure => -> {t'}.
set E := (let! mb := unsqueeze_mid mb0 in _ : res (tens * tens)).
have -> : (let! mb := unsqueeze_mid mb0 in let! mj := cat_mid mw mb in let! aaT := dgetE name inC in
    let! ggT := dgetE name grC in let! y := sandwich ggT mj aaT in
    let! '(yw, yb) := split_mid (nth 0%N (tshape mw) 1) y in let! KM1 := kset ks w yw in kset KM1 b yb) =
  (let! y := E in let! KM1 := kset (F := Rr) ks w y.1 in kset KM1 b y.2).
  rewrite /E; case: (unsqueeze_mid mb0) => //= mb; case: (cat_mid mw mb) => //= mj; case: (dgetE name inC) => //= A.
  by case: (dgetE name grC) => //= G; case: (sandwich G mj A) => //= y; case: (split_mid _ y) => //= -[].
have hE y : E = Ok y -> wf y.1 /\ wf y.2.
  rewrite /E; case: (unsqueeze_mid mb0) => //= mb; case: (cat_mid mw mb) => //= mj; case: (dgetE name inC) => //= A.
  by case: (dgetE name grC) => //= G; case: (sandwich G mj A) => //= z; exact: split_mid_wf.
case: E hE => [y|e] hE; last by move=> h he hP; split.
have [w1 w2] := hE _ erefl.
apply: (rf_step (@rf_lift h0 _ (krel KM ks) (Ok y))) => y'; apply: rf_pure => -> {y'} /=.
have st := fun h h' => @krel_ext KM ks h h'.
apply: (rf_step (rf_allocP w1 st)) => yw.
apply: (rf_step (@rf_allocP h0 _ y.2 w2 _)).
  move=> h h' he [[i1 i2] hk]; split; last exact: krel_ext hk.
  split; first exact: ext_inb i1.
  by rewrite (ext_read he) //; case/andP: i1.
move=> yb; apply: (rf_bind (Q := fun KM1 ks1 h => krel KM1 ks1 h /\ (inb h yb /\ vread h yb = y.2))).
  move=> h he [[i1 i2] [[i3 i4] hk]]; have := @rf_kset h0 (eq h) KM ks w yw y.1 _ h he erefl.
  rewrite /hlift /= => /(_ (fun h' (e : h = h') => eq_ind h (fun h' => krel KM ks h' /\ (inb h' yw /\ vread h' yw = y.1)) (conj hk (conj i3 i4)) h' e)).
  by case: (hkset _ _ _) => [?|?]; case: (kset _ _ _) => [?|?] [].
by move=> KM1 ks1; apply: rf_kset.
Qed.

Lemma kset_size ks i t ks' : kset (F := Rr) ks i t = Ok ks' -> size ks' = size ks.
Proof. by rewrite /kset; case: ltnP => // hi [<-]; rewrite size_set_nth (maxn_idPr _). Qed.
Lemma single_size name ks p ks' : kfac_single (F := Rr) inC grC ts name ks p = Ok ks' -> size ks' = size ks.
Proof.
rewrite /kfac_single; case: (lget _ _) => //= m; case: (if _ then _ else _) => //= x.
by case: (dgetE _ _) => //= G; case: (mm_left _ _) => //= y; exact: kset_size.
Qed.
Lemma joint_size name ks w b ks' : kfac_joint (F := Rr) inC grC ts name ks w b = Ok ks' -> size ks' = size ks.
Proof.
rewrite /kfac_joint; case: (lget _ _) => //= mw0; case: (rearr_w _) => //= mw; case: (lget _ _) => //= mb0.
case: (unsqueeze_mid _) => //= mb; case: (cat_mid _ _) => //= mj; case: (dgetE _ _) => //= A; case: (dgetE _ _) => //= G.
case: (sandwich _ _ _) => //= y; case: (split_mid _ _) => //= -[yw yb].
by case E: (kset ks w yw) => [k1|] //= /kset_size ->; exact: kset_size E.
Qed.

Lemma rf_hfold (A : Type) (f : seq (option view) -> A -> hm (seq (option view))) (g : seq (option tens) -> A -> res (seq (option tens))) xs KM ks :
  (forall KM ks x, size ks = size M -> rf h0 (krel KM ks) (f KM x) (g ks x) krel) ->
  (forall ks x ks', g ks x = Ok ks' -> size ks' = size ks) -> size ks = size M ->
  rf h0 (krel KM ks) (hfold f KM xs) (foldM g ks xs) krel.
Proof.
move=> hf hg; elim: xs KM ks => [|x xs IH] KM ks hs /=; first by apply: rf_ret.
by apply: (rf_bind_err (hf _ _ x hs)) => KM1 ks1 e1; apply: IH; rewrite (hg _ _ _ e1).
Qed.
Lemma foldM_size (A : Type) (g : seq (option tens) -> A -> res (seq (option tens))) xs ks ks' :
  (forall ks x ks', g ks x = Ok ks' -> size ks' = size ks) -> foldM g ks xs = Ok ks' -> size ks' = size ks.
Proof.
move=> hg; elim: xs ks => [|x xs IH] ks /=; first by move=> [->].
by case E: (g ks x) => [k1|] //= /IH ->; exact: hg E.
Qed.
Lemma layer_size ks e ks' : kfac_layer (F := Rr) sep inC grC ts ks e = Ok ks' -> size ks' = size ks.
Proof.
rewrite /kfac_layer; case: (match dget Weight e.2 with Some _ => _ | None => _ end) => //= ws.
set m := (match sep with true => _ | false => _ end).
have hm k1 : m = Ok k1 -> size k1 = size ks.
  have hs : foldM (kfac_single (F := Rr) inC grC ts e.1) ks e.2 = Ok k1 -> size k1 = size ks.
    by apply: foldM_size => k x k'; exact: single_size.
  by rewrite /m; case: (sep); case: (dget Weight e.2) => [w|]; case: (dget Bias e.2) => [b|] //; exact: joint_size.
case: m hm => //= k1 /(_ _ erefl) h1; case: ws => [[w s]|]; last by move=> [<-].
by case: (kget _ _) => //= kw; case: (treshape _ _) => //= t /kset_size ->.
Qed.

Lemma rf_layer KM ks e : size ks = size M ->
  rf h0 (krel KM ks) (hkfac_layer sep inC grC M KM e) (kfac_layer (F := Rr) sep inC grC ts ks e) krel.
Proof.
move=> hs; rewrite /hkfac_layer /kfac_layer.
apply: (rf_bind (Q := fun a b h => a = b /\ krel KM ks h)).
  move=> h he hk; split=> //=; case: (dget Weight e.2) => [w|] //.
  by have := lget_M w; case: (lget M w) => [v|?]; case: (lget ts w) => [t|?] //= [_ ->].
move=> ws' ws; apply: rf_pure => -> {ws'}; apply: (rf_bind (Q := krel)).
  have hf : rf h0 (krel KM ks) (hfold (hkfac_single inC grC M e.1) KM e.2) (foldM (kfac_single (F := Rr) inC grC ts e.1) ks e.2) krel.
    by apply: rf_hfold => // [K1 k1 p|k x k']; [exact: rf_single | exact: single_size].
  by case: (sep); case: (dget Weight e.2) => [w|]; case: (dget Bias e.2) => [b|] //; exact: rf_joint.
move=> KM1 ks1; case: ws => [[w s]|]; last by apply: rf_ret.
apply: (rf_bind (Q := fun v t h => (inb h v /\ vread h v = t) /\ krel KM1 ks1 h)).
  move=> h he hk; split=> //=; have := krel_get w hk.
  by case: (hkget KM1 w) => [v|?]; case: (kget ks1 w).
move=> kw t; apply: (rf_step (b := t) (Q := fun a b h => a = b /\ ((inb h kw /\ vread h kw = t) /\ krel KM1 ks1 h))).
  by move=> h he [[i1 i2] hk].
move=> t'; apply: rf_pure => -> {t'}.
apply: (rf_bind_err (@rf_lift h0 _ _ _)) => t1 t2 et; apply: rf_pure => _.
apply: rf_kset => h [[i1 i2] hk]; split=> //; move: et; rewrite /treshape -i2 /=.
case: eqP => // en [<-]; have sz : numel s = numel (vsh kw) by rewrite en; apply/eqP; exact: vread_wf i1.
by split; [move: i1; rewrite /inb /= sz | rewrite /vread /= sz].
Qed.
End Layer.

Lemma kfac_refines n mp : mat_refines n (hkfac sep inC grC mp) (kfac_matmat (F := Rr) sep inC grC mp).
Proof.
apply: rf_mat => h l hl _; rewrite /hkfac /kfac_matmat.
apply: (rf_step (@rf_getlist h l)) => M; apply: rf_pure => ->; set M' := nth _ _ _.
apply: (rf_bind (Q := krel)).
  apply: (rf_weak (P := krel (nseq (size M') None) (nseq (size (lread h l)) None)) (Q := krel)) => //.
    by move=> h' _; rewrite /lread size_map; elim: (size _).
  apply: (rf_hfold (M := M')) => [KM ks e|ks x ks'|]; [exact: rf_layer | exact: layer_size | ].
  by rewrite size_nseq size_map.
move=> KM ks; apply: (rf_seq (Q := vals)); last by move=> vs ts; apply: rf_newlist.
move=> h' he hk; split=> //=; elim: KM ks hk => [|o KM IH] [|o' ks] //= [ho hk].
have := IH _ hk; case: o ho => [v|]; case: o' => [t|] //= [i1 i2].
by case: (mapM _ KM) => [vs|?]; case: (mapM _ ks) => [us|?] //=; exact: vals_cons.
Qed.
End KFAC.
