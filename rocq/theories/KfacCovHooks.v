(* Facts about the hooks of KfacCov.v on batches of data. *)
From Coq Require Import Reals.
From Coquelicot Require Import Coquelicot.
From mathcomp Require Import all_ssreflect all_algebra.
From Verif Require Import PyPrelude Tensor Spec TorchBase Submatrix RInst Calculus Curvature Risk Conv Props_Conv Kfac KfacCov.
Set Implicit Arguments.
Unset Strict Implicit.
Unset Printing Implicit Defensive.
Import GRing.Theory.
Local Open Scope ring_scope.

Section Hooks.
Variable F : fieldType.
Local Notation tens := (tensor F).

Lemma numel_rcons_split s d : numel (rcons s d) = (numel s * d)%N.
Proof. by rewrite numel_rcons. Qed.

Lemma rows_expandP (t : tens) n s d : tshape t = n :: rcons s d ->
  rows_expand t = Ok (Tensor [:: n * numel s; d]%N (tdata t)).
Proof.
rewrite /rows_expand => ->; case e : (rcons s d) => [|a r]; first by case: s e.
by rewrite -e size_rcons /= -cats1 take_size_cat // cats1 last_rcons.
Qed.

Lemma rows_reduceP mean (t : tens) n s d : tshape t = n :: rcons s d -> exists t',
  [/\ rows_reduce mean t = Ok t', tshape t' = [:: n; d] &
   forall b j, (b < n)%N -> (j < d)%N ->
     nth 0 (tdata t') (b * d + j) =
     (if mean then (\sum_(u < numel s) nth 0 (tdata t) ((b * numel s + u) * d + j)) / (numel s)%:R
      else \sum_(u < numel s) nth 0 (tdata t) ((b * numel s + u) * d + j))].
Proof.
rewrite /rows_reduce => ->; case e : (rcons s d) => [|a r]; first by case: s e.
rewrite -e size_rcons /= -cats1 take_size_cat // cats1 last_rcons.
eexists; split=> // b j hb hj /=; rewrite nth_mkseq; last exact: idx_lt.
by have [-> ->] := dm b hj; rewrite sumrE.
Qed.

Lemma covarianceP (c : F) (x : tens) n d : tshape x = [:: n; d] -> exists t,
  [/\ covariance c x = Ok t, tshape t = [:: d; d], wf t &
   forall i j, (i < d)%N -> (j < d)%N -> entry d (tdata t) i j =
     c * \sum_(r < n) nth 0 (tdata x) (r * d + i) * nth 0 (tdata x) (r * d + j)].
Proof.
rewrite /covariance => ->; eexists; split=> //; first by rewrite /wf /= size_mkseq muln1.
move=> i j hi hj; rewrite /entry /= nth_mkseq; last exact: idx_lt.
by have [-> ->] := dm i hj; rewrite sumrE.
Qed.

(* a with a trailing 1 *)
Definition aug (d : nat) (a : nat -> F) (j : nat) : F := if (j < d)%N then a j else 1.

Lemma cat_onesP (x : tens) n d : tshape x = [:: n; d] -> exists t,
  [/\ cat_ones x = Ok t, tshape t = [:: n; d.+1] &
   forall r j, (r < n)%N -> (j < d.+1)%N -> nth 0 (tdata t) (r * d.+1 + j) = aug d (fun j => nth 0 (tdata x) (r * d + j)) j].
Proof.
rewrite /cat_ones => ->; eexists; split=> // r j hr hj /=; rewrite nth_mkseq; last exact: idx_lt.
by have [-> ->] := dm r hj.
Qed.

(* the row sum over a batch with S rows per datum *)
Lemma input_covariance_rows (joint : bool) (c : F) (x : tens) n d : tshape x = [:: n; d] -> exists t,
  [/\ (let! x3 := if joint then cat_ones x else Ok x in covariance c x3) = Ok t,
      tshape t = [:: (d + joint)%N; (d + joint)%N], wf t &
   forall i j, (i < d + joint)%N -> (j < d + joint)%N -> entry (d + joint) (tdata t) i j =
     c * \sum_(r < n) aug d (fun j => nth 0 (tdata x) (r * d + j)) i * aug d (fun j => nth 0 (tdata x) (r * d + j)) j].
Proof.
move=> sx; case: joint => /=.
  rewrite addn1; have [t1 [-> s1 v1]] := cat_onesP sx; have [t [h1 h2 h3 h4]] := covarianceP c s1.
  exists t; split=> // i j hi hj; rewrite h4 //; congr (_ * _); apply: eq_bigr => r _.
  by rewrite !v1.
rewrite addn0; have [t [h1 h2 h3 h4]] := covarianceP c sx; exists t; split=> // i j hi hj.
by rewrite h4 //; congr (_ * _); apply: eq_bigr => r _; rewrite /aug hi hj.
Qed.

(* ---- convolutions ---- *)
Lemma extract_patches_ok (x : tens) c n C i1 i2 p1 p2 o1 o2 :
  tshape x = [:: n; C; i1; i2] -> (0 < c_groups c)%N -> (c_groups c %| C)%N -> paddings c p1 p1 p2 p2 ->
  out_size i1 (c_k1 c) (c_s1 c) p1 p1 (c_d1 c) = Some o1 -> out_size i2 (c_k2 c) (c_s2 c) p2 p2 (c_d2 c) = Some o2 ->
  let E := (C %/ c_groups c)%N in
  exists P, [/\ extract_patches x c = Ok P, tshape P = [:: n; o1 * o2; E * c_k1 c * c_k2 c]%N &
   forall b s j, (b < n)%N -> (s < o1 * o2)%N -> (j < E * c_k1 c * c_k2 c)%N ->
     nth 0 (tdata P) ((b * (o1 * o2) + s) * (E * c_k1 c * c_k2 c) + j) =
     group_pixel (c_groups c) C i1 i2 x b (j %/ c_k2 c %/ c_k1 c)
       (hpos (c_s1 c) (c_d1 c) p1 (s %/ o2) (j %/ c_k2 c %% c_k1 c)%N) (hpos (c_s2 c) (c_d2 c) p2 (s %% o2) (j %% c_k2 c)%N)].
Proof.
move=> sx g0 gC hpad ho1 ho2 E.
have hint : int_padding c = Ok (p1, p2).
  move: hpad; rewrite /paddings /int_padding; case: (c_pad c) => [a1 a2 [-> _ -> _]|[e1 [e2 [h1 h2 h3 h4]]]|[-> _ -> _]] //.
  by rewrite /pad_axis /conv_paddings e1 e2 /= -h1 -h3 -h2 -h4 !eqxx.
have [x' hx] : exists x', group_mean (c_groups c) x = Ok x' by rewrite /group_mean sx g0 gC; eexists.
have [n' [C' [i1' [i2' [sx1 _ _ sx' _]]]]] := group_meanP hx.
move: sx1; rewrite sx => -[? ? ? ?]; subst n' C' i1' i2'.
have [P hP] : exists P, extract_patches x c = Ok P.
  by rewrite /extract_patches hint /= hx /= /unfold sx' ho1 ho2 /=; eexists.
have [n' [C' [i1' [i2' [o1' [o2' [p1' [p2' [sx1 hp1 [ho1' ho2'] sP vP]]]]]]]]] := C46_patch_content hP.
move: sx1; rewrite sx => -[? ? ? ?]; subst n' C' i1' i2'.
have [e1 e2] : p1' = p1 /\ p2' = p2.
  have [hp0 _] := int_paddingP hint.
  move: hp1 hp0; rewrite /uses_padding; case: (c_pad c) => [q1 q2|[_ _ e1 e2] [_ _ e3 e4]|] ; last 1 first.
  - by case=> -> -> [-> ->].
  - by case=> -> -> [-> ->].
  by rewrite -e3 in e1; rewrite -e4 in e2; split; apply/eqP; rewrite -(eqn_pmul2l (m := 2)) // ?e1 ?e2.
subst p1' p2'; move: ho1'; rewrite ho1 => -[?]; move: ho2'; rewrite ho2 => -[?]; subst o1' o2'.
exists P; split=> // b s j hb hs hj.
have k2p : (0 < c_k2 c)%N by move: hj; case: (c_k2 c) => //; rewrite muln0.
have k1p : (0 < c_k1 c)%N by move: hj; case: (c_k1 c) => //; rewrite muln0 mul0n.
have o2p : (0 < o2)%N by move: hs; case: (o2) => //; rewrite muln0.
rewrite -vP //; first by rewrite -!divn_eq.
- by rewrite !ltn_divLR.
- by rewrite ltn_mod.
- by rewrite ltn_mod.
- by rewrite ltn_divLR.
by rewrite ltn_mod.
Qed.

Lemma channels_lastP (g : tens) n c o1 o2 : tshape g = [:: n; c; o1; o2] -> exists t,
  [/\ channels_last g = Ok t, tshape t = [:: n; o1; o2; c] &
   forall b s i, (b < n)%N -> (s < o1 * o2)%N -> (i < c)%N ->
     nth 0 (tdata t) ((b * (o1 * o2) + s) * c + i) = nth 0 (tdata g) (b * (c * (o1 * o2)) + (i * (o1 * o2) + s))].
Proof.
rewrite /channels_last => ->; eexists; split=> // b s i hb hs hi /=.
have o2p : (0 < o2)%N by move: hs; case: (o2) => //; rewrite muln0.
rewrite {1}(divn_eq s o2) regroup2 nth_mk4 ?ltn_divLR ?ltn_mod // /at4.
congr nth; rewrite -regroup2 -divn_eq mulnDl -!mulnA addnA //.
Qed.

Lemma correctionP red N M T n : red <> ROther -> (0 < N)%N -> (0 < M)%N -> (0 < T)%N ->
  correction red N M T n = Ok (match red with RMean => ((n * T) ^ 2)%:R / (N * M * T)%:R | _ => M%:R^-1 end : F).
Proof.
move=> hr hN hM hT; rewrite /correction (gtn_eqF hM) /= gtn_eqF ?muln_gt0 ?hN ?hM //=.
by case: red hr.
Qed.
End Hooks.

Section Dict.
Variable F : fieldType.
Local Notation tens := (tensor F).
Local Notation cov := (dict nat_eqType tens).

Lemma dget_dset (K : eqType) V k k' (v : V) (d : dict K V) : dget k' (dset k v d) = if k == k' then Some v else dget k' d.
Proof.
elim: d => [|[a w] d IH] /=; rewrite /dget /=; first by case: ifP.
case: (a =P k) => [->|ne] /=; first by case: ifP.
rewrite -!/(dget _ _); case: (a =P k') => [e|_] /=; last exact: IH.
by case: eqP => // e'; case: ne; rewrite e e'.
Qed.

(* the matrix that the updates of key k in one of the dictionaries sum up to *)
Definition in_part (k : nat) (d : nat) (i j : nat) (u : update F) : F :=
  if u is UIn k' t then if k' == k then entry d (tdata t) i j else 0 else 0.
Definition grad_part (k : nat) (d : nat) (i j : nat) (u : update F) : F :=
  if u is UGrad k' t then if k' == k then entry d (tdata t) i j else 0 else 0.
Definition hits_in (k : nat) (u : update F) : bool := if u is UIn k' _ then k' == k else false.
Definition hits_grad (k : nat) (u : update F) : bool := if u is UGrad k' _ then k' == k else false.

(* every key has one size *)
Definition sized (din dgr : nat -> nat) (u : update F) : Prop :=
  match u with
  | UIn k t => tshape t = [:: din k; din k] /\ wf t
  | UGrad k t => tshape t = [:: dgr k; dgr k] /\ wf t
  | USet _ _ => False
  end.
Definition dsized (sz : nat -> nat) (d : cov) : Prop :=
  forall k t, dget k d = Some t -> tshape t = [:: sz k; sz k] /\ wf t.

Lemma taddP d (a b : tens) : tshape a = [:: d; d] -> tshape b = [:: d; d] -> wf a -> exists t,
  [/\ tadd a b = Ok t, tshape t = [:: d; d], wf t &
   forall i j, (i < d)%N -> (j < d)%N -> entry d (tdata t) i j = entry d (tdata a) i j + entry d (tdata b) i j].
Proof.
move=> sa sb wa; rewrite /tadd sa sb eqxx; eexists; split=> //; first by rewrite /wf /= size_mkseq (eqP wa) sa.
move=> i j hi hj; rewrite /entry nth_mkseq // (eqP wa) sa /= muln1; exact: idx_lt.
Qed.

Lemma accumulateP sz k t (d : cov) : dsized sz d -> tshape t = [:: sz k; sz k] -> wf t ->
  exists d', [/\ accumulate k t d = Ok d', dsized sz d',
    (forall k', isSome (dget k' d') = (k == k') || isSome (dget k' d)) &
    forall k' i j, (i < sz k')%N -> (j < sz k')%N ->
      oapp (fun t => entry (sz k') (tdata t) i j) 0 (dget k' d') =
      oapp (fun t => entry (sz k') (tdata t) i j) 0 (dget k' d) + (if k == k' then entry (sz k') (tdata t) i j else 0)].
Proof.
move=> hd st wt; rewrite /accumulate; case e : (dget k d) => [a|].
  have [sa wa] := hd _ _ e; have [t' [-> s1 w1 v1]] := taddP sa st wa.
  eexists; split; first reflexivity.
  - by move=> k' t''; rewrite dget_dset; case: eqP => [<- [<-]|_ /hd].
  - by move=> k'; rewrite dget_dset; case: eqP => // ->.
  move=> k' i j; rewrite dget_dset; case: eqP => [<-|_] hi hj; rewrite ?addr0 //=.
  by rewrite e /= v1.
eexists; split; first reflexivity.
- by move=> k' t''; rewrite dget_dset; case: eqP => [<- [<-]|_ /hd].
- by move=> k'; rewrite dget_dset; case: eqP.
move=> k' i j; rewrite dget_dset; case: eqP => [<-|_] hi hj; rewrite ?addr0 //=.
by rewrite e /= add0r.
Qed.

(* a run of successful accumulations *)
Lemma run_updatesP din dgr (us : seq (update F)) (st : cov * cov) :
  (forall u, List.In u us -> sized din dgr u) -> dsized din st.1 -> dsized dgr st.2 ->
  exists st', [/\ run_updates st [seq Ok u | u <- us] = (st', Ok tt), dsized din st'.1 /\ dsized dgr st'.2,
    (forall k, isSome (dget k st'.1) = isSome (dget k st.1) || has (hits_in k) us) /\
    (forall k, isSome (dget k st'.2) = isSome (dget k st.2) || has (hits_grad k) us),
    (forall k i j, (i < din k)%N -> (j < din k)%N ->
      oapp (fun t => entry (din k) (tdata t) i j) 0 (dget k st'.1) =
      oapp (fun t => entry (din k) (tdata t) i j) 0 (dget k st.1) + \sum_(u <- us) in_part k (din k) i j u) &
    (forall k i j, (i < dgr k)%N -> (j < dgr k)%N ->
      oapp (fun t => entry (dgr k) (tdata t) i j) 0 (dget k st'.2) =
      oapp (fun t => entry (dgr k) (tdata t) i j) 0 (dget k st.2) + \sum_(u <- us) grad_part k (dgr k) i j u)].
Proof.
elim: us st => [|u us IH] st hu h1 h2 /=.
  exists st; split=> //; first by split=> k; rewrite orbF.
  - by move=> k i j _ _; rewrite big_nil addr0.
  by move=> k i j _ _; rewrite big_nil addr0.
have hus u' : List.In u' us -> sized din dgr u' by move=> h; apply: hu; right.
case: u hu (hu u (or_introl erefl)) => [k t|k t|k t] hu //= [st1 wt].
- have [d' [-> hd' hs hv]] := accumulateP h1 st1 wt; rewrite /=.
  have [st' [e1 e2 [e3 e4] e5 e6]] := IH (d', st.2) hus hd' h2; exists st'; split=> //.
  + by split=> k' /=; [rewrite e3 /= hs; case: (k == k'); rewrite ?orbT|rewrite e4].
  + by move=> k' i j hi hj; rewrite e5 //= hv // big_cons -addrA.
  by move=> k' i j hi hj; rewrite e6 //= big_cons add0r.
have [d' [-> hd' hs hv]] := accumulateP h2 st1 wt; rewrite /=.
have [st' [e1 e2 [e3 e4] e5 e6]] := IH (st.1, d') hus h1 hd'; exists st'; split=> //.
- by split=> k' /=; [rewrite e3|rewrite e4 /= hs; case: (k == k'); rewrite ?orbT].
- by move=> k' i j hi hj; rewrite e5 //= big_cons add0r.
by move=> k' i j hi hj; rewrite e6 //= hv // big_cons -addrA.
Qed.
End Dict.
