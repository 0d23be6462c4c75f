(* The inverse KFAC operator as an object: C51 (caching is unobservable) and the
   state round trip of C52. *)
From Coq Require Import Reals Lra String ZArith.
From Coquelicot Require Import Coquelicot.
From mathcomp Require Import all_ssreflect all_algebra.
From Verif Require Import PyPrelude Tensor Spec RInst ROrd Calculus Curvature HessGGN Risk Losses Fisher Kfac KfacScalar Conv KfacCov KfacState KfacStateProof Props_KfacState KfacInverse KfacInvProof KfacInvState.
Set Implicit Arguments.
Unset Strict Implicit.
Unset Printing Implicit Defensive.
Import GRing.Theory.
Local Open Scope ring_scope.
Local Notation tens := (tensor R).
Local Notation RF := R_rcfType.
Local Notation cov := (dict nat_eqType tens).

Section World.
Variables (Theta : Type) (arch : Theta -> nat) (partial_load : Theta -> Theta -> Theta).
Variables (passes : kop -> Theta -> nat -> seq (res firing)) (mconv : nat -> nat -> option conv).
Variables (chol : bool -> tens -> res tens) (chol_nf : bool -> tens -> ext RF -> res tens).
Variables (chol_inv : tens -> res tens) (eigh : tens -> res (tens * tens)).
Variable dbl : bool.
Local Notation world := (world Theta).
Local Notation iworld := (iworld Theta).
Local Notation step := (step arch partial_load passes mconv).
Local Notation ensure := (ensure passes mconv).
Local Notation imatmat := (imatmat passes mconv chol chol_nf chol_inv eigh dbl).
Local Notation istep := (istep arch partial_load passes mconv chol chol_nf chol_inv eigh dbl).
Local Notation irun := (irun arch partial_load passes mconv chol chol_nf chol_inv eigh dbl).
Local Notation seen := (seen arch partial_load passes mconv chol chol_nf chol_inv eigh dbl).
Local Notation iload := (iload arch partial_load).
Local Notation mm := (inverse_matmat chol chol_nf chol_inv eigh).
Local Notation fits s d := (fits_cache chol chol_nf chol_inv eigh s dbl d.1 d.2).

(* ---- operators keep their dictionaries unless they are loaded ---- *)
Definition keeps (i : nat) (w w' : world) : Prop := forall o, lget (w_ops w) i = Ok o ->
  exists o', [/\ lget (w_ops w') i = Ok o', o_dicts o' = o_dicts o & o_mapping o' = o_mapping o].
Lemma keeps_refl i w : keeps i w w.
Proof. by move=> o ho; exists o. Qed.
Lemma ensure_keeps (w w' : world) i j : inv w -> ensure w i = (w', Ok tt) -> keeps j w w'.
Proof.
move=> hw he o ho; have [_ _ _ _ [o1 [e1 e2 e3]]] := ensure_inv hw he.
case: (j =P i) => [ej|/e3 e]; last by exists o; rewrite e.
subst j; move: e1 e2; rewrite ho => -[<-] e2; rewrite e2.
by case: (computed _); [exists o|exists (reset o)].
Qed.
Lemma load_keeps (w w' : world) i s j r : load arch partial_load w i s = (w', r) -> j <> i -> keeps j w w'.
Proof.
rewrite /load /getn => + /eqP hne o ho; case hi : (lget (w_ops w) i) => [o1|e]; last by case=> <- _; exists o.
have hs : (i < size (w_ops w))%N by have [] := lget_Ok hi o1.
case: (lget _ _) => [m|e]; last by case=> <- _; exists o.
case: (lget _ _) => [ms|e]; last by case=> <- _; exists o.
do 3 (case: ifP => _; first by case=> <- _; exists o).
by case: ifP => _ [<- _]; exists o; rewrite /= !lget_set ?size_set_nth ?(maxn_idPr hs) // (negbTE hne).
Qed.
(* a rejected load changes no operator *)
Lemma rejected_keeps (w w' : world) i s j e :
  (forall o, lget (w_ops w) i = Ok o -> own_keys_ok (get_dicts w (o_dicts o)) (o_mapping o)) ->
  load arch partial_load w i s = (w', Err e) -> keeps j w w'.
Proof. by move=> hk /(load_rejected hk)[e1 _ _ _] o ho; exists o; rewrite e1. Qed.
Lemma step_keeps (w : world) a i : inv w -> clean_step arch partial_load passes mconv w a -> ~~ loads i a -> keeps i w (step w a).1.
Proof.
move=> hw hc hl o ho; have same : exists o', [/\ lget (w_ops w) i = Ok o', o_dicts o' = o_dicts o & o_mapping o' = o_mapping o] by exists o.
have hi : (i < size (w_ops w))%N by have [] := lget_Ok ho o.
case: a hc hl => [m lo ids mods s'|k M|k p|k|k j|j m ids mods|j|m th] /=.
- move=> _ _; rewrite /construct; case: ifP => _ //; case: (compute_parameter_mapping _ _) => [mp|e] //=; case: (nilp ids) => //=.
  by rewrite lget_rcons (ltn_eqF hi).
- rewrite /matmat; case E : (KfacState.ensure _ _ _ _) => [w' r] /= e _; subst r.
  exact: ensure_keeps hw E _ ho.
- case E : (read _ _ _ _ _) => [w' [v|e]] //= _ _.
  have [_ _ _ _ [o1 [e1 [o0 e2 e4] _ e3]]] := read_inv hw E; case: (i =P k) => [ek|/e3 -> //]; subst k.
  by move: e2 e4; rewrite ho => -[<-] e4; exists o1; rewrite e4.
- by move=> _ _; case: (bind _ _).
- move=> _ /eqP hk; rewrite /getn; case: (lget (w_saved w) j) => [s'|e] //=.
  case E : (load _ _ _ _ _) => [w' r] /=; apply: (load_keeps E) ho => e; by apply: hk.
- move=> _ _; rewrite /getn; case: (lget (w_saved w) j) => [s'|e] //=.
  rewrite /from_state_dict /construct; case: ifP => _ //; case: (compute_parameter_mapping _ _) => [mp|e] //; case: (nilp ids) => //.
  case E : (load _ _ _ _ _) => [w' r] /=; apply: (load_keeps E); last by rewrite /= lget_rcons (ltn_eqF hi).
  by move=> e; rewrite e ltnn in hi.
- by move=> _ _; rewrite /getn; case: (lget (w_saved w) j) => [s'|e] //; rewrite /copy_saved; case: (getn _ _).
- by move=> _ _; case: (getn _ _).
Qed.

(* ---- the invariant ---- *)
(* inverse operator v holds operator i *)
Definition holds (w : iworld) (v i : nat) : Prop := exists2 o, lget (iw_invs w) v = Ok o & v_A o = i.
(* every location of inverses belongs to one pair of factor dictionaries and one
   damping, whichever inverse operator or state refers to it *)
Definition owned (w : iworld) (own : nat -> nat * iset RF) : Prop :=
  [/\ (forall v o, lget (iw_invs w) v = Ok o -> (v_loc o < size (iw_caches w))%N /\
        exists2 a, lget (w_ops (iw_k w)) (v_A o) = Ok a & own (v_loc o) = (o_dicts a, v_set o)),
      (forall j s, lget (iw_saved w) j = Ok s ->
        [/\ (is_loc s < size (iw_caches w))%N, own (is_loc s) = (sd_dicts (is_A s), is_set s) & sd_coherent (iw_k w) (is_A s)]) &
      (forall l, (l < size (iw_caches w))%N ->
        let d := get_dicts (iw_k w) (own l).1 in
        [/\ ((own l).1 < size (w_dicts (iw_k w)))%N, fits (own l).2 d (nth no_inverses (iw_caches w) l) &
            nth no_inverses (iw_caches w) l = no_inverses \/ computed d])].
Definition iinv (w : iworld) : Prop := inv (iw_k w) /\ exists own, owned w own.

(* moving the KFAC operators forward *)
Lemma owned_k (w : iworld) own k : owned w own -> kept (iw_k w) k ->
  (forall v o, lget (iw_invs w) v = Ok o -> keeps (v_A o) (iw_k w) k) -> owned (with_k w k) own.
Proof.
move=> [h1 h2 h3] [k1 k2] hk; split.
- move=> v o hv; have [a1 [a e1 e2]] := h1 _ _ hv; split=> //.
  by have [a' [f1 f2 _]] := hk _ _ hv _ e1; exists a' => //; rewrite e2 f2.
- by move=> j s /h2[a1 a2 a3]; split=> //; exact: coherent_kept a3.
move=> l hl /=; have [a1 a2 a3] := h3 _ hl; split=> //; first exact: leq_trans k1.
  case: a3 => [->|hc]; first exact: fits_nil.
  by rewrite k2.
by case: a3 => [->|hc]; [left|right; rewrite k2].
Qed.

(* ---- histories ---- *)
(* The calls that must not fail are those of KfacStateProof.clean_step: loads may be
   rejected, except by the check of the operator's own keys.  The two further
   conditions are the cases in which the claim is false of the code: a
   load may not replace the factors under another inverse operator
   (C51_stale_refuted, C51_shared_refuted), and a data pass that yields no factors
   at all must not be followed by a product. *)
Definition alone (w : iworld) (i : nat) (v : nat) : Prop := forall v', holds w v' i -> v' = v.
Definition same_origin (w : iworld) (i j : nat) : Prop :=
  forall a s, lget (w_ops (iw_k w)) i = Ok a -> lget (iw_saved w) j = Ok s -> sd_origin (is_A s) = o_mapping a.
Definition keys_ok (w : iworld) (i : nat) : Prop :=
  forall a, lget (w_ops (iw_k w)) i = Ok a -> own_keys_ok (get_dicts (iw_k w) (o_dicts a)) (o_mapping a).
Definition iclean_step (w : iworld) (a : iaction Theta) : Prop :=
  match a with
  | IKfac a => clean_step arch partial_load passes mconv (iw_k w) a /\ forall i v, loads i a -> ~ holds w v i
  | IMatmat v _ => forall o, lget (iw_invs w) v = Ok o ->
      (ensure (iw_k w) (v_A o)).2 = Ok tt /\
      forall a, lget (w_ops (iw_k w)) (v_A o) = Ok a -> o_mapping a <> [::] ->
        computed (get_dicts (ensure (iw_k w) (v_A o)).1 (o_dicts a))
  | ILoad v j => forall o, lget (iw_invs w) v = Ok o -> keys_ok w (v_A o) /\
      ((istep w a).2 = Done (Ok tt) -> alone w (v_A o) v /\ same_origin w (v_A o) j)
  | IFrom j i => keys_ok w i /\ ((istep w a).2 = Done (Ok tt) -> (forall v, ~ holds w v i) /\ same_origin w i j)
  | _ => True
  end.
Fixpoint iclean (w : iworld) (acts : seq (iaction Theta)) : Prop :=
  match acts with [::] => True | a :: acts' => iclean_step w a /\ iclean (istep w a).1 acts' end.

(* ---- what a product does to the cache ---- *)
Lemma mm_nocache s sep inC grC mp c X : i_cache s = false -> (mm s dbl sep inC grC mp c X).1.1 = c.
Proof.
move=> hs; elim: mp c X => [|e mp IH] c X //=; rewrite /inverse_layer.
have hg : (get_inverse chol chol_nf chol_inv eigh s dbl inC grC c e.1).1.1 = c.
  by rewrite /get_inverse hs; case: (dget _ _) => // ; case: compute_inverse_factors => ev [[a g]|x].
case: get_inverse hg => [[c' ev] [[ai gi]|x]] /= -> //; case: multiply_layer => X' [u|x] //=.
by have := IH c X'; case: (mm _ _ _ _ _ _ _ _) => [[c2 ev2] r] /= ->.
Qed.
Lemma factors_nocache s a g : compute_inverse_factors chol chol_nf chol_inv eigh (nocache s) dbl a g =
  compute_inverse_factors chol chol_nf chol_inv eigh s dbl a g.
Proof. by case: s. Qed.
Lemma mult_nocache s sep ai gi ps (X : seq tens) : multiply_layer (F := RF) (nocache s) sep ai gi ps X = multiply_layer s sep ai gi ps X.
Proof. by case: s. Qed.
Lemma mm_set_nocache s sep inC grC mp c X : fits s (inC, grC) c ->
  (mm (nocache s) dbl sep inC grC mp no_inverses X).2 = (mm s dbl sep inC grC mp c X).2.
Proof.
move=> hc; have [<- _] := matmat_fits sep mp X (fits_nil chol chol_nf chol_inv eigh s dbl inC grC) hc.
rewrite -/(no_inverses); move: (fits_nil chol chol_nf chol_inv eigh s dbl inC grC); rewrite -/(no_inverses).
have : forall c, fits s (inC, grC) c -> (mm (nocache s) dbl sep inC grC mp no_inverses X).2 = (mm s dbl sep inC grC mp c X).2.
  elim: mp X {c hc} => [|e mp IH] X c hc //=; rewrite /inverse_layer.
  have [h1 h2] := get_fits e.1 hc; rewrite [get_inverse _ _ _ _ (nocache s) _ _ _ _ _]/get_inverse /= factors_nocache.
  case: (get_inverse _ _ _ _ s _ _ _ _ _) h1 h2 => [[c' ev] r] /= -> h2.
  case: compute_inverse_factors => ev2 [[ai gi]|x] //=; rewrite mult_nocache.
  case: multiply_layer => X' [u|x] //; have := IH X' c' h2.
  by case: (mm (nocache s) _ _ _ _ _ _ _) => [[c2 ev3] r3]; case: (mm s _ _ _ _ _ _ _) => [[c4 ev5] r5].
by move=> h hc'; exact: h.
Qed.

(* ---- each step keeps the invariant ---- *)
Lemma istep_inv (w : iworld) a : iinv w -> iclean_step w a -> iinv (istep w a).1.
Proof.
move=> [hw [own ho]]; have [h1 h2 h3] := ho; case: a => [a|i s|v X|v|v j|j i|j] /=.
- move=> [hc hl]; have [s1 s2] := step_inv hw hc; have := s1; have := s2.
  case E : (KfacState.step _ _ _ _ _ _) => [k r] /= k2 k1; split=> //; exists own; apply: owned_k => //.
  move=> v o hv; have := step_keeps (i := v_A o) hw hc; rewrite E; apply.
  by apply/negP => hla; apply: (hl _ v hla); exists o.
- move=> _; rewrite /iconstruct /getn; case hi : (lget _ _) => [a|e] /=; last by split=> //; exists own.
  case: (inverse_checks _ _) => [u|e] /=; last by split=> //; exists own.
  split=> //; exists (fun l => if l == size (iw_caches w) then (o_dicts a, s) else own l); split=> /=.
  + move=> v o; rewrite lget_rcons; case: eqP => [_ [<-] /=|_ /h1[a1 a2]]; rewrite size_rcons.
      by split=> //; exists a; rewrite // eqxx.
    by rewrite (ltn_eqF a1); split=> //; exact: ltnW.
  + by move=> j s' /h2[a1 a2 a3]; rewrite size_rcons (ltn_eqF a1); split=> //; exact: ltnW.
  move=> l; rewrite size_rcons ltnS nth_rcons leq_eqVlt; case: eqP => [-> _ /=|_ /= hl].
    rewrite ltnn; split; [by case: hw => /(_ _ _ hi)[]|exact: fits_nil|by left].
  by rewrite hl; exact: h3.
- rewrite /KfacInvState.imatmat /getn => hc; case hv : (lget (iw_invs w) v) => [o|e] /=; last by split=> //; exists own.
  have [c1 c2] := hc _ hv; have [a1 [a a2 a3]] := h1 _ _ hv.
  case E : (KfacState.ensure _ _ _ _) c1 c2 => [k r] /= e c2; subst r; have {}c2 := c2 _ a2.
  have [j1 j2 _ _ _] := ensure_inv hw E; have [a' [b1 b2 b3]] := ensure_keeps hw E a2; rewrite b1 b2.
  have [o1 o2 o3] : owned (with_k w k) own by apply: owned_k => // v' o' _; exact: ensure_keeps hw E.
  have [d1 d2 d3] := o3 _ a1; rewrite a3 /= in d1 d2 d3.
  have [_ f2] := matmat_fits (s_sep (o_set a')) (o_mapping a') X d2 d2.
  case Em : (inverse_matmat _ _ _ _ _ _ _ _ _ _ _ _) => [[c ev] r] /=.
  have es : size (set_nth no_inverses (iw_caches w) (v_loc o) c) = size (iw_caches w) by rewrite size_set_nth (maxn_idPr a1).
  split=> //; exists own; split=> /=; rewrite ?es //.
  move=> l hl; rewrite nth_set_nth /=; case: eqP => [el|_]; last exact: o3.
  subst l; rewrite a3 /=; split=> //.
    by move: f2; rewrite Em.
  case: (boolP (nilp (o_mapping a'))) => [/nilP e|/nilP hm]; last by right; apply: c2; rewrite -b3.
  by move: Em; rewrite e /= => -[<- _ _].
- move=> _; rewrite /istate_dict /getn; case hv : (lget (iw_invs w) v) => [o|e] /=; last by split=> //; exists own.
  have [a1 [a a2 a3]] := h1 _ _ hv; rewrite a2 /= /state_dict; case: (l_exact _) => /=; last by split=> //; exists own.
  split=> //; exists own; split=> //= j s; rewrite lget_rcons; case: eqP => [_ [<-] /=|_ /h2 //].
  by split=> //; case: hw => /(_ _ _ a2).
- rewrite /getn; case hs : (lget (iw_saved w) j) => [s|e] /= hc; last by split=> //; exists own.
  move: hc; rewrite /KfacInvState.iload /getn; case hv : (lget (iw_invs w) v) => [o|e] /=; last by move=> _; split=> //; exists own.
  move=> /(_ _ erefl)[hk halone]; have [a1 [a a2 a3]] := h1 _ _ hv; have [s1 s2 s3] := h2 _ _ hs.
  case E : (load _ _ _ _ _) halone => [k [[]|e]] /= halone; last first.
    have [r1 r2] := rejected_inv hw hk E; split=> //; exists own; apply: owned_k => // v' o' _; exact: rejected_keeps E.
  have [al so] := halone erefl.
  have hor a' : lget (w_ops (iw_k w)) (v_A o) = Ok a' -> sd_origin (is_A s) = o_mapping a' by move=> ha; exact: so.
  have [j1 j2 _ [o1 [e1 e2 e3]]] := load_inv hw s3 hor E.
  have hvs : (v < size (iw_invs w))%N by have [] := lget_Ok hv o.
  have hk3 : owned (IWorld k (iw_caches w) [::] (iw_saved w)) own.
    exact: (@owned_k (IWorld (iw_k w) (iw_caches w) [::] (iw_saved w)) own k).
  case: hk3 => q1 q2 q3; split=> //; exists own; split=> //= v' o'; rewrite lget_set //; case: eqP => [_ [<-] /=|ne hv'].
    by split=> //; rewrite e2; eexists; first reflexivity.
  have [b1 [b b2 b3]] := h1 _ _ hv'; split=> //; exists b => //; rewrite e3 // => e.
  by apply: ne; apply: al; exists o'.
- rewrite /getn; case hs : (lget (iw_saved w) j) => [s|e] /= [hk hc]; last by split=> //; exists own.
  have [s1 s2 s3] := h2 _ _ hs; move: hc; rewrite /ifrom /iconstruct /getn; case hi : (lget (w_ops _) _) => [a|e] /=; last by split=> //; exists own.
  case: (inverse_checks _ _) => [u|e] /=; last by split=> //; exists own.
  rewrite /KfacInvState.iload /getn /= lget_rcons eqxx /=.
  case E : (load _ _ _ _ _) => [k [[]|e]] /= hc; last first.
    have [r1 r2] := rejected_inv hw hk E; split=> //; exists own; apply: owned_k => // v' o' _; exact: rejected_keeps E.
  have [hn so] := hc erefl.
  have hor a' : lget (w_ops (iw_k w)) i = Ok a' -> sd_origin (is_A s) = o_mapping a' by move=> ha; exact: so.
  have [j1 j2 _ [o1 [e1 e2 e3]]] := load_inv hw s3 hor E.
  have hk3 : owned (IWorld k (iw_caches w) [::] (iw_saved w)) own.
    exact: (@owned_k (IWorld (iw_k w) (iw_caches w) [::] (iw_saved w)) own k).
  case: hk3 => q1 q2 q3; split=> //; exists (fun l => if l == size (iw_caches w) then (o_dicts a, is_set s) else own l); split=> //=.
  + move=> v' o'; rewrite lget_set ?size_rcons // lget_rcons; case: eqP => [_ [<-] /=|_ hv'].
      rewrite (ltn_eqF s1); split; first exact: ltnW.
      by rewrite e2; eexists; first reflexivity.
    have [b1 [b b2 b3]] := h1 _ _ hv'; rewrite (ltn_eqF b1); split; first exact: ltnW.
    by exists b => //; rewrite e3 // => e; apply: (hn v'); exists o'.
  + by move=> j' s' /q2[b1 b2 b3]; rewrite size_rcons (ltn_eqF b1); split=> //; exact: ltnW.
  move=> l; rewrite size_rcons ltnS nth_rcons leq_eqVlt; case: eqP => [-> _ /=|_ /= hl].
    rewrite ltnn; split; [|exact: fits_nil|by left].
    by case: j2 => j2 _; apply: leq_trans j2; case: hw => /(_ _ _ hi)[].
  by rewrite hl; exact: q3.
- move=> _; rewrite /getn; case hs : (lget _ _) => [s|e] /=; last by split=> //; exists own.
  have [s1 s2 s3] := h2 _ _ hs; rewrite /icopy; case E : (copy_saved _ _) => [k r].
  have E' : copy_saved (iw_k w) (is_A s) = (k, r) by [].
  move: E; rewrite /copy_saved /getn; case hm : (lget _ _) => [m|e] [ek er]; last first.
    by rewrite -ek -er /=; split=> //; exists own; case: (w) ho.
  rewrite -er /= -ek /= last_rcons.
  set k' := World _ _ _ _ _; have kk : kept (iw_k w) k'.
    split=> /=; first by rewrite size_rcons.
    by move=> l hl _; rewrite /get_dicts /= nth_rcons hl.
  have coh : sd_coherent k' (Saved (size (w_models (iw_k w))) (sd_kind (is_A s)) (sd_red (is_A s)) (sd_set (is_A s))
    (size (w_dicts (iw_k w))) (sd_cache (is_A s)) (sd_origin (is_A s))).
    have [z1 z2 z3] := s3; split=> //=; first by rewrite size_rcons.
    by move=> p x /z3; rewrite /get_dicts /= nth_rcons ltnn eqxx.
  split.
    have [i1 i2 i3] := hw; apply: (inv_kept hw kk) => [i o h|j' s'|m' ms]; first by left; exists i.
    - by rewrite /= lget_rcons; case: eqP => [_ [<-]|_ h]; [right|left; exists j'].
    by rewrite /= lget_rcons; case: eqP => [_ [<-] //|_]; exact: i3.
  have [q1 q2 q3] : owned (with_k w k') own by apply: owned_k => // v' o' _ a' ha'; exists a'.
  exists (fun l => if l == size (iw_caches w) then (size (w_dicts (iw_k w)), is_set s) else own l); split=> /=.
  + move=> v o /q1[b1 b2]; rewrite size_rcons (ltn_eqF b1); split=> //; exact: ltnW.
  + move=> j' s'; rewrite lget_rcons size_rcons; case: eqP => [_ [<-] /=|_ /q2[b1 b2 b3]]; first by rewrite eqxx.
    by rewrite (ltn_eqF b1); split=> //; exact: ltnW.
  move=> l; rewrite size_rcons ltnS nth_rcons leq_eqVlt; case: eqP => [-> _ /=|_ /= hl]; last by rewrite hl; exact: q3.
  have [b1 b2 b3] := h3 _ s1; rewrite s2 /= in b1 b2 b3.
  by rewrite ltnn size_rcons /get_dicts /= nth_rcons ltnn eqxx.
Qed.

(* ---- the same program without caching ---- *)
Definition erase_op (o : iop) : iop := IOp (v_A o) (nocache (v_set o)) (v_loc o).
Definition erase_saved (s : isaved) : isaved := ISaved (is_A s) (nocache (is_set s)) (is_loc s).
Definition erase (w : iworld) : iworld :=
  IWorld (iw_k w) (nseq (size (iw_caches w)) no_inverses) (map erase_op (iw_invs w)) (map erase_saved (iw_saved w)).
Lemma lget_map (A B : Type) (f : A -> B) s i : lget (map f s) i = let! x := lget s i in Ok (f x).
Proof. by elim: s i => [|x s IH] [|i] //=; exact: IH. Qed.
Lemma nseq_rcons (T : Type) n (x : T) : rcons (nseq n x) x = nseq n.+1 x.
Proof. by elim: n => //= n ->. Qed.
Lemma nseq_set (T : Type) n i (x : T) : (i < n)%N -> set_nth x (nseq n x) i x = nseq n x.
Proof. by elim: n i => // n IH [|i] //= h; rewrite IH. Qed.
Lemma map_set (A B : Type) (f : A -> B) x0 s i y : (i < size s)%N -> map f (set_nth x0 s i y) = set_nth (f x0) (map f s) i (f y).
Proof. by elim: s i => [|x s IH] [|i] //= h; rewrite IH. Qed.
Lemma checks_nocache b s : inverse_checks (F := RF) b (nocache s) = inverse_checks b s.
Proof. by case: s. Qed.

Lemma erase_construct (w : iworld) i s : iconstruct (erase w) i (nocache s) = (erase (iconstruct w i s).1, (iconstruct w i s).2).
Proof.
rewrite /iconstruct /= /getn; case: (lget _ _) => [a|e] //=; rewrite checks_nocache; case: (inverse_checks _ _) => [u|e] //=.
by rewrite /erase /= !size_rcons map_rcons size_nseq -nseq_rcons.
Qed.
Lemma erase_load (w : iworld) v s : iload (erase w) v (erase_saved s) = (erase (iload w v s).1, (iload w v s).2).
Proof.
rewrite /KfacInvState.iload /getn /= lget_map; case hv : (lget _ _) => [o|e] //=.
case: (load _ _ _ _ _) => [k [u|e]] //=; rewrite /erase /= map_set //.
by have [] := lget_Ok hv o.
Qed.
Lemma istep_erase (w : iworld) a : iinv w -> iclean_step w a ->
  istep (erase w) (uncached a) = (erase (istep w a).1, (istep w a).2).
Proof.
move=> [hw [own [h1 h2 h3]]]; case: a => [a|i s|v X|v|v j|j i|j].
- by move=> _ /=; case: (KfacState.step _ _ _ _ _ _).
- by move=> _ /=; rewrite erase_construct; case: (iconstruct w i s).
- rewrite [uncached _]/= [iclean_step _ _]/= => hc /=; rewrite /KfacInvState.imatmat /getn /= lget_map.
  case hv : (lget (iw_invs w) v) => [o|e] //=; have [c1 c2] := hc _ hv; have [a1 [a a2 a3]] := h1 _ _ hv.
  case E : (KfacState.ensure _ _ _ _) c1 c2 => [k r] /= e c2; subst r.
  have [_ j2 _ _ _] := ensure_inv hw E; have [a' [b1 b2 b3]] := ensure_keeps hw E a2; rewrite b1 b2.
  have [d1 d2 d3] := h3 _ a1; rewrite a3 /= in d1 d2 d3.
  have d2' : fits (v_set o) (get_dicts k (o_dicts a)) (nth no_inverses (iw_caches w) (v_loc o)).
    case: j2 => _ j2; case: d3 => [->|hcomp]; first exact: fits_nil.
    by rewrite j2.
  rewrite nth_nseq if_same.
  have := mm_nocache (s_sep (o_set a')) (get_dicts k (o_dicts a)).1 (get_dicts k (o_dicts a)).2 (o_mapping a') no_inverses X (erefl : i_cache (nocache (v_set o)) = false).
  have := mm_set_nocache (s_sep (o_set a')) (o_mapping a') X d2'.
  case: (inverse_matmat _ _ _ _ (nocache _) _ _ _ _ _ _ _) => [[c ev] r]; case: (inverse_matmat _ _ _ _ (v_set o) _ _ _ _ _ _ _) => [[c' ev'] r'] /= -> ->.
  by rewrite /erase /= nseq_set // size_set_nth (maxn_idPr a1).
- move=> _ /=; rewrite /istate_dict /getn /= lget_map; case: (lget _ _) => [o|e] //=; case: (lget _ _) => [a|e] //=.
  by case: (state_dict a) => [s|e] //=; rewrite /erase /= map_rcons.
- move=> _ /=; rewrite /getn lget_map; case: (lget _ _) => [s|e] //=; rewrite erase_load; by case: (iload w v s).
- move=> _ /=; rewrite /getn lget_map; case: (lget _ _) => [s|e] //=; rewrite /ifrom /= size_map erase_construct.
  case: (iconstruct w i (is_set s)) => [w' [u|e]] //=; rewrite erase_load; by case: (iload w' _ s) => [w2 [u2|e2]].
- move=> _ /=; rewrite /getn lget_map; case: (lget _ _) => [s|e] //=; rewrite /icopy /=.
  case: (copy_saved _ _) => [k [u|e]] //=.
  by rewrite /erase /= !size_rcons map_rcons size_nseq nth_nseq if_same -nseq_rcons.
Qed.

Lemma seen_erase (w : iworld) acts : iinv w -> iclean w acts ->
  seen (erase w) (map (@uncached Theta) acts) = seen w acts /\
  irun (erase w) (map (@uncached Theta) acts) = erase (irun w acts).
Proof.
elim: acts w => [|a acts IH] w hw //= [c1 c2]; rewrite (istep_erase hw c1) /=.
by have [-> ->] := IH _ (istep_inv hw c1) c2.
Qed.

(* at the start there are models only *)
Definition ifresh (w : iworld) : Prop := fresh (iw_k w) /\ iw_caches w = [::] /\ iw_invs w = [::] /\ iw_saved w = [::].
Lemma ifresh_inv w : ifresh w -> iinv w.
Proof.
move=> [/fresh_inv hw [h1 [h2 h3]]]; split=> //; exists (fun=> (0%N, ISet (DOne 0) false 0 false false false)).
by split; rewrite ?h1 ?h2 ?h3.
Qed.
Lemma irun_inv w acts : iinv w -> iclean w acts -> iinv (irun w acts).
Proof. by elim: acts w => [|a acts IH] w hw //= [c1 c2]; apply: IH c2; exact: istep_inv. Qed.

(* ---------- C51 ---------- *)
(* Take any program over any number of models, KFAC operators, inverse operators
   and saved states, whose loads do not replace factors below another inverse
   operator, and create its inverse operators with cache=False instead: it sees the
   same outcomes and products, and leaves the same models, KFAC operators and
   states. *)
Theorem C51_caching_unobservable_partial (w0 : iworld) acts : ifresh w0 -> iclean w0 acts ->
  seen w0 (map (@uncached Theta) acts) = seen w0 acts /\
  iw_k (irun w0 (map (@uncached Theta) acts)) = iw_k (irun w0 acts).
Proof.
move=> hf hc; have [e1 e2] := seen_erase (ifresh_inv hf) hc.
have e0 : erase w0 = w0 by case: w0 hf {hc e1 e2} => k c i s [_ /= [-> [-> ->]]].
by rewrite e0 in e1 e2; rewrite e1 e2.
Qed.

(* In any reachable state the product does not depend on the products before it:
   it is the one with freshly computed inverses of the current factors. *)
Theorem C51_product_current_partial (w0 : iworld) acts v o a X : ifresh w0 -> iclean w0 acts ->
  let w := irun w0 acts in
  lget (iw_invs w) v = Ok o -> lget (w_ops (iw_k w)) (v_A o) = Ok a -> computed (get_dicts (iw_k w) (o_dicts a)) ->
  (imatmat w v X).2 = (mm (v_set o) dbl (s_sep (o_set a)) (get_dicts (iw_k w) (o_dicts a)).1 (get_dicts (iw_k w) (o_dicts a)).2
                         (o_mapping a) no_inverses X).2.
Proof.
move=> hf hc w hv ha hd; have [hw [own [h1 h2 h3]]] := irun_inv (ifresh_inv hf) hc.
rewrite /KfacInvState.imatmat /getn hv (ensure_computed passes mconv ha hd) ha.
have [a1 [a' a2 a3]] := h1 _ _ hv; move: a2 a3; rewrite ha => -[<-] a3.
have [d1 d2 d3] := h3 _ a1; rewrite a3 /= in d1 d2 d3.
have [<- _] := matmat_fits (s_sep (o_set a)) (o_mapping a) X d2 (fits_nil chol chol_nf chol_inv eigh (v_set o) dbl _ _).
by case: inverse_matmat => [[c ev] r].
Qed.

(* ---------- C52: saving and restoring ---------- *)
(* what a restored inverse operator o' shares with the saved one o *)
Definition irestored (w : iworld) (o : iop) (a : kop) (w' : iworld) (o' : iop) (a' : kop) : Prop :=
  [/\ v_set o' = v_set o, nth no_inverses (iw_caches w') (v_loc o') = nth no_inverses (iw_caches w) (v_loc o) &
      restored (iw_k w) a (iw_k w') a'].

(* the settings of every inverse operator and saved state passed the constructor *)
Definition iok (w : iworld) : Prop :=
  (forall v o, lget (iw_invs w) v = Ok o -> inverse_checks true (v_set o) = Ok tt /\ (v_loc o < size (iw_caches w))%N) /\
  (forall j s, lget (iw_saved w) j = Ok s -> inverse_checks true (is_set s) = Ok tt /\ (is_loc s < size (iw_caches w))%N).
Lemma iload_ok (w : iworld) v s : iok w -> inverse_checks true (is_set s) = Ok tt -> (is_loc s < size (iw_caches w))%N ->
  iok (iload w v s).1.
Proof.
move=> [h1 h2] hs hl; rewrite /KfacInvState.iload /getn; case hv : (lget _ _) => [o|e] //=; case: (load _ _ _ _ _) => [k [u|e]] //=.
have hvs : (v < size (iw_invs w))%N by have [] := lget_Ok hv o.
by split=> //= v' o'; rewrite lget_set //; case: eqP => [_ [<-]|_ /h1].
Qed.
Lemma iconstruct_ok (w : iworld) i s : iok w -> iok (iconstruct w i s).1.
Proof.
move=> [h1 h2]; rewrite /iconstruct /getn; case: (lget _ _) => [a|e] //=; case hs : (inverse_checks _ _) => [[]|e] //=.
split=> /= v o; last by rewrite size_rcons => /h2[b1 b2]; split=> //; exact: ltnW.
by rewrite size_rcons lget_rcons; case: eqP => [_ [<-] /=|_ /h1[b1 b2]]; split=> //; exact: ltnW.
Qed.
Lemma istep_ok (w : iworld) a : iok w -> iok (istep w a).1.
Proof.
move=> hw; have [h1 h2] := hw; case: a => [a|i s|v X|v|v j|j i|j] /=.
- by case: (KfacState.step _ _ _ _ _ _).
- by have := iconstruct_ok i s hw; case: (iconstruct _ _ _).
- rewrite /KfacInvState.imatmat /getn; case hv : (lget _ _) => [o|e] //=; case: (KfacState.ensure _ _ _ _) => [k [u|e]] //=.
  case: (lget _ _) => [a|e] //=; case: inverse_matmat => [[c ev] r] /=; have [_ hl] := h1 _ _ hv.
  by split=> /=; rewrite size_set_nth (maxn_idPr hl).
- rewrite /istate_dict /getn; case hv : (lget _ _) => [o|e] //=; case: (lget _ _) => [a|e] //=; case: (state_dict a) => [s|e] //=.
  by split=> //= j s'; rewrite lget_rcons; case: eqP => [_ [<-]|_ /h2] //=; exact: h1 hv.
- rewrite /getn; case hs : (lget _ _) => [s|e] //=; have [b1 b2] := h2 _ _ hs; have := iload_ok v hw b1 b2.
  by case: (KfacInvState.iload _ _ _ _ _).
- rewrite /getn; case hs : (lget _ _) => [s|e] //=; have [b1 b2] := h2 _ _ hs; rewrite /ifrom.
  have := iconstruct_ok i (is_set s) hw; have : (size (iw_caches w) <= size (iw_caches (iconstruct w i (is_set s)).1))%N.
    by rewrite /iconstruct; case: (bind _ _) => //= u; rewrite size_rcons.
  case: (iconstruct _ _ _) => [w' [u|e]] //= hl ok; have := iload_ok (size (iw_invs w)) ok b1 (leq_trans b2 hl).
  by case: (KfacInvState.iload _ _ _ _ _) => [w2 [u2|e2]].
- rewrite /getn; case hs : (lget _ _) => [s|e] //=; have [b1 b2] := h2 _ _ hs; rewrite /icopy.
  case: (copy_saved _ _) => [k [u|e]] //=; split=> /= v o; first by rewrite size_rcons => /h1[c1 c2]; split=> //; exact: ltnW.
  by rewrite size_rcons lget_rcons; case: eqP => [_ [<-] //|_ /h2[c1 c2]]; split=> //; exact: ltnW.
Qed.
Lemma irun_ok (w : iworld) acts : ifresh w -> iok (irun w acts).
Proof.
move=> [_ [h1 [h2 h3]]]; have : iok w by split=> [v o|j s]; rewrite ?h2 ?h3.
by elim: acts w {h1 h2 h3} => [|a acts IH] w // h; apply: IH; exact: istep_ok.
Qed.

(* from_state_dict of a state just saved, on any KFAC operator for the same
   parameters, succeeds in every reachable state, also after failed calls *)
Theorem C52_from_state_dict (w0 : iworld) acts v o a s i a2 ms ms2 : ifresh w0 ->
  let w := irun w0 acts in
  lget (iw_invs w) v = Ok o -> lget (w_ops (iw_k w)) (v_A o) = Ok a -> istate_dict w v = Ok s ->
  lget (w_ops (iw_k w)) i = Ok a2 -> o_mapping a2 = o_mapping a ->
  l_kind (o_loss a2) = l_kind (o_loss a) -> l_red (o_loss a2) = l_red (o_loss a) ->
  lget (w_models (iw_k w)) (o_model a) = Ok ms -> lget (w_models (iw_k w)) (o_model a2) = Ok ms2 -> arch (m_theta ms) = arch (m_theta ms2) ->
  keys_complete (get_dicts (iw_k w) (o_dicts a2)) (o_mapping a2) ->
  exists w' o' a', [/\ ifrom arch partial_load w s i = (w', Ok tt), lget (iw_invs w') (size (iw_invs w)) = Ok o',
    v_A o' = i, lget (w_ops (iw_k w')) i = Ok a' & irestored w o a w' o' a'].
Proof.
move=> hf w hv ha hs hi hmp hk hr hm hm2 harch hkeys; have [iok1 _] := irun_ok acts hf.
have [k1 k2] := iok1 _ _ hv.
move: hs; rewrite /istate_dict /getn hv /= ha /=; case hsd : (state_dict a) => [sa|e] //= -[<-].
have [k [a' [ms' [l1 l2 l3 l4 [l5 l6]]]]] := C39_load_state_dict partial_load ha hsd hi hmp hk hr hm hm2 harch hkeys.
rewrite /ifrom /iconstruct /getn hi /= k1 /= /KfacInvState.iload /getn /= lget_rcons eqxx /= l1.
do 3 eexists; split; [reflexivity|by rewrite /= lget_set ?size_rcons // eqxx|by []|exact: l2|].
by split=> //=; rewrite nth_rcons k2.
Qed.

(* so does load_state_dict by another inverse operator *)
Theorem C52_load_state_dict (w : iworld) v o a s v2 o2 a2 ms ms2 :
  lget (iw_invs w) v = Ok o -> lget (w_ops (iw_k w)) (v_A o) = Ok a -> istate_dict w v = Ok s ->
  lget (iw_invs w) v2 = Ok o2 -> lget (w_ops (iw_k w)) (v_A o2) = Ok a2 -> o_mapping a2 = o_mapping a ->
  l_kind (o_loss a2) = l_kind (o_loss a) -> l_red (o_loss a2) = l_red (o_loss a) ->
  lget (w_models (iw_k w)) (o_model a) = Ok ms -> lget (w_models (iw_k w)) (o_model a2) = Ok ms2 -> arch (m_theta ms) = arch (m_theta ms2) ->
  keys_complete (get_dicts (iw_k w) (o_dicts a2)) (o_mapping a2) ->
  exists w' o' a', [/\ iload w v2 s = (w', Ok tt), lget (iw_invs w') v2 = Ok o',
    v_A o' = v_A o2, lget (w_ops (iw_k w')) (v_A o2) = Ok a' & irestored w o a w' o' a'].
Proof.
move=> hv ha hs hv2 hi hmp hk hr hm hm2 harch hkeys.
move: hs; rewrite /istate_dict /getn hv /= ha /=; case hsd : (state_dict a) => [sa|e] //= -[<-].
have [k [a' [ms' [l1 l2 l3 l4 [l5 l6]]]]] := C39_load_state_dict partial_load ha hsd hi hmp hk hr hm hm2 harch hkeys.
rewrite /KfacInvState.iload /getn hv2 /= l1.
have hvs : (v2 < size (iw_invs w))%N by have [] := lget_Ok hv2 o.
do 3 eexists; split; [reflexivity|by rewrite /= lget_set // eqxx|by []|exact: l2|by split].
Qed.

(* the products of the restored operator: warnings and retries included *)
Theorem C52_same_behaviour (w w' : iworld) v o a v' o' a' X :
  lget (iw_invs w) v = Ok o -> lget (w_ops (iw_k w)) (v_A o) = Ok a ->
  lget (iw_invs w') v' = Ok o' -> lget (w_ops (iw_k w')) (v_A o') = Ok a' ->
  irestored w o a w' o' a' -> computed (get_dicts (iw_k w) (o_dicts a)) ->
  (imatmat w' v' X).1.2 = (imatmat w v X).1.2 /\ (imatmat w' v' X).2 = (imatmat w v X).2.
Proof.
move=> hv ha hv' ha' [h1 h2 [r1 r2 r3 r4 r5]] hc; have hc' : computed (get_dicts (iw_k w') (o_dicts a')) by rewrite r3.
rewrite /KfacInvState.imatmat /getn hv hv' (ensure_computed passes mconv ha hc) (ensure_computed passes mconv ha' hc') ha ha'.
by rewrite h1 h2 r1 r2 r3; case: inverse_matmat => [[c ev] r].
Qed.
End World.
Print Assumptions C51_caching_unobservable_partial.
Print Assumptions C51_product_current_partial.
Print Assumptions C52_from_state_dict.
Print Assumptions C52_load_state_dict.
Print Assumptions C52_same_behaviour.
