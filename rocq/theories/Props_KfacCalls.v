(* C86: layers that are called several times in one forward pass. *)
From Coq Require Import Reals Lra FunctionalExtensionality Permutation.
From Coquelicot Require Import Coquelicot.
From mathcomp Require Import all_ssreflect all_algebra.
From Verif Require Import PyPrelude Tensor Spec TorchBase Submatrix RInst Calculus Curvature HessGGN Risk Losses Fisher FisherMC FisherExp LossHess Props_LossHess Conv Props_Conv Kfac KfacCov KfacCovHooks KfacCovSpec KfacCovProof Props_KfacCov KfacCalls.
Set Implicit Arguments.
Unset Strict Implicit.
Unset Printing Implicit Defensive.
Import GRing.Theory.
Local Open Scope ring_scope.

Lemma hasIn (A : Type) (p : A -> bool) (s : seq A) : reflect (exists2 a, List.In a s & p a) (has p s).
Proof.
elim: s => [|b s IH] /=; first by apply: ReflectF; case.
case hb : (p b) => /=; first by apply: ReflectT; exists b => //; left.
apply: (iffP IH) => -[a h1 h2]; exists a => //; first by right.
by case: h1 h2 => // <-; rewrite hb.
Qed.
Lemma eq_bigIn (A : Type) (f f' : A -> R) (s : seq A) : (forall a, List.In a s -> f a = f' a) -> \sum_(a <- s) f a = \sum_(a <- s) f' a.
Proof.
elim: s => [|b s IH] h; first by rewrite !big_nil.
by rewrite !big_cons h ?IH //; [move=> a ha; apply: h; right|left].
Qed.

Section C86.
Variables (X Y : Type) (T C : nat) (kind : loss_kind).
Local Notation batch := (seq (X * Y)).
Variable net : X -> seq R.
Variable tgt : Y -> nat -> target.
Variable callee : nat -> nat.
Variable views : nat -> nlayer X.
Variables (order back_order : seq nat).
Variable shapes : seq (seq nat).
Variables (sep : bool) (ap : kfac_approx) (red : reduction) (N M : nat) (mp : mapping) (ge : geometry X).
Variables (G : Type).
Variable normal_o : G -> nat -> (nat -> R) * G.
Variable multinomial_o : G -> nat -> nat -> (nat -> nat -> R) -> nat -> (nat -> nat -> nat) * G.
Variable bernoulli_o : G -> nat -> (nat -> R) -> (nat -> bool) * G.
Local Notation compute ft := (compute_kfac_calls T C kind net tgt callee views order back_order shapes sep ap ft red N M T mp normal_o multinomial_o bernoulli_o).
Local Notation vmp := (call_mapping callee order mp).
(* what is computed for the network in which every call has a layer of its own *)
Local Notation per_call ft := (computes T C kind net tgt views shapes sep ap red N M vmp ge normal_o multinomial_o bernoulli_o ft).

(* the calls of module k *)
Definition calls_of (k : nat) : seq nat := [seq c <- order | callee c == k].

Lemma vmpE c : uniq order -> dget c vmp = if c \in order then dget (callee c) mp else None.
Proof.
rewrite /call_mapping; elim: order => //= a s IH /andP[na us]; rewrite inE.
case e : (dget (callee a) mp) => [ps|] /=; rewrite ?dget_cons; case: (c =P a) => [eca|_] /=; rewrite ?IH // eca ?e //.
by rewrite (negbTE na).
Qed.

Lemma sum_calls (f : nat -> R) k (u : nat) : uniq order -> u \in order ->
  (if callee u == k then f u else 0) = \sum_(c <- calls_of k) (if u == c then f c else 0).
Proof.
move=> uo hu; rewrite /calls_of big_filter big_mkcond (bigD1_seq u) //= eqxx big1 ?addr0 // => c.
by rewrite eq_sym => /negbTE ->; case: ifP.
Qed.

(* every parameter belongs to a module that is called *)
Definition all_used : Prop := forall k ps n p, dget k mp = Some ps -> dget n ps = Some p ->
  exists c ps' n', [/\ c \in order, dget (callee c) mp = Some ps' & dget n' ps' = Some p].
(* a parameter that belongs to no called module *)
Definition unused (p : nat) : Prop := (exists k ps n, dget k mp = Some ps /\ dget n ps = Some p) /\
  forall c ps n, c \in order -> dget (callee c) mp = Some ps -> dget n ps <> Some p.

Lemma dgcons (K : eqType) (V : Type) (k k' : K) (x : V) (s : dict K V) : dget k' ((k, x) :: s) = if k' == k then Some x else dget k' s.
Proof. by rewrite /dget /= eq_sym; case: eqP. Qed.

(* names and modules occur once in the dictionaries *)
Definition proper : Prop := uniq (dkeys mp) /\ forall k ps, dget k mp = Some ps -> uniq (dkeys ps).

Lemma In_dget (K : eqType) (V : Type) (k : K) (v : V) (d : dict K V) : uniq (dkeys d) -> List.In (k, v) d -> dget k d = Some v.
Proof.
elim: d => [//|[k' v'] d IH] /andP[h1 h2]; rewrite dgcons => -[[-> ->]|h]; first by rewrite eqxx.
case: eqP => [e|_]; last exact: IH.
by case/negP: h1; rewrite -e /dkeys; elim: d h {IH h2} => //= -[k1 v1] d IH [[-> _]|/IH h]; rewrite inE ?eqxx // h orbT.
Qed.
Lemma dget_In (K : eqType) (V : Type) (k : K) (v : V) (d : dict K V) : dget k d = Some v -> List.In (k, v) d.
Proof. by elim: d => [//|[k' v'] d IH]; rewrite dgcons; case: eqP => [-> [->]|_ /IH]; [left|right]. Qed.
Lemma mem_vals (n : pname) (p : nat) (ps : dict pname_eqType nat) : dget n ps = Some p -> p \in [seq r.2 | r <- ps].
Proof. move=> h; have {h} := dget_In h; by elim: ps => //= q ps IH [->|/IH h] /=; rewrite inE ?eqxx // h orbT. Qed.
Lemma vals_mem (p : nat) (ps : dict pname_eqType nat) : uniq (dkeys ps) -> p \in [seq r.2 | r <- ps] -> exists n, dget n ps = Some p.
Proof.
move=> u h; suff [n hn] : exists n, List.In (n, p) ps by exists n; apply: In_dget.
elim: ps h {u} => //= -[n q] ps IH; rewrite inE => /orP[/eqP ->|/IH [n' h]]; [by exists n; left|by exists n'; right].
Qed.

Lemma all_usedP : proper -> Permutation back_order order -> all_used -> grad_unused callee back_order mp = false.
Proof.
move=> [u1 u2] hb h; apply/negbTE/negP => /hasIn [[k ps] /(In_dget u1) hk] /hasIn [[n p] /(In_dget (u2 _ _ hk)) hn] /= /negP; apply.
have [c [ps' [n' [h1 h2 h3]]]] := h _ _ _ _ hk hn.
by rewrite (has_Permutation _ hb); apply/hasP; exists c; rewrite ?h2 //; apply: mem_vals h3.
Qed.
Lemma unusedP p : proper -> Permutation back_order order -> unused p -> grad_unused callee back_order mp.
Proof.
move=> [u1 u2] hb [[k [ps [n [hk hn]]]] h]; apply/hasIn; exists (k, ps); first exact: dget_In.
apply/hasIn; exists (n, p); first exact: dget_In.
rewrite /= (has_Permutation _ hb); apply/negP => /hasP [c hc]; case e : dget => [ps'|] //.
by move=> /(vals_mem (u2 _ _ e)) [n' hn']; apply: h hc e hn'.
Qed.

(* A parameter that no called module has: the computation fails. *)
Theorem C86_unused_fails ft loader g p : ft <> ForwardOnly -> (0 < C)%N -> (0 < M)%N -> loader <> [::] ->
  proper -> Permutation back_order order -> unused p ->
  exists e, (compute ft loader g).2 = Err e.
Proof.
move=> hft C0 M0 hl hp hb /(unusedP hp hb) hu; case e : (compute ft loader g) => [st [[]|x]] /=; last by exists x.
have [us eus] := run_all_ok e; exfalso.
suff [x hx] : exists x, List.In (Err x) [seq Ok u | u <- us] by case/List.in_map_iff: hx => u [].
rewrite -eus; case: loader hl {e eus} => // b l _ /=.
set bw := calls_backward _ _ _ _ _ _ _ _ _ _ _ _.
have hbw phi : List.In (Err RuntimeError) (bw b phi) by rewrite /bw /calls_backward hu; apply/List.in_app_iff; right; left.
suff [x hx] : exists x, List.In (Err x) (loss_events T C kind net tgt shapes ft red M mp normal_o multinomial_o bernoulli_o bw b g).1.
  by case: loss_events hx => ev g' /= hx; exists x; apply/List.in_app_iff; right; apply/List.in_app_iff; left.
rewrite /loss_events; case: ft hft => // _ /=.
- case: hessian_sqrts => [s|x]; last by exists x; left.
  by exists RuntimeError; case: (C) C0 => // C' _; rewrite /=; apply/List.in_app_iff; left.
- have [y [ys [g' ->]]] : exists y ys g', draw_labels C kind normal_o multinomial_o bernoulli_o M (size b * T) (kout2d T C kind net b) g = (y :: ys, g').
    case: (M) M0 => // M' _ /=; case: draw_label => y g1; case: draw_labels => ys g2; by exists y, ys, g2.
  rewrite /=; exists RuntimeError; case: (red); [by apply/List.in_app_iff; left|by apply/List.in_app_iff; left|by left].
exists RuntimeError; case: (red); [exact: hbw|exact: hbw|by left].
Qed.

(* The factors of a module are the sums over its calls of the factors the calls
   would have as layers of their own; modules that are not called have none. *)
Theorem C86_calls_add ft loader g (B : nat -> nat -> nat -> R) (D1 D2 : nat -> nat) : ft <> ForwardOnly ->
  uniq order -> Permutation back_order order -> proper -> all_used ->
  (forall c, c \in order -> g_d1 ge c = D1 (callee c) /\ g_d2 ge c = D2 (callee c)) ->
  per_call ft loader g B ->
  exists st, compute ft loader g = (st, Ok tt) /\ forall k,
    match dget k mp with
    | None => dget k st.1 = None /\ dget k st.2 = None
    | Some ps =>
        if nilp (calls_of k) then dget k st.1 = None /\ dget k st.2 = None else
        (if dmem Weight ps then is_factor st.1 k (D1 k + joint_params sep ps) (fun i j => \sum_(c <- calls_of k)
           input_factor ap (joint_params sep ps) N (g_S1 ge c) (g_d1 ge c) (g_act ge c) (flatten loader) i j)
         else dget k st.1 = None) /\
        is_factor st.2 k (D2 k) (fun i j => \sum_(c <- calls_of k) B c i j)
    end.
Proof.
move=> hft uo hb hproper hused hD [vst [hv hk]].
rewrite /compute_kfac in hv; have [us eus] := run_all_ok hv.
have hgood u : List.In u us -> good order u.
  by move=> hu; apply: (virtual_good (T := T) (C := C) (kind := kind) (net := net) (tgt := tgt) (callee := callee) (views := views) (order := order) (S := shapes) (sep := sep) (ap := ap) (red := red) (N := N) (M := M) (nterms := T) (mp := mp) (normal_o := normal_o) (multinomial_o := multinomial_o) (bernoulli_o := bernoulli_o) hft (loader := loader) (g := g)); rewrite eus; apply: List.in_map.
have hnoset k t : ~ List.In (USet k t) us by move=> /hgood.
rewrite eus in hv; have [_ _ k1 k2] := run_keeps hnoset hv.
have hp := @events_rename X Y T C kind net tgt callee views order back_order shapes sep ap ft red N M T mp G normal_o multinomial_o bernoulli_o hb (all_usedP hproper hb hused) hft loader g.
rewrite eus in hp.
have [us' eus' hp'] : exists2 us', kfac_events T C kind net tgt shapes ft red M mp normal_o multinomial_o bernoulli_o
    (calls_forward callee views order sep ap N mp) (calls_backward T C kind callee views back_order ap red N M T mp) loader g = [seq Ok u | u <- us'] &
    Permutation us' [seq rename callee u | u <- us].
  have e : [seq rrename callee r | r <- [seq Ok u | u <- us]] = [seq Ok u | u <- [seq rename callee u | u <- us]].
    by rewrite -!map_comp; apply: eq_map.
  rewrite e in hp; have [us' [e1 e2]] := @Permutation_map_inv _ _ (@Ok _) _ _ hp.
  by exists us' => //; apply: Permutation_sym.
pose sz1 k := (D1 k + (if dget k mp is Some ps then joint_params sep ps else false))%N.
pose v1 c := (g_d1 ge c + (if dget c vmp is Some ps then joint_params sep ps else false))%N.
have sz1E c : c \in order -> v1 c = sz1 (callee c).
  by move=> hc; rewrite /v1 /sz1 vmpE // hc; have [-> _] := hD _ hc.
have hin c t : List.In (UIn c t) us -> exists ps, [/\ c \in order, dget c vmp = Some ps, dmem Weight ps, tshape t = [:: v1 c; v1 c] & wf t].
  move=> h; have [hc wt] := hgood _ h; have [t' e1 e2] := k1 _ _ h; have := hk c.
  case e : (dget c vmp) => [ps|]; last by rewrite e1 => -[].
  case: ifP => hw; last by rewrite e1 => -[].
  by move=> [[t1 [f1 f2 f3 f4]] _]; exists ps; split=> //; move: f1; rewrite e1 => -[ft1]; rewrite -e2 ft1 f2 /v1 e.
have hgr c t : List.In (UGrad c t) us -> exists ps, [/\ c \in order, dget c vmp = Some ps, tshape t = [:: g_d2 ge c; g_d2 ge c] & wf t].
  move=> h; have [hc wt] := hgood _ h; have [t' e1 e2] := k2 _ _ h; have := hk c.
  case e : (dget c vmp) => [ps|]; last by rewrite e1 => -[].
  by move=> [_ [t1 [f1 f2 f3 f4]]]; exists ps; split=> //; move: f1; rewrite e1 => -[ft1]; rewrite -e2 ft1 f2.
have hsz u : List.In u us -> sized v1 (g_d2 ge) u.
  by case: u => [c t|c t|c t] h //=; [have [ps [? ? ? ? ?]] := hin _ _ h|have [ps [? ? ? ?]] := hgr _ _ h|have := hgood _ h].
have hsz' u : List.In u us' -> sized sz1 D2 u.
  move=> h; have {h} := Permutation_in _ hp' h; case/List.in_map_iff=> u0 [<-] h.
  case: u0 h => [c t|c t|c t] h //=; last by have := hgood _ h.
    by have [ps [hc _ _ ? ?]] := hin _ _ h; rewrite -sz1E.
  by have [ps [hc _ ? ?]] := hgr _ _ h; have [_ <-] := hD _ hc.
have [//|//|st [er [s1 s2] [p1 p2] q1 q2]] := @run_updatesP _ sz1 D2 us' ([::], [::]) hsz'.
have [//|//|st0 [er0 [r1 r2] [o1 o2] w1 w2]] := @run_updatesP _ v1 (g_d2 ge) us ([::], [::]) hsz.
move: er0; rewrite hv => -[e0]; subst st0.
exists st; split; first by rewrite /compute_kfac_calls eus'.
(* which keys are hit *)
have hit1 k : isSome (dget k st.1) = has (fun c => isSome (dget c vst.1)) (calls_of k).
  rewrite p1 /= (has_Permutation _ hp') has_map; apply/idP/idP.
    case/hasIn=> -[c t|c t|c t] // hu /= /eqP hc; apply/hasP; exists c.
      by have [ps [ho _ _ _ _]] := hin _ _ hu; rewrite mem_filter hc eqxx.
    by rewrite o1 /=; apply/hasIn; exists (UIn c t) => //=; rewrite eqxx.
  case/hasP=> c; rewrite mem_filter => /andP[/eqP hc _]; rewrite o1 /= => /hasIn[[c' t|//|//] hu /= /eqP ec].
  by apply/hasIn; exists (UIn c' t); rewrite //= ec hc.
have hit2 k : isSome (dget k st.2) = has (fun c => isSome (dget c vst.2)) (calls_of k).
  rewrite p2 /= (has_Permutation _ hp') has_map; apply/idP/idP.
    case/hasIn=> -[c t|c t|c t] // hu /= /eqP hc; apply/hasP; exists c.
      by have [ps [ho _ _ _]] := hgr _ _ hu; rewrite mem_filter hc eqxx.
    by rewrite o2 /=; apply/hasIn; exists (UGrad c t) => //=; rewrite eqxx.
  case/hasP=> c; rewrite mem_filter => /andP[/eqP hc _]; rewrite o2 /= => /hasIn[[//|c' t|//] hu /= /eqP ec].
  by apply/hasIn; exists (UGrad c' t); rewrite //= ec hc.
have val1 k i j t : dget k st.1 = Some t -> (i < sz1 k)%N -> (j < sz1 k)%N ->
    entry (sz1 k) (tdata t) i j = \sum_(c <- calls_of k) oapp (fun t => entry (v1 c) (tdata t) i j) 0 (dget c vst.1).
  move=> ht hi hj; have := q1 k i j hi hj; rewrite ht /= add0r => ->.
  rewrite (sum_Permutation _ hp') big_map.
  have -> : \sum_(c <- calls_of k) oapp (fun t => entry (v1 c) (tdata t) i j) 0 (dget c vst.1) =
            \sum_(c <- calls_of k) \sum_(u <- us) in_part c (v1 c) i j u.
    apply: eq_big_seq => c; rewrite mem_filter => /andP[/eqP hc ho]; rewrite w1 ?add0r // sz1E // hc //.
  rewrite exchange_big; apply: eq_bigIn => u hu.
  case: u hu => [c t0|c t0|c t0] hu /=; [|by rewrite big1|by rewrite big1].
  have [ps [ho _ _ _ _]] := hin _ _ hu.
  apply: etrans (sum_calls (fun c => entry (v1 c) (tdata t0) i j) k uo ho); by case: eqP => // <-; rewrite sz1E.
have val2 k i j t : dget k st.2 = Some t -> (i < D2 k)%N -> (j < D2 k)%N ->
    entry (D2 k) (tdata t) i j = \sum_(c <- calls_of k) oapp (fun t => entry (g_d2 ge c) (tdata t) i j) 0 (dget c vst.2).
  move=> ht hi hj; have := q2 k i j hi hj; rewrite ht /= add0r => ->.
  rewrite (sum_Permutation _ hp') big_map.
  have -> : \sum_(c <- calls_of k) oapp (fun t => entry (g_d2 ge c) (tdata t) i j) 0 (dget c vst.2) =
            \sum_(c <- calls_of k) \sum_(u <- us) grad_part c (g_d2 ge c) i j u.
    apply: eq_big_seq => c; rewrite mem_filter => /andP[/eqP hc ho]; have [_ hd] := hD _ ho.
    by rewrite w2 ?add0r // hd hc.
  rewrite exchange_big; apply: eq_bigIn => u hu.
  case: u hu => [c t0|c t0|c t0] hu /=; [by rewrite big1| |by rewrite big1].
  have [ps [ho _ _ _]] := hgr _ _ hu; have [_ hd] := hD _ ho.
  apply: etrans (sum_calls (fun c => entry (g_d2 ge c) (tdata t0) i j) k uo ho); by case: eqP => // <-; rewrite hd.
have vm c k : c \in calls_of k -> c \in order /\ dget c vmp = dget k mp.
  by rewrite mem_filter => /andP[/eqP <- ho]; rewrite vmpE // ho.
have none (o : option (tensor R)) : isSome o = false -> o = None by case: o.
move=> k; case ek : (dget k mp) => [ps|]; last first.
  by split; apply: none; rewrite ?hit1 ?hit2; apply/negbTE/hasPn => c /vm[_ ec]; have := hk c; rewrite ec ek => -[e1 e2]; rewrite ?e1 ?e2.
case: ifP => [/nilP hn|/negbT hn]; first by split; apply: none; rewrite ?hit1 ?hit2 hn.
have all_c c : c \in calls_of k -> (if dmem Weight ps then is_factor vst.1 c (g_d1 ge c + joint_params sep ps)
        (input_factor ap (joint_params sep ps) N (g_S1 ge c) (g_d1 ge c) (g_act ge c) (flatten loader)) else dget c vst.1 = None) /\
     is_factor vst.2 c (g_d2 ge c) (B c).
  by move=> h; have [_ ec] := vm _ _ h; have := hk c; rewrite ec ek.
have [c0 hc0] : exists c0, c0 \in calls_of k by case: (calls_of k) hn => // a s _; exists a; rewrite inE eqxx.
split; last first.
  have : isSome (dget k st.2).
    by rewrite hit2; apply/hasP; exists c0 => //; have [_ [t [-> _ _ _]]] := all_c _ hc0.
  case e : (dget k st.2) => [t|] // _; have [sh wt] := s2 _ _ e; exists t; split=> // i j hi hj.
  rewrite (val2 _ _ _ _ e) //; apply: eq_big_seq => c h; have [_ [t' [-> _ _ v]]] := all_c _ h; rewrite /= v //.
    by have [ho _] := vm _ _ h; have [_ ->] := hD _ ho; move: h; rewrite mem_filter => /andP[/eqP -> _].
  by have [ho _] := vm _ _ h; have [_ ->] := hD _ ho; move: h; rewrite mem_filter => /andP[/eqP -> _].
case: ifP => hw; last first.
  by apply: none; rewrite hit1; apply/negbTE/hasPn => c h; have := all_c _ h; rewrite hw => -[-> _].
have : isSome (dget k st.1).
  by rewrite hit1; apply/hasP; exists c0 => //; have := all_c _ hc0; rewrite hw => -[[t [-> _ _ _]] _].
case e : (dget k st.1) => [t|] // _; have [sh wt] := s1 _ _ e; have szk : sz1 k = (D1 k + joint_params sep ps)%N by rewrite /sz1 ek.
exists t; rewrite -szk; split=> // i j hi hj; rewrite (val1 _ _ _ _ e) //; apply: eq_big_seq => c h.
have := all_c _ h; rewrite hw => -[[t' [-> _ _ v]] _] /=.
have [ho ec] := vm _ _ h; have hv1 : v1 c = (g_d1 ge c + joint_params sep ps)%N by rewrite /v1 ec ek.
have hck : callee c = k by move: h; rewrite mem_filter => /andP[/eqP -> _].
by rewrite hv1 v // -hv1 sz1E // hck.
Qed.

(* ---- the same network with the positions passed in one call or one by one ---- *)
(* layer l is called once on P inputs with d features each and gives P outputs with
   o channels each; call v s gets input s only and gives output s *)
Definition separate (l : nlayer X) (P d o : nat) (v : nat -> nlayer X) : Prop :=
  [/\ nl_conv l = None, exists2 s, nl_ishape l = rcons s d & numel s = P, exists2 s, nl_oshape l = rcons s o & numel s = P &
   forall s, (s < P)%N -> [/\ nl_conv (v s) = None, nl_ishape (v s) = [:: d], nl_oshape (v s) = [:: o],
      (forall x, nl_in (v s) x = mkseq (fun j => nth 0 (nl_in l x) (s * d + j)) d) /\
      (forall x, nl_out (v s) x = mkseq (fun i => nth 0 (nl_out l x) (s * o + i)) o) &
      forall x z, nl_tail (v s) x z = nl_tail l x (fun p => if (p %/ o == s)%N then z (p %% o)%N else nth 0 (nl_out l x) p)]].

Lemma separate_ok l P d o v s : layer_ok T C l -> separate l P d o v -> (s < P)%N -> layer_ok T C (v s).
Proof.
move=> [h1 h2 h3 h4] [_ _ [so eo no] /(_ s) h] hs; have [v1 v2 v3 [v4 v5] v6] := h hs; split.
- by move=> x; rewrite v4 v2 size_mkseq /= muln1.
- by move=> x; rewrite v5 v3 size_mkseq /= muln1.
- by move=> x z; rewrite v6.
move=> x z z' hz; rewrite !v6; apply: h4 => p; rewrite eo numel_rcons no => hp; case: ifP => // _; apply: hz.
by rewrite v3 /= muln1 ltn_mod; move: hp; case: (o) => //; rewrite muln0.
Qed.

Lemma separate_grad l P d o v s x phi i : layer_ok T C l -> separate l P d o v -> (s < P)%N -> (i < o)%N ->
  ograd T C kind (v s) x phi i = ograd T C kind l x phi (s * o + i).
Proof.
move=> [h1 h2 h3 h4] [_ _ [so eo no] /(_ s) h] hs hi; have [v1 v2 v3 [v4 v5] v6] := h hs.
rewrite /ograd /pd v5 nth_mkseq //; apply: Derive_ext => t; apply: eq_bigr => u _; congr (phi u _).
apply: functional_extensionality => c; congr nth; rewrite v6; apply: h4 => p; rewrite eo numel_rcons no => hp.
have o0 : (0 < o)%N by case: (o) hi.
rewrite /upd; case: (p =P (s * o + i)%N) => [->|ne].
  by rewrite divnMDl // modnMDl divn_small // addn0 eqxx modn_small // eqxx.
case: eqP => // e; case: eqP => [e'|_]; first by case: ne; rewrite -e -e' -divn_eq.
by rewrite nth_mkseq ?ltn_mod // -e -divn_eq.
Qed.

Lemma separate_in l P d o v joint s x i j : separate l P d o v -> (s < P)%N ->
  in_term ap joint 1 d (lin_act (v s) d x) i j = aug d (lin_act l d x s) i * aug d (lin_act l d x s) j.
Proof.
move=> [_ _ _ /(_ s) h] hs; have [_ _ _ [v4 _] _] := h hs.
have e q : aug d (lin_act (v s) d x 0) q = aug d (lin_act l d x s) q.
  by rewrite /aug /lin_act; case: ifP => // hq; rewrite v4 mul0n add0n nth_mkseq.
rewrite /in_term; case: ap; first by rewrite big_ord1 invr1 mul1r !e.
by rewrite -!e /aug; congr (_ * _); case: ifP => // _; rewrite big_ord1 invr1 mul1r.
Qed.

(* the draws are determined by the generator *)
Lemma sampled_fun rows o g y g1 y' g1' : sampled C kind normal_o multinomial_o bernoulli_o rows o g y g1 ->
  sampled C kind normal_o multinomial_o bernoulli_o rows o g y' g1' -> y = y' /\ g1 = g1'.
Proof.
move=> [s1 h1] [s2 h2]; have ex : (forall r, (r < rows)%N -> nth (TCls 0) y r = nth (TCls 0) y' r) -> y = y'.
  by move=> h; apply: (@eq_from_nth _ (TCls 0)); rewrite s1 ?s2 // => r /h.
by move: h1 h2; case: kind => -[-> h] [-> h']; split=> //; apply: ex => r hr; rewrite h // h'.
Qed.
Lemma samples_fun n rows o g ys g1 ys' g1' : samples C kind normal_o multinomial_o bernoulli_o n rows o g ys g1 ->
  samples C kind normal_o multinomial_o bernoulli_o n rows o g ys' g1' -> ys = ys' /\ g1 = g1'.
Proof.
move=> h; elim: h ys' g1' => {n rows o g ys g1} [rows o g|n rows o g y g1 ys g2 hy _ IH] ys' g1' h; inversion h; subst => //.
by have [? ?] := sampled_fun hy H0; subst; have [-> ->] := IH _ _ H1.
Qed.
Lemma drawn_fun (loader : seq batch) g yss yss' : drawn T C kind net M normal_o multinomial_o bernoulli_o loader g yss ->
  drawn T C kind net M normal_o multinomial_o bernoulli_o loader g yss' -> yss = yss'.
Proof.
move=> h; elim: h yss' => {loader g yss} [g|b l g ys g' yss hy _ IH] yss' h; inversion h; subst => //.
by have [? ?] := samples_fun hy H1; subst; rewrite (IH _ H4).
Qed.

End C86.

Section Separate.
Variables (X Y : Type) (T C : nat) (kind : loss_kind).
Local Notation batch := (seq (X * Y)).
Variable net : X -> seq R.
Variable tgt : Y -> nat -> target.
Variable callee : nat -> nat.
Variable views : nat -> nlayer X.
Variables (order back_order : seq nat).
Variable shapes : seq (seq nat).
Variables (sep : bool) (ap : kfac_approx) (red : reduction) (N M : nat) (mp : mapping).
Variables (G : Type).
Variable normal_o : G -> nat -> (nat -> R) * G.
Variable multinomial_o : G -> nat -> nat -> (nat -> nat -> R) -> nat -> (nat -> nat -> nat) * G.
Variable bernoulli_o : G -> nat -> (nat -> R) -> (nat -> bool) * G.
Local Notation compute ft := (compute_kfac_calls T C kind net tgt callee views order back_order shapes sep ap ft red N M T mp normal_o multinomial_o bernoulli_o).
Local Notation vmp := (call_mapping callee order mp).
Local Notation calls_of := (calls_of callee order).
Hypothesis T_gt0 : (0 < T)%N.
Hypothesis C_gt0 : (0 < C)%N.
Hypothesis net_size : forall x, size (net x) = (T * C)%N.
Hypothesis mp_uniq : uniq (dkeys mp).
Hypothesis hred : red <> ROther.
Hypothesis N_gt0 : (0 < N)%N.
Hypothesis M_gt0 : (0 < M)%N.
Variable mods : nat -> nlayer X.            (* the network with one call per layer *)
Variables (P d o : nat -> nat).             (* positions, features, channels of every layer *)
Variable cs : nat -> nat -> nat.            (* call for position s of layer k *)
Hypothesis uo : uniq order.
Hypothesis hback : Permutation back_order order.
Hypothesis ps_uniq : forall k ps, dget k mp = Some ps -> uniq (dkeys ps).
Hypothesis hcalls : forall k ps, dget k mp = Some ps ->
  [/\ layer_ok T C (mods k), (0 < P k)%N, calls_of k = mkseq (cs k) (P k) &
      separate (mods k) (P k) (d k) (o k) (fun s => views (cs k s))].
Local Notation compute_one ft := (compute_kfac T C kind net tgt mods shapes sep Expand ft red N M T mp normal_o multinomial_o bernoulli_o).

Definition ge_one : geometry X := {| g_S1 := P; g_d1 := d; g_act := fun k => lin_act (mods k) (d k);
  g_S2 := P; g_d2 := o; g_pos := fun k s i => (s * o k + i)%N |}.
Definition ge_calls : geometry X := {| g_S1 := fun=> 1%N; g_d1 := fun c => d (callee c); g_act := fun c => lin_act (views c) (d (callee c));
  g_S2 := fun=> 1%N; g_d2 := fun c => o (callee c); g_pos := fun c s i => (s * o (callee c) + i)%N |}.

Lemma fits_one : fits_geometry T C Expand mods mp ge_one.
Proof.
move=> k ps hk; have [h1 h2 h3 [h4 [s5 h5 n5] [s6 h6 n6] h7]] := hcalls hk; split=> //=.
  by rewrite -n6; apply: OutLinear.
by move=> _; rewrite -n5; apply: InLinear.
Qed.

Lemma vmp_call c ps : dget c vmp = Some ps -> exists s, [/\ dget (callee c) mp = Some ps, (s < P (callee c))%N & c = cs (callee c) s].
Proof.
rewrite vmpE //; case: ifP => // hc hk; have [_ _ e _] := hcalls hk.
have : c \in calls_of (callee c) by rewrite mem_filter eqxx.
by rewrite e => /mapP[s]; rewrite mem_iota /= => hs ec; exists s.
Qed.

Lemma fits_calls : fits_geometry T C ap views vmp ge_calls.
Proof.
move=> c ps /vmp_call [s [hk hs ec]]; have [h1 h2 h3 h4] := hcalls hk.
have := separate_ok h1 h4 hs; rewrite -ec => hok; have [_ _ _ /(_ s hs)] := h4; rewrite -ec => -[v1 v2 v3 _ _].
split=> //=; first exact: (@OutLinear _ (views c) [::] (o (callee c))).
by move=> _; apply: (@InLinear _ ap (views c) [::] (d (callee c))).
Qed.

Lemma vmp_uniq : uniq (dkeys vmp).
Proof.
rewrite /dkeys /call_mapping; apply: subseq_uniq uo.
elim: order => //= c l IH; case: (dget (callee c) mp) => [ps|] /=; first by rewrite eqxx.
exact: subseq_trans IH (subseq_cons _ _).
Qed.

Lemma call_of_pos k ps s : dget k mp = Some ps -> (s < P k)%N -> callee (cs k s) = k.
Proof.
move=> hk hs; have [_ _ h3 _] := hcalls hk.
have : cs k s \in calls_of k by rewrite h3; apply: map_f; rewrite mem_iota /=.
by rewrite mem_filter => /andP[/eqP].
Qed.

Lemma sum_call_grads k ps x phi i j : dget k mp = Some ps -> (i < o k)%N -> (j < o k)%N ->
  \sum_(c <- calls_of k) grad_term ap 1 (grads T C kind views ge_calls c x phi) i j =
  grad_term Expand (P k) (grads T C kind mods ge_one k x phi) i j.
Proof.
move=> hk hi hj; have [h1 h2 h3 h4] := hcalls hk; rewrite h3 big_map (_ : iota 0 (P k) = index_iota 0 (P k)); last by rewrite /index_iota subn0.
rewrite big_mkord; apply: eq_bigr => s _.
have hc := call_of_pos hk (ltn_ord s).
have e q : (q < o k)%N -> grads T C kind views ge_calls (cs k s) x phi 0 q = grads T C kind mods ge_one k x phi s q.
  by move=> hq; rewrite /grads /= mul0n add0n (separate_grad kind x phi h1 h4).
rewrite /grad_term; case: ap; first by rewrite big_ord1 !e.
by rewrite !big_ord1 !e.
Qed.

Lemma used_one : all_used callee order mp.
Proof.
move=> k ps n p hk hn; have [_ P0 e _] := hcalls hk.
have : cs k 0 \in calls_of k by rewrite e; apply: map_f; rewrite mem_iota.
by rewrite mem_filter => /andP[/eqP hc ho]; exists (cs k 0), ps, n; rewrite hc.
Qed.

Lemma grow ft loader g B1 B' : ft <> ForwardOnly ->
  computes T C kind net tgt mods shapes sep Expand red N M mp ge_one normal_o multinomial_o bernoulli_o ft loader g B1 ->
  computes T C kind net tgt views shapes sep ap red N M vmp ge_calls normal_o multinomial_o bernoulli_o ft loader g B' ->
  (forall k ps i j, dget k mp = Some ps -> (i < o k)%N -> (j < o k)%N -> \sum_(c <- calls_of k) B' c i j = B1 k i j) ->
  exists st1 stP, [/\ compute_one ft loader g = (st1, Ok tt), compute ft loader g = (stP, Ok tt) &
    forall k ps, dget k mp = Some ps ->
      (dmem Weight ps -> let D := (d k + joint_params sep ps)%N in exists A1 AP,
        [/\ dget k st1.1 = Some A1, dget k stP.1 = Some AP, tshape A1 = [:: D; D] /\ tshape AP = [:: D; D] &
         forall i j, (i < D)%N -> (j < D)%N -> entry D (tdata AP) i j = (P k)%:R * entry D (tdata A1) i j]) /\
      exists B1 BP, [/\ dget k st1.2 = Some B1, dget k stP.2 = Some BP, tshape B1 = [:: o k; o k] /\ tshape BP = [:: o k; o k] &
         forall i j, (i < o k)%N -> (j < o k)%N -> entry (o k) (tdata BP) i j = entry (o k) (tdata B1) i j]].
Proof.
move=> hft [st1 [e1 h1]] hc hB.
have [//|stP [eP hP]] := C86_calls_add hft uo hback (conj mp_uniq ps_uniq) used_one (D1 := d) (D2 := o) _ hc.
exists st1, stP; split=> // k ps hk; have := h1 k; have := hP k; rewrite hk.
have [lok P0 ecs hsep] := hcalls hk.
have -> : nilp (calls_of k) = false by rewrite ecs /nilp size_mkseq; case: (P k) P0.
move=> [a1 [BP [b1 b2 b3 b4]]] [a2 [B0 [c1 c2 c3 c4]]]; split; last first.
  by exists B0, BP; split=> // i j hi hj; rewrite b4 // c4 // (hB _ _ _ _ hk).
move=> hw; move: a1 a2; rewrite hw => -[AP [p1 p2 p3 p4]] [A1 [q1 q2 q3 q4]].
exists A1, AP; split=> // i j hi hj; rewrite p4 // q4 // ecs big_map /input_factor -mulr_sumr mulrCA; congr (_ * _).
rewrite exchange_big mulr_sumr; apply: eq_bigr => x _ /=.
rewrite (_ : iota 0 (P k) = index_iota 0 (P k)); last by rewrite /index_iota subn0.
rewrite big_mkord mulrA mulfV ?mul1r; last exact: natr_neq0.
apply: eq_bigr => s _; rewrite /= (call_of_pos hk (ltn_ord s)); exact: separate_in hsep (ltn_ord s).
Qed.

(* Calling a layer for one position at a time, instead of once for all P positions:
   the input factor grows by the factor P, the gradient factor stays. *)
Theorem C86_separate_calls ft (d0 : X * Y) loader g : ft <> ForwardOnly -> loader <> [::] -> nonempty loader ->
  (ft = Type2 -> (kind = LCE -> C <> 1%N) /\ type2_targets T C kind tgt (flatten loader)) ->
  exists st1 stP, [/\ compute_one ft loader g = (st1, Ok tt), compute ft loader g = (stP, Ok tt) &
    forall k ps, dget k mp = Some ps ->
      (dmem Weight ps -> let D := (d k + joint_params sep ps)%N in exists A1 AP,
        [/\ dget k st1.1 = Some A1, dget k stP.1 = Some AP, tshape A1 = [:: D; D] /\ tshape AP = [:: D; D] &
         forall i j, (i < D)%N -> (j < D)%N -> entry D (tdata AP) i j = (P k)%:R * entry D (tdata A1) i j]) /\
      exists B1 BP, [/\ dget k st1.2 = Some B1, dget k stP.2 = Some BP, tshape B1 = [:: o k; o k] /\ tshape BP = [:: o k; o k] &
         forall i j, (i < o k)%N -> (j < o k)%N -> entry (o k) (tdata BP) i j = entry (o k) (tdata B1) i j]].
Proof.
case: ft => // _ hl hne h2.
- have [hC ht] := h2 erefl.
  have c1 := @type2_computes X Y T C kind T_gt0 C_gt0 net tgt mods shapes sep Expand red N M mp ge_one net_size mp_uniq fits_one hred N_gt0 M_gt0 G normal_o multinomial_o bernoulli_o loader g hl hne hC ht.
  have c2 := @type2_computes X Y T C kind T_gt0 C_gt0 net tgt views shapes sep ap red N M vmp ge_calls net_size vmp_uniq fits_calls hred N_gt0 M_gt0 G normal_o multinomial_o bernoulli_o loader g hl hne hC ht.
  apply: (grow _ c1 c2) => // k ps i j hk hi hj; rewrite -mulr_sumr exchange_big; congr (_ * _); apply: eq_bigr => x _.
  by rewrite exchange_big; apply: eq_bigr => l _; exact: sum_call_grads hk hi hj.
- have [yss [hd c1]] := @C32_monte_carlo X Y T C kind T_gt0 C_gt0 net tgt mods shapes sep Expand red N M mp ge_one mp_uniq fits_one hred N_gt0 M_gt0 G normal_o multinomial_o bernoulli_o d0 loader g hl hne.
  have [yss' [hd' c2]] := @C32_monte_carlo X Y T C kind T_gt0 C_gt0 net tgt views shapes sep ap red N M vmp ge_calls vmp_uniq fits_calls hred N_gt0 M_gt0 G normal_o multinomial_o bernoulli_o d0 loader g hl hne.
  have e := drawn_fun hd' hd; subst yss'.
  apply: (grow _ c1 c2) => // k ps i j hk hi hj; rewrite -mulr_sumr exchange_big; congr (_ * _); apply: eq_bigr => x _.
  rewrite exchange_big; apply: eq_bigr => y _; rewrite exchange_big; apply: eq_bigr => n _; exact: sum_call_grads hk hi hj.
have c1 := @C32_empirical X Y T C kind T_gt0 C_gt0 net tgt mods shapes sep Expand red N M mp ge_one mp_uniq fits_one hred N_gt0 M_gt0 G normal_o multinomial_o bernoulli_o loader g hl hne.
have c2 := @C32_empirical X Y T C kind T_gt0 C_gt0 net tgt views shapes sep ap red N M vmp ge_calls vmp_uniq fits_calls hred N_gt0 M_gt0 G normal_o multinomial_o bernoulli_o loader g hl hne.
apply: (grow _ c1 c2) => // k ps i j hk hi hj; rewrite -mulr_sumr exchange_big; congr (_ * _); apply: eq_bigr => x _.
exact: sum_call_grads hk hi hj.
Qed.
End Separate.
