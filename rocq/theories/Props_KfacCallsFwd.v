(* C86 for forward-only (FOOF) factors: layers called several times. *)
From Coq Require Import Reals Lra FunctionalExtensionality Permutation.
From Coquelicot Require Import Coquelicot.
From mathcomp Require Import all_ssreflect all_algebra.
From Verif Require Import PyPrelude Tensor Spec TorchBase Submatrix RInst Calculus Curvature HessGGN Risk Losses Fisher FisherMC FisherExp LossHess Props_LossHess Conv Props_Conv Kfac KfacCov KfacCovHooks KfacCovSpec KfacCovProof Props_KfacCov KfacCalls Props_KfacCalls.
Set Implicit Arguments.
Unset Strict Implicit.
Unset Printing Implicit Defensive.
Import GRing.Theory.
Local Open Scope ring_scope.
Local Notation update := (update [fieldType of R]).

Lemma run_ins (us : seq update) d1 d2 d2' st : run_updates (d1, d2) [seq Ok u | u <- us] = (st, Ok tt) ->
  run_updates (d1, d2') [seq Ok u | u <- us & is_in u] = ((st.1, d2'), Ok tt).
Proof.
elim: us d1 d2 => [|[k t|k t|k t] us IH] d1 d2 //=; first by case=> <-.
- by case: accumulate => [d|e] //=; apply: IH.
- by case: accumulate => [d|e] //=; apply: IH.
exact: IH.
Qed.

Section Forward.
Variables (X Y : Type) (T C : nat) (kind : loss_kind).
Local Notation batch := (seq (X * Y)).
Variable net : X -> seq R.
Variable tgt : Y -> nat -> target.
Variable callee : nat -> nat.
Variable views : nat -> nlayer X.
Variables (order back_order : seq nat).
Variable shapes : seq (seq nat).
Variables (sep : bool) (ap : kfac_approx) (red : reduction) (N M : nat) (mp : mapping) (ge : geometry X).
Variables (G : Type).
Variable normal_o : G -> nat -> (nat -> R) * G.
Variable multinomial_o : G -> nat -> nat -> (nat -> nat -> R) -> nat -> (nat -> nat -> nat) * G.
Variable bernoulli_o : G -> nat -> (nat -> R) -> (nat -> bool) * G.
Local Notation compute ft mp := (compute_kfac_calls T C kind net tgt callee views order back_order shapes sep ap ft red N M T mp normal_o multinomial_o bernoulli_o).
Local Notation vmp := (call_mapping callee order mp).
Local Notation calls_of := (calls_of callee order).
Hypothesis T_gt0 : (0 < T)%N.
Hypothesis C_gt0 : (0 < C)%N.
Hypothesis N_gt0 : (0 < N)%N.
Hypothesis uo : uniq order.
Hypothesis hproper : proper mp.
Hypothesis hge : fits_geometry T C ap views vmp ge.

(* the entries of the modules that are called *)
Let mp' : mapping := [seq e <- mp | ~~ nilp (calls_of e.1)].

Lemma called c : c \in order -> nilp (calls_of (callee c)) = false.
Proof.
move=> hc; have : c \in calls_of (callee c) by rewrite mem_filter eqxx hc.
by case: (calls_of _).
Qed.

Lemma dget_mp' k : dget k mp' = if nilp (calls_of k) then None else dget k mp.
Proof.
rewrite /mp'; elim: (mp) => [|[a ps] s IH] /=; first by case: ifP.
case: ifP => h /=; rewrite !dgcons IH; case: (k =P a) => [->|_] //; first by rewrite (negbTE h).
by move/negbFE: h => ->.
Qed.

Lemma vmp' : call_mapping callee order mp' = vmp.
Proof.
have h : forall s, {subset s <= order} -> pmap (fun c => omap (pair c) (dget (callee c) mp')) s = pmap (fun c => omap (pair c) (dget (callee c) mp)) s.
  elim=> //= c s IH hs; rewrite dget_mp' called ?hs ?inE ?eqxx // IH // => x hx; apply: hs; by rewrite inE hx orbT.
by apply: h.
Qed.

Lemma proper' : proper mp'.
Proof.
case: hproper => h1 h2; split; first by apply: subseq_uniq h1; apply: map_subseq; apply: filter_subseq.
by move=> k ps; rewrite dget_mp'; case: ifP => // _; apply: h2.
Qed.

Lemma used' : all_used callee order mp'.
Proof.
move=> k ps n p; rewrite dget_mp'; case: ifP => // /negbT hk ek hn.
have [c hc] : exists c, c \in calls_of k by case: (calls_of k) hk => // c s _; exists c; rewrite inE eqxx.
move: hc; rewrite mem_filter => /andP[/eqP ec ho]; exists c, ps, n; split=> //.
by rewrite dget_mp' ec ek; move: hk; rewrite -ec called.
Qed.

Lemma forward_mp' (b : batch) : calls_forward callee views order sep ap N mp' b = calls_forward callee views order sep ap N mp b.
Proof.
rewrite /calls_forward; congr flatten; apply/eq_in_map => c hc.
by rewrite /call_input dget_mp' called.
Qed.

Lemma call_input_ins mp0 (b : batch) : forall u, List.In (Ok u) (calls_forward callee views order sep ap N mp0 b) -> is_in u.
Proof.
rewrite /calls_forward => u; elim: (order) => //= c s IH /List.in_app_iff [|/IH //].
rewrite /call_input; case: (dget (callee c) mp0) => [ps|] //; case: ifP => //= _ [|//].
by case: input_covariance => [t|e] //= [<-].
Qed.

Lemma backward_no_in bo red0 M0 (mp0 : mapping) (b : batch) phi :
  forall u, List.In (Ok u) (calls_backward T C kind callee views bo ap red0 N M0 T mp0 b phi) -> is_in u = false.
Proof.
move=> u /List.in_app_iff []; last by case: ifP => //= _ [].
rewrite /call_grads; elim: bo => //= c s IH /List.in_app_iff [|/IH //].
by rewrite /call_grad; case: (dget (callee c) mp0) => [ps|] //= [|//]; case: gradient_covariance => [t|e] //= [<-].
Qed.


(* the updates of input factors among events *)
Definition ins (ev : seq (res update)) : seq update := [seq u <- pmap (fun r => if r is Ok u then Some u else None) ev | is_in u].
Lemma ins_cat ev ev' : ins (ev ++ ev') = ins ev ++ ins ev'.
Proof. by rewrite /ins pmap_cat filter_cat. Qed.
Lemma ins_oks us : ins [seq Ok u | u <- us] = [seq u <- us | is_in u].
Proof. by rewrite /ins; congr filter; elim: us => //= u us ->. Qed.
Lemma ins0 ev : (forall u, List.In (Ok u) ev -> is_in u = false) -> ins ev = [::].
Proof.
rewrite /ins; elim: ev => //= -[u|e] ev IH h /=; last by apply: IH => u hu; apply: h; right.
by rewrite h ?IH //; [move=> v hv; apply: h; right|left].
Qed.

Lemma ins_events ft0 red0 M0 mp0 fw bw (loader : seq batch) (g : G) :
  (forall b g0 u, List.In (Ok u) (loss_events T C kind net tgt shapes ft0 red0 M0 mp0 normal_o multinomial_o bernoulli_o bw b g0).1 -> is_in u = false) ->
  ins (kfac_events T C kind net tgt shapes ft0 red0 M0 mp0 normal_o multinomial_o bernoulli_o fw bw loader g) =
  flatten [seq ins (fw b) | b <- loader].
Proof.
move=> h; elim: loader g => //= b l IH g; have := h b g; case: loss_events => ev g' /= h1.
by rewrite !ins_cat IH (ins0 h1).
Qed.

(* The input factor of a module is the sum over its calls of the calls' own factors;
   the gradient factor is the identity, however often the module is called. *)
Theorem C86_forward_only loader g (D1 D2 : nat -> nat) : loader <> [::] -> nonempty loader ->
  (forall c, c \in order -> g_d1 ge c = D1 (callee c) /\ g_d2 ge c = D2 (callee c)) ->
  (* the first parameter of every module has the module's output channels as leading axis *)
  (forall k ps, dget k mp = Some ps -> exists n p rest, ps = (n, p) :: rest /\ head 0%N (nth [::] shapes p) = D2 k) ->
  exists st, compute ForwardOnly mp loader g = (st, Ok tt) /\ forall k,
    match dget k mp with
    | None => dget k st.1 = None /\ dget k st.2 = None
    | Some ps =>
        (if dmem Weight ps && ~~ nilp (calls_of k) then is_factor st.1 k (D1 k + joint_params sep ps) (fun i j => \sum_(c <- calls_of k)
           input_factor ap (joint_params sep ps) N (g_S1 ge c) (g_d1 ge c) (g_act ge c) (flatten loader) i j)
         else dget k st.1 = None) /\
        is_factor st.2 k (D2 k) (fun i j => (i == j)%:R)
    end.
Proof.
move=> hl hne hD hsh.
have hge' : fits_geometry T C ap views (call_mapping callee order mp') ge by rewrite vmp'.
have uv : uniq (dkeys (call_mapping callee order mp')) by apply: vmp_uniq.
have hc := @C32_empirical X Y T C kind T_gt0 C_gt0 net tgt views shapes sep ap RSum N 1 (call_mapping callee order mp') ge uv hge' (fun e => ltac:(discriminate e)) N_gt0 erefl G normal_o multinomial_o bernoulli_o loader g hl hne.
have hft : Empirical <> ForwardOnly by [].
have [st0 [e0 h0]] := C86_calls_add hft uo (Permutation_refl order) proper' used' hD hc.
rewrite /compute_kfac_calls in e0; have [us eus] := run_all_ok e0; rewrite eus in e0.
have {e0} e0 := run_ins [::] e0.
have ins_e : [seq u <- us | is_in u] = flatten [seq ins (calls_forward callee views order sep ap N mp b) | b <- loader].
  rewrite -ins_oks -eus ins_events; first by congr flatten; apply/eq_map => b; rewrite forward_mp'.
  by move=> b g0 u /=; apply: backward_no_in.
have sets : exists ss, [/\ [seq match e.2 with (_, p) :: _ => Ok (USet e.1 (eye [fieldType of R] (head 0%N (nth [::] shapes p)))) | [::] => Err StopIteration end | e <- mp] = [seq Ok u | u <- ss],
    all (fun u : update => ~~ is_in u && ~~ is_ugrad u) ss &
    forall k D, dget k (foldl set_one D ss) = if dget k mp is Some _ then Some (eye [fieldType of R] (D2 k)) else dget k D].
  have : forall k ps, List.In (k, ps) mp -> exists n p rest, ps = (n, p) :: rest /\ head 0%N (nth [::] shapes p) = D2 k.
    by move=> k ps /(In_dget hproper.1); apply: hsh.
  elim: (mp) => [|[a y] s IH] /= h; first by exists [::].
  have [|ss [e1 e2 e3]] := IH; first by move=> k ps hk; apply: h; right.
  have [n [p [rest [-> ha]]]] := h a y (or_introl erefl).
  exists (USet a (eye [fieldType of R] (D2 a)) :: ss); split.
  - by rewrite e1 ha.
  - by rewrite /= e2.
  move=> k D; rewrite /= e3 dget_dset dgcons; case: (k =P a) => [->|ne].
    by rewrite eqxx; case: (dget a s).
  by rewrite (_ : (a == k) = false) //; apply/eqP => e; case: ne.
have [ss [e1 e2 e3]] := sets.
(* all events of the run *)
have [us' [f1 f2 f3 f4]] : exists us', [/\ kfac_events T C kind net tgt shapes ForwardOnly red M mp normal_o multinomial_o bernoulli_o
      (calls_forward callee views order sep ap N mp) (calls_backward T C kind callee views back_order ap red N M T mp) loader g = [seq Ok u | u <- us'],
    all (predC is_ugrad) us', [seq u <- us' | is_in u] = [seq u <- us | is_in u] &
    forall k D, dget k (foldl set_one D us') = if isSome (dget k mp) && (0 < size loader)%N then Some (eye [fieldType of R] (D2 k)) else dget k D].
  have hfw b : List.In b loader -> exists uf, calls_forward callee views order sep ap N mp b = [seq Ok u | u <- uf].
    have : exists us0, kfac_events T C kind net tgt shapes Empirical RSum 1 mp' normal_o multinomial_o bernoulli_o
      (calls_forward callee views order sep ap N mp') (calls_backward T C kind callee views order ap RSum N 1 T mp') loader g = [seq Ok u | u <- us0] by exists us.
    elim: (loader) => //= b' l IH [us0 e] [<-|hb].
      rewrite -forward_mp'; exists (take (size (calls_forward callee views order sep ap N mp' b')) us0).
      by rewrite map_take -e take_size_cat.
    apply: IH hb; move: e; rewrite catA => e; exists (drop (size (calls_forward callee views order sep ap N mp' b' ++ calls_backward T C kind callee views order ap RSum N 1 T mp' b' (scaled_loss C kind RSum (size b' * T) (ktargets T tgt b')))) us0).
    by rewrite map_drop -e drop_size_cat.
  rewrite ins_e; elim: (loader) hfw => [|b l IH] hfw /=.
    by exists [::]; split=> // k D; rewrite andbF.
  have [|us1 [g1 g2 g3 g4]] := IH; first by move=> b' hb; apply: hfw; right.
  have [uf ef] := hfw b (or_introl erefl).
  have inf : all is_in uf by apply: all_In => u hu; apply: (@call_input_ins mp b); rewrite ef; apply: List.in_map.
  exists (uf ++ ss ++ us1); split.
  - by rewrite !map_cat ef g1 e1.
  - rewrite !all_cat g2 andbT; apply/andP; split; first by apply: sub_all inf => -[].
    by apply: sub_all e2 => u /= /andP[].
  - rewrite !filter_cat g3 ef ins_oks; congr (_ ++ _).
    by rewrite (_ : [seq u <- ss | is_in u] = [::]) //; elim: (ss) e2 => //= u s' IH' /andP[/andP[/negbTE -> _] /IH'].
  move=> k D; rewrite !foldl_cat g4 e3 andbT.
  have -> : foldl set_one D uf = D by elim: (uf) inf D => //= -[].
  by case: (dget k mp) => //= _; case: ifP.
rewrite -f3 in e0; have run := run_sets [::] f2 e0.
exists (st0.1, foldl set_one [::] us'); split; first by rewrite /compute_kfac_calls f1 run.
have sl : (0 < size loader)%N by case: (loader) hl.
move=> k; have := h0 k; rewrite f4 sl andbT dget_mp'.
case ek : (dget k mp) => [ps|] /=; last by case: ifP => _ [].
have heye : is_factor (foldl set_one [::] us') k (D2 k) (fun i j => (i == j)%:R).
  exists (eye [fieldType of R] (D2 k)); split=> //; first by rewrite f4 sl ek.
    by rewrite /wf /= size_mkseq muln1.
  move=> i j hi hj; rewrite /entry /= nth_mkseq; last exact: idx_lt.
  by have [-> ->] := dm i hj.
by case: ifP => [_ [h _]|_]; rewrite ?andbF ?andbT //; case: ifP => _ [].
Qed.

(* A module with a weight that is not called: the factors are computed without an
   exception, and every product raises (with the other Fisher types the computation
   itself raises, C86_unused_fails). *)
Lemma foldM_err (A B : Type) (f : B -> A -> res B) (s : seq A) a : List.In a s -> (forall b, exists e, f b a = Err e) ->
  forall b, exists e, foldM f b s = Err e.
Proof.
move=> + h; elim: s => //= a' s IH [->|hin] b; first by have [e ->] := h b; exists e.
by case: (f b a') => [b'|e] /=; [apply: IH|exists e].
Qed.

Lemma missing_input inC grC k ps w (Mt : seq (tensor R)) : List.In (k, ps) mp -> dget Weight ps = Some w -> dget k inC = None ->
  exists e, kfac_matmat sep inC grC mp Mt = Err e.
Proof.
move=> hk hw hn.
have [e he] : exists e, foldM (kfac_layer sep inC grC Mt) (nseq (size Mt) None) mp = Err e; last by rewrite /kfac_matmat he; exists e.
apply: foldM_err hk _ _ => KM; rewrite /kfac_layer /= hw.
case: (lget Mt w) => [m|e] /=; last by exists e.
have hd : dgetE k inC = Err KeyError :> res (tensor R) by rewrite /dgetE hn.
have single : exists e, foldM (kfac_single inC grC Mt k) KM ps = Err e.
  apply: (@foldM_err _ _ _ ps (Weight, w)); first exact: dget_In.
  move=> KM'; rewrite /kfac_single /=; case: (lget Mt w) => [m'|e] /=; last by exists e.
  by case: rearr_w => [mw|e] /=; [rewrite hd; exists KeyError|exists e].
have joint b : exists e, kfac_joint inC grC Mt k KM w b = Err e.
  rewrite /kfac_joint; case: (lget Mt w) => [m1|e] /=; last by exists e.
  case: rearr_w => [m2|e] /=; last by exists e.
  case: (lget Mt b) => [m3|e] /=; last by exists e.
  case: unsqueeze_mid => [m4|e] /=; last by exists e.
  by case: cat_mid => [m5|e] /=; [rewrite hd; exists KeyError|exists e].
case: sep; first by have [e ->] := single; exists e.
by case: (dget Bias ps) => [b|]; [have [e ->] := joint b|have [e ->] := single]; exists e.
Qed.

Theorem C86_forward_only_unused loader g (D1 D2 : nat -> nat) k ps w : loader <> [::] -> nonempty loader ->
  (forall c, c \in order -> g_d1 ge c = D1 (callee c) /\ g_d2 ge c = D2 (callee c)) ->
  (forall k ps, dget k mp = Some ps -> exists n p rest, ps = (n, p) :: rest /\ head 0%N (nth [::] shapes p) = D2 k) ->
  dget k mp = Some ps -> dget Weight ps = Some w -> (forall c, c \in order -> callee c <> k) ->
  exists st, compute ForwardOnly mp loader g = (st, Ok tt) /\
    forall Mt, exists e, kfac_matmat sep st.1 st.2 mp Mt = Err e.
Proof.
move=> hl hne hD hsh hk hw hc; have [st [e h]] := C86_forward_only g hl hne hD hsh.
exists st; split=> // Mt; apply: (@missing_input _ _ k ps w) => //; first exact: dget_In.
have := h k; rewrite hk (_ : nilp (calls_of k) = true) ?andbF; first by case.
rewrite /nilp /Props_KfacCalls.calls_of size_filter -leqn0 leqNgt -has_count; apply/negP => /hasP [c ho /eqP ec]; exact: hc ho ec.
Qed.
End Forward.

Section SeparateForward.
Variables (X Y : Type) (T C : nat) (kind : loss_kind).
Local Notation batch := (seq (X * Y)).
Variable net : X -> seq R.
Variable tgt : Y -> nat -> target.
Variable callee : nat -> nat.
Variable views : nat -> nlayer X.
Variables (order back_order : seq nat).
Variable shapes : seq (seq nat).
Variables (sep : bool) (ap : kfac_approx) (red : reduction) (N M : nat) (mp : mapping).
Variables (G : Type).
Variable normal_o : G -> nat -> (nat -> R) * G.
Variable multinomial_o : G -> nat -> nat -> (nat -> nat -> R) -> nat -> (nat -> nat -> nat) * G.
Variable bernoulli_o : G -> nat -> (nat -> R) -> (nat -> bool) * G.
Local Notation compute ft := (compute_kfac_calls T C kind net tgt callee views order back_order shapes sep ap ft red N M T mp normal_o multinomial_o bernoulli_o).
Local Notation calls_of := (calls_of callee order).
Hypothesis T_gt0 : (0 < T)%N.
Hypothesis C_gt0 : (0 < C)%N.
Hypothesis N_gt0 : (0 < N)%N.
Variable mods : nat -> nlayer X.            (* the network with one call per layer *)
Variables (P d o : nat -> nat).             (* positions, features, channels of every layer *)
Variable cs : nat -> nat -> nat.            (* call for position s of layer k *)
Hypothesis uo : uniq order.
Hypothesis hproper : proper mp.
Hypothesis hcalls : forall k ps, dget k mp = Some ps ->
  [/\ layer_ok T C (mods k), (0 < P k)%N, calls_of k = mkseq (cs k) (P k) &
      separate (mods k) (P k) (d k) (o k) (fun s => views (cs k s))].
Local Notation compute_one ft := (compute_kfac T C kind net tgt mods shapes sep Expand ft red N M T mp normal_o multinomial_o bernoulli_o).

(* Calling a layer for one position at a time multiplies the forward-only matrix of the
   layer by the number of positions. *)
Theorem C86_forward_only_separate loader g : loader <> [::] -> nonempty loader ->
  (forall k ps, dget k mp = Some ps -> exists n p rest, ps = (n, p) :: rest /\ head 0%N (nth [::] shapes p) = o k) ->
  exists st1 stP, [/\ compute_one ForwardOnly loader g = (st1, Ok tt), compute ForwardOnly loader g = (stP, Ok tt) &
    forall k ps, dget k mp = Some ps ->
      (dmem Weight ps -> let D := (d k + joint_params sep ps)%N in exists A1 AP,
        [/\ dget k st1.1 = Some A1, dget k stP.1 = Some AP, tshape A1 = [:: D; D] /\ tshape AP = [:: D; D] &
         forall i j, (i < D)%N -> (j < D)%N -> entry D (tdata AP) i j = (P k)%:R * entry D (tdata A1) i j]) /\
      exists B1 BP, [/\ dget k st1.2 = Some B1, dget k stP.2 = Some BP, tshape B1 = [:: o k; o k] /\ tshape BP = [:: o k; o k] &
         forall i j, (i < o k)%N -> (j < o k)%N -> entry (o k) (tdata BP) i j = entry (o k) (tdata B1) i j]].
Proof.
move=> hl hne hsh; have [mpu psu] := hproper.
have [st1 [e1 h1]] := @C32_forward_only X Y T C kind net tgt mods shapes sep Expand red N M mp (ge_one mods P d o) mpu (fits_one hcalls) G normal_o multinomial_o bernoulli_o loader g hl hsh.
have [|stP [eP hP]] := @C86_forward_only X Y T C kind net tgt callee views order back_order shapes sep ap red N M mp (ge_calls callee views d o) G normal_o multinomial_o bernoulli_o
  T_gt0 C_gt0 N_gt0 uo hproper (fits_calls ap uo hcalls) loader g d o hl hne _ hsh; first by [].
exists st1, stP; split=> // k ps hk; have := h1 k; have := hP k; rewrite hk.
have [lok P0 ecs hsep] := hcalls hk.
have -> : nilp (calls_of k) = false by rewrite ecs /nilp size_mkseq; case: (P k) P0.
rewrite andbT => -[a1 [BP [b1 b2 b3 b4]]] [a2 [B0 [c1 c2 c3 c4]]]; split; last first.
  by exists B0, BP; split=> // i j hi hj; rewrite b4 // c4.
move=> hw; move: a1 a2; rewrite hw => -[AP [p1 p2 p3 p4]] [A1 [q1 q2 q3 q4]].
exists A1, AP; split=> // i j hi hj; rewrite p4 // q4 // ecs big_map /input_factor -mulr_sumr mulrCA; congr (_ * _).
rewrite exchange_big mulr_sumr; apply: eq_bigr => x _ /=.
rewrite (_ : iota 0 (P k) = index_iota 0 (P k)); last by rewrite /index_iota subn0.
rewrite big_mkord mulrA mulfV ?mul1r; last exact: natr_neq0.
apply: eq_bigr => s _; rewrite /=.
have : cs k s \in calls_of k by rewrite ecs; apply: map_f; rewrite mem_iota /=.
rewrite mem_filter => /andP[/eqP -> _]; exact: separate_in hsep (ltn_ord s).
Qed.
End SeparateForward.
Print Assumptions C86_forward_only.
Print Assumptions C86_forward_only_unused.
Print Assumptions C86_forward_only_separate.
