(* Facts about the model of /repo/curvlinops/examples/functorch.py. *)
From Coq Require Import Reals FunctionalExtensionality.
From Coquelicot Require Import Coquelicot.
From mathcomp Require Import all_ssreflect all_algebra.
From Verif Require Import PyPrelude Tensor Spec TorchBase RInst Calculus Curvature HessGGN Risk Kfac KfacMap Losses Fisher FisherMC FisherExp Functorch.
Set Implicit Arguments.
Unset Strict Implicit.
Unset Printing Implicit Defensive.
Import GRing.Theory.
Local Open Scope ring_scope.

(* ---- the parameter dictionary ---- *)
(* the parameters are distinct tensors of the model, whose own parameters are
   distinct tensors with distinct names *)
Definition params_ok (named : seq (nat * nat)) (params : seq tparam) : bool :=
  [&& uniq [seq n.1 | n <- named], uniq [seq n.2 | n <- named], uniq [seq tp_ptr p | p <- params] &
      all (fun p => tp_ptr p \in [seq n.2 | n <- named]) params].

Section Params.
Variables (named : seq (nat * nat)) (params : seq tparam).
Hypothesis ok : params_ok named params.
Local Notation S := [seq tp_shape p | p <- params].

Definition name_of (ptr : nat) : nat := nth 0%N [seq n.1 | n <- named] (index ptr [seq n.2 | n <- named]).

Lemma dget_nth (V : Type) (d : seq (nat * V)) v0 i : uniq [seq p.1 | p <- d] -> (i < size d)%N ->
  dget (nth 0%N [seq p.1 | p <- d] i) d = Some (nth v0 [seq p.2 | p <- d] i).
Proof.
elim: d i => [|[k v] d IH] [|i] //= /andP[hk hu] hi.
  by rewrite /dget /= eqxx.
rewrite /dget /= ifF; first exact: IH.
apply/negbTE; apply: contraNneq hk => ->; apply: mem_nth.
by rewrite size_map.
Qed.

Lemma fold_dset (s : seq (nat * nat)) d : uniq ([seq p.1 | p <- d] ++ [seq n.2 | n <- s]) ->
  foldl (fun d (np : nat * nat) => dset np.2 np.1 d) d s = d ++ [seq (n.2, n.1) | n <- s].
Proof.
elim: s d => [|n s IH] d; first by move=> _; rewrite cats0.
move=> hall; have := hall; rewrite cat_uniq => /and3P[hd hx _].
have hnd : n.2 \notin [seq p.1 | p <- d].
  by apply: contraNN hx => h; apply/hasP; exists n.2 => //; rewrite inE eqxx.
rewrite /= dset_new // IH; first by rewrite cat_rcons.
by rewrite map_rcons cat_rcons.
Qed.

Lemma name_dictE ptr : ptr \in [seq n.2 | n <- named] ->
  dgetE ptr (foldl (fun d (np : nat * nat) => dset np.2 np.1 d) [::] named) = Ok (name_of ptr).
Proof.
case/and4P: ok => _ u2 _ _ hp; rewrite fold_dset //= /dgetE.
have hi : (index ptr [seq n.2 | n <- named] < size named)%N by rewrite -(size_map snd) index_mem.
have e := @dget_nth nat [seq (n.2, n.1) | n <- named] 0%N (index ptr [seq n.2 | n <- named]).
rewrite -!map_comp size_map in e.
have := e u2 hi; rewrite (_ : nth 0%N [seq (fst \o (fun n : nat * nat => (n.2, n.1))) i | i <- named] _ = ptr) => [->|].
  by [].
by rewrite -[RHS](nth_index 0%N hp).
Qed.

Lemma name_of_dget ptr : ptr \in [seq n.2 | n <- named] -> dget (name_of ptr) named = Some ptr.
Proof.
case/and4P: ok => u1 _ _ _ hp.
have hi : (index ptr [seq n.2 | n <- named] < size named)%N by rewrite -(size_map snd) index_mem.
by rewrite /name_of (dget_nth 0%N u1 hi) nth_index.
Qed.

Lemma name_of_inj : {in [seq n.2 | n <- named] &, injective name_of}.
Proof. by move=> p q hp hq e; have := name_of_dget hp; rewrite e name_of_dget // => -[]. Qed.

Definition names := [seq name_of (tp_ptr p) | p <- params].

Lemma names_uniq : uniq names.
Proof.
case/and4P: ok => _ _ u3 h4.
rewrite /names (map_comp name_of tp_ptr) map_inj_in_uniq // => p q hp hq.
have sub : {subset [seq tp_ptr p | p <- params] <= [seq n.2 | n <- named]}.
  move=> r; elim: (params) h4 => //= x s IH /andP[hx hs]; rewrite inE => /orP[/eqP -> //|]; exact: IH.
by apply: name_of_inj; apply: sub.
Qed.

Lemma make_params_dictE : make_params_dict named params = Ok (zip names params).
Proof.
case/and4P: (ok) => _ _ _ h4; rewrite /make_params_dict.
set nd := foldl _ _ _.
have main : forall s acc, all (fun p => tp_ptr p \in [seq n.2 | n <- named]) s ->
   uniq ([seq p.1 | p <- acc] ++ [seq name_of (tp_ptr p) | p <- s]) ->
   foldM (fun acc p => let! name := dgetE (tp_ptr p) nd in Ok (dset name p acc)) acc s =
   Ok (acc ++ zip [seq name_of (tp_ptr p) | p <- s] s).
  elim=> [|p s IH] acc /=; first by move=> _ _; rewrite cats0.
  move=> /andP[hp hs] hall; have := hall; rewrite cat_uniq => /and3P[hd hx _].
  have hnd : name_of (tp_ptr p) \notin [seq q.1 | q <- acc].
    by apply: contraNN hx => h; apply/hasP; exists (name_of (tp_ptr p)) => //; rewrite inE eqxx.
  rewrite /nd name_dictE //= -/nd dset_new // IH //; first by rewrite cat_rcons.
  by rewrite map_rcons cat_rcons.
by rewrite main //=; apply: names_uniq.
Qed.

Lemma size_names : size names = size params. Proof. by rewrite size_map. Qed.
Lemma dict_names : [seq p.1 | p <- zip names params] = names.
Proof. by apply: unzip1_zip; rewrite size_names. Qed.
Lemma dict_shapes : [seq tp_shape p.2 | p <- zip names params] = S.
Proof.
rewrite (map_comp tp_shape snd); congr map; apply: unzip2_zip; by rewrite size_names.
Qed.

Lemma envE frozen z : dict_env frozen (zip names params) z = module_env named frozen params z.
Proof.
case/and4P: (ok) => u1 u2 u3 h4.
apply: functional_extensionality => n; rewrite /dict_env dict_names dict_shapes /module_env.
case: (boolP (n \in names)) => hn.
  have hi : (index n names < size params)%N by rewrite -size_names index_mem.
  have p0 : tparam by case: (params) hi => // p _ _.
  have en : n = name_of (tp_ptr (nth p0 params (index n names))).
    by rewrite -{1}(nth_index 0%N hn) (nth_map p0).
  have hp : tp_ptr (nth p0 params (index n names)) \in [seq n.2 | n <- named].
    exact: (all_nthP p0 h4).
  rewrite {2}en name_of_dget //.
  have hin : tp_ptr (nth p0 params (index n names)) \in [seq tp_ptr p | p <- params].
    by rewrite -(nth_map p0 0%N) // mem_nth // size_map.
  rewrite hin; congr param_val.
  by rewrite -(nth_map p0 0%N) // index_uniq // size_map.
case E : (dget n named) => [ptr|//]; case: ifP => // hp; case/negP: hn.
have -> : n = name_of ptr.
  rewrite /name_of; have := dget_in E => hin.
  elim: (named) u1 u2 hin => [|[a b] s IH] //= /andP[ha us] /andP[hb vs] [[<- <-]|hin] /=; first by rewrite eqxx.
  rewrite ifF; first by apply: IH.
  apply/negbTE; apply: contraNneq hb => ->.
  by elim: (s) hin => //= x r IHr [->|/IHr h]; rewrite inE ?eqxx // h orbT.
by rewrite /names (map_comp name_of tp_ptr) map_f.
Qed.
End Params.

(* ---- positions of parameter entries ---- *)
Lemma poff_pack off S i : (i < size S)%N ->
  poff (nth (Param 0 [::]) (pack off S) i) = (off + offset [seq numel s | s <- S] i)%N.
Proof.
elim: S off i => [|s S IH] off [|i] //= hi; first by rewrite /offset /= addn0.
by rewrite IH // offset_cons addnA.
Qed.

Lemma pshape_nth S off i : (i < size S)%N -> pshape (nth (Param 0 [::]) (pack off S) i) = nth [::] S i.
Proof.
by move=> hi; rewrite -[in RHS](pshape_pack off S) (nth_map (Param 0 [::])) // size_pack.
Qed.

Lemma div_rows k n l : (l < n)%N -> ((k * n + l) %/ n = k)%N /\ ((k * n + l) %% n = l)%N.
Proof.
move=> hl; have n0 : (0 < n)%N by apply: leq_ltn_trans hl.
by rewrite divnMDl // divn_small // addn0 modnMDl modn_small.
Qed.

Lemma rows_lt k n l m : (k < m)%N -> (l < n)%N -> (k * n + l < m * n)%N.
Proof.
move=> hk hl; apply: (@leq_trans (k.+1 * n)%N); first by rewrite mulSn addnC ltn_add2r.
by rewrite leq_mul2r hk orbT.
Qed.

Section Layout.
Variables (ns : seq nat) (S : seq (seq nat)).
Hypothesis size_ns : size ns = size S.
Hypothesis ns_uniq : uniq ns.
Hypothesis S_nonempty : S <> [::].
Let P := pack 0 S.
Let D := total S.
Let ds := [seq numel s | s <- S].

Lemma total_ds : sumn ds = D. Proof. by []. Qed.

Lemma coord_ex i : (i < D)%N -> exists a k, [/\ (a < size S)%N, (k < numel (nth [::] S a))%N & i = (offset ds a + k)%N].
Proof.
move=> hi; have [a [k [h1 h2 h3]]] := @offset_ex ds i hi; rewrite size_map in h1.
by exists a, k; split=> //; rewrite -(nth_map _ 0%N).
Qed.

Lemma hessian_matrix int_sqrt (L : point -> R) th : (forall d, int_sqrt (d * d) = d)%N ->
  all (fun s => 0 < numel s)%N S ->
  exists t, [/\ blocks_to_matrix int_sqrt [seq (a.1, [seq (b.1, Tensor (pshape a.2 ++ pshape b.2)
     (mkseq (fun e => pd (poff b.2 + e %% numel (pshape b.2)) (pd (poff a.2 + e %/ numel (pshape b.2)) L) th)
            (numel (pshape a.2) * numel (pshape b.2)))) | b <- zip ns P]) | a <- zip ns P] = Ok t,
    tshape t = [:: D; D], wf t & forall i j, (i < D)%N -> (j < D)%N ->
      entry D (tdata t) i j = pd j (pd i L) th].
Proof.
move=> hq hpos.
pose par a := nth (Param 0 [::]) P (index a ns).
pose dims a := numel (pshape (par a)).
pose blk a b := Tensor (pshape (par a) ++ pshape (par b))
     (mkseq (fun e => pd (poff (par b) + e %% dims b) (pd (poff (par a) + e %/ dims b) L) th) (dims a * dims b)).
pose inner a := [seq (b, blk a b) | b <- ns].
have zE (V : Type) (f : nat * param -> V) : [seq f a | a <- zip ns P] = [seq f (a, par a) | a <- ns].
  have -> : zip ns P = [seq (a, par a) | a <- ns].
    apply: (@eq_from_nth _ (0%N, Param 0 [::])); rewrite ?size_map size_zip size_pack size_ns minnn // => i hi.
    rewrite nth_zip ?size_pack // (nth_map 0%N) ?size_ns // /par index_uniq // size_ns //.
  by rewrite -map_comp.
have hn : ns <> [::] by move=> e; move: size_ns; rewrite e; case: (S) S_nonempty.
have hdims a : a \in ns -> (0 < dims a)%N.
  move=> ha; have hi : (index a ns < size S)%N by rewrite -size_ns index_mem.
  by rewrite /dims /par pshape_nth // (all_nthP [::] hpos).
have hget a b : a \in ns -> b \in ns -> dget b (inner a) = Some (blk a b).
  move=> ha hb; have hi : (index b ns < size (inner a))%N by rewrite size_map index_mem.
  have := @dget_nth _ (inner a) (blk a b) (index b ns); rewrite -!map_comp map_id_in // => /(_ ns_uniq hi).
  by rewrite nth_index // (nth_map 0%N) ?index_mem //= nth_index.
have hw a b : a \in ns -> b \in ns -> wf (blk a b).
  by move=> _ _; rewrite /wf /= size_mkseq numel_cat.
have hsz a b : a \in ns -> b \in ns -> numel (tshape (blk a b)) = (dims a * dims b)%N.
  by move=> _ _; rewrite /= numel_cat.
have [t [t1 t2 t3 t4]] := @blocks_to_matrix_ok R int_sqrt hq ns inner blk dims hn hget hw hsz hdims (0 : R).
have eds : [seq dims n | n <- ns] = ds.
  apply: (@eq_from_nth _ 0%N); rewrite !size_map // => i hi.
  have hi' : (i < size S)%N by rewrite -size_ns.
  by rewrite (nth_map 0%N) // /dims /par index_uniq // pshape_nth // /ds (nth_map [::]).
rewrite eds total_ds in t2 t4.
exists t; split=> //.
  rewrite zE /=; rewrite -t1; congr blocks_to_matrix; apply: eq_map => a; congr (_, _).
  by rewrite zE.
move=> i j /coord_ex[a [k [ha hk ->]]] /coord_ex[b [l [hb hl ->]]].
have pa : par (nth 0%N ns a) = nth (Param 0 [::]) P a by rewrite /par index_uniq ?size_ns.
have pb : par (nth 0%N ns b) = nth (Param 0 [::]) P b by rewrite /par index_uniq ?size_ns.
have da : dims (nth 0%N ns a) = numel (nth [::] S a) by rewrite /dims pa pshape_nth.
have db : dims (nth 0%N ns b) = numel (nth [::] S b) by rewrite /dims pb pshape_nth.
rewrite /entry t4 ?size_ns ?da ?db //= nth_mkseq; last by rewrite da db; apply: rows_lt.
rewrite pa pb db !poff_pack // !add0n.
by have [-> ->] := @div_rows k _ l hl.
Qed.

(* torch.cat of the parameters' Jacobians along the last axis *)
Lemma hessian_matrix_empty int_sqrt (L : point -> R) th : int_sqrt 0%N = 0%N ->
  has (fun s => numel s == 0)%N S -> forall t,
  blocks_to_matrix int_sqrt [seq (a.1, [seq (b.1, Tensor (pshape a.2 ++ pshape b.2)
     (mkseq (fun e => pd (poff b.2 + e %% numel (pshape b.2)) (pd (poff a.2 + e %/ numel (pshape b.2)) L) th)
            (numel (pshape a.2) * numel (pshape b.2)))) | b <- zip ns P]) | a <- zip ns P] <> Ok t.
Proof.
move=> hq hz t; rewrite /blocks_to_matrix.
set bl := [seq _ | a <- zip ns P]; set M := mapM _ _; case E : M => [rows|] //= _.
pose i := find (fun s => numel s == 0)%N S.
have hi : (i < size S)%N by rewrite -has_find.
have sz : size (zip ns P) = size S by rewrite size_zip size_pack size_ns minnn.
have := mapM_nth (0%N, [::]) (Tensor [::] [::]) E (i := i); rewrite size_map sz => /(_ hi).
rewrite (nth_map (0%N, Param 0 [::])) ?sz // nth_zip /=; last by rewrite size_pack.
set inner := [seq _ | b <- zip ns P].
have eu : [seq p.1 | p <- inner] = ns by rewrite -map_comp; apply: unzip1_zip; rewrite size_pack size_ns.
have := @dget_nth _ inner (Tensor [::] [::]) i; rewrite eu size_map sz => /(_ ns_uniq hi).
rewrite /dgetE => -> /=.
rewrite -map_comp (nth_map (0%N, Param 0 [::])) ?sz //= nth_zip /=; last by rewrite size_pack.
have z0 : numel (pshape (nth (Param 0 [::]) P i)) = 0%N.
  by rewrite pshape_nth //; apply/eqP; apply: (nth_find [::] hz).
rewrite numel_cat z0 mul0n hq.
set nm := [seq b.1 | b <- bl].
have : nm <> [::] by rewrite /nm /bl; case: (zip ns P) sz hi => //= /esym ->.
case: nm => // n nm _ /=.
by case: (dget n inner).
Qed.

Lemma jacobian_matrix (pre : seq nat) (ts : seq (tensor R)) (F : point -> nat -> R) th :
  ts = [seq Tensor (rcons pre (numel (pshape a)))
     (mkseq (fun e => pd (poff a + e %% numel (pshape a)) (fun z => F z (e %/ numel (pshape a)))%N th)
            (numel pre * numel (pshape a))) | a <- P] ->
  exists t, [/\ cat_last ts = Ok t, tshape t = rcons pre D, wf t &
    forall r i, (r < numel pre)%N -> (i < D)%N -> entry D (tdata t) r i = pd i (fun z => F z r) th].
Proof.
move=> ets.
have hn : ts <> [::] by rewrite ets /P; case: (S) S_nonempty.
have hs : [seq tshape t | t <- ts] = [seq rcons pre d | d <- ds].
  by rewrite ets /ds -!map_comp -[in RHS](pshape_pack 0 S) -map_comp.
have hw : all (@wf R) ts.
  by rewrite ets all_map; elim: (P) => //= a p ->; rewrite /wf /= size_mkseq numel_rcons eqxx.
have [t [t1 t2 t3 t4]] := @cat_last_lead R 0 pre ts ds hn hs hw.
exists t; split=> // r i hr /coord_ex[a [k [ha hk ->]]].
have da : nth 0%N ds a = numel (nth [::] S a) by rewrite (nth_map [::]).
rewrite /entry -total_ds t4 ?size_map ?da //.
rewrite ets (nth_map (Param 0 [::])) ?size_pack //= nth_mkseq; last first.
  by rewrite pshape_nth //; apply: rows_lt.
rewrite pshape_nth // poff_pack // add0n.
by have [-> ->] := @div_rows r _ k hk.
Qed.
End Layout.

(* ---- the data ---- *)
Section Data.
Variables (X Y : Type) (modelf : inp X -> (nat -> seq R) -> seq R).

(* tensors, or dictionaries of which the model only reads the entry input_key *)
Definition data_ok (input_key : option nat) (data : seq (inp X * Y)) : Prop :=
  ~~ has (fun d => is_dict d.1) data \/
  exists2 k, input_key = Some k & Forall_in (fun d => exists m v, [/\ d.1 = Dict m, dget k m = Some v &
     modelf (Dict m) = modelf (Dict [:: (k, v)])]) data.

Lemma concat_ok input_key (loader : seq (seq (inp X * Y))) : loader <> [::] ->
  data_ok input_key (flatten loader) ->
  exists2 data, concat_batches input_key loader = Ok data &
    [seq (modelf d.1, d.2) | d <- data] = [seq (modelf d.1, d.2) | d <- flatten loader].
Proof.
move=> hl; rewrite /concat_batches; have -> : nilp loader = false by case: loader hl.
rewrite /=; move: (flatten loader) => data [hp|[k -> hd]].
  have -> : (if ohead data is Some d then is_dict d.1 else false) = false.
    by case: data hp => //= d s; rewrite negb_or => /andP[/negbTE].
  by rewrite /= (negbTE hp); exists data.
case: data hd => [|d s hd]; first by exists [::].
have hd1 : is_dict d.1 by case: hd => [[m [v [-> _ _]]] _].
have -> : (if ohead (d :: s) is Some d0 then is_dict d0.1 else false) = true by [].
rewrite [raise_if _ _]/= [bind _ _]/=.
have [q q1 q2] : exists2 q, mapM (fun d0 : inp X * Y => match d0.1 with
        | Plain _ => Err TypeError
        | Dict m => let! v := dgetE k m in Ok (Dict [:: (k, v)], d0.2) end) (d :: s) = Ok q &
     [seq (modelf d.1, d.2) | d <- q] = [seq (modelf d.1, d.2) | d <- d :: s].
  elim: (d :: s) hd => [|e r IH] /=; first by exists [::].
  case=> [[m [v [h1 h2 h3]]] /IH [q eq q2]]; rewrite h1 {1}/dgetE h2 [bind (Ok _) _]/= eq /=.
  by exists ((Dict [:: (k, v)], e.2) :: q) => //=; rewrite q2 h3.
by exists q.
Qed.

Lemma predict_congr (E : point -> nat -> seq R) (d1 d2 : seq (inp X * Y)) z :
  [seq (modelf d.1, d.2) | d <- d1] = [seq (modelf d.1, d.2) | d <- d2] ->
  predict (fun x z => modelf x (E z)) d1 z = predict (fun x z => modelf x (E z)) d2 z.
Proof.
move=> h; rewrite /predict; congr flatten.
have e (d : seq (inp X * Y)) : [seq modelf x.1 (E z) | x <- d] = [seq p.1 (E z) | p <- [seq (modelf x.1, x.2) | x <- d]].
  by rewrite -map_comp.
by rewrite !e h.
Qed.

Lemma targets_congr (d1 d2 : seq (inp X * Y)) :
  [seq (modelf d.1, d.2) | d <- d1] = [seq (modelf d.1, d.2) | d <- d2] ->
  [seq d.2 | d <- d1] = [seq d.2 | d <- d2] /\ size d1 = size d2.
Proof.
move=> h; split; last by have := congr1 size h; rewrite !size_map.
have e (d : seq (inp X * Y)) : [seq x.2 | x <- d] = [seq p.2 | p <- [seq (modelf x.1, x.2) | x <- d]].
  by rewrite -map_comp.
by rewrite !e h.
Qed.
End Data.

(* ---- second derivatives of a loss of an affine function ---- *)
Section Affine.
Variables (O D : nat) (l : point -> R) (g : point -> nat -> R) (h : nat -> nat -> R) (J : nat -> nat -> R) (o0 th : point).
Hypothesis l_diff : forall o, curve_diff O l o (g o).
Hypothesis g_diff : forall a, (a < O)%N -> curve_diff O (fun o => g o a) o0 (h a).

Definition affine (z : point) : point := fun c =>
  if (c < O)%N then o0 c + \sum_(j < D) J c j * (z j - th j) else o0 c.

Lemma affine_th : affine th = o0.
Proof.
apply: functional_extensionality => c; rewrite /affine; case: ifP => // _.
by rewrite big1 ?addr0 // => j _; rewrite subrr mulr0.
Qed.

Lemma affine_derive z i c : (i < D)%N -> (c < O)%N -> is_derive (fun t => affine (upd z i t) c) (z i) (J c i).
Proof.
move=> hi hc.
have hsum : is_derive (fun t => \sum_(j < D) J c j * (upd z i t j - th j)) (z i) (\sum_(j < D) J c j * (j == i :> nat)%:R).
  apply: (@is_derive_sum_ord D (fun j t => J c j * (upd z i t j - th j)) (fun j => J c j * (j == i)%:R)) => j _.
  apply: is_derive_scal; rewrite /upd; case: eqP => _.
    apply: (derive_val (l := Rminus (IZR 1) (IZR 0))); first by have -> : (true%:R : R) = IZR 1 by []; toR; ring.
    by apply: (@is_derive_minus _ R_NormedModule); [exact: is_derive_id | exact: is_derive_const].
  exact: is_derive_const.
have e : \sum_(j < D) J c j * (j == i :> nat)%:R = J c i.
  rewrite (bigD1 (Ordinal hi)) //= eqxx mulr1 big1 ?addr0 // => j /eqP hj.
  by case: eqP => [e|_]; [case: hj; apply: val_inj | rewrite mulr0].
apply: (@derive_ext (fun t => Rplus (o0 c) (\sum_(j < D) J c j * (upd z i t j - th j)))).
  by move=> t; rewrite /affine hc.
apply: (derive_val (l := Rplus (IZR 0) (\sum_(j < D) J c j * (j == i :> nat)%:R))).
  by rewrite e; toR; ring.
by apply: (@is_derive_plus _ R_NormedModule) => //; apply: is_derive_const.
Qed.

Lemma affine_comp F gF z i : (i < D)%N -> curve_diff O F (affine z) gF ->
  is_derive (fun t => F (affine (upd z i t))) (z i) (\sum_(c < O) gF c * J c i).
Proof.
move=> hi hF; apply: (hF (fun t => affine (upd z i t)) (fun c => J c i)); first by rewrite upd_id.
  by move=> c hc; apply: affine_derive.
by move=> t c hc; rewrite /affine ltnNge hc.
Qed.

Lemma affine_pd z i : (i < D)%N -> pd i (fun z => l (affine z)) z = \sum_(c < O) g (affine z) c * J c i.
Proof. by move=> hi; apply: is_derive_unique; apply: affine_comp. Qed.

Lemma affine_pd2_derive i j : (i < D)%N -> (j < D)%N ->
  is_derive (fun t => pd i (fun z => l (affine z)) (upd th j t)) (th j) (\sum_(c < O) \sum_(b < O) J c i * (h c b * J b j)).
Proof.
move=> hi hj.
apply: (@derive_ext (fun t => \sum_(c < O) g (affine (upd th j t)) c * J c i)).
  by move=> t; rewrite affine_pd.
apply: (@is_derive_sum_ord O (fun c t => g (affine (upd th j t)) c * J c i)
   (fun c => \sum_(b < O) J c i * (h c b * J b j))) => c hc.
apply: (derive_val (l := J c i * \sum_(b < O) h c b * J b j)); first by rewrite mulr_sumr.
apply: (@derive_ext (fun t => J c i * g (affine (upd th j t)) c)); first by move=> t; rewrite mulrC.
apply: is_derive_scal.
apply: (@affine_comp (fun o => g o c) (h c) th j hj).
by rewrite affine_th; apply: g_diff.
Qed.

Lemma affine_hessian i j : (i < D)%N -> (j < D)%N ->
  pd j (pd i (fun z => l (affine z))) th = \sum_(c < O) \sum_(b < O) J c i * (pd b (pd c l) o0 * J b j).
Proof.
move=> hi hj; transitivity (\sum_(c < O) \sum_(b < O) J c i * (h c b * J b j)).
  exact: is_derive_unique (affine_pd2_derive hi hj).
apply: eq_bigr => c _; apply: eq_bigr => b _; congr (_ * (_ * _)).
by rewrite (@pd_ext _ (fun o => g o c)); last (by move=> o; exact: curve_pd (@l_diff o) (ltn_ord c)); rewrite (curve_pd (g_diff (ltn_ord c))).
Qed.

Lemma affine_twice_diff : twice_diff D (fun z => l (affine z)) th.
Proof.
move=> i j hi hj; split; last by eexists; apply: affine_pd2_derive.
by apply: filter_forall => t; eexists; apply: affine_comp.
Qed.
End Affine.

(* what the GGN reference needs of a loss: it is differentiable, and its gradient
   is differentiable at the prediction *)
Definition loss_smooth (O : nat) (l : point -> R) (o0 : point) : Prop :=
  exists2 g, (forall o, curve_diff O l o (g o)) & forall a, (a < O)%N -> exists h, curve_diff O (fun o => g o a) o0 h.

Lemma smooth_hess O l o0 : loss_smooth O l o0 -> exists g h, (forall o, curve_diff O l o (g o)) /\
   (forall a, (a < O)%N -> curve_diff O (fun o => g o a) o0 (h a)).
Proof.
case=> g hg hh.
have [h hh'] : exists h : nat -> nat -> R, forall a, (a < O)%N -> curve_diff O (fun o => g o a) o0 (h a).
  exists (fun a b => pd b (fun o => g o a) o0) => a ha; have [h hc] := hh a ha.
  move=> u du t0 e1 e2 e3; have := hc u du t0 e1 e2 e3.
  by apply: derive_val; apply: eq_bigr => b _; rewrite (curve_pd hc).
by exists g, h.
Qed.

(* torch's losses satisfy it *)
Lemma torch_loss_smooth k C y o0 : target_ok k C y -> loss_smooth C (fun f => torch_row k C (mkseq f C) y) o0.
Proof.
move=> hy; exists (fun o => FisherExp.row_grad k C y o).
  by move=> o; apply: FisherExp.torch_row_curve.
move=> a ha; case: k hy; case: y => //= y hy.
- exists (fun b => 2 * (b == a)%:R) => u du t0 e1 e2 e3.
  apply: (derive_val (l := 2 * (du a - 0))).
    rewrite (bigD1 (Ordinal ha)) //= eqxx mulr1 big1 => [|b /eqP hb]; first by rewrite addr0 subr0.
    by case: eqP => [e|_]; [case: hb; apply: val_inj | rewrite mulr0 mul0r].
  apply: is_derive_scal; apply: (@is_derive_minus _ R_NormedModule); [exact: e2 | exact: is_derive_const].
- exists (fun b => softmax C o0 a * ((a == b)%:R - softmax C o0 b)) => u du t0 e1 e2 e3.
  have C0 : (0 < C)%N := leq_ltn_trans (leq0n _) hy.
  have hS : is_derive (fun t => sumexp C (u t)) t0 (\sum_(c < C) exp (u t0 c) * du c).
    apply: (@is_derive_sum_ord C (fun c t => exp (u t c)) (fun c => exp (u t0 c) * du c)) => c hc.
    by apply: is_derive_exp_curve; apply: e2.
  have hE : is_derive (fun t => exp (u t a)) t0 (exp (u t0 a) * du a).
    by apply: (@is_derive_exp_curve (fun t => u t a)); apply: e2.
  have n0 : sumexp C (u t0) <> IZR 0 by apply: sumexp_neq0.
  have hD := is_derive_div _ _ _ _ _ hE hS n0.
  have hc : is_derive (fun _ : R => (a == y)%:R : R) t0 (IZR 0) by exact: is_derive_const.
  apply: derive_val (@is_derive_minus _ R_NormedModule _ _ _ _ _ hD hc).
  rewrite /minus /plus /opp /= -e1.
  transitivity (softmax C (u t0) a * du a - softmax C (u t0) a * \sum_(c < C) softmax C (u t0) c * du c).
    have eq1 : \sum_(c < C) softmax C (u t0) c * du c = (\sum_(c < C) exp (u t0 c) * du c) * Rinv (sumexp C (u t0)).
      by rewrite mulr_suml; apply: eq_bigr => c _; rewrite /softmax /Rdiv; toR; ring.
    rewrite eq1 /softmax; move: n0; set Q := sumexp _ _; set W := \sum_(c < C) _ => n0.
    by toR; field.
  rewrite mulr_sumr.
  under [RHS]eq_bigr => b _ do rewrite mulrBr mulrBl.
  rewrite sumrB; congr (_ - _); last by apply: eq_bigr => b _; rewrite mulrA.
  rewrite (bigD1 (Ordinal ha)) //= eqxx mulr1 big1 ?addr0 // => b /eqP hb.
  by case: eqP => [e|_]; [case: hb; apply: val_inj | rewrite mulr0 mul0r].
exists (fun b => sigmoid (o0 a) * (1 - sigmoid (o0 a)) * (b == a)%:R) => u du t0 e1 e2 e3.
apply: (derive_val (l := Rminus (du a * (sigmoid (u t0 a) * (1 - sigmoid (u t0 a)))) (IZR 0))).
  rewrite (bigD1 (Ordinal ha)) //= eqxx mulr1 big1 => [|b /eqP hb].
    by rewrite e1; toR; ring.
  by case: eqP => [e|_]; [case: hb; apply: val_inj | rewrite mulr0 mul0r].
apply: (@is_derive_minus _ R_NormedModule); last exact: is_derive_const.
by apply: (is_derive_comp sigmoid (fun t => u t a)); [apply: sigmoid_derive | apply: e2].
Qed.
