(* Model of the reference implementations in /repo/curvlinops/examples/functorch.py.
   torch.func's transforms (hessian, grad, jacrev, jvp) are exact partial
   derivatives; exact real arithmetic. *)
From Coq Require Import Reals FunctionalExtensionality.
From Coquelicot Require Import Coquelicot.
From mathcomp Require Import all_ssreflect all_algebra.
From Verif Require Import PyPrelude Tensor Spec TorchBase RInst Calculus Curvature HessGGN Risk Kfac Losses Fisher FisherMC.
Set Implicit Arguments.
Unset Strict Implicit.
Unset Printing Implicit Defensive.
Import GRing.Theory.
Local Open Scope ring_scope.

(* ---- torch tensor operations ---- *)
Section Ops.
Variable T : Type.
Local Notation tens := (tensor T).

(* all axes but the last *)
Definition lead (s : seq nat) : seq nat := take (size s).-1 s.

(* torch.cat(ts, dim=-1) (dim=1 for 2d tensors); RuntimeError for an empty list or
   when the other axes disagree *)
Definition cat_last (ts : seq tens) : res tens :=
  match ts with
  | [::] => Err RuntimeError
  | t0 :: _ =>
      if all (fun t => (0 < ndim t)%N && (lead (tshape t) == lead (tshape t0))) ts then
        Ok (Tensor (rcons (lead (tshape t0)) (sumn [seq last 0%N (tshape t) | t <- ts]))
          (flatten (mkseq (fun r => flatten [seq take (last 0%N (tshape t)) (drop (r * last 0%N (tshape t)) (tdata t)) | t <- ts])
                          (numel (lead (tshape t0))))))
      else Err RuntimeError
  end.

(* t.reshape(r, -1): torch refuses to infer the size of an axis of an empty tensor *)
Definition reshape_rows (r : nat) (t : tens) : res tens :=
  if (r == 0%N) || ~~ (r %| numel (tshape t))%N then Err RuntimeError
  else Ok (Tensor [:: r; numel (tshape t) %/ r]%N (tdata t)).

(* t.flatten(start_dim=a) for a >= 0; IndexError if the axis does not exist *)
Definition flatten_from (a : nat) (t : tens) : res tens :=
  if (a < maxn 1 (ndim t))%N then Ok (Tensor (rcons (take a (tshape t)) (numel (drop a (tshape t)))) (tdata t))
  else Err IndexError.

(* t.flatten(start_dim=-k): -0 is 0, so that k = 0 flattens the whole tensor *)
Definition flatten_from_back (k : nat) (t : tens) : res tens :=
  if k == 0%N then flatten_from 0 t
  else if (ndim t < k)%N then Err IndexError else flatten_from (ndim t - k) t.

(* t.flatten(end_dim=-2) *)
Definition flatten_to_rows (t : tens) : res tens :=
  if (ndim t < 2)%N then Err IndexError
  else Ok (Tensor [:: numel (lead (tshape t)); last 0%N (tshape t)] (tdata t)).

(* functorch.py 14-34.  [int_sqrt n] is int(sqrt(n)) (a float square root). *)
Definition blocks_to_matrix (int_sqrt : nat -> nat) (blocks : seq (nat * seq (nat * tens))) : res tens :=
  let param_names := [seq b.1 | b <- blocks] in
  let! row_blocks := mapM (fun nb : nat * seq (nat * tens) =>
      let! diag := dgetE nb.1 nb.2 in
      let num_rows := int_sqrt (numel (tshape diag)) in
      let! col_blocks := mapM (fun n => let! t := dgetE n nb.2 in reshape_rows num_rows t) param_names in
      cat_last col_blocks) blocks in
  tcat row_blocks.

(* ---- facts ---- *)
Definition offset (ds : seq nat) (i : nat) : nat := sumn (take i ds).

Lemma offset_cons d ds i : offset (d :: ds) i.+1 = (d + offset ds i)%N.
Proof. by []. Qed.

Lemma nth_flatten_off (x0 : T) (ss : seq (seq T)) i k : (k < size (nth [::] ss i))%N ->
  nth x0 (flatten ss) (offset [seq size s | s <- ss] i + k) = nth x0 (nth [::] ss i) k.
Proof.
elim: ss i => [|s ss IH] [|i] //= hk; first by rewrite /offset /= add0n nth_cat hk.
by rewrite offset_cons nth_cat -addnA ltnNge leq_addr /= addKn IH.
Qed.

Lemma offset_lt (ds : seq nat) i k : (i < size ds)%N -> (k < nth 0%N ds i)%N -> (offset ds i + k < sumn ds)%N.
Proof.
elim: ds i => [|d ds IH] [|i] //= hi hk.
  by rewrite /offset /= add0n; apply: leq_trans hk (leq_addr _ _).
by rewrite offset_cons -addnA ltn_add2l IH.
Qed.

(* every position is an offset plus a position in a block *)
Lemma offset_ex (ds : seq nat) e : (e < sumn ds)%N ->
  exists i k, [/\ (i < size ds)%N, (k < nth 0%N ds i)%N & e = (offset ds i + k)%N].
Proof.
elim: ds e => [|d ds IH] e //= he; case: (ltnP e d) => hd.
  by exists 0%N, e.
have [|i [k [h1 h2 h3]]] := IH (e - d)%N; first by rewrite ltn_subLR.
by exists i.+1, k; split=> //; rewrite offset_cons -addnA -h3 subnKC.
Qed.

(* entries of a concatenation along the last axis *)
Lemma lead_rcons (s : seq nat) d : lead (rcons s d) = s.
Proof. by rewrite /lead size_rcons /= -cats1 take_size_cat. Qed.

Lemma cat_last_lead (x0 : T) (pre : seq nat) (ts : seq tens) (ds : seq nat) : ts <> [::] ->
  [seq tshape t | t <- ts] = [seq rcons pre d | d <- ds] -> all (@wf T) ts ->
  exists t, [/\ cat_last ts = Ok t, tshape t = rcons pre (sumn ds), wf t &
    forall i j k, (i < numel pre)%N -> (j < size ds)%N -> (k < nth 0%N ds j)%N ->
      nth x0 (tdata t) (i * sumn ds + (offset ds j + k)) = nth x0 (tdata (nth t ts j)) (i * nth 0%N ds j + k)].
Proof.
move=> hn hs hw; pose r := numel pre.
have hsz : size ts = size ds by rewrite -(size_map (@tshape T)) hs size_map.
have hsh j t : (j < size ds)%N -> tshape (nth t ts j) = rcons pre (nth 0%N ds j).
  by move=> hj; rewrite -(nth_map t (tshape t)) ?hsz // hs (nth_map 0%N).
have [t0 e0] : exists t0, ts = t0 :: behead ts by case: ts hn {hs hw hsz hsh} => // t0 ts _; exists t0.
have d0 : (0 < size ds)%N by rewrite -hsz e0.
have sh0 : lead (tshape t0) = pre by have := hsh 0%N t0 d0; rewrite nth0 {1}e0 /= => ->; rewrite lead_rcons.
have hall : all (fun t => (0 < ndim t)%N && (lead (tshape t) == lead (tshape t0))) ts.
  apply/(all_nthP t0) => j; rewrite hsz => hj; rewrite /ndim hsh // size_rcons sh0 lead_rcons.
  by rewrite eqxx.
have ew : [seq last 0%N (tshape t) | t <- ts] = ds.
  rewrite (map_comp (last 0%N) (@tshape T)) hs -map_comp -[RHS]map_id; apply: eq_map => d /=.
  by rewrite last_rcons.
pose rowf i := flatten [seq take (last 0%N (tshape t)) (drop (i * last 0%N (tshape t)) (tdata t)) | t <- ts].
have szpart i j : (i < r)%N -> (j < size ds)%N ->
   size (nth [::] [seq take (last 0%N (tshape t)) (drop (i * last 0%N (tshape t)) (tdata t)) | t <- ts] j) = nth 0%N ds j.
  move=> hi hj; rewrite (nth_map t0) ?hsz // hsh // last_rcons size_take size_drop.
  have /eqP -> : wf (nth t0 ts j) by apply: (all_nthP t0 hw); rewrite hsz.
  rewrite hsh // numel_rcons -/r -mulnBl; set d := nth _ _ _.
  case: ltnP => // h; apply/eqP; rewrite eqn_leq h /=.
  by apply: leq_pmull; rewrite subn_gt0.
have szs i : (i < r)%N -> [seq size s | s <- [seq take (last 0%N (tshape t)) (drop (i * last 0%N (tshape t)) (tdata t)) | t <- ts]] = ds.
  move=> hi; apply: (@eq_from_nth _ 0%N); rewrite !size_map ?hsz // => j hj.
  by rewrite (nth_map [::]) ?size_map ?hsz // szpart.
have szrow i : (i < r)%N -> size (rowf i) = sumn ds by move=> hi; rewrite /rowf size_flatten /shape szs.
have hallrow : all (fun s => size s == sumn ds) (mkseq rowf r).
  by apply/(all_nthP [::]) => i; rewrite size_mkseq => hi; rewrite nth_mkseq // szrow.
exists (Tensor (rcons pre (sumn ds)) (flatten (mkseq rowf r))).
split.
- by rewrite /cat_last {1}e0 hall sh0 ew.
- by [].
- rewrite /wf /= size_flatten /shape numel_rcons -/r.
  have -> : [seq size s | s <- mkseq rowf r] = nseq r (sumn ds).
    apply: (@eq_from_nth _ 0%N); rewrite size_map size_mkseq ?size_nseq // => i hi.
    by rewrite (nth_map [::]) ?size_mkseq // nth_mkseq // szrow // nth_nseq hi.
  by rewrite sumn_nseq mulnC.
move=> i j k hi hj hk /=.
rewrite (nth_flatten_uniform _ hallrow) ?size_mkseq //; last exact: offset_lt.
rewrite nth_mkseq // /rowf -{1}(szs i hi) nth_flatten_off ?szpart //.
rewrite (nth_map t0) ?hsz // hsh // last_rcons nth_take // nth_drop.
by rewrite (set_nth_default t0) // hsz.
Qed.

Lemma cat_last_ok (x0 : T) (r : nat) (ts : seq tens) (ds : seq nat) : ts <> [::] ->
  [seq tshape t | t <- ts] = [seq [:: r; d] | d <- ds] -> all (@wf T) ts ->
  exists t, [/\ cat_last ts = Ok t, tshape t = [:: r; sumn ds], wf t &
    forall i j k, (i < r)%N -> (j < size ds)%N -> (k < nth 0%N ds j)%N ->
      nth x0 (tdata t) (i * sumn ds + (offset ds j + k)) = nth x0 (tdata (nth t ts j)) (i * nth 0%N ds j + k)].
Proof.
move=> hn hs hw; have [t [t1 t2 t3 t4]] := @cat_last_lead x0 [:: r] ts ds hn hs hw.
by exists t; split=> // i j k hi; apply: t4; rewrite /= muln1.
Qed.

(* entries of a concatenation along the first axis, for matrices with w columns *)
Lemma tcat_ok (x0 : T) (w : nat) (ts : seq tens) (ds : seq nat) : ts <> [::] ->
  [seq tshape t | t <- ts] = [seq [:: d; w] | d <- ds] -> all (@wf T) ts ->
  exists t, [/\ tcat ts = Ok t, tshape t = [:: sumn ds; w], wf t &
    forall i k l, (i < size ds)%N -> (k < nth 0%N ds i)%N -> (l < w)%N ->
      nth x0 (tdata t) ((offset ds i + k) * w + l) = nth x0 (tdata (nth t ts i)) (k * w + l)].
Proof.
move=> hn hs hw.
have hsz : size ts = size ds by rewrite -(size_map (@tshape T)) hs size_map.
have hsh j t : (j < size ds)%N -> tshape (nth t ts j) = [:: nth 0%N ds j; w].
  by move=> hj; rewrite -(nth_map t (tshape t)) ?hsz // hs (nth_map 0%N).
have [t0 e0] : exists t0, ts = t0 :: behead ts by case: ts hn {hs hw hsz hsh} => // t0 ts _; exists t0.
have d0 : (0 < size ds)%N by rewrite -hsz e0.
have sh0 : tshape t0 = [:: nth 0%N ds 0; w]%N by have := hsh 0%N t0 d0; rewrite nth0 e0.
have hall : all (fun t => (0 < ndim t)%N && (behead (tshape t) == behead (tshape t0))) ts.
  apply/(all_nthP t0) => j; rewrite hsz => hj; rewrite /ndim hsh // sh0 /=.
  by rewrite eqxx.
have eh : [seq head 0%N (tshape t) | t <- ts] = ds.
  by rewrite (map_comp (head 0%N) (@tshape T)) hs -map_comp map_id_in.
have sd i : (i < size ds)%N -> size (tdata (nth t0 ts i)) = (nth 0%N ds i * w)%N.
  move=> hi; have /eqP -> : wf (nth t0 ts i) by apply: (all_nthP t0 hw); rewrite hsz.
  by rewrite hsh //= /numel /= muln1.
have szs : [seq size s | s <- [seq tdata t | t <- ts]] = [seq (d * w)%N | d <- ds].
  apply: (@eq_from_nth _ 0%N); rewrite !size_map ?hsz // => i hi.
  by rewrite -map_comp (nth_map t0) ?hsz //= sd // (nth_map 0%N).
have offM i : offset [seq (d * w)%N | d <- ds] i = (offset ds i * w)%N.
  by rewrite /offset -map_take sumn_map_mulr.
exists (Tensor [:: sumn ds; w] (flatten [seq tdata t | t <- ts])).
split.
- by rewrite /tcat {1}e0 hall sh0 eh.
- by [].
- by rewrite /wf /= size_flatten /shape szs sumn_map_mulr muln1.
move=> i k l hi hk hl /=.
have hkl : (k * w + l < nth 0%N ds i * w)%N.
  by apply: (@leq_trans (k.+1 * w)%N); rewrite ?leq_mul2r ?hk ?orbT // mulSn addnC ltn_add2r.
rewrite mulnDl -addnA -offM -szs nth_flatten_off.
  by rewrite (nth_map t0) ?hsz // (set_nth_default t0) // hsz.
by rewrite (nth_map t0) ?hsz // sd.
Qed.

Section Blocks.
Variable int_sqrt : nat -> nat.
Hypothesis int_sqrt_ok : forall d, int_sqrt (d * d) = d.
Variables (names : seq nat) (inner : nat -> seq (nat * tens)) (blk : nat -> nat -> tens) (dims : nat -> nat).
Hypothesis names_nonempty : names <> [::].
Hypothesis blk_get : forall a b, a \in names -> b \in names -> dget b (inner a) = Some (blk a b).
Hypothesis blk_wf : forall a b, a \in names -> b \in names -> wf (blk a b).
Hypothesis blk_size : forall a b, a \in names -> b \in names -> numel (tshape (blk a b)) = (dims a * dims b)%N.
Hypothesis dims_gt0 : forall a, a \in names -> (0 < dims a)%N.

Let ds := [seq dims n | n <- names].

Lemma blocks_to_matrix_ok (x0 : T) :
  exists t, [/\ blocks_to_matrix int_sqrt [seq (a, inner a) | a <- names] = Ok t,
    tshape t = [:: sumn ds; sumn ds], wf t &
    forall i j k l, (i < size names)%N -> (j < size names)%N ->
      (k < dims (nth 0%N names i))%N -> (l < dims (nth 0%N names j))%N ->
      nth x0 (tdata t) ((offset ds i + k) * sumn ds + (offset ds j + l)) =
      nth x0 (tdata (blk (nth 0%N names i) (nth 0%N names j)))%N (k * dims (nth 0%N names j) + l)].
Proof.
have row a : a \in names -> exists t, [/\
    (let! diag := dgetE a (inner a) in
     let! cs := mapM (fun n => let! t := dgetE n (inner a) in reshape_rows (int_sqrt (numel (tshape diag))) t) names in
     cat_last cs) = Ok t, tshape t = [:: dims a; sumn ds], wf t &
    forall k j l, (k < dims a)%N -> (j < size names)%N -> (l < dims (nth 0%N names j))%N ->
      nth x0 (tdata t) (k * sumn ds + (offset ds j + l)) =
      nth x0 (tdata (blk a (nth 0%N names j)))%N (k * dims (nth 0%N names j) + l)].
  move=> ha; rewrite {1}/dgetE blk_get //= blk_size // int_sqrt_ok.
  pose mk b := Tensor [:: dims a; dims b] (tdata (blk a b)).
  have em : forall s, {subset s <= names} ->
     mapM (fun n => let! t := dgetE n (inner a) in reshape_rows (dims a) t) s = Ok [seq mk b | b <- s].
    elim=> [|b s IH] //= hs; have hb : b \in names by apply: hs; rewrite inE eqxx.
    have -> : dgetE b (inner a) = Ok (blk a b) by rewrite /dgetE blk_get.
    rewrite /=; have -> : reshape_rows (dims a) (blk a b) = Ok (mk b).
      by rewrite /reshape_rows blk_size // gtn_eqF ?dims_gt0 //= dvdn_mulr //= mulKn ?dims_gt0.
    rewrite /= IH //.
    by move=> x hx; apply: hs; rewrite inE hx orbT.
  rewrite (em names) //=.
  have hn : [seq mk b | b <- names] <> [::] by case: (names) names_nonempty.
  have hs : [seq tshape t | t <- [seq mk b | b <- names]] = [seq [:: dims a; d] | d <- ds].
    by rewrite /ds -!map_comp.
  have hw : all (@wf T) [seq mk b | b <- names].
    rewrite all_map; apply/allP => b hb /=; have /eqP e := blk_wf ha hb.
    by rewrite /wf /= muln1 e blk_size.
  have [t [t1 t2 t3 t4]] := cat_last_ok x0 hn hs hw.
  exists t; split=> // k j l hk hj hl.
  rewrite t4 ?size_map //; last by rewrite (nth_map 0%N).
  by rewrite !(nth_map 0%N).
pose f := fun nb : nat * seq (nat * tens) =>
      let! diag := dgetE nb.1 nb.2 in
      let num_rows := int_sqrt (numel (tshape diag)) in
      let! col_blocks := mapM (fun n => let! t := dgetE n nb.2 in reshape_rows num_rows t) names in
      cat_last col_blocks.
have main s : {subset s <= names} -> exists rows, [/\
   mapM f [seq (a, inner a) | a <- s] = Ok rows,
   [seq tshape t | t <- rows] = [seq [:: dims a; sumn ds] | a <- s], all (@wf T) rows &
   forall i k j l t, (i < size s)%N -> (k < dims (nth 0%N s i))%N -> (j < size names)%N -> (l < dims (nth 0%N names j))%N ->
      nth x0 (tdata (nth t rows i)) (k * sumn ds + (offset ds j + l)) =
      nth x0 (tdata (blk (nth 0%N s i) (nth 0%N names j)))%N (k * dims (nth 0%N names j) + l)].
  elim: s => [|a s IH] hs; first by exists [::].
  have [|t [t1 t2 t3 t4]] := row a; first by apply: hs; rewrite inE eqxx.
  have [|rs [q1 q2 q3 q4]] := IH; first by move=> x hx; apply: hs; rewrite inE hx orbT.
  exists (t :: rs); split.
  - by rewrite /= q1 /= (_ : f (a, inner a) = Ok t).
  - by rewrite /= t2 q2.
  - by rewrite /= t3.
  by move=> [|i] k j l t' hi hk hj hl /=; [apply: t4 | apply: q4].
have [//|rows [r1 r2' r3 r4]] := main names.
have r2 : [seq tshape t | t <- rows] = [seq [:: d; sumn ds] | d <- ds] by rewrite r2' /ds -map_comp.
have hn : rows <> [::].
  move=> e; have := congr1 size r2; rewrite e /= size_map size_map.
  by case: (names) names_nonempty.
have [t [t1 t2 t3 t4]] := tcat_ok x0 hn r2 r3.
exists t; split=> //.
  by rewrite /blocks_to_matrix -map_comp /= map_id_in // -/f r1.
move=> i j k l hi hj hk hl.
rewrite t4 ?size_map ?(nth_map 0%N) //; last by apply: offset_lt; rewrite ?size_map ?(nth_map 0%N).
exact: r4.
Qed.

(* a parameter without entries cannot be assembled *)
Lemma blocks_to_matrix_empty_dim a s : int_sqrt 0 = 0%N -> numel (tshape (blk a a)) = 0%N ->
  dget a (inner a) = Some (blk a a) ->
  blocks_to_matrix int_sqrt ((a, inner a) :: s) = Err RuntimeError.
Proof. by move=> h0 h ha; rewrite /blocks_to_matrix /= /dgetE ha /= h h0. Qed.
End Blocks.
End Ops.

(* ---- models, data and parameters ---- *)
Record tparam := TParam { tp_ptr : nat; tp_dev : nat; tp_shape : seq nat }.

(* functorch.py 354-367 (_make_params_dict); [named] is named_parameters() of the
   module: names and data pointers *)
Definition make_params_dict (named : seq (nat * nat)) (params : seq tparam) : res (seq (nat * tparam)) :=
  let name_dict := foldl (fun d (np : nat * nat) => dset np.2 np.1 d) [::] named in
  foldM (fun acc p => let! name := dgetE (tp_ptr p) name_dict in Ok (dset name p acc)) [::] params.

(* entries off, ..., off + n - 1 of the parameter vector *)
Definition slice (z : point) (off n : nat) : seq R := mkseq (fun k => z (off + k)%N) n.
Definition param_at (S : seq (seq nat)) (i : nat) : param := nth (Param 0 [::]) (pack 0 S) i.
Definition param_val (S : seq (seq nat)) (z : point) (i : nat) : seq R :=
  slice z (poff (param_at S i)) (numel (pshape (param_at S i))).

Section Functorch.
Variables (X Y : Type).
(* a datum's model input: a tensor, or a dictionary of tensors *)
Inductive inp := Plain of X | Dict of seq (nat * X).
Local Notation batch := (seq (inp * Y)).

(* functorch.py 320-351 (_concatenate_batches).  A loader is its list of
   (non-empty) batches; the first datum tells whether X[0] is dict-like.  Moving
   tensors to a device is not modelled. *)
Definition is_dict (x : inp) : bool := if x is Dict _ then true else false.
Definition concat_batches (input_key : option nat) (loader : seq batch) : res batch :=
  let data := flatten loader in
  let! _ := raise_if (nilp loader) ValueError in     (* X, y = [] *)
  let mapping := if ohead data is Some d then is_dict d.1 else false in
  let! _ := raise_if (mapping && (input_key == None)) ValueError in
  if mapping then
    mapM (fun d : inp * Y => match d.1, input_key with
        | Dict m, Some k => let! v := dgetE k m in Ok (Dict [:: (k, v)], d.2)
        | _, _ => Err TypeError
        end) data
  else if has (fun d : inp * Y => is_dict d.1) data then Err TypeError else Ok data.

(* the model's prediction on one datum given the values of its parameters by
   name; [frozen]: the module's own values of parameters that are not replaced *)
Variable so : seq nat.                                   (* shape of one prediction *)
Variable modelf : inp -> (nat -> seq R) -> seq R.
Hypothesis model_size : forall x e, size (modelf x e) = numel so.
Variable named : seq (nat * nat).
Variable frozen : nat -> seq R.
Local Notation O := (numel so).

(* the module in use by the linear operators: parameter values are those of the
   tensors in [params], recognised by data pointer *)
Definition module_env (params : seq tparam) (z : point) : nat -> seq R := fun name =>
  if dget name named is Some ptr then
    let ptrs := [seq tp_ptr p | p <- params] in
    if ptr \in ptrs then param_val [seq tp_shape p | p <- params] z (index ptr ptrs) else frozen name
  else frozen name.
Definition module_net (params : seq tparam) (x : inp) (z : point) : seq R := modelf x (module_env params z).

(* torch.func.functional_call(model_func, params_dict, X) *)
Definition dict_env (d : seq (nat * tparam)) (z : point) : nat -> seq R := fun name =>
  let names := [seq p.1 | p <- d] in
  if name \in names then param_val [seq tp_shape p.2 | p <- d] z (index name names) else frozen name.
Definition functional_net (d : seq (nat * tparam)) (x : inp) (z : point) : seq R := modelf x (dict_env d z).

(* the dictionary's parameters with the positions of their entries *)
Definition dict_params (d : seq (nat * tparam)) : seq (nat * param) :=
  zip [seq p.1 | p <- d] (pack 0 [seq tp_shape p.2 | p <- d]).

(* torch.func.hessian(f, argnums)(..., params_dict): nested dictionaries *)
Definition func_hessian (d : seq (nat * tparam)) (L : point -> R) (th : point) : seq (nat * seq (nat * tensor R)) :=
  [seq (a.1, [seq (b.1, Tensor (pshape a.2 ++ pshape b.2)
     (mkseq (fun e => pd (poff b.2 + e %% numel (pshape b.2)) (pd (poff a.2 + e %/ numel (pshape b.2)) L) th)
            (numel (pshape a.2) * numel (pshape b.2)))) | b <- dict_params d]) | a <- dict_params d].

(* torch.func.jacrev(f)(params_dict) for f with output shape [pre], entry r given
   by [F z r] *)
Definition func_jacrev (d : seq (nat * tparam)) (pre : seq nat) (F : point -> nat -> R) (th : point) : seq (nat * tensor R) :=
  [seq (a.1, Tensor (pre ++ pshape a.2)
     (mkseq (fun e => pd (poff a.2 + e %% numel (pshape a.2)) (fun z => F z (e %/ numel (pshape a.2)))%N th)
            (numel pre * numel (pshape a.2)))) | a <- dict_params d].

(* torch.func.grad *)
Definition func_grad (d : seq (nat * tparam)) (L : point -> R) (th : point) : seq (nat * tensor R) :=
  [seq (a.1, Tensor (pshape a.2) (mkseq (fun k => pd (poff a.2 + k) L th) (numel (pshape a.2)))) | a <- dict_params d].

(* torch.func.jvp(model, (anchor,), (z - anchor,)): entry i of the output's
   directional derivative; D entries in total *)
Definition func_jvp (D : nat) (f : point -> seq R) (anchor v : point) (i : nat) : R :=
  \sum_(j < D) pd j (fun z => nth 0 (f z) i) anchor * v j.

Variable int_sqrt : nat -> nat.
Variable lossd : seq R -> Y -> R.

(* functorch.py 37-77 *)
Definition functorch_hessian (red : reduction) (params : seq tparam) (loader : seq batch) (input_key : option nat)
    (th : point) : res (tensor R) :=
  let! dev := the_one [seq tp_dev p | p <- params] in
  let! data := concat_batches input_key loader in
  let! d := make_params_dict named params in
  let loss z := loss_func O lossd red (predict (functional_net d) data z) [seq x.2 | x <- data] in
  blocks_to_matrix int_sqrt (func_hessian d loss th).

(* functorch.py 80-151 *)
Definition functorch_ggn (red : reduction) (params : seq tparam) (loader : seq batch) (input_key : option nat)
    (th : point) : res (tensor R) :=
  let! dev := the_one [seq tp_dev p | p <- params] in
  let! data := concat_batches input_key loader in
  let! d := make_params_dict named params in
  let f := predict (functional_net d) data in
  let D := total [seq tp_shape p.2 | p <- d] in
  let linearized_model z := mkseq (fun i => nth 0 (f th) i + func_jvp D f th (fun j => z j - th j) i) (size data * O) in
  let linearized_loss z := loss_func O lossd red (linearized_model z) [seq x.2 | x <- data] in
  blocks_to_matrix int_sqrt (func_hessian d linearized_loss th).

(* functorch.py 154-195 *)
Definition functorch_gradient_and_loss (red : reduction) (params : seq tparam) (loader : seq batch) (input_key : option nat)
    (th : point) : res (seq (tensor R) * R) :=
  let! dev := the_one [seq tp_dev p | p <- params] in
  let! data := concat_batches input_key loader in
  let! d := make_params_dict named params in
  let loss z := loss_func O lossd red (predict (functional_net d) data z) [seq x.2 | x <- data] in
  Ok ([seq g.2 | g <- func_grad d loss th], loss th).

(* functorch.py 281-317 *)
Definition functorch_jacobian (params : seq tparam) (loader : seq batch) (input_key : option nat)
    (th : point) : res (tensor R) :=
  let! dev := the_one [seq tp_dev p | p <- params] in
  let! data := concat_batches input_key loader in
  let! d := make_params_dict named params in
  let jac := func_jacrev d (size data :: so) (fun z => nth 0 (predict (functional_net d) data z)) th in
  let! js := mapM (fun jp : (nat * tensor R) * (nat * tparam) => flatten_from_back (size (tp_shape jp.2.2)) jp.1.2) (zip jac d) in
  let! j := cat_last js in
  flatten_to_rows j.

(* functorch.py 198-278.  Predictions of shape [batch, ..., C] (MSE, BCE) or
   [batch, C, ...] (cross-entropy), T loss terms per datum *)
Variables (T C : nat) (kind : loss_kind) (tgt : Y -> nat -> target).

(* lines 241-247: the rows of output_flat and the entries of y_flat *)
Definition output_flat (net : inp -> point -> seq R) (data : batch) (z : point) : seq (seq R) :=
  if is_ce kind then mkseq (fun r => mkseq (fun c => out2d T C kind net data z (r * C + c)%N) C) (size data * T)
  else [seq [:: o] | o <- predict net data z].
Definition y_flat (data : batch) : seq target :=
  let ys := ys2d T tgt data in
  if is_ce kind then ys
  else flatten [seq mkseq (fun c => if y is TVec v then TVec (fun _ => v c) else y) C | y <- ys].
(* lines 249-254; a loss on a single prediction with the loss's own reduction *)
Definition elementary_losses (red : reduction) (net : inp -> point -> seq R) (data : batch) (z : point) : seq R :=
  let C' := if is_ce kind then C else 1%N in
  [seq loss2d C' kind (torch_row kind C') red p.1 [:: p.2] | p <- zip (output_flat net data z) (y_flat data)].

(* examples/functorch.py 198-278 *)
Definition functorch_empirical_fisher (red : reduction) (params : seq tparam) (loader : seq batch) (input_key : option nat)
    (th : point) : res (tensor R) :=
  let! dev := the_one [seq tp_dev p | p <- params] in
  let! data := concat_batches input_key loader in
  let! d := make_params_dict named params in
  let losses := elementary_losses red (functional_net d) data in
  let jac := func_jacrev d [:: size (losses th)] (fun z => nth 0 (losses z)) th in
  let! js := mapM (fun j : nat * tensor R => flatten_from 1 j.2) jac in
  let! j := cat_last js in
  let y_numel := if is_ce kind then (size data * T)%N else (size data * T * C)%N in
  let num_losses := (size data * T)%N in
  let num_params := sumn [seq numel (tp_shape p) | p <- params] in
  let! _ := raise_if (num_losses == 0%N) ZeroDivisionError in
  let grouped := (y_numel %/ num_losses)%N in
  let! j3 := treshape [:: num_losses; grouped; num_params] j in
  let summed r i := \sum_(g < grouped) nth 0 (tdata j3) ((r * grouped + g) * num_params + i) in
  let scaled r i := if ~~ is_ce kind && (if red is RMean then true else false)
                    then summed r i / sqrt (grouped%:R) else summed r i in
  let! norm := match red with RSum => Ok (1 : R) | RMean => Ok num_losses%:R | ROther => Err KeyError end in
  Ok (Tensor [:: num_params; num_params]
       (mkseq (fun e => (\sum_(r < num_losses) scaled r (e %/ num_params)%N * scaled r (e %% num_params)%N) / norm)
              (num_params * num_params))).
End Functorch.
