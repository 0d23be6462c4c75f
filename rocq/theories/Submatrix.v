(* Models of curvlinops/submatrix.py, curvlinops/utils.py (split_list) and
   curvlinops/outer.py. *)
From mathcomp Require Import all_ssreflect all_algebra.
From Verif Require Import PyPrelude Tensor Spec Numpy.
Set Implicit Arguments.
Unset Strict Implicit.
Unset Printing Implicit Defensive.
Import Order.Theory GRing.Theory Num.Theory.
Local Open Scope ring_scope.

(* ------------------------------------------------------------------ *)
(* utils.py 9-28 (split_list).  [sizes] are Python integers (possibly
   negative).  x[a:b] is Python slicing, cumsum is numpy's. *)

(* Python's x[a:b] for integers a, b *)
Definition py_slice T (x : seq T) (a b : int) : seq T :=
  let n := (size x)%:Z in
  let norm (z : int) : nat :=
    let z' := if z < 0 then (if z + n < 0 then 0 else z + n) else z in
    if n < z' then size x else `|z'|%N in
  drop (norm a) (take (norm b) x).

(* numpy.cumsum *)
Fixpoint cumsum (acc : int) (s : seq int) : seq int :=
  match s with [::] => [::] | z :: s' => (acc + z) :: cumsum (acc + z) s' end.

(* utils.py 9-28 *)
Definition split_list T (x : seq T) (sizes : seq int) : res (seq (seq T)) :=
  if (size x)%:Z != foldr +%R 0 sizes then Err ValueError else
  let boundaries := cumsum 0 (0 :: sizes) in
  Ok (mkseq (fun i => py_slice x (nth 0 boundaries i) (nth 0 boundaries i.+1)) (size sizes)).

Section SplitProofs.
Variable T : Type.

Lemma py_slice_nat (x : seq T) (a b : nat) : (b <= size x)%N ->
  py_slice x a%:Z b%:Z = drop a (take b x).
Proof.
move=> hb; rewrite /py_slice /=.
rewrite !ltz_nat [(size x < b)%N]ltnNge hb /=.
case: ltnP => // ha.
by rewrite !drop_oversize // size_take; case: ltnP => // ?; apply: leq_trans ha; apply: ltnW.
Qed.

Lemma foldr_posz (sizes : seq nat) : foldr +%R 0 [seq n%:Z | n <- sizes] = (sumn sizes)%:Z.
Proof. by elim: sizes => //= n s ->; rewrite PoszD. Qed.

Lemma nth_cumsum (sizes : seq nat) (acc : nat) i : (i <= size sizes)%N ->
  nth 0 (cumsum acc%:Z (0 :: [seq n%:Z | n <- sizes])) i = (acc + sumn (take i sizes))%N%:Z.
Proof.
move=> hi /=; rewrite addr0; case: i hi => [|i] hi /=; first by rewrite take0 addn0.
elim: sizes acc i hi => [|n s IH] acc [|i] //= hi; rewrite -PoszD.
  by rewrite take0 /= addn0.
by rewrite IH // addnA.
Qed.

Lemma nth_reshape_slice (sizes : seq nat) (x : seq T) i : (i < size sizes)%N ->
  drop (sumn (take i sizes)) (take (sumn (take i.+1 sizes)) x) = nth [::] (reshape sizes x) i.
Proof.
elim: sizes x i => [|n s IH] x [|i] //= hi; first by rewrite take0 /= drop0 addn0.
by rewrite -IH // take_drop drop_drop addnC [(n + _)%N]addnC.
Qed.

Lemma split_list_ok (x : seq T) (sizes : seq nat) : sumn sizes = size x ->
  split_list x [seq n%:Z | n <- sizes] = Ok (reshape sizes x).
Proof.
move=> hs; rewrite /split_list foldr_posz hs eqxx; change (~~ true) with false; cbv iota; congr Ok.
rewrite size_map; apply: (@eq_from_nth _ [::]).
  by rewrite size_mkseq -(size_map size) -/(shape _) reshapeKl ?hs.
rewrite size_mkseq => i hi; rewrite nth_mkseq //.
have hc j : (j <= size sizes)%N -> nth 0 (0 + 0 :: cumsum (0 + 0) [seq n%:Z | n <- sizes]) j = (sumn (take j sizes))%:Z.
  by move=> hj; rewrite -[RHS]/((0 + sumn (take j sizes))%N%:Z) -nth_cumsum.
rewrite !hc ?(ltnW hi) //.
have hle : (sumn (take i.+1 sizes) <= size x)%N by rewrite -hs -{2}(cat_take_drop i.+1 sizes) sumn_cat leq_addr.
rewrite py_slice_nat //.
exact: nth_reshape_slice.
Qed.
End SplitProofs.

Lemma split_list_spec T (x : seq T) (sizes : seq int) :
  all (fun z => 0 <= z) sizes -> foldr +%R 0 sizes = (size x)%:Z ->
  exists2 ls, split_list x sizes = Ok ls &
    [seq (size l)%:Z | l <- ls] = sizes /\ flatten ls = x.
Proof.
move=> hpos; have -> : sizes = [seq n%:Z | n <- [seq `|z|%N | z <- sizes]].
  rewrite -map_comp -[LHS]map_id; apply/eq_in_map => z hz /=.
  by rewrite gez0_abs //; apply: (allP hpos).
move: (map _ sizes) => {hpos} ns; rewrite foldr_posz => -[hs].
rewrite split_list_ok //; eexists; first reflexivity.
rewrite (map_comp (fun n : nat => n%:Z)) -/(shape _) reshapeKl ?hs //; split=> //.
by rewrite reshapeKr ?hs.
Qed.

Lemma split_list_err T (x : seq T) (sizes : seq int) :
  foldr +%R 0 sizes <> (size x)%:Z -> split_list x sizes = Err ValueError.
Proof. by move=> h; rewrite /split_list eq_sym; case: eqP. Qed.

(* ------------------------------------------------------------------ *)
(* submatrix.py *)

(* An element of an index list: a Python int, a bool (a subclass of int in
   Python), or an object that is not an int. *)
Inductive pyidx := PInt of int | PBool of bool | PNonInt.

(* isinstance(i, int) *)
Definition isinstance_int (i : pyidx) := if i is PNonInt then false else true.
(* the integer value used by ==, hash and comparisons *)
Definition idx_val (i : pyidx) : int :=
  match i with PInt z => z | PBool b => (b : nat)%:Z | PNonInt => 0 end.

(* How NumPy reads an index list: a non-empty list of bools is a mask, any other
   list of ints (bools mixed with ints included) is an integer index array. *)
Inductive np_index := IdxInts of seq int | IdxMask of seq bool.
Definition to_np_index (l : seq pyidx) : np_index :=
  if (0 < size l)%N && all (fun i => if i is PBool _ then true else false) l
  then IdxMask [seq (if i is PBool true then true else false) | i <- l]
  else IdxInts [seq idx_val i | i <- l].

(* positions on an axis of length n selected by an index; IndexError if out of
   bounds or if a mask has the wrong length *)
Definition np_positions (n : nat) (ix : np_index) : res (seq nat) :=
  match ix with
  | IdxInts zs =>
      mapM (fun z : int => if (0 <= z) && (z < n%:Z) then Ok (absz z)
                           else if (z < 0) && (0 <= z + n%:Z) then Ok (absz (z + n%:Z))
                           else Err IndexError) zs
  | IdxMask m => if size m == n then Ok [seq i <- iota 0 n | nth false m i] else Err IndexError
  end.

Section Submatrix.
Variable R : ringType.
Local Notation arr := (tensor R).

(* v[idx] = x for a one-dimensional v: NumPy strips leading axes of length one
   from x, then broadcasts to the number of selected positions. *)
Fixpoint strip_ones (s : seq nat) : seq nat :=
  match s with
  | 1%N :: ((_ :: _) as s') => strip_ones s'
  | _ => s
  end.
Definition np_assign (v : arr) (idx : seq pyidx) (x : arr) : res arr :=
  let! pos := np_positions (size (tdata v)) (to_np_index idx) in
  let s := strip_ones (tshape x) in
  let put vals := Ok (Tensor (tshape v)
        (foldl (fun acc p => set_nth 0 acc p.1 p.2) (tdata v) (zip pos vals))) in
  if s == [:: size pos] then put (tdata x)
  else if (s == [:: 1%N]) || (s == [::]) then put (nseq (size pos) (head 0 (tdata x)))
  else Err ValueError.

(* v[idx] for a one-dimensional v *)
Definition np_take (v : arr) (idx : seq pyidx) : res arr :=
  let! pos := np_positions (size (tdata v)) (to_np_index idx) in
  Ok (Tensor [:: size pos] [seq nth 0 (tdata v) p | p <- pos]).

(* The object: wrapped operator A, its adjoint A.adjoint(), stored index lists
   and the shape kept by the SciPy base class.  (That the index lists are stored
   by reference is modelled in ScipyMem.v; here callers do not mutate them.) *)
Record submat := Submat {
  sm_A : scipy_op R; sm_AT : scipy_op R;
  sm_rows : seq pyidx; sm_cols : seq pyidx; sm_shape : nat * nat }.

(* submatrix.py 42-50, one iteration of the validation loop *)
Definition check_axis (bound : nat) (idxs : seq pyidx) : res nat :=
  if has (fun i => ~~ isinstance_int i) idxs then Err ValueError else
  if size idxs != size (undup [seq idx_val i | i <- idxs]) then Err ValueError else
  if has (fun i => (idx_val i < 0) || (bound%:Z <= idx_val i)) idxs then Err ValueError else
  Ok (size idxs).

(* submatrix.py 27-53 (set_submatrix).  Returns the new object state also when an
   exception is raised. *)
Definition set_submatrix (o : submat) (rows cols : seq pyidx) : submat * res unit :=
  match check_axis (sp_rows (sm_A o)) rows with
  | Err e => (o, Err e)
  | Ok m =>
    match check_axis (sp_cols (sm_A o)) cols with
    | Err e => (o, Err e)
    | Ok n => (Submat (sm_A o) (sm_AT o) rows cols (m, n), Ok tt)
    end
  end.

(* submatrix.py 14-25 (__init__) *)
Definition submat_init (A AT : scipy_op R) (rows cols : seq pyidx) : res submat :=
  match set_submatrix (Submat A AT [::] [::] (0%N, 0%N)) rows cols with
  | (o, Ok _) => Ok o
  | (_, Err e) => Err e
  end.

(* submatrix.py 55-69 (_matvec) *)
Definition submat_matvec (o : submat) (x : arr) : res arr :=
  let v := Tensor [:: sp_cols (sm_A o)] (nseq (sp_cols (sm_A o)) 0) in
  let! v' := np_assign v (sm_cols o) x in
  let! Av := sp_dot (sm_A o) v' in
  np_take Av (sm_rows o).

(* submatrix.py 71-82 (_matmat): 'self @ col' for a one-dimensional col only ever
   reaches matvec, so the inner operator needs no _matmat. *)
Definition submat_matmat (o : submat) (X : arr) : res arr :=
  columnwise (sp_dot (ScipyOp (sm_shape o).1 (sm_shape o).2 (submat_matvec o)
                              (fun _ => Err NotImplementedError))) X.

(* the SciPy LinearOperator a SubmatrixLinearOperator is (submatrix.py 11-92) *)
Definition submat_op (o : submat) : scipy_op R :=
  ScipyOp (sm_shape o).1 (sm_shape o).2 (submat_matvec o) (submat_matmat o).

(* submatrix.py 84-92 (_adjoint).  SciPy's A.adjoint().adjoint() is A again. *)
Definition submat_adjoint (o : submat) : res submat :=
  submat_init (sm_AT o) (sm_A o) (sm_cols o) (sm_rows o).

(* ---------------- proofs ---------------- *)

(* proper index list: distinct integers (no bools) within the bound *)
Definition int_index (idxs : seq pyidx) (pos : seq nat) : Prop :=
  idxs = [seq PInt p%:Z | p <- pos].

Lemma positions_int n pos : all (fun p => p < n)%N pos ->
  np_positions n (to_np_index [seq PInt p%:Z | p <- pos]) = Ok pos.
Proof.
move=> hp; have -> : to_np_index [seq PInt p%:Z | p <- pos] = IdxInts [seq p%:Z | p <- pos].
  by rewrite /to_np_index; case: pos {hp} => //= p pos; rewrite -map_comp.
rewrite /=; elim: pos hp => //= p pos IH /andP[hp /IH ->].
by rewrite ltz_nat hp.
Qed.

Lemma nth_foldl_set (pos : seq nat) (x v : seq R) j : uniq pos -> size x = size pos ->
  nth 0 (foldl (fun acc p => set_nth 0 acc p.1 p.2) v (zip pos x)) j =
  if j \in pos then nth 0 x (index j pos) else nth 0 v j.
Proof.
elim: pos x v => [|p pos IH] [|a x] v //= /andP[hp hu] [hs].
rewrite IH // in_cons; case: (j =P p) => [->|/eqP ne] /=.
  by rewrite (negbTE hp) nth_set_nth /= !eqxx.
rewrite nth_set_nth /= (negbTE ne) eq_sym (negbTE ne) /=.
by case: ifP.
Qed.

Lemma size_foldl_set (pos : seq nat) (x v : seq R) : all (fun p => p < size v)%N pos ->
  size (foldl (fun acc p => set_nth 0 acc p.1 p.2) v (zip pos x)) = size v.
Proof.
elim: pos x v => [|p pos IH] [|a x] v //= /andP[hp hu].
have hs : size (set_nth 0 v p a) = size v by rewrite size_set_nth; apply/maxn_idPr.
by rewrite IH ?hs.
Qed.

Lemma sum_select (F : nat -> R) (x : seq R) pos n : uniq pos -> all (fun p => p < n)%N pos ->
  \sum_(j < n) F j * (if (j : nat) \in pos then nth 0 x (index (j : nat) pos) else 0)
  = \sum_(l < size pos) F (nth 0%N pos l) * nth 0 x l.
Proof.
move=> hu hp.
rewrite -(big_mkord xpredT (fun j => F j * (if j \in pos then nth 0 x (index j pos) else 0))).
transitivity (\sum_(j <- index_iota 0 n | j \in pos) F j * nth 0 x (index j pos)).
  by rewrite [RHS]big_mkcond; apply: eq_bigr => j _; case: ifP => // _; rewrite mulr0.
rewrite -big_filter (perm_big pos) /=; last first.
  apply: uniq_perm => //; first by rewrite filter_uniq // iota_uniq.
  move=> j; rewrite mem_filter mem_index_iota /=; case hj: (j \in pos) => //=.
  exact: (allP hp).
rewrite (big_nth 0%N) big_mkord; apply: eq_bigr => l _.
by rewrite index_uniq.
Qed.

Lemma submat_matvec_ok o rpos cpos M :
  int_index (sm_rows o) rpos -> int_index (sm_cols o) cpos ->
  uniq cpos -> all (fun p => p < sp_rows (sm_A o))%N rpos -> all (fun p => p < sp_cols (sm_A o))%N cpos ->
  vec_multiplies (sp_dot (sm_A o)) (sp_rows (sm_A o)) (sp_cols (sm_A o)) M ->
  vec_multiplies (submat_matvec o) (size rpos) (size cpos)
    (fun i j => M (nth 0%N rpos i) (nth 0%N cpos j)).
Proof.
move=> hr hc hu hbr hbc hA x hx hwx.
set n := sp_cols (sm_A o); set m := sp_rows (sm_A o).
have hsx : size (tdata x) = size cpos by move/eqP: hwx; rewrite hx /= muln1.
have hst : strip_ones [:: size cpos] = [:: size cpos] by case: (size cpos) => [|[|]].
rewrite /submat_matvec /np_assign hc /= size_nseq positions_int //= hx hst eqxx /=.
set v' := Tensor _ _.
have hv1 : tshape v' = [:: n] by [].
have hv2 : wf v'.
  by rewrite /wf /= size_foldl_set size_nseq // muln1.
have [y [-> hy1 hy2 hy3]] := hA v' hv1 hv2.
rewrite /= /np_take hr.
have hsy : size (tdata y) = m by move/eqP: hy2; rewrite hy1 /= muln1.
rewrite hsy positions_int //=; eexists; split; first reflexivity.
- by [].
- by rewrite /wf /= size_map muln1.
move=> i hi /=; rewrite (nth_map 0%N) // hy3; last by apply: (allP hbr); rewrite mem_nth.
rewrite -(@sum_select (M (nth 0%N rpos i)) (tdata x) cpos n) //.
apply: eq_bigr => j _; rewrite /v' /= nth_foldl_set // nth_nseq.
by case: ifP => //; case: ifP.
Qed.

Lemma sp_dot_vec (A : scipy_op R) M :
  vec_multiplies (sp_matvec_impl A) (sp_rows A) (sp_cols A) M ->
  vec_multiplies (sp_dot A) (sp_rows A) (sp_cols A) M.
Proof.
move=> h x hx hw; have [y [h1 h2 h3 h4]] := h x hx hw.
rewrite /sp_dot /sp_matvec /ndim hx /= eqxx /= h1 /= /treshape.
have hs : numel [:: sp_rows A] = size (tdata y) by move/eqP: h3; rewrite h2.
rewrite hs eqxx; eexists; split; first reflexivity; rewrite //=.
by rewrite /wf /= -hs.
Qed.

Lemma sp_dot_mat (A : scipy_op R) M K : K <> 1%N ->
  mat_multiplies (sp_matmat_impl A) (sp_rows A) (sp_cols A) K M ->
  mat_multiplies (sp_dot A) (sp_rows A) (sp_cols A) K M.
Proof.
move=> hK h X hX hw; have [y [h1 h2 h3 h4]] := h X hX hw.
rewrite /sp_dot /sp_matmat /ndim hX /=.
case: eqP => // _ /=; rewrite eqxx /=; by exists y.
Qed.

(* validation *)
Definition valid_indices (bound : nat) (idxs : seq pyidx) : Prop :=
  [/\ all isinstance_int idxs, uniq [seq idx_val i | i <- idxs] &
      all (fun i => (0 <= idx_val i) && (idx_val i < bound%:Z)) idxs].

Lemma check_axis_spec bound idxs :
  (valid_indices bound idxs -> check_axis bound idxs = Ok (size idxs)) /\
  (~ valid_indices bound idxs -> check_axis bound idxs = Err ValueError).
Proof.
have hu : (size idxs == size (undup [seq idx_val i | i <- idxs])) = uniq [seq idx_val i | i <- idxs].
  rewrite -(size_map idx_val idxs); apply/idP/idP => [/eqP h|h]; last by rewrite undup_id.
  apply/negPn/negP => hn; have := ltn_size_undup [seq idx_val i | i <- idxs].
  by rewrite hn -h ltnn.
have h1 : has (fun i => ~~ isinstance_int i) idxs = ~~ all isinstance_int idxs by rewrite has_predC.
have h2 : has (fun i => (idx_val i < 0) || (bound%:Z <= idx_val i)) idxs =
   ~~ all (fun i => (0 <= idx_val i) && (idx_val i < bound%:Z)) idxs.
  rewrite -has_predC; apply: eq_has => i /=.
  by rewrite negb_and -ltNge -leNgt.
rewrite /check_axis h1 h2 hu; split=> [[-> -> ->] //|hn].
move: hn; rewrite /valid_indices; case: (all isinstance_int idxs) => //=; case: (uniq _) => //=.
by case: (all _ _) => //= h; case: h.
Qed.

Lemma set_submatrix_spec o rows cols :
  (valid_indices (sp_rows (sm_A o)) rows /\ valid_indices (sp_cols (sm_A o)) cols ->
     set_submatrix o rows cols = (Submat (sm_A o) (sm_AT o) rows cols (size rows, size cols), Ok tt)) /\
  (~ (valid_indices (sp_rows (sm_A o)) rows /\ valid_indices (sp_cols (sm_A o)) cols) ->
     set_submatrix o rows cols = (o, Err ValueError)).
Proof.
have [r1 r2] := check_axis_spec (sp_rows (sm_A o)) rows.
have [c1 c2] := check_axis_spec (sp_cols (sm_A o)) cols.
rewrite /set_submatrix; split=> [[/r1 -> /c1 ->] //|hn].
have dec b l : valid_indices b l \/ ~ valid_indices b l.
  rewrite /valid_indices; set b1 := all _ _; set b2 := uniq _; set b3 := all _ _.
  by case: (@and3P b1 b2 b3); [left|right].
have [hr|/r2 -> //] := dec (sp_rows (sm_A o)) rows.
rewrite (r1 hr); have [hc|/c2 -> //] := dec (sp_cols (sm_A o)) cols.
by case: hn.
Qed.

(* histories of set_submatrix calls (products do not change the object) *)
Definition run_sets (o : submat) (h : seq (seq pyidx * seq pyidx)) : submat :=
  foldl (fun o rc => (set_submatrix o rc.1 rc.2).1) o h.

Lemma run_sets_spec A AT h rows cols o :
  submat_init A AT rows cols = Ok o ->
  exists rc, [/\ rc = (rows, cols) \/ List.In rc h,
     run_sets o h = Submat A AT rc.1 rc.2 (size rc.1, size rc.2),
     valid_indices (sp_rows A) rc.1 /\ valid_indices (sp_cols A) rc.2 &
     forall h1 h2 rc', h = h1 ++ rc' :: h2 ->
        valid_indices (sp_rows A) rc'.1 /\ valid_indices (sp_cols A) rc'.2 ->
        rc = rc' \/ List.In rc h2].
Proof.
rewrite /submat_init.
have dec b l : valid_indices b l \/ ~ valid_indices b l.
  rewrite /valid_indices; set b1 := all _ _; set b2 := uniq _; set b3 := all _ _.
  by case: (@and3P b1 b2 b3); [left|right].
have dec2 bl b'l' : (valid_indices bl.1 bl.2 /\ valid_indices b'l'.1 b'l'.2) \/
              ~ (valid_indices bl.1 bl.2 /\ valid_indices b'l'.1 b'l'.2).
  by case: (dec bl.1 bl.2) => h1; case: (dec b'l'.1 b'l'.2) => h2; [left|right|right|right]; tauto.
set o0 := Submat A AT _ _ _; have [s1 s2] := set_submatrix_spec o0 rows cols.
have [hv|/s2 -> //] := dec2 (sp_rows A, rows) (sp_cols A, cols).
rewrite (s1 hv) => -[<-] {s1 s2 o o0}.
elim/last_ind: h => [|h [r c] [rc [h1 h2 h3 h4]]].
  exists (rows, cols); split=> //; [by left | by case].
rewrite /run_sets -cats1 foldl_cat /= -/(run_sets _ _) h2.
have [s1 s2] := set_submatrix_spec (Submat A AT rc.1 rc.2 (size rc.1, size rc.2)) r c.
have [hv'|hv'] := dec2 (sp_rows A, r) (sp_cols A, c).
  rewrite (s1 hv') /=; exists (r, c); split=> //.
    by right; apply/List.in_or_app; right; left.
  move=> g1 g2 rc' e _; elim/last_ind: g2 e => [|g2 z _].
    by rewrite !cats1 => /rcons_inj [_ <-]; left.
  rewrite -rcons_cons -rcons_cat cats1 => /rcons_inj [_ <-]; right.
  by rewrite -cats1; apply/List.in_or_app; right; left.
rewrite (s2 hv') /=; exists rc; split=> //.
  by case: h1; [left | right; apply/List.in_or_app; left].
move=> g1 g2 rc' e hv''; elim/last_ind: g2 e => [|g2 z _].
  by rewrite !cats1 => /rcons_inj [_ e]; case: hv'; rewrite -e in hv''.
rewrite -rcons_cons -rcons_cat cats1 => /rcons_inj [e _].
have [->|hin] := h4 _ _ _ e hv''; first by left.
by right; rewrite -cats1; apply/List.in_or_app; left.
Qed.

(* every valid int-only index list is a list of distinct in-range positions *)
Lemma int_index_pos bound idxs : valid_indices bound idxs ->
  all (fun i => if i is PInt _ then true else false) idxs ->
  exists pos, [/\ int_index idxs pos, uniq pos, all (fun p => p < bound)%N pos & size pos = size idxs].
Proof.
move=> [_ hu hb] hi; exists [seq absz (idx_val i) | i <- idxs].
have he : [seq idx_val i | i <- idxs] = [seq p%:Z | p <- [seq absz (idx_val i) | i <- idxs]].
  rewrite -map_comp; elim: idxs hb {hu hi} => //= i l IH /andP[/andP[h0 _] /IH {1}->].
  by rewrite gez0_abs.
split; last by rewrite size_map.
- rewrite /int_index; elim: idxs hi hb {hu he} => //= -[z||] l IH //= /IH h /andP[/andP[h0 _] /h {1}->].
  by rewrite gez0_abs.
- by move: hu; rewrite he map_inj_uniq // => x y [].
- elim: idxs hb {hu hi he} => //= i l IH /andP[/andP[h0 h1] /IH ->].
  by rewrite andbT -ltz_nat gez0_abs.
Qed.

Lemma submat_init_ok A AT rows cols o : submat_init A AT rows cols = Ok o ->
  [/\ o = Submat A AT rows cols (size rows, size cols),
      valid_indices (sp_rows A) rows & valid_indices (sp_cols A) cols].
Proof.
move=> h; have [rc [h1 h2 [h3 h4] _]] := run_sets_spec [::] h.
by case: h1 => // e; subst rc; rewrite /= in h2.
Qed.

Lemma submat_init_valid A AT rows cols :
  valid_indices (sp_rows A) rows -> valid_indices (sp_cols A) cols ->
  submat_init A AT rows cols = Ok (Submat A AT rows cols (size rows, size cols)).
Proof.
move=> hr hc; rewrite /submat_init.
by have [-> //] := set_submatrix_spec (Submat A AT [::] [::] (0%N, 0%N)) rows cols.
Qed.

(* all indices are integers (specification) *)
Definition no_bools (idxs : seq pyidx) := all (fun i => if i is PInt _ then true else false) idxs.

Lemma submat_multiplies A AT rows cols o M :
  submat_init A AT rows cols = Ok o -> no_bools rows -> no_bools cols ->
  vec_multiplies (sp_dot A) (sp_rows A) (sp_cols A) M ->
  let Msub := (fun i j => M (absz (idx_val (nth PNonInt rows i))) (absz (idx_val (nth PNonInt cols j)))) in
  [/\ (sp_rows (submat_op o), sp_cols (submat_op o)) = (size rows, size cols),
      vec_multiplies (sp_dot (submat_op o)) (size rows) (size cols) Msub &
      forall K, (1 < K)%N -> mat_multiplies (sp_dot (submat_op o)) (size rows) (size cols) K Msub].
Proof.
move=> /submat_init_ok [-> hr hc] nr nc hA Msub; set o' := Submat _ _ _ _ _.
have [rpos [r1 r2 r3 r4]] := int_index_pos hr nr.
have [cpos [c1 c2 c3 c4]] := int_index_pos hc nc.
have hv : vec_multiplies (submat_matvec o') (size rows) (size cols) Msub.
  move=> x hx hw.
  have hh := @submat_matvec_ok o' rpos cpos M r1 c1 c2 r3 c3 hA x.
  rewrite r4 c4 in hh; have [y [h1 h2 h3 h4]] := hh hx hw.
  exists y; split=> // i hi; rewrite h4 //; apply: eq_bigr => j _; congr (M _ _ * _).
    by rewrite r1 (nth_map 0%N) ?r4.
  by case: j => j hj /=; rewrite c1 (nth_map 0%N) ?c4.
have hd : vec_multiplies (sp_dot (submat_op o')) (size rows) (size cols) Msub.
  exact: (@sp_dot_vec (submat_op o')).
split=> // K hK.
apply: (@sp_dot_mat (submat_op o')); first by move=> e; rewrite e in hK.
rewrite /= /submat_matmat; apply: columnwise_multiplies; first exact: ltnW.
exact: (@sp_dot_vec (ScipyOp _ _ (submat_matvec o') _)).
Qed.

Lemma submat_adjoint_multiplies A AT rows cols o M :
  submat_init A AT rows cols = Ok o -> no_bools rows -> no_bools cols ->
  (sp_rows AT, sp_cols AT) = (sp_cols A, sp_rows A) ->
  vec_multiplies (sp_dot AT) (sp_cols A) (sp_rows A) (fun i j => M j i) ->
  let Msub := (fun i j => M (absz (idx_val (nth PNonInt rows i))) (absz (idx_val (nth PNonInt cols j)))) in
  exists2 o', submat_adjoint o = Ok o' &
  [/\ (sp_rows (submat_op o'), sp_cols (submat_op o')) = (size cols, size rows),
      vec_multiplies (sp_dot (submat_op o')) (size cols) (size rows) (fun i j => Msub j i),
      forall K, (1 < K)%N -> mat_multiplies (sp_dot (submat_op o')) (size cols) (size rows) K (fun i j => Msub j i) &
      submat_adjoint o' = Ok o].
Proof.
move=> /submat_init_ok [-> hr hc] nr nc [e1 e2] hA Msub.
have hi : submat_init AT A cols rows = Ok (Submat AT A cols rows (size cols, size rows)).
  by apply: submat_init_valid; rewrite ?e1 ?e2.
exists (Submat AT A cols rows (size cols, size rows)); first exact: hi.
rewrite -e1 -e2 in hA.
have [h1 h2 h3] := submat_multiplies hi nc nr hA.
by split=> //; apply: submat_init_valid.
Qed.

(* a column (n,1) with n >= 2: NumPy cannot broadcast it to the index *)
Lemma submat_column_fails A AT rows cols o x :
  submat_init A AT rows cols = Ok o -> no_bools cols -> (1 < size cols)%N ->
  tshape x = [:: size cols; 1%N] -> sp_dot (submat_op o) x = Err ValueError.
Proof.
move=> /submat_init_ok [-> hr hc] nc hn hx.
have [cpos [c1 c2 c3 c4]] := int_index_pos hc nc.
rewrite /sp_dot /ndim hx /= /sp_matvec hx /= !eqxx andbF /=.
rewrite /submat_matvec /= /np_assign /= size_nseq c1 positions_int //=.
rewrite hx; have -> : strip_ones [:: size cols; 1%N] = [:: size cols; 1%N].
  by case: (size cols) hn => [|[|]].
by rewrite !eqseq_cons /= !andbF.
Qed.

End Submatrix.

(* ------------------------------------------------------------------ *)
(* outer.py *)
Section Outer.
Variable R : comRingType.
Local Notation arr := (tensor R).

(* outer.py 15-34 (__init__): stores A [D,K] and c [K].  The einsum path is a
   contraction order and has no effect on the (exact) result. *)
Record outer_prod := OuterProd { op_dim : nat; op_rank : nat; op_c : seq R; op_A : seq R }.

(* outer.py 36-45 (_matvec): einsum "ij,j,kj,k->i".  einsum wants a
   one-dimensional operand for "k": otherwise ValueError. *)
Definition outer_matvec (o : outer_prod) (x : arr) : res arr :=
  if tshape x != [:: op_dim o] then Err ValueError else
  Ok (Tensor [:: op_dim o]
    (mkseq (fun i => sumr (op_rank o) (fun j => sumr (op_dim o) (fun k =>
       entry (op_rank o) (op_A o) i j * nth 0 (op_c o) j *
       entry (op_rank o) (op_A o) k j * nth 0 (tdata x) k))) (op_dim o))).

(* SciPy's default _matmat (outer.py defines none): hstack of
   matvec(col.reshape(-1,1)) over the columns.  The (D,1) columns reach einsum
   with two axes, which is a ValueError. *)
Definition outer_matmat (o : outer_prod) (X : arr) : res arr :=
  let cols := [seq Tensor [:: head 0%N (tshape c); 1%N] (tdata c) | c <- np_columns X] in
  let! ys := mapM (sp_matvec (ScipyOp (op_dim o) (op_dim o) (outer_matvec o) (fun _ => Err ValueError))) cols in
  if ys is [::] then Err ValueError else
  np_column_stack [seq Tensor [:: op_dim o] (tdata y) | y <- ys].

(* the SciPy LinearOperator an OuterProductLinearOperator is (outer.py 9-55) *)
Definition outer_op (o : outer_prod) : scipy_op R :=
  ScipyOp (op_dim o) (op_dim o) (outer_matvec o) (outer_matmat o).

(* outer.py 47-55 (_adjoint) *)
Definition outer_adjoint (o : outer_prod) := o.

(* outer.py 61-69 (Projector.__init__) *)
Definition projector (D K : nat) (A : seq R) := OuterProd D K (nseq K 1) A.

(* entry (i, k) of A diag(c) A^T (specification: docstring of outer.py 9-34) *)
Definition outer_matrix (o : outer_prod) (i k : nat) : R :=
  \sum_(j < op_rank o) nth 0 (op_c o) j * entry (op_rank o) (op_A o) i j * entry (op_rank o) (op_A o) k j.

Lemma outer_multiplies o : vec_multiplies (sp_dot (outer_op o)) (op_dim o) (op_dim o) (outer_matrix o).
Proof.
apply: (@sp_dot_vec _ (outer_op o)) => x hx hw.
rewrite /= /outer_matvec hx eqxx /=; eexists; split; first reflexivity; rewrite //=.
  by rewrite /wf /= size_mkseq muln1.
move=> i hi; rewrite nth_mkseq // sumrE.
rewrite (eq_bigr _ (fun j _ => sumrE _ _)).
rewrite exchange_big /=; apply: eq_bigr => k _.
rewrite /outer_matrix mulr_suml; apply: eq_bigr => j _.
by congr (_ * _); rewrite [_ * nth 0 (op_c o) j]mulrC.
Qed.

Lemma outer_symmetric o i k : outer_matrix o i k = outer_matrix o k i.
Proof. by apply: eq_bigr => j _; rewrite mulrAC. Qed.

(* the columns of A are orthonormal *)
Definition orthonormal_columns (D K : nat) (A : seq R) : Prop :=
  forall j j', (j < K)%N -> (j' < K)%N ->
    \sum_(i < D) entry K A i j * entry K A i j' = (j == j')%:R.

Lemma projector_apply D K (A : seq R) (x : arr) : tshape x = [:: D] -> wf x ->
  exists y, [/\ sp_dot (outer_op (projector D K A)) x = Ok y, tshape y = [:: D], wf y &
    forall i, (i < D)%N -> nth 0 (tdata y) i =
      \sum_(j < K) entry K A i j * \sum_(k < D) entry K A k j * nth 0 (tdata x) k].
Proof.
move=> hx hw; have [y [h1 h2 h3 h4]] := @outer_multiplies (projector D K A) x hx hw.
exists y; split=> // i hi; rewrite h4 //= /outer_matrix /=.
under eq_bigr do rewrite mulr_suml.
rewrite exchange_big /=; apply: eq_bigr => j _; rewrite mulr_sumr; apply: eq_bigr => k _.
by rewrite nth_nseq ltn_ord mul1r mulrA.
Qed.

Lemma arr_ext (x y : arr) n : tshape x = [:: n] -> tshape y = [:: n] -> wf x -> wf y ->
  (forall i, (i < n)%N -> nth 0 (tdata x) i = nth 0 (tdata y) i) -> x = y.
Proof.
case: x y => [sx dx] [sy dy] /= -> -> /eqP hx /eqP hy h; congr Tensor.
by apply: (@eq_from_nth _ 0); rewrite ?hx ?hy // => i; rewrite /= muln1 => /h.
Qed.

Lemma projector_fix D K (A : seq R) (x : arr) (w : nat -> R) : orthonormal_columns D K A ->
  tshape x = [:: D] -> wf x ->
  (forall i, (i < D)%N -> nth 0 (tdata x) i = \sum_(j < K) w j * entry K A i j) ->
  sp_dot (outer_op (projector D K A)) x = Ok x.
Proof.
move=> ho hx hw hxw; have [y [h1 h2 h3 h4]] := projector_apply K A hx hw.
rewrite h1; congr Ok; apply: (arr_ext h2 hx h3 hw) => i hi.
rewrite h4 // hxw //; apply: eq_bigr => j _; rewrite mulrC; congr (_ * _).
transitivity (\sum_(k < D) \sum_(l < K) w l * (entry K A k j * entry K A k l)).
  apply: eq_bigr => k _; rewrite hxw // mulr_sumr; apply: eq_bigr => l _.
  by rewrite mulrCA.
rewrite exchange_big /= (bigD1 j) //= -mulr_sumr ho // eqxx mulr1 big1 ?addr0 // => l hl.
by rewrite -mulr_sumr ho // eq_sym (negbTE (hl : (l : nat) != j)) mulr0.
Qed.

Lemma projector_idempotent D K (A : seq R) (x : arr) : orthonormal_columns D K A ->
  tshape x = [:: D] -> wf x ->
  exists2 y, sp_dot (outer_op (projector D K A)) x = Ok y &
             sp_dot (outer_op (projector D K A)) y = Ok y.
Proof.
move=> ho hx hw; have [y [h1 h2 h3 h4]] := projector_apply K A hx hw.
exists y => //.
apply: (@projector_fix _ _ _ y (fun j => \sum_(k < D) entry K A k j * nth 0 (tdata x) k)) => //.
by move=> i hi; rewrite h4 //; apply: eq_bigr => j _; rewrite mulrC.
Qed.

Lemma projector_column D K (A : seq R) (x : arr) l : orthonormal_columns D K A ->
  tshape x = [:: D] -> wf x -> (l < K)%N ->
  (forall i, (i < D)%N -> nth 0 (tdata x) i = entry K A i l) ->
  sp_dot (outer_op (projector D K A)) x = Ok x.
Proof.
move=> ho hx hw hl hxl; apply: (projector_fix (w := fun j => (j == l)%:R) ho hx hw) => i hi.
rewrite hxl // (bigD1 (Ordinal hl)) //= eqxx mul1r big1 ?addr0 // => j hj.
by rewrite (negbTE (hj : (j : nat) != l)) mul0r.
Qed.

Lemma projector_orthogonal D K (A : seq R) (x : arr) :
  tshape x = [:: D] -> wf x ->
  (forall j, (j < K)%N -> \sum_(k < D) entry K A k j * nth 0 (tdata x) k = 0) ->
  sp_dot (outer_op (projector D K A)) x = Ok (Tensor [:: D] (nseq D 0)).
Proof.
move=> hx hw ho; have [y [h1 h2 h3 h4]] := projector_apply K A hx hw.
rewrite h1; congr Ok; apply: (@arr_ext _ _ D) => //.
  by rewrite /wf /= size_nseq muln1.
move=> i hi; rewrite h4 //= nth_nseq hi big1 // => j _.
by rewrite ho ?mulr0.
Qed.

(* a (D,1) column or a matrix is rejected by einsum *)
Lemma outer_column_fails (o : outer_prod) (x : arr) :
  tshape x = [:: op_dim o; 1%N] -> sp_dot (outer_op o) x = Err ValueError.
Proof.
move=> hx; rewrite /sp_dot /ndim hx /= /sp_matvec hx /= !eqxx andbF /= /outer_matvec hx.
by rewrite !eqseq_cons andbF.
Qed.

End Outer.
