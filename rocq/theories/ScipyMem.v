(* SciPy-side operators (submatrix.py, outer.py, inverse.py 21-293) on NumPy memory. *)
From Coq Require Import List.
From mathcomp Require Import all_ssreflect all_algebra.
From Verif Require Import PyPrelude Tensor Spec Numpy Submatrix Inverse NumpyMem.
Set Implicit Arguments.
Unset Strict Implicit.
Unset Printing Implicit Defensive.
Import GRing.Theory Num.Theory Order.TTheory.
Local Open Scope ring_scope.

Notation "'mlet!' x := e 'in' k" := (mbind e (fun x => k)) (at level 200, x name, e at level 100, k at level 200).

Section ScipyMem.
Variable R : comRingType.
Local Notation arr := (tensor R).

(* scipy.sparse.linalg.LinearOperator (external, cf. Numpy.v) *)
Record mscipy := MScipy { mo_rows : nat; mo_cols : nat; mo_matvec_impl : mop R; mo_matmat_impl : mop R }.

(* numpy's reshape as a view (NumPy copies where strides do not allow a view) *)
Definition reshape_view (sh : seq nat) (v : view) : view := View (v_buf v) (v_idx v) sh.
(* LinearOperator.matvec: asanyarray and reshape make no copies *)
Definition mo_matvec (A : mscipy) : mop R := fun x =>
  if (v_sh x != [:: mo_cols A]) && (v_sh x != [:: mo_cols A; 1%N]) then mlift (Err ValueError) else
  mlet! y := mo_matvec_impl A x in
  let sh := if size (v_sh x) == 1%N then [:: mo_rows A] else [:: mo_rows A; 1%N] in
  if numel sh == size (v_idx y) then mret (reshape_view sh y) else mlift (Err ValueError).
(* LinearOperator.matmat *)
Definition mo_matmat (A : mscipy) : mop R := fun X =>
  if size (v_sh X) != 2%N then mlift (Err ValueError) else
  if head 0%N (v_sh X) != mo_cols A then mlift (Err ValueError) else mo_matmat_impl A X.
(* LinearOperator.dot *)
Definition mo_dot (A : mscipy) : mop R := fun X =>
  if (size (v_sh X) == 1%N) || (size (v_sh X) == 2%N) && (nth 0%N (v_sh X) 1 == 1%N) then mo_matvec A X
  else if size (v_sh X) == 2%N then mo_matmat A X
  else mlift (Err ValueError).

(* [col for col in X.T]: views of X *)
Definition column_views (X : view) : seq view :=
  let n := nth 0%N (v_sh X) 0 in let K := nth 0%N (v_sh X) 1 in
  mkseq (fun k => View (v_buf X) (mkseq (fun i => nth 0%N (v_idx X) (i * K + k)) n) [:: n]) K.
(* numpy.column_stack: a new array *)
Definition mstack (ys : seq view) : mm R view :=
  mlet! ts := mmap (fun v => mread v) ys in mlet! t := mlift (np_column_stack ts) in mnew t.
(* column_stack([self @ col for col in X.T]) (submatrix.py 71-82, inverse.py 24-33) *)
Definition mcolumnwise (f : mop R) : mop R := fun X => mlet! ys := mmap f (column_views X) in mstack ys.

(* submatrix.py: the operator keeps references to the caller's index lists; L is the memory
   of index lists (an address is a position) *)
Definition lists := seq (seq pyidx).
Record msub := MSub { ms_A : mscipy; ms_rows : nat; ms_cols : nat; ms_shape : nat * nat }.
(* submatrix.py 14-53: constructor *)
Definition msub_init (L : lists) (A : mscipy) (r c : nat) : res msub :=
  let! m := check_axis (mo_rows A) (nth [::] L r) in
  let! n := check_axis (mo_cols A) (nth [::] L c) in
  Ok (MSub A r c (m, n)).
(* submatrix.py 55-69: zeros is a new array, v[cols] = x writes to it, Av[rows] is a new array *)
Definition msub_matvec (L : lists) (o : msub) : mop R := fun x =>
  let n := mo_cols (ms_A o) in
  mlet! v := mnew (Tensor [:: n] (nseq n 0)) in
  mlet! vt := mread v in mlet! xt := mread x in
  mlet! t := mlift (np_assign vt (nth [::] L (ms_cols o)) xt) in
  mlet! u := mput v t in
  mlet! Av := mo_dot (ms_A o) v in
  mlet! at_ := mread Av in
  mlet! y := mlift (np_take at_ (nth [::] L (ms_rows o))) in
  mnew y.
(* submatrix.py 71-82 *)
Definition msub_matmat (L : lists) (o : msub) : mop R :=
  mcolumnwise (mo_dot (MScipy (ms_shape o).1 (ms_shape o).2 (msub_matvec L o) (fun _ => mlift (Err NotImplementedError)))).
Definition msub_op (L : lists) (o : msub) : mscipy :=
  MScipy (ms_shape o).1 (ms_shape o).2 (msub_matvec L o) (msub_matmat L o).

(* outer.py 15-45: the operator keeps references to the arrays c and A; einsum returns a new array *)
Record mouter := MOuter { mu_dim : nat; mu_rank : nat; mu_c : view; mu_A : view }.
Definition mouter_matvec (o : mouter) : mop R := fun x =>
  mlet! c := mread (mu_c o) in mlet! A := mread (mu_A o) in mlet! xt := mread x in
  mlet! y := mlift (outer_matvec (OuterProd (mu_dim o) (mu_rank o) (tdata c) (tdata A)) xt) in
  mnew y.
(* SciPy's default _matmat: hstack of matvec(col.reshape(-1,1)) *)
Definition mouter_matmat (o : mouter) : mop R := fun X =>
  let cols := [seq reshape_view [:: head 0%N (v_sh c); 1%N] c | c <- column_views X] in
  mlet! ys := mmap (mo_matvec (MScipy (mu_dim o) (mu_dim o) (mouter_matvec o) (fun _ => mlift (Err ValueError)))) cols in
  if ys is [::] then mlift (Err ValueError) else mstack [seq reshape_view [:: mu_dim o] y | y <- ys].
Definition mouter_op (o : mouter) : mscipy := MScipy (mu_dim o) (mu_dim o) (mouter_matvec o) (mouter_matmat o).

(* inverse.py 268-293: 'x.copy()', 'v - scale * ...', 'result + v', 'scale * result' are new arrays *)
Definition mneumann_step (A : mscipy) (scale : R) (check_nan : bool) (s : view * view) : mm R (view * view) :=
  mlet! Av := mo_dot A s.2 in
  mlet! at_ := mread Av in mlet! vt := mread s.2 in
  mlet! t := mlift (ew (fun a b => a - b) vt (scal *%R scale at_)) in
  mlet! v := mnew t in
  mlet! rt := mread s.1 in
  mlet! t' := mread v in
  mlet! r := mlift (ew +%R rt t') in
  mlet! result := mnew r in
  mret (result, v).
Fixpoint mneumann_loop A scale check_nan k s : mm R (view * view) :=
  if k is k'.+1 then mlet! s' := mneumann_step A scale check_nan s in mneumann_loop A scale check_nan k' s' else mret s.
Definition mneumann_matvec (A : mscipy) (num_terms : nat) (scale : R) (check_nan : bool) : mop R := fun x =>
  mlet! xt := mread x in mlet! result := mnew xt in mlet! xt' := mread x in mlet! v := mnew xt' in
  mlet! s := mneumann_loop A scale check_nan num_terms (result, v) in
  mlet! r := mread s.1 in mnew (scal *%R scale r).
(* inverse.py 21-33 *)
Definition minverse_op (n : nat) (mv : mop R) : mscipy :=
  MScipy n n mv (mcolumnwise (mo_dot (MScipy n n mv (fun _ => mlift (Err NotImplementedError))))).

(* ---- proofs ---- *)
Lemma sim_err A B h0 h (e : exn) (Q : A -> B -> memory R -> Prop) : extends h0 h -> sim h0 (mlift (Err e) h) (Err e) Q.
Proof. by split. Qed.

Lemma reshape_stands sh v (t : arr) h : stands v t h -> numel sh = size (v_idx v) -> stands (reshape_view sh v) (Tensor sh (tdata t)) h.
Proof.
by case=> /and3P [a b c] <- e; split=> //; apply/and3P; split=> //; rewrite e eqxx.
Qed.
Lemma stands_size v (t : arr) h : stands v t h -> size (v_idx v) = size (tdata t) /\ v_sh v = tshape t.
Proof. by case=> _ <-; rewrite /= size_map. Qed.

(* the wrapper: new results of _matvec stay new *)
Variable I : memory R -> Prop.
Hypothesis hI : stable I.

Lemma matvec_refines (P : bool) (A : mscipy) (S : scipy_op R) : mo_rows A = sp_rows S -> mo_cols A = sp_cols S ->
  (if P then refines_new I (mo_matvec_impl A) (sp_matvec_impl S) else refines I (mo_matvec_impl A) (sp_matvec_impl S)) ->
  if P then refines_new I (mo_matvec A) (sp_matvec S) else refines I (mo_matvec A) (sp_matvec S).
Proof.
move=> e1 e2 H.
have H' h v t : I h -> stands v t h -> sim h (mo_matvec A v h) (sp_matvec S t)
   (fun w y h' => stands w y h' /\ (P -> (size h <= v_buf w)%N)).
  move=> hi hs; have [_ esh] := stands_size hs; rewrite /mo_matvec /sp_matvec e1 e2 -esh /ndim -esh.
  case: ifP => _; first by apply: sim_err; apply: extends_refl.
  apply: (@sim_bind _ _ _ _ _ _ _ _ _ _ _ (fun w y h' => stands w y h' /\ (P -> (size h <= v_buf w)%N)) (fun w y h' => stands w y h' /\ (P -> (size h <= v_buf w)%N))).
    by case: (P) H => H; apply: sim_weak (extends_refl _) (H h v t hi hs) _ => w y _ //; case.
  move=> w y h' hx [hw hn] _; have [ew _] := stands_size hw; rewrite /treshape ew.
  case: ifP => /eqP en; last exact: sim_err.
  by split=> //=; split=> //; apply: reshape_stands; rewrite // ew.
case: P H H' => H H' h v t hi hs; apply: sim_weak (extends_refl _) (H' h v t hi hs) _ => w y _ [? ?] _ //.
by split=> //; auto.
Qed.

Lemma Forall2_mkseq A B (P : A -> B -> Prop) f g n : (forall k, (k < n)%N -> P (f k) (g k)) ->
  Forall2 P (mkseq f n) (mkseq g n).
Proof.
move=> h; rewrite /mkseq; have {h} : forall k, k \in seq.iota 0 n -> P (f k) (g k) by move=> k; rewrite mem_iota; apply: h.
elim: (seq.iota 0 n) => [|k s IH] h /=; constructor; first by apply: h; rewrite inE eqxx.
by apply: IH => j hj; apply: h; rewrite inE hj orbT.
Qed.
Lemma columns_stand X (t : arr) h : stands X t h -> size (tshape t) = 2%N ->
  Forall2 (fun v c => stands v c h) (column_views X) (np_columns t).
Proof.
move=> hs h2; have [esz esh] := stands_size hs; have hw := stands_wf hs.
rewrite /column_views /np_columns esh; case E: (tshape t) h2 => [|n [|K []]] //= _.
have hn : size (v_idx X) = (n * K)%N by rewrite esz (eqP hw) E /= muln1.
case: hs => /and3P [b1 b2 _] et.
apply: Forall2_mkseq => k hk.
have hi i : (i < n)%N -> (i * K + k < n * K)%N.
  move=> hi; apply: (@leq_trans (i.+1 * K)); last by rewrite leq_mul2r hi orbT.
  by rewrite mulSn addnC ltn_add2r.
split.
  apply/and3P; split; rewrite //= ?size_mkseq ?muln1 //.
  apply/allP => j /mapP [i]; rewrite mem_iota /= => hi' ->; apply: (allP b2).
  by rewrite mem_nth // hn hi.
rewrite /vget /=; congr Tensor; rewrite /mkseq -map_comp; apply/eq_in_map => i; rewrite mem_iota /= => hi'.
by rewrite /entry -et /= (nth_map 0%N) // hn hi.
Qed.

Lemma reads_ok h (ys : seq view) (ts : seq arr) : Forall2 (fun v c => stands v c h) ys ts ->
  mmap (fun v => mread v) ys h = (h, Ok ts).
Proof. by elim=> [//|v t vs ts' [_ ev] _ IH] /=; rewrite /mbind /mread ev IH. Qed.
Lemma stack_wf (ts : seq arr) t : np_column_stack ts = Ok t -> wf t.
Proof.
case: ts => // c ts; rewrite /np_column_stack; case: ifP => // _ [<-].
by rewrite /wf /= (flatten_mkseq_uniform (fun i k => nth 0 (tdata (nth _ (c :: ts) k)) i)) /= muln1.
Qed.
Lemma bind_ok A (r : res A) : bind r (fun t => Ok t) = r. Proof. by case: r. Qed.
Lemma mstack_refines h0 h ys (ts : seq arr) : extends h0 h -> Forall2 (fun v c => stands v c h) ys ts ->
  sim h0 (mstack ys h) (np_column_stack ts) (stands_new h0).
Proof.
move=> hx hf; rewrite /mstack {1}/mbind (reads_ok hf).
rewrite -[X in sim _ _ X _]bind_ok.
apply: (sim_bind (sim_lift _ hx)) => a t h' hx' [-> _] et.
have hw := stack_wf et.
by apply: sim_weak (extends_refl _) (sim_new hx' hw) _ => v b _ [].
Qed.
Lemma columnwise_refines (f : mop R) g h X (t : arr) : refines I f g -> I h -> stands X t h -> size (tshape t) = 2%N ->
  sim h (mcolumnwise f X h) (columnwise g t) (stands_new h).
Proof.
move=> hf hi hs h2; rewrite /mcolumnwise /columnwise.
apply: (sim_bind (sim_map hI hf hi (extends_refl h) (columns_stand hs h2))) => ws ys h' hx [_ hws] _.
exact: mstack_refines.
Qed.

(* '@' of an operator whose _matvec and _matmat return new arrays *)
Lemma dot_refines (A : mscipy) (S : scipy_op R) : mo_rows A = sp_rows S -> mo_cols A = sp_cols S ->
  refines_new I (mo_matvec_impl A) (sp_matvec_impl S) ->
  (forall h X t, I h -> stands X t h -> size (tshape t) = 2%N -> sim h (mo_matmat_impl A X h) (sp_matmat_impl S t) (stands_new h)) ->
  refines_new I (mo_dot A) (sp_dot S).
Proof.
move=> e1 e2 h1 h2 h v t hi hs; have [_ esh] := stands_size hs.
rewrite /mo_dot /sp_dot /ndim esh; case: ifP => _; first exact: (@matvec_refines true).
case: ifP => h2'; last by apply: sim_err; apply: extends_refl.
rewrite /mo_matmat /sp_matmat /ndim esh h2' /= e2; case: ifP => _; first by apply: sim_err; apply: extends_refl.
by apply: h2 => //; apply/eqP.
Qed.
Lemma dot_vec_refines (m n : nat) (mv : mop R) f (A : mscipy) (S : scipy_op R) :
  A = MScipy m n mv (fun _ => mlift (Err NotImplementedError)) -> S = ScipyOp m n f (fun _ => Err NotImplementedError) ->
  refines_new I mv f -> refines_new I (mo_dot A) (sp_dot S).
Proof. by move=> -> -> h; apply: dot_refines => // h' X t _ _ _; apply: sim_err; apply: extends_refl. Qed.


Lemma mnew_ok h0 h (t : arr) : extends h0 h -> wf t -> exists v h', [/\ mnew t h = (h', Ok v),
  extends h0 h' /\ extends h h', stands v t h', valid h' v & (size h0 <= v_buf v)%N].
Proof.
move=> hx hw; have := sim_new hx hw; case: (mnew t h) => h' [v|e] [hx'] //= [[hs hb] hv hy _].
by exists v, h'.
Qed.
Lemma mread_ok h v (t : arr) : stands v t h -> mread v h = (h, Ok t).
Proof. by case=> _ <-. Qed.
Lemma new_last h0 h (r : res arr) : extends h0 h -> (forall t, r = Ok t -> wf t) ->
  sim h0 (mbind (mlift r) (fun y => mnew y) h) r (stands_new h0).
Proof.
move=> hx hr; rewrite -[X in sim _ _ X _]bind_ok; apply: (sim_bind (sim_lift _ hx)) => a t h' hx' [-> _] /hr hw.
by apply: sim_weak (extends_refl _) (sim_new hx' hw) _ => v b _ [].
Qed.
Lemma assign_wf (v : arr) idx x t : wf v -> size (tshape v) = 1%N -> np_assign v idx x = Ok t -> wf t /\ tshape t = tshape v.
Proof.
move=> hw h1; rewrite /np_assign; case E: (np_positions _ _) => [pos|//] /=.
have hp : all (fun p => (p < size (tdata v))%N) pos.
  move: E; rewrite /np_positions; case: to_np_index => [zs|m].
    elim: zs pos => [|z zs IH] pos /=; first by case=> <-.
    set p := (if _ then _ else _); case ep: p => [j|//] /=; case: (mapM _ _) IH => //= js IH [<-] /=.
    rewrite IH // andbT; move: ep; rewrite /p; case: ifP => [/andP [z0 z1] [<-]|_].
      by rewrite -ltz_nat gez0_abs.
    by case: ifP => // /andP [z0 z1] [<-]; rewrite -ltz_nat gez0_abs // -[X in _ < X]add0r ltr_add2r.
  by case: ifP => // _ [<-]; apply/allP => i; rewrite mem_filter mem_iota => /andP [_ /andP [_]].
have hv vals : wf (Tensor (tshape v) (foldl (fun acc p => set_nth 0 acc p.1 p.2) (tdata v) (zip pos vals))).
  by rewrite /wf /= size_foldl_set.
by case: ifP => _; [case=> <- | case: ifP => // _ [<-]].
Qed.
Lemma take_wf (v : arr) idx t : np_take v idx = Ok t -> wf t.
Proof. by rewrite /np_take; case: (np_positions _ _) => [pos|//] [<-]; rewrite /wf /= size_map muln1. Qed.

Section Sub.
Variables (L : lists) (o : msub) (S ST : scipy_op R).
Hypothesis hr : mo_rows (ms_A o) = sp_rows S.
Hypothesis hc : mo_cols (ms_A o) = sp_cols S.
Hypothesis hA : refines I (mo_dot (ms_A o)) (sp_dot S).
Let po := Submat S ST (nth [::] L (ms_rows o)) (nth [::] L (ms_cols o)) (ms_shape o).

Lemma msub_matvec_refines : refines_new I (msub_matvec L o) (submat_matvec po).
Proof.
move=> h x t hi hs; rewrite /msub_matvec /submat_matvec /= hc; set z := Tensor _ _.
have hz : wf z by rewrite /wf /= size_nseq muln1.
have [v [h1 [e1 [x1 _] s1 v1 b1]]] := mnew_ok (extends_refl h) hz.
rewrite {1}/mbind e1 {1}/mbind (mread_ok s1) {1}/mbind (mread_ok (stands_extends x1 hs)).
apply: (sim_bind (sim_lift _ x1)) => a v' h2 x2 [-> ->] ea.
have [wv sv] := assign_wf hz erefl ea.
have sv' : tshape v' = v_sh v by rewrite sv; have [_ ->] := stands_size s1.
have [x3 s3] := sim_put x1 v1 b1 wv sv'; rewrite {1}/mbind -/(mput v v' h1) in s3 x3 *.
have -> : mput v v' h1 = ((mput v v' h1).1, Ok tt) by [].
move: s3 x3; move: (mput v v' h1).1 => h3 s3 x3.
apply: (@sim_bind _ _ _ _ _ _ _ _ _ _ _ (fun w y h' => stands w y h')).
  by apply: sim_weak x3 (hA (hI x3 hi) s3) _ => w y.
move=> w y h4 x4 s4 _; rewrite {1}/mbind (mread_ok s4).
by apply: new_last => // u; apply: take_wf.
Qed.
Lemma msub_refines : refines_new I (mo_dot (msub_op L o)) (sp_dot (submat_op po)).
Proof.
apply: dot_refines => //; first exact: msub_matvec_refines.
move=> h X t hi hs h2; apply: columnwise_refines => //; apply: refines_new_refines.
by apply: dot_vec_refines; [reflexivity|reflexivity|exact: msub_matvec_refines].
Qed.
End Sub.

Section Outer.
Variables (o : mouter) (c A : seq R).
Let po := OuterProd (mu_dim o) (mu_rank o) c A.
(* the arrays as they are at the time of the product *)
Definition outer_holds (h : memory R) : Prop :=
  [/\ readable h (mu_c o), readable h (mu_A o), tdata (vget h (mu_c o)) = c & tdata (vget h (mu_A o)) = A].
Hypothesis hO : forall h, I h -> outer_holds h.

Lemma outer_wf x t : outer_matvec po x = Ok t -> wf t.
Proof. by rewrite /outer_matvec; case: ifP => // _ [<-]; rewrite /wf /= size_mkseq muln1. Qed.
Lemma mouter_matvec_refines : refines_new I (mouter_matvec o) (outer_matvec po).
Proof.
move=> h x t /hO [r1 r2 e1 e2] hs; rewrite /mouter_matvec.
rewrite {1}/mbind (@mread_ok h _ (vget h (mu_c o))) // {1}/mbind (@mread_ok h _ (vget h (mu_A o))) //.
rewrite {1}/mbind (mread_ok hs) e1 e2.
by apply: new_last => [|u]; [apply: extends_refl | apply: outer_wf].
Qed.
Lemma reshape_columns h (vs : seq view) (ts : seq arr) (f : view -> seq nat) (g : arr -> seq nat) :
  Forall2 (fun v t => stands v t h) vs ts ->
  (forall v t, stands v t h -> List.In t ts -> f v = g t /\ numel (g t) = size (tdata t)) ->
  Forall2 (fun v t => stands v t h) [seq reshape_view (f v) v | v <- vs] [seq Tensor (g t) (tdata t) | t <- ts].
Proof.
elim=> [//|v t vs' ts' hv _ IH] hf /=; constructor.
  have [|e1 e2] := hf v t hv; first by left.
  by rewrite e1; apply: reshape_stands => //; have [->] := stands_size hv.
by apply: IH => v' t' hv' ht'; apply: hf => //; right.
Qed.
Lemma mouter_refines : refines_new I (mo_dot (mouter_op o)) (sp_dot (outer_op po)).
Proof.
apply: dot_refines => //; first exact: mouter_matvec_refines.
move=> h X t hi hs h2; rewrite /= /mouter_matmat /outer_matmat /=.
have hcols : Forall2 (fun v t => stands v t h) [seq reshape_view [:: head 0%N (v_sh c); 1%N] c | c <- column_views X]
    [seq Tensor [:: head 0%N (tshape c); 1%N] (tdata c) | c <- np_columns t].
  apply: reshape_columns; first exact: columns_stand.
  move=> v u hv hu; have [_ ->] := stands_size hv; split=> //.
  have hu' : tshape u = [:: nth 0%N (tshape t) 0].
    move: hu; rewrite /np_columns /mkseq; elim: (seq.iota 0 (nth 0%N (tshape t) 1)) => [//|k s IH] hin; case: hin => [<- //|]; exact: IH.
  by have /eqP := stands_wf hv; rewrite hu' /= !muln1 => ->.
have hmv : refines I (mo_matvec (MScipy (mu_dim o) (mu_dim o) (mouter_matvec o) (fun=> mlift (Err ValueError))))
   (sp_matvec (ScipyOp (mu_dim o) (mu_dim o) (outer_matvec po) (fun=> Err ValueError))).
  apply: refines_new_refines; apply: (@matvec_refines true) => //; exact: mouter_matvec_refines.
apply: (sim_bind (sim_map hI hmv hi (extends_refl h) hcols)) => ws ys h' hx [_ hws] hys.
case: hws hys (hws) => [|w y ws' ys' hw hws'] hys hall; first by apply: sim_err.
apply: mstack_refines => //; apply: (@reshape_columns _ _ _ (fun=> [:: mu_dim o]) (fun=> [:: mu_dim o])) => //.
move=> v u hv hu; split=> //.
have hsz : forall z, List.In z (y :: ys') -> numel [:: mu_dim o] = size (tdata z).
  move: hys; elim: (map _ _) (y :: ys') => [|q qs IH] zs /=; first by case=> <-.
  case e: (sp_matvec _ q) => [z|//] /=; case e': (mapM _ _) => [zs'|//] [<-] z' /= [<-|]; last exact: IH.
  move: e; rewrite /sp_matvec; case: ifP => // _; case: (sp_matvec_impl _ _) => //= u'.
  by case: ifP => _; rewrite /treshape; case: ifP => // /eqP e [<-] /=; rewrite -e /= !muln1.
exact: hsz.
Qed.
End Outer.

Section Neumann.
Variables (A : mscipy) (S : scipy_op R) (scale : R) (check_nan : bool).
Hypothesis hA : refines I (mo_dot A) (sp_dot S).
Local Notation step := (@neumann_step R +%R (fun a b => a - b) *%R (fun _ => false) (sp_dot S) scale check_nan).
Local Notation loop := (@neumann_loop R +%R (fun a b => a - b) *%R (fun _ => false) (sp_dot S) scale check_nan).
Definition stand2 (s : view * view) (p : arr * arr) (h : memory R) : Prop := stands s.1 p.1 h /\ stands s.2 p.2 h.
Lemma scal_wf (a : R) t : wf t -> wf (scal *%R a t).
Proof. by rewrite /wf /= size_map. Qed.
Lemma mneumann_step_refines h s p : I h -> stand2 s p h -> sim h (mneumann_step A scale check_nan s h) (step p) stand2.
Proof.
case: p => pr pv hi [/= s1 s2]; rewrite /mneumann_step.
apply: (sim_bind (hA hi s2)) => w y h1 x1 sw _.
have s1' := stands_extends x1 s1; have s2' := stands_extends x1 s2.
rewrite {1}/mbind (mread_ok sw) {1}/mbind (mread_ok s2').
apply: (sim_bind (sim_lift _ x1)) => a v' _ _ [-> ->] ev.
have [_ wv] := ew_wf (stands_wf s2) (scal_wf scale (stands_wf sw)) ev.
have [v [h2 [e2 [x2 y2] sv _ _]]] := mnew_ok x1 wv; rewrite {1}/mbind e2.
rewrite {1}/mbind (mread_ok (stands_extends y2 s1')) {1}/mbind (mread_ok sv).
apply: (sim_bind (sim_lift _ x2)) => b r' _ _ [-> ->] er.
have [_ wr] := ew_wf (stands_wf s1) wv er.
have [r [h3 [e3 [x3 y3] sr _ _]]] := mnew_ok x2 wr; rewrite {1}/mbind e3.
have -> : allclose_self (fun=> false) r' by rewrite /allclose_self all_predT.
by rewrite andbF; split=> //=; split=> //=; apply: stands_extends y3 sv.
Qed.
Lemma mneumann_loop_refines k h0 h s p : I h -> extends h0 h -> stand2 s p h ->
  sim h0 (mneumann_loop A scale check_nan k s h) (loop k p) stand2.
Proof.
elim: k h s p => [|k IH] h s p hi hx hs; first by split.
apply: (@sim_bind _ _ _ _ _ _ _ _ _ _ _ (fun s p h' => I h' /\ stand2 s p h') stand2).
  by apply: sim_weak hx (mneumann_step_refines hi hs) _ => s' p' hy hs' _; split=> //; apply: hI hy hi.
by move=> s' p' h' hx' [hi' hs'] _; apply: IH.
Qed.
Lemma mneumann_refines n K :
  refines_new I (mo_dot (minverse_op n (mneumann_matvec A K scale check_nan)))
    (sp_dot (inverse_op n (neumann_exact (sp_dot S) K scale check_nan))).
Proof.
have hmv : refines_new I (mneumann_matvec A K scale check_nan) (neumann_exact (sp_dot S) K scale check_nan).
  move=> h x t hi hs; rewrite /mneumann_matvec /neumann_exact /neumann_matvec.
  have [r [h1 [e1 [x1 _] sr _ _]]] := mnew_ok (extends_refl h) (stands_wf hs).
  rewrite {1}/mbind (mread_ok hs) {1}/mbind e1 {1}/mbind (mread_ok (stands_extends x1 hs)).
  have [v [h2 [e2 [x2 y2] sv _ _]]] := mnew_ok x1 (stands_wf hs); rewrite {1}/mbind e2.
  have h2' : stand2 (r, v) (t, t) h2 by split=> //=; apply: stands_extends y2 sr.
  apply: (sim_bind (mneumann_loop_refines K (hI x2 hi) x2 h2')) => s p h3 x3 [s1 _] _.
  rewrite {1}/mbind (mread_ok s1).
  have [w [h4 [e4 [x4 _] sw _ bw]]] := mnew_ok x3 (scal_wf scale (stands_wf s1)).
  by rewrite e4.
apply: dot_refines => // h X t hi hs h2; apply: columnwise_refines => //; apply: refines_new_refines.
by apply: dot_vec_refines; [reflexivity|reflexivity|exact: hmv].
Qed.
End Neumann.
End ScipyMem.
