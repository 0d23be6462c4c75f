(* NumPy arrays as views of memory. *)
From Coq Require Import List.
From mathcomp Require Import all_ssreflect all_algebra.
From Verif Require Import PyPrelude Tensor Spec Numpy Submatrix Inverse.
Set Implicit Arguments.
Unset Strict Implicit.
Unset Printing Implicit Defensive.
Import GRing.Theory.
Local Open Scope ring_scope.

Section Mem.
Variable F : ringType.
Local Notation arr := (tensor F).

(* Memory, and NumPy's arrays: entry k of an array is entry [nth 0 (v_idx v) k] of its
   buffer (strides and offsets, no repeated entries for arrays that are written). *)
Definition memory := seq (seq F).
Record view := View { v_buf : nat; v_idx : seq nat; v_sh : seq nat }.
Definition vget (h : memory) (v : view) : arr :=
  Tensor (v_sh v) [seq nth 0 (nth [::] h (v_buf v)) i | i <- v_idx v].
Definition write (idx : seq nat) (d b : seq F) : seq F := foldl (fun b p => set_nth 0 b p.1 p.2) b (zip idx d).
Definition vput (h : memory) (v : view) (d : seq F) : memory :=
  set_nth [::] h (v_buf v) (write (v_idx v) d (nth [::] h (v_buf v))).
Definition alloc (h : memory) (t : arr) : memory * view :=
  (rcons h (tdata t), View (size h) (seq.iota 0 (size (tdata t))) (tshape t)).

(* ---- memory ---- *)
(* an array of existing memory: one entry of its own for every index *)
Definition valid (h : memory) (v : view) : bool :=
  [&& (v_buf v < size h)%N, uniq (v_idx v), all (fun i => (i < size (nth [::] h (v_buf v)))%N) (v_idx v) &
      size (v_idx v) == numel (v_sh v)].
(* what existed before is unchanged *)
Definition extends (h h' : memory) : Prop := (size h <= size h')%N /\ forall i, (i < size h)%N -> nth [::] h' i = nth [::] h i.

Lemma extends_refl h : extends h h. Proof. by split. Qed.
Lemma extends_trans h1 h2 h3 : extends h1 h2 -> extends h2 h3 -> extends h1 h3.
Proof.
move=> [a1 b1] [a2 b2]; split=> [|i hi]; first exact: leq_trans a1 a2.
by rewrite b2 ?b1 // (leq_trans hi a1).
Qed.
Lemma extends_valid h h' v : extends h h' -> valid h v -> valid h' v.
Proof. by move=> [a b] /and4P [h1 h2 h3 h4]; apply/and4P; split; rewrite ?b // (leq_trans h1 a). Qed.
Lemma extends_get h h' v : extends h h' -> valid h v -> vget h' v = vget h v.
Proof. by move=> [_ b] /and4P [h1 _ _ _]; rewrite /vget b. Qed.
Lemma valid_wf h v : valid h v -> wf (vget h v).
Proof. by case/and4P=> _ _ _ /eqP e; rewrite /wf /= size_map e. Qed.

Lemma alloc_extends h t : extends h (alloc h t).1.
Proof. by split=> [|i hi] /=; rewrite ?size_rcons // nth_rcons hi. Qed.
Lemma alloc_buf h t : v_buf (alloc h t).2 = size h. Proof. by []. Qed.
Lemma alloc_valid h t : wf t -> valid (alloc h t).1 (alloc h t).2.
Proof.
move=> hw; rewrite /valid /= size_rcons ltnSn iota_uniq size_iota /= nth_rcons ltnn eqxx; apply/andP; split.
  by apply/allP => i; rewrite mem_iota.
exact: hw.
Qed.
Lemma alloc_get h t : vget (alloc h t).1 (alloc h t).2 = t.
Proof. by case: t => sh d; rewrite /vget /= nth_rcons ltnn eqxx map_nth_iota0 // take_size. Qed.

Lemma write_size idx d (b : seq F) : all (fun i => (i < size b)%N) idx -> size (write idx d b) = size b.
Proof.
rewrite /write; elim: idx d b => [|i s IH] [|x d] b //= /andP [hi hs].
have e : size (set_nth 0 b i x) = size b by rewrite size_set_nth; apply/maxn_idPr.
by rewrite IH e.
Qed.
Lemma write_out idx d (b : seq F) j : j \notin idx -> nth 0 (write idx d b) j = nth 0 b j.
Proof.
rewrite /write; elim: idx d b => [|i s IH] [|x d] b //=; rewrite inE negb_or => /andP [ne hj].
by rewrite IH // nth_set_nth /= (negbTE ne).
Qed.
Lemma write_get idx d (b : seq F) : uniq idx -> size d = size idx -> [seq nth 0 (write idx d b) i | i <- idx] = d.
Proof.
elim: idx d b => [|i s IH] [|x d] b //= /andP [hi hs] [hd].
rewrite -[write (i :: s) _ _]/(write s d (set_nth 0 b i x)) IH //; congr (_ :: _).
by rewrite write_out // nth_set_nth /= eqxx.
Qed.

Lemma vput_get h v d : valid h v -> size d = numel (v_sh v) -> vget (vput h v d) v = Tensor (v_sh v) d.
Proof.
case/and4P=> h1 h2 h3 /eqP h4 hd; rewrite /vget /vput nth_set_nth /= eqxx write_get //.
by rewrite hd h4.
Qed.
Lemma vput_extends h0 h v d : extends h0 h -> valid h v -> (size h0 <= v_buf v)%N -> extends h0 (vput h v d).
Proof.
move=> [a b] /and4P [h1 _ _ _] hv; split=> [|i hi].
  by rewrite size_set_nth (leq_trans a) // leq_maxr.
by rewrite nth_set_nth /= ltn_eqF ?b // (leq_trans hi hv).
Qed.
Lemma vput_valid h v d w : valid h v -> valid h w -> valid (vput h v d) w.
Proof.
move=> /and4P [h1 _ h3 _] /and4P [g1 g2 g3 g4]; apply/and4P; split=> //.
  by rewrite size_set_nth (leq_trans g1) // leq_maxr.
by rewrite nth_set_nth /=; case: eqP => [e|//]; rewrite write_size // -?e.
Qed.

Lemma ew_wf f (a b c : arr) : wf a -> wf b -> ew f a b = Ok c -> tshape c = tshape a /\ wf c.
Proof.
move=> /eqP ha /eqP hb; rewrite /ew /wf; case: eqP => // e [<-] /=; split=> //.
by rewrite size_map size1_zip ?ha // hb e.
Qed.


(* ---- programs on memory: exceptions keep the memory ---- *)
(* an array of existing memory that is only read (entries may be repeated) *)
Definition readable (h : memory) (v : view) : bool :=
  [&& (v_buf v < size h)%N, all (fun i => (i < size (nth [::] h (v_buf v)))%N) (v_idx v) & size (v_idx v) == numel (v_sh v)].
Lemma valid_readable h v : valid h v -> readable h v.
Proof. by case/and4P=> a _ b c; apply/and3P. Qed.
Lemma extends_readable h h' v : extends h h' -> readable h v -> readable h' v.
Proof. by move=> [a b] /and3P [h1 h3 h4]; apply/and3P; split; rewrite ?b // (leq_trans h1 a). Qed.
Lemma extends_read h h' v : extends h h' -> readable h v -> vget h' v = vget h v.
Proof. by move=> [_ b] /and3P [h1 _ _]; rewrite /vget b. Qed.
Lemma readable_wf h v : readable h v -> wf (vget h v).
Proof. by case/and3P=> _ _ /eqP e; rewrite /wf /= size_map e. Qed.

Definition mm (A : Type) := memory -> memory * res A.
Definition mret A (a : A) : mm A := fun h => (h, Ok a).
Definition mlift A (r : res A) : mm A := fun h => (h, r).
Definition mbind A B (m : mm A) (k : A -> mm B) : mm B :=
  fun h => let: (h', r) := m h in match r with Ok a => k a h' | Err e => (h', Err e) end.
Fixpoint mmap A B (f : A -> mm B) (xs : seq A) : mm (seq B) :=
  if xs is x :: xs' then mbind (f x) (fun y => mbind (mmap f xs') (fun ys => mret (y :: ys))) else mret [::].
Definition mread (v : view) : mm arr := fun h => (h, Ok (vget h v)).
(* a new array *)
Definition mnew (t : arr) : mm view := fun h => let: (h', v) := alloc h t in (h', Ok v).
(* overwrite the entries of v *)
Definition mput (v : view) (t : arr) : mm unit := fun h => (vput h v (tdata t), Ok tt).

(* The program p, started in some memory, leaves memory h0 unchanged also when it raises,
   raises what the pure program r raises, and its result is related to that of r. *)
Definition sim A B (h0 : memory) (p : memory * res A) (r : res B) (Q : A -> B -> memory -> Prop) : Prop :=
  extends h0 p.1 /\ match p.2, r with Ok a, Ok b => Q a b p.1 | Err e, Err e' => e = e' | _, _ => False end.

Lemma sim_bind A B A' B' h0 h (m : mm A) (r : res B) (k : A -> mm A') (k' : B -> res B') Q Q' :
  sim h0 (m h) r Q -> (forall a b h', extends h0 h' -> Q a b h' -> r = Ok b -> sim h0 (k a h') (k' b) Q') ->
  sim h0 (mbind m k h) (bind r k') Q'.
Proof.
by rewrite /sim /mbind; case: (m h) => h' [a|e] /= [hx]; case: r => [b|e'] //= hq hk; apply: hk.
Qed.
Lemma sim_weak A B h0 h1 (p : memory * res A) (r : res B) (Q Q' : A -> B -> memory -> Prop) :
  extends h0 h1 -> sim h1 p r Q -> (forall a b, extends h1 p.1 -> Q a b p.1 -> r = Ok b -> Q' a b p.1) -> sim h0 p r Q'.
Proof.
move=> hx [hy hq] hQ; split; first exact: extends_trans hx hy.
by case: (p.2) hq => [a|e]; case: r hQ => [b|e'] // hQ hq; apply: hQ.
Qed.
Lemma sim_lift A h0 h (r : res A) : extends h0 h -> sim h0 (mlift r h) r (fun a b h' => a = b /\ h' = h).
Proof. by move=> hx; split=> //=; case: r. Qed.

(* what an array of memory stands for *)
Definition stands (v : view) (t : arr) (h : memory) : Prop := readable h v /\ vget h v = t.
(* ... and it shares no memory with h0 *)
Definition stands_new (h0 : memory) (v : view) (t : arr) (h : memory) : Prop := stands v t h /\ (size h0 <= v_buf v)%N.
Lemma stands_extends h h' v t : extends h h' -> stands v t h -> stands v t h'.
Proof. by move=> hx [r g]; split; [apply: extends_readable r | rewrite (extends_read hx)]. Qed.
Lemma stands_wf h v t : stands v t h -> wf t.
Proof. by case=> /readable_wf hw <-. Qed.

Lemma sim_read h0 h v t : extends h0 h -> stands v t h -> sim h0 (mread v h) (Ok t) (fun a b h' => a = b /\ h' = h).
Proof. by move=> hx [_ g]; split=> //=; rewrite g. Qed.
Lemma sim_new h0 h t : extends h0 h -> wf t ->
  sim h0 (mnew t h) (Ok t) (fun v b h' => [/\ stands_new h0 v b h', valid h' v, extends h h' & v_buf v = size h]).
Proof.
move=> hx hw; have e : mnew t h = ((alloc h t).1, Ok (alloc h t).2) by rewrite /mnew; case: (alloc h t).
have hv := alloc_valid h hw; have hy := alloc_extends h t.
rewrite e; split; first by apply: extends_trans hx hy.
by split; rewrite // ?alloc_buf //; split; [split; [exact: valid_readable | exact: alloc_get] | case: hx].
Qed.
Lemma sim_put h0 h v t : extends h0 h -> valid h v -> (size h0 <= v_buf v)%N -> wf t -> tshape t = v_sh v ->
  sim h0 (mput v t h) (Ok t) (fun _ b h' => stands v b h').
Proof.
move=> hx hv hb /eqP hw hs; split; first exact: vput_extends.
rewrite /=; split; first by apply: valid_readable; apply: vput_valid.
by rewrite vput_get // ?hw ?hs // -hs; case: (t).
Qed.

(* A product on memory: leaves all existing memory as it is (also if it raises), and returns
   or raises what the pure product does, if the memory meets I.  The result may be a view of existing memory. *)
Definition mop := view -> mm view.
Definition refines (I : memory -> Prop) (op : mop) (f : arr -> res arr) : Prop :=
  forall h v t, I h -> stands v t h -> sim h (op v h) (f t) stands.
(* ... the result is new memory *)
Definition refines_new (I : memory -> Prop) (op : mop) (f : arr -> res arr) : Prop :=
  forall h v t, I h -> stands v t h -> sim h (op v h) (f t) (stands_new h).
Lemma refines_new_refines I op f : refines_new I op f -> refines I op f.
Proof. by move=> h m v t hi hs; apply: sim_weak (extends_refl _) (h m v t hi hs) _ => w y _ []. Qed.
(* requirements on memory that more memory cannot invalidate *)
Definition stable (I : memory -> Prop) : Prop := forall h h', extends h h' -> I h -> I h'.

Lemma sim_map op g h0 h (vs : seq view) (cs : seq arr) I : stable I -> refines I op g -> I h -> extends h0 h ->
  Forall2 (fun v c => stands v c h) vs cs ->
  sim h0 (mmap op vs h) (mapM g cs) (fun ws ys h' => extends h h' /\ Forall2 (fun w y => stands w y h') ws ys).
Proof.
move=> hI hop; elim: vs cs h => [|v vs IH] [|c cs] h hi hx H; inversion H; subst.
  by split.
rewrite /=; apply: (@sim_bind _ _ _ _ _ _ _ _ _ _ (fun w y h' => extends h h' /\ stands w y h')).
  by apply: sim_weak hx (hop _ _ _ hi H3) _ => w y hy.
move=> w y h1 hx1 [hy1 hw1] _.
have H6 : Forall2 (fun v c => stands v c h1) vs cs.
  by elim: H5 => [|v' c' ? ? hv' _ IH']; constructor=> //; apply: stands_extends hy1 hv'.
apply: (sim_bind (IH _ _ (hI _ _ hy1 hi) hx1 H6)) => ws ys h2 hx2 [hy2 hws] _.
by split=> //=; split; [apply: extends_trans hy1 hy2 | constructor=> //; apply: stands_extends hy2 hw1].
Qed.
End Mem.
