(* C08: products leave all memory of the caller as it was, and their results share
   nothing with it - whatever the format and also when they raise.  The inverse
   KFAC operator overwrites the caller's list for a matrix in list format. *)
From Coq Require Import Reals Lra.
From Coquelicot Require Import Coquelicot.
From mathcomp Require Import all_ssreflect all_algebra ring.
From Verif Require Import PyPrelude Tensor Spec TorchBase RInst ROrd Calculus Curvature HessGGN Risk Losses Fisher CurvOps Jacobian Submatrix Kfac KfacInverse.
From Verif Require Import Alias AliasProof AliasRefine.
Set Implicit Arguments.
Unset Strict Implicit.
Unset Printing Implicit Defensive.
Local Notation tens := (tensor R).
Local Open Scope nat_scope.

(* every tensor buffer and every list object of h is in h' as it was in h *)
Definition unchanged (h h' : heap) : Prop :=
  [/\ size (hbufs h) <= size (hbufs h'), size (hlists h) <= size (hlists h'),
  (forall b, b < size (hbufs h) -> nth [::] (hbufs h') b = nth [::] (hbufs h) b) &
  (forall l, l < size (hlists h) -> nth [::] (hlists h') l = nth [::] (hlists h) l)].
(* Y is made of memory that did not exist in h *)
Definition separate (h h' : heap) (Y : harg) : Prop :=
  match Y with
  | HTensor v => size (hbufs h) <= vb v
  | HList l => size (hlists h) <= l /\ (forall v, List.In v (nth [::] (hlists h') l) -> size (hbufs h) <= vb v)
  | HOther => False
  end.
(* A @ X, where _matmat is [mat], in any memory: it touches nothing, its result is
   new, and it returns or raises what the value-level model says *)
Definition harmless (A : linop R) (mat : nat -> hm nat) (X : harg) : Prop := forall h,
  let r := hmatmul A mat X h in
  [/\ unchanged h r.1, (forall Y, r.2 = Ok Y -> separate h r.1 Y) &
      arg_ok h X -> same_outcome (fun Y y => arg_value r.1 Y = y) r.2 (op_matmul A (arg_value h X))].

Lemma ext_unchanged h h' : ext h h' -> unchanged h h'.
Proof. by move=> he; split; [exact: ext_szb | exact: ext_szl | move=> i; exact: (ext_buf he) | move=> i; exact: (ext_list he)]. Qed.
Lemma fresh_separate h h' Y : fresh_result h Y h' -> separate h h' Y.
Proof.
case: Y => [v|l|] //= [h1 h2]; split=> //; elim: (nth _ _ _) h2 => //= u us IH /andP[hu hus] v [<- //|]; exact: IH.
Qed.
Lemma harmless_of A mat X : (forall h l, tr h any (mat l) (flist h)) -> mat_refines (size (in_shape A)) mat (matmat A) ->
  harmless A mat X.
Proof.
move=> h1 h2 h /=; have [e1 e2] := matmul_fresh A X (h1 h) (ext_refl h) I; split; first exact: ext_unchanged.
  by move=> Y /e2 /fresh_separate.
exact: matmul_refines.
Qed.

(* ---- the operators that add columns per batch ---- *)
Lemma lift_fresh h0 A B (r : res A) (k : A -> hm B) : (forall a, tr h0 any (k a) (@ok B)) -> tr h0 any (do! a := hlift r in k a) (@ok B).
Proof. by move=> hk; apply: tr_bindA => [|a]; [exact: tr_liftA | exact: hk]. Qed.
Lemma cols_ok h0 f M : tr h0 any (hcolumns f M) (@ok _).
Proof. by apply: tr_ok; exact: columns_fresh. Qed.

Lemma lift_refines (h0 : heap) r M : all (inb h0) M ->
  rf h0 any (do! f := hlift r in hcolumns f M) (let! f := r in column_loop f (map (vread h0) M)) vals.
Proof.
move=> hM; apply: (rf_bind (@rf_lift h0 _ any r)) => f f'; apply: rf_pure => ->; exact: columns_refines.
Qed.
Lemma hess_value S ns th L ts : sumn ns = size S -> size ts = size S ->
  hessian_batch (pack 0 S) [seq Posz n | n <- ns] th L ts =
  let! fs := hess_products S [seq Posz n | n <- ns] th L in blocks_val [seq Posz n | n <- ns] fs ts.
Proof.
move=> hn ht; rewrite /hessian_batch /hess_products /blocks_val.
have sp : sumn ns = size (pack 0 S) by rewrite size_pack.
have sa : sumn ns = size (autograd (pack 0 S) L) by rewrite size_map.
have st : sumn ns = size ts by rewrite ht.
have sz : sumn ns = size [seq zeros_like m | m <- ts] by rewrite size_map.
rewrite (split_list_ok sp) (split_list_ok sa) (split_list_ok st) (split_list_ok sz) /=.
case: (the_one _) => //= K; set Ma := reshape ns ts; set Pa := reshape ns (pack 0 S); set Ga := reshape ns _; set Ha := reshape ns _.
have e1 : size Pa = size Ma by rewrite /Pa /Ma !size_reshape.
have e2 : size Ga = size Ma by rewrite /Ga /Ma !size_reshape.
have e3 : size Ha = size Ma by rewrite /Ha /Ma !size_reshape.
congr bind; elim: Ma Pa Ga Ha e1 e2 e3 => [|a Ma IH] [|p Pa] [|g Ga] [|b Ha] //= [e1] [e2] [e3].
by rewrite IH.
Qed.
Lemma block_nats b n s bs : check_block_sizes b n s = Ok bs -> exists2 ns, bs = [seq Posz k | k <- ns] & sumn ns = n.
Proof.
case: s => [s|/= [<-]]; last by exists [:: n] => //=; rewrite addn0.
move/check_block_sizes_spec => [-> _] hs ha.
have [ns es] : exists ns, s = [seq Posz k | k <- ns].
  by elim: s ha {hs} => [|[k|k] s IH] //=; [exists [::] | move=> /andP[_ /IH[ns ->]]; exists (k :: ns)].
exists ns => //; move: hs; rewrite es {es ha}; have -> : foldr +%R 0%R [seq Posz k | k <- ns] = Posz (sumn ns).
  by elim: ns => //= k ns ->.
by case.
Qed.

Section Curvature.
Variables (X Y : Type) (net : X -> point -> seq R).
Local Notation batch := (seq (X * Y)).
Section WithLoss.
Variables (O : nat) (lossd : seq R -> Y -> R).
Theorem C08_hessian red num_data (loader : seq batch) S block_sizes th A bs x :
  hessian_operator O net lossd red num_data loader S block_sizes th = Ok A ->
  check_block_sizes true (size S) block_sizes = Ok bs ->
  harmless A (hhessian net O lossd red num_data loader S bs th) x.
Proof.
rewrite /hessian_operator /curvature_init; case: raise_if => //= _ + hb; rewrite hb /= => -[<-].
have [ns ens hns] := block_nats hb; apply: harmless_of => [h l|/=].
  by apply: curvature_fresh => b M; apply: lift_fresh => fs; apply: tr_ok; exact: blocks_fresh.
apply: rf_mat => h l hl hn; apply: curvature_refines hl hn => b h0 M hM sM.
have ss : size ns = size [seq hvp th q.1 q.2 | q <- zip (reshape ns (pack 0 S)) (reshape ns (autograd (pack 0 S) (batch_loss O net lossd red b)))].
  by rewrite size_map size_zip !size_reshape minnn.
rewrite ens hess_value ?size_map ?sM // /hess_products !split_list_ok ?size_map ?size_pack //=.
apply: (rf_step (@rf_lift h0 _ any (Ok _))) => fs; apply: rf_pure => ->.
by apply: blocks_refines; rewrite ?sM.
Qed.
Theorem C08_ggn red num_data (loader : seq batch) S block_sizes th A x :
  ggn_operator O net lossd red num_data loader S block_sizes th = Ok A ->
  harmless A (hggn net O lossd red num_data loader S th) x.
Proof.
rewrite /ggn_operator /curvature_init; case: raise_if => //= _; case: (check_block_sizes _ _ _) => //= bs [<-].
apply: harmless_of => [h l|/=]; first by apply: curvature_fresh => b M; exact: cols_ok.
apply: rf_mat => h l hl hn; apply: curvature_refines hl hn => b h0 M hM sM; exact: columns_refines.
Qed.
End WithLoss.
Theorem C08_ef T C kind (tgt : Y -> nat -> FisherMC.target) red num_data (loader : seq batch) S th A x :
  ef_operator T C (Some kind) net tgt red num_data loader S th = Ok A ->
  harmless A (hef net T C kind tgt (FisherMC.torch_row kind C) red num_data loader S th) x.
Proof.
rewrite /ef_operator /curvature_init; case: raise_if => //= _ [<-].
apply: harmless_of => [h l|/=]; first by apply: curvature_fresh => b M; apply: lift_fresh => f; exact: cols_ok.
apply: rf_mat => h l hl hn; apply: curvature_refines hl hn => b h0 M hM sM.
have := @lift_refines h0 (ef_product net T C kind tgt (FisherMC.torch_row kind C) red S th b) M hM.
rewrite /ef_product /ef_batch; case: reduction_factor => //= rf0; case: py_div => //=.
Qed.
(* the Monte-Carlo Fisher operator, for whatever draws *)
Theorem C08_mc T C kind red N (data : seq (batch * (nat -> nat -> R))) S th samples x :
  harmless (LinOp S S (base_matmat (fun b : batch * (nat -> nat -> R) => size b.1) red N data
                         (fun b => mc_batch T C kind net red S th samples b.1 b.2)))
    (hmc net T C kind red N data S th samples) x.
Proof.
apply: harmless_of => [h l|/=]; first by apply: curvature_fresh => b M; apply: lift_fresh => f; exact: cols_ok.
apply: rf_mat => h l hl hn; apply: curvature_refines hl hn => b h0 M hM sM.
have := @lift_refines h0 (mc_product net T C kind red S th samples b.1 b.2) M hM.
rewrite /mc_product /mc_batch; case: reduction_factor => //= rf0; case: py_div => //= k1; case: py_div => //=.
Qed.
Theorem C08_jacobian so S th c num_data (loader : seq batch) A x :
  (forall x th, size (net x th) = numel so) ->
  jac_init so net S th c num_data loader = Ok A ->
  harmless A (match c with Jac => hjac so net S th loader | JacT => hjacT so net S th loader end) x.
Proof.
move=> hn; rewrite /jac_init; case: raise_if => //= _ [<-]; case: c.
  by apply: harmless_of => [h l|]; [exact: jac_fresh | exact: jac_refines].
by apply: harmless_of => [h l|]; [exact: jacT_fresh | exact: jacT_refines].
Qed.
End Curvature.
Theorem C08_kfac sep S inC grC mp x :
  harmless (LinOp S S (kfac_matmat (F := [comRingType of R]) sep inC grC mp)) (hkfac sep inC grC mp) x.
Proof. by apply: harmless_of => [h l|]; [exact: kfac_fresh | exact: kfac_refines]. Qed.

(* the argument can be used again: it still has its value, and the product gives
   the same once more *)
Definition in_memory (h : heap) (X : harg) : Prop := if X is HList l then l < size (hlists h) else True.
Lemma unchanged_inb h h' v : unchanged h h' -> inb h v -> inb h' v /\ vread h' v = vread h v.
Proof.
case=> hs _ hb _ /andP[h1 h2]; have e : buf h' (vb v) = buf h (vb v) by exact: hb.
by rewrite /inb /vread e h2 (leq_trans h1 hs).
Qed.
Lemma unchanged_arg h h' X : unchanged h h' -> arg_ok h X -> in_memory h X -> arg_ok h' X /\ arg_value h' X = arg_value h X.
Proof.
case: X => [v|l|] //= he hX hl; first by have [-> ->] := unchanged_inb he hX.
case: (he) => _ _ _ hls; rewrite /lread (hls _ hl).
split; first by apply: sub_all hX => v /(unchanged_inb he)[].
by congr VList; elim: (nth _ _ _) hX => //= v vs IH /andP[/(unchanged_inb he)[_ ->] /IH ->].
Qed.
Theorem C08_repeatable A mat X h : harmless A mat X -> arg_ok h X -> in_memory h X ->
  let h1 := (hmatmul A mat X h).1 in let r := hmatmul A mat X h1 in
  [/\ arg_value h1 X = arg_value h X, arg_value r.1 X = arg_value h X &
      same_outcome (fun Y y => arg_value r.1 Y = y) r.2 (op_matmul A (arg_value h X))].
Proof.
move=> hh hX hm /=; have [u1 _ _] := hh h; have [o1 v1] := unchanged_arg u1 hX hm.
have hm1 : in_memory (hmatmul A mat X h).1 X by case: X hm {hh hX o1 v1} u1 => //= l hl [_ hs _ _]; exact: leq_trans hl hs.
have [u2 _ /(_ o1)] := hh (hmatmul A mat X h).1; rewrite v1; split=> //.
by have [_ ->] := unchanged_arg u2 o1 hm1.
Qed.

(* ---- the inverse KFAC operator ---- *)
Section Inverse.
Local Notation Rr := R_rcfType.
Variables (chol : bool -> tens -> res tens) (chol_nf : bool -> tens -> KfacInverse.ext Rr -> res tens).
Variables (chol_inv : tens -> res tens) (eigh : tens -> res (tens * tens)).
Variables (s : iset Rr) (dbl sep : bool) (S : seq (seq nat)) (inC grC : dict nat_eqType tens) (mp : mapping) (c : icache Rr).
Let g (ts : seq tens) : lst Rr := (inverse_matmat chol chol_nf chol_inv eigh s dbl sep inC grC mp c ts).2.
Local Notation A := (LinOp S S (inverse_product chol chol_nf chol_inv eigh s dbl sep inC grC mp c)).

Lemma mk3_wf m n K f : wf (Tensor [:: m; n; K] (mk3 (F := [comRingType of Rr]) m n K f)).
Proof. by rewrite /wf /= size_mkseq /= muln1 mulnA. Qed.
Lemma scale_grid_wf d a b t t' : scale_grid (F := Rr) d a b t = Ok t' -> wf t'.
Proof.
rewrite /scale_grid; case: (tshape a) => [|j [|? ?]] //; case: (tshape b) => [|l [|? ?]] //; case: (tshape t) => [|x [|y [|z [|? ?]]]] //.
by case: ifP => // _ [<-]; exact: mk3_wf.
Qed.
Lemma scale_rows_wf d a t t' : scale_rows (F := Rr) d a t = Ok t' -> wf t'.
Proof.
rewrite /scale_rows; case: (tshape a) => [|j [|? ?]] //; case: (tshape t) => [|x [|y r]] //.
by case: eqP => // -> [<-]; rewrite /wf /= size_mkseq muln1.
Qed.
Lemma treshape_wf sh (t t' : tens) : treshape sh t = Ok t' -> wf t'.
Proof. by rewrite /treshape; case: eqP => // e [<-]; rewrite /wf /= e. Qed.
Definition lwf (r : lst Rr) : Prop := all (@wf R) r.1.
Lemma all_set_nth (P : pred tens) x xs i y : P y -> i < size xs -> all P xs -> all P (set_nth x xs i y).
Proof.
move=> hy; elim: xs i => [|z xs IH] [|i] //=; first by move=> _ /andP[_ ->]; rewrite hy.
by move=> hi /andP[-> h2]; exact: IH.
Qed.
Lemma lget_lt (xs : seq tens) i t : lget xs i = Ok t -> i < size xs.
Proof. by rewrite /lget; case: ltnP => // hi; rewrite drop_oversize. Qed.
Lemma lget_all (P : pred tens) (xs : seq tens) i t : all P xs -> lget xs i = Ok t -> P t.
Proof. by move/(all_drop i); rewrite /lget; case: (drop i xs) => //= x ? /andP[hx _] [<-]. Qed.
Lemma upd_wf pos f X : all (@wf R) X -> (forall t t', wf t -> f t = Ok t' -> wf t') -> lwf (upd_at pos f X).
Proof.
move=> hX hf; rewrite /upd_at; case E: (lget X pos) => [t|] //; case Ef: (f t) => [t'|] //.
by apply: all_set_nth => //; [apply: hf Ef; exact: lget_all E | exact: lget_lt E].
Qed.
Lemma andthen_wf r k : lwf r -> (forall X, all (@wf R) X -> lwf (k X)) -> lwf (andthen r k).
Proof. by case: r => X [?|?] //= hX hk; exact: hk. Qed.
Lemma sep_one_wf ai gi p X : all (@wf R) X -> lwf (separate_one s ai gi p X).
Proof.
move=> hX; rewrite /separate_one.
set r1 := (if p.1 == Weight then upd_at _ _ X else (X, Ok tt)).
have h1 : lwf r1.
  rewrite /r1; case: ifP => // _; apply: upd_wf => // t t' _; case: (rearr_w t) => //= xw; case: (if _ then _ else _) => //= ?; exact: mm_right_wf.
set r2 := andthen r1 _; have h2 : lwf r2.
  apply: andthen_wf => // Z hZ; apply: upd_wf => // t t' _; case: (if _ then _ else _) => //= ?; exact: mm_left_wf.
case: ifP => // _; apply: andthen_wf; last first.
  move=> Z hZ; apply: upd_wf => // t t' _; case: (let! '(_, _) := _ in _) => //= ?; exact: mm_left_wf.
case: ifP => _.
  apply: andthen_wf; last first.
    move=> Z hZ; apply: upd_wf => // t t' _; case: (let! '(_, _) := _ in _) => //= ?; exact: mm_right_wf.
  apply: andthen_wf => // Z hZ; apply: upd_wf => // t t' _.
  case: (let! '(_, _) := unpack gi in _) => //= ?; case: (let! '(_, _) := unpack ai in _) => //= ?; case: KfacInverse.single => //= d; exact: scale_grid_wf.
apply: andthen_wf => // Z hZ; apply: upd_wf => // t t' _.
case: (let! '(_, _) := unpack gi in _) => //= ?; case: KfacInverse.single => //= d; exact: scale_rows_wf.
Qed.
Lemma joint_wf ai gi w b X : all (@wf R) X -> lwf (joint_multiply s ai gi w b X).
Proof.
move=> hX; rewrite /joint_multiply; case: lget (@lget_lt X w) => //= xw0 /(_ _ erefl) hw; case: rearr_w => //= xw.
case: lget (@lget_lt X b) => //= xb0 /(_ _ erefl) hb; case: unsqueeze_mid => //= xb; case: cat_mid => //= xj.
case: left_and_right_multiply => //= y; case E: split_mid => [[yw yb]|] //=; have [e1 e2] := split_mid_wf E.
apply: all_set_nth => //; last by apply: all_set_nth.
by rewrite size_set_nth (maxn_idPr _).
Qed.
Lemma layer_wf ai gi ps X : all (@wf R) X -> lwf (multiply_layer s sep ai gi ps X).
Proof.
move=> hX; rewrite /multiply_layer; case: (match dget Weight ps with Some _ => _ | None => _ end) => //= ws.
set r := (match sep with true => _ | false => _ end).
have hsm : lwf (separate_multiply s ai gi ps X).
  rewrite /separate_multiply; set st := (if _ then _ else _).
  have : lwf (X, st) by []. elim: ps (X, st) {r} => //= p ps IH q hq; apply: IH; apply: andthen_wf => // Z; exact: sep_one_wf.
have hr : lwf r.
  by rewrite /r; case: (sep) => //; case: (dget Weight ps) => // w; case: (dget Bias ps) => // b; exact: joint_wf.
case: ws => [[w sh]|] //; apply: andthen_wf => // Z hZ; apply: upd_wf => // t t' _; exact: treshape_wf.
Qed.
Lemma g_wf ts : all (@wf R) ts -> all (@wf R) (g ts).1.
Proof.
rewrite /g; elim: (mp) c ts => //= e mp' IH c' ts ht; rewrite /inverse_layer; case: get_inverse => [[c1 ev] [[ai gi]|x]] //=.
have := layer_wf ai gi e.2 ht; case: multiply_layer => X' [u|x] //= hX'.
by have := IH c1 X' hX'; case: inverse_matmat => [[? ?] ?].
Qed.

(* a list of tensors that is accepted as a matrix *)
Definition list_matrix (h : heap) (X : harg) : Prop :=
  exists l K, X = HList l /\ map (@tshape R) (lread h l) = [seq rcons sh K | sh <- S].
Lemma pre_fresh X h : ~ list_matrix h X -> forall p, (hpreprocess A X h).2 = Ok p -> size (hlists h) <= p.1.1.1.
Proof.
case: X => [v|l|] //= hn p.
  by rewrite /hbind /=; case: (check_tensor_and_preprocess _ _) => //= r [<-] /=.
rewrite /hbind /= hmap_read /= -/(lread h l); rewrite /check_tensor_list_and_preprocess; case: eqP => //= hs.
case: ifP => [_ [<-] //|_]; case: ifP => // /andP[h1 h2] [_]; case: hn; exists l, (head 0 (undup [seq last 0 (tshape x) | x <- lread h l])).
split=> //; set ts := lread h l in hs h1 h2 *; have hk t : t \in [seq last 0 (tshape x) | x <- ts] -> t = head 0 (undup [seq last 0 (tshape x) | x <- ts]).
  by rewrite -mem_undup; case: (undup _) h2 => [|x [|]] //= _; rewrite inE => /eqP.
move: (head 0 _) hk => K hk; move: hs h1 hk {h2}; elim: ts (S) => [|t ts IH] [|sh S'] //= [hs] /andP[/andP[e1 e2] ht] hk.
congr cons; last by apply: IH => // x hx; apply: hk; rewrite inE hx orbT.
move: e1 e2 (hk _ (mem_head _ _)); rewrite /ndim; case/lastP: (tshape t) => [|u k]; first by rewrite addn1.
by rewrite size_rcons last_rcons /= -cats1 take_size_cat // => _ /eqP -> ->; rewrite cats1.
Qed.
Theorem C08_kfac_inverse_partial X h : ~ list_matrix h X -> 
  let r := hmatmul A (hinverse g) X h in
  [/\ unchanged h r.1, (forall Y, r.2 = Ok Y -> separate h r.1 Y) &
      arg_ok h X -> same_outcome (fun Y y => arg_value r.1 Y = y) r.2 (op_matmul A (arg_value h X))].
Proof.
move=> hn /=; have hpe : ext h (hpreprocess A X h).1 /\ forall p, (hpreprocess A X h).2 = Ok p -> size (hlists h) <= p.1.1.1.
  by split; [case: (@pre_new h A any X h (ext_refl h) I) | exact: pre_fresh].
have [e1 e2] : tr h (eq h) (hmatmul A (hinverse g) X) (fresh_result h) /\ True; last first.
  have [e3 e4] := e1 h (ext_refl h) erefl; split; [exact: ext_unchanged | by move=> Y /e4 /fresh_separate |].
  by apply: matmul_refines; apply: inverse_refines; exact: g_wf.
split=> //; apply: (@tr_bind h _ _ _ _ _ (fun p _ => size (hlists h) <= p.1.1.1)).
  by move=> h' he <-.
move=> p h' he hp; apply: (@tr_bind h _ _ any _ _ (flist h)) => //; first exact: inverse_tr.
by move=> l; exact: post_fresh.
Qed.
(* for any argument the values of the product are right *)
Theorem C08_kfac_inverse_values X h : arg_ok h X ->
  same_outcome (fun Y y => arg_value (hmatmul A (hinverse g) X h).1 Y = y) (hmatmul A (hinverse g) X h).2 (op_matmul A (arg_value h X)).
Proof. by apply: matmul_refines; apply: inverse_refines; exact: g_wf. Qed.
(* for a matrix in list format, the result is the caller's own list, whose entries
   have been replaced; also when the product raises, the entries that were already
   processed stay replaced *)
Theorem C08_kfac_inverse_overwrites l h K : S <> [::] ->
  map (@tshape R) (lread h l) = [seq rcons sh K | sh <- S] -> arg_ok h (HList l) ->
  let r := hmatmul A (hinverse g) (HList l) h in
  lread r.1 l = (g (lread h l)).1 /\ (forall Y, r.2 = Ok Y -> Y = HList l).
Proof.
move=> hS hsh hok /=.
have hc : check_tensor_list_and_preprocess A (lread h l) = Ok (lread h l, false, K).
  rewrite /check_tensor_list_and_preprocess /= -(size_map (@tshape R) (lread h l)) hsh size_map eqxx /=.
  have -> : all (fun p => tshape p.1 == p.2) (zip (lread h l) S) = false.
    case: (S) hS hsh => // sh S' _; case: (lread h l) => //= t ts [-> _]; rewrite (_ : rcons sh K == sh = false) //.
    by apply/eqP => /(congr1 size); rewrite size_rcons => /eqP; rewrite eqn_leq ltnn.
  have e : [seq last 0 (tshape x) | x <- lread h l] = nseq (size S) K.
    by rewrite (map_comp (last 0) (@tshape R)) hsh -map_comp; elim: (S) => //= sh S' ->; rewrite last_rcons.
  have -> : undup [seq last 0 (tshape x) | x <- lread h l] = [:: K].
    rewrite e; case: (S) hS => // sh S' _; elim: S' => //= sh' S' ->; by rewrite inE eqxx.
  rewrite andbT ifT //=; elim: (lread h l) (S) hsh {hok e hS} => [|t ts IH] [|sh S'] //= [e hsh].
  by rewrite IH // /ndim e size_rcons addn1 eqxx /= -cats1 take_size_cat // eqxx.
have ep : hpreprocess A (HList l) h = (h, Ok (l, true, false, K)) by rewrite /= /hbind /= hmap_read /= -/(lread h l) hc.
have wr : all (@wf R) (lread h l) by rewrite /lread all_map; apply: sub_all hok => v; exact: vread_wf.
have ei : hinverse g l h = (Heap (hbufs h ++ map (@tdata R) (g (lread h l)).1) (set_nth [::] (hlists h) l (newviews (size (hbufs h)) (g (lread h l)).1)),
    let! _ := (g (lread h l)).2 in Ok l).
  rewrite /hinverse /hbind /= hmap_read /= -/(lread h l) (@allocs_run _ halloc id) //= map_id.
  by case: (g _).2.
rewrite /hmatmul /hbind ep /= ei /=.
have wg := g_wf wr; case: (g (lread h l)) wg => ys r /= wg.
have [r1 r2 r3] := newviews_read h (set_nth [::] (hlists h) l (newviews (size (hbufs h)) ys)) wg.
case: r => [[]|e] /=; last by split=> //; rewrite /lread /= nth_set_nth /= eqxx.
rewrite /hpostprocess /hbind /= hmap_read /= nth_set_nth /= eqxx r3.
case E: check_output_and_postprocess => [Y|e] /=; last by split=> //; rewrite /lread /= nth_set_nth /= eqxx.
case: (check_output_kind E wg) => [[t eY _]|eY].
  by move: E; rewrite /check_output_and_postprocess eY; case: ifP => //; case: ifP.
rewrite eY /=; split; first by rewrite /lread /= nth_set_nth /= eqxx.
by move=> Z [<-].
Qed.
End Inverse.

Print Assumptions C08_hessian.
Print Assumptions C08_ggn.
Print Assumptions C08_ef.
Print Assumptions C08_mc.
Print Assumptions C08_jacobian.
Print Assumptions C08_kfac.
Print Assumptions C08_repeatable.
Print Assumptions C08_kfac_inverse_partial.
Print Assumptions C08_kfac_inverse_values.
Print Assumptions C08_kfac_inverse_overwrites.

(* ---- examples ---- *)
(* a network with three parameters; a matrix in list format: one list object of three
   views of one buffer *)
From Verif Require Import OpSpec KfacSpec Props_Kfac KfacInvProof Props_KfacInverse Props_KfacInvEx.
Import GRing.Theory Order.TTheory Num.Theory.
Definition ex_h (d : seq R) : heap :=
  Heap [:: d] [:: [:: View 0 0 [:: 1; 1]; View 0 1 [:: 2; 2; 1]; View 0 5 [:: 1; 1; 1]]].
Definition ex_val (d : seq R) : seq tens := [:: Tensor [:: 1; 1] (take 1 d); Tensor [:: 2; 2; 1] (take 4 (drop 1 d)); Tensor [:: 1; 1; 1] (take 1 (drop 5 d))].
Lemma ex_arg d : size d = 6 -> [/\ arg_ok (ex_h d) (HList 0), in_memory (ex_h d) (HList 0) &
  arg_value (ex_h d) (HList 0) = VList (ex_val d)].
Proof. by move=> hd; split=> //; [rewrite /= /inb /buf /= hd | rewrite /= /lread /vread /= drop0]. Qed.
Lemma ex_format d : size d = 6 -> has_format ex_S true (Some 1) (VList (ex_val d)) /\ content (VList (ex_val d)) = d.
Proof. by case: d => [|a [|b [|c [|e [|f [|k []]]]]]]. Qed.

Example C08_kfac_ex (d : seq R) : size d = 6 ->
  let A := LinOp ex_S ex_S (kfac_matmat (F := [comRingType of R]) false (ex_in _) (ex_gr _) ex_mp) in
  let r := hmatmul A (hkfac false (ex_in _) (ex_gr _) ex_mp) (HList 0) (ex_h d) in
  exists Y, [/\ r.2 = Ok Y, separate (ex_h d) r.1 Y & has_format ex_S true (Some 1) (arg_value r.1 Y)].
Proof.
move=> hd A r; have [h1 h2 h3] := ex_arg hd; have [f1 f2] := ex_format hd.
have [mp e [_ _ /(_ _ _ _ f1)[W [w1 w2 _]]]] := C30_kfac_product (ex_net [comRingType of R]) (ltac:(by [])).
have em : mp = ex_mp by [case: e]; rewrite em in w1.
have [_ s1 /(_ h1)] := C08_kfac false ex_S (ex_in _) (ex_gr _) ex_mp (HList 0) (ex_h d).
rewrite h3 w1 -/A -/r; move: s1; rewrite -/A -/r; case: r => hh [Y|] //= s1 eY; exists Y; split=> //; first exact: s1.
by rewrite eY.
Qed.

(* C08 fails for the inverse KFAC operator: after a successful product with a matrix
   in list format the caller's list holds something else than before *)
Theorem C08_kfac_inverse_list_refuted : exists chol chol_nf chinv eigh (s : iset R_rcfType) dbl sep inC grC mp c h,
  let A := LinOp ex_S ex_S (inverse_product chol chol_nf chinv eigh s dbl sep inC grC mp c) in
  let r := hmatmul A (hinverse (fun ts => (inverse_matmat chol chol_nf chinv eigh s dbl sep inC grC mp c ts).2)) (HList 0) h in
  [/\ chol_sound chol, chol_inv_sound chinv, arg_ok h (HList 0) /\ in_memory h (HList 0) &
      (exists Y, r.2 = Ok Y) /\ arg_value r.1 (HList 0) <> arg_value h (HList 0)].
Proof.
pose nf (b : bool) (t : tens) (x : KfacInverse.ext R_rcfType) : res tens := Err RuntimeError.
pose eigh (t : tens) : res (tens * tens) := Err RuntimeError.
pose d : seq R := [:: 1; 0; 0; 0; 0; 0]%R.
have [M [[_ _ hA] hM]] := @C48_ex nf eigh false 2%:R%R 1%R (ltr0Sn _ _) ltr01.
exists chol_R, nf, (@chol_inv [rcfType of R]), eigh, (ISet (DTuple [:: 2%:R%R; 1%R]) false 0%R false true true), false, false, (ex_in _), (ex_gr _), ex_mp, ([::], [::]), (ex_h d).
move=> A r; have hd : size d = 6 by []. have [h1 h2 h3] := ex_arg hd; have [f1 f2] := ex_format hd.
have [W [w1 w2 w3]] := hA _ _ _ f1.
split=> //; [exact: chol_R_sound | exact: chol_inv_ok |].
have hv := C08_kfac_inverse_values chol_R nf (@chol_inv [rcfType of R]) eigh (ISet (DTuple [:: 2%:R%R; 1%R]) false 0%R false true true) false false ex_S (ex_in _) (ex_gr _) ex_mp ([::], [::]) h1.
have [_ ho] := C08_kfac_inverse_overwrites chol_R nf (@chol_inv [rcfType of R]) eigh (ISet (DTuple [:: 2%:R%R; 1%R]) false 0%R false true true) false false (ex_in _) (ex_gr _) ex_mp ([::], [::]) (S := ex_S) (l := 0) (h := ex_h d) (K := 1) (ltac:(by [])) erefl h1.
move: hv ho; rewrite h3 w1 -/A -/r; case: r => hh [Y|] //= eY /(_ _ erefl) eY'; split; first by exists Y.
rewrite -/(arg_value hh (HList 0)) -eY' eY => eW; rewrite eW in w3.
have e0 i : i < 6 -> M i 0 = ((i == 0%N)%:R)%R.
  move=> hi; have := w3 i 0 hi isT; rewrite !big_ord_recl big_ord0 f2 /entry /= !mulr0 !addr0 mulr1 => <-.
  by rewrite muln1 addn0; case: i hi => [|[|[|[|[|[|]]]]]].
have [e1 _] := hM 0 0 isT isT; move: e1; rewrite !big_ord_recl big_ord0 !e0 //= !mulr0 !addr0 mulr1.
rewrite /kfac_matrix /= !big_cons big_nil /layer_entry /=.
set x := (_ * _ + _)%R; have -> : x = 20%:R%R by rewrite /x /KfacMap.stored /lcol /lrow /entry /= !addr0; ring.
by move/eqP; rewrite -[1%R]/(1%:R)%R eqr_nat.
Qed.
Print Assumptions C08_kfac_inverse_list_refuted.

From Verif Require Import Props_Curv Props_Jac.
Example C08_hessian_ex th : exists A, hessian_operator 2 exr_net exr_loss RMean None exr_loader exr_S None th = Ok A /\
  check_block_sizes true (size exr_S) None = Ok [:: Posz (size exr_S)].
Proof. by eexists. Qed.
Example C08_jacobian_ex th : (forall x z, size (exj_net x z) = numel [:: 2; 1]) /\
  exists A, jac_init [:: 2; 1] exj_net [:: [:: 2]] th JacT None exj_loader = Ok A.
Proof. by split=> //; eexists. Qed.
