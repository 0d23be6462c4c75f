(* Model of curvlinops/_torch_base.py, class PyTorchLinearOperator. *)
From mathcomp Require Import all_ssreflect all_algebra.
From Verif Require Import PyPrelude Tensor Spec.
Set Implicit Arguments.
Unset Strict Implicit.
Unset Printing Implicit Defensive.

Section Model.
Variable T : Type.
Local Notation tens := (tensor T).

(* _torch_base.py 62-76 (__init__): stored shapes; _matmat (111-126) is
   supplied by the subclass and hence a field.  The derived fields
   _in_shape_flat, _out_shape_flat and shape are the functions below. *)
Record linop := LinOp {
  in_shape : seq (seq nat);
  out_shape : seq (seq nat);
  matmat : seq tens -> res (seq tens) }.

(* _torch_base.py 74-76 *)
Definition in_shape_flat (A : linop) := [seq numel s | s <- in_shape A].
Definition out_shape_flat (A : linop) := [seq numel s | s <- out_shape A].
Definition op_shape (A : linop) := (sumn (out_shape_flat A), sumn (in_shape_flat A)).

(* _torch_base.py 178-210 (__check_tensor_and_preprocess).  X.shape[0] on a
   0-dimensional tensor is an IndexError. *)
Definition check_tensor_and_preprocess (A : linop) (X : tens) : res (seq tens * bool * nat) :=
  if 2 < ndim X then Err ValueError else
  match tshape X with
  | [::] => Err IndexError
  | n :: _ =>
    if n != (op_shape A).2 then Err ValueError else
    let is_vec := ndim X == 1 in
    let num_vecs := if is_vec then 1 else nth 0 (tshape X) 1 in
    let! xs := tsplit (in_shape_flat A) X in
    let! Xp := mapM (fun p => treshape (rcons p.2 num_vecs) p.1) (zip xs (in_shape A)) in
    Ok (Xp, is_vec, num_vecs)
  end.

(* _torch_base.py 212-254 (__check_tensor_list_and_preprocess).  The Python set
   {x.shape[-1] for x in X} is the duplicate-free list of trailing sizes. *)
Definition check_tensor_list_and_preprocess (A : linop) (X : seq tens)
    : res (seq tens * bool * nat) :=
  if size X != size (in_shape A) then Err ValueError else
  if all (fun p => tshape p.1 == p.2) (zip X (in_shape A)) then
    Ok ([seq unsqueeze_last x | x <- X], true, 1)
  else
    let trailing := undup [seq last 0 (tshape x) | x <- X] in
    if all (fun p => (ndim p.1 == size p.2 + 1) &&
                     (take (ndim p.1).-1 (tshape p.1) == p.2)) (zip X (in_shape A))
       && (size trailing == 1)
    then Ok (X, false, head 0 trailing)
    else Err ValueError.

(* _torch_base.py 147-176 (_check_input_and_preprocess) *)
Definition check_input_and_preprocess (A : linop) (X : pyval T)
    : res (seq tens * bool * bool * nat) :=
  match X with
  | VTensor t => let! '(l, v, n) := check_tensor_and_preprocess A t in Ok (l, false, v, n)
  | VList ts => let! '(l, v, n) := check_tensor_list_and_preprocess A ts in Ok (l, true, v, n)
  | _ => Err ValueError
  end.

(* _torch_base.py 256-294 (_check_output_and_postprocess) *)
Definition check_output_and_postprocess (A : linop) (AX : seq tens)
    (list_format is_vec : bool) (num_vecs : nat) : res (pyval T) :=
  if size AX != size (out_shape A) then Err ValueError else
  if has (fun p => tshape p.1 != rcons p.2 num_vecs) (zip AX (out_shape A))
  then Err ValueError else
  if list_format then
    Ok (VList (if is_vec then [seq squeeze_last x | x <- AX] else AX))
  else
    let! rows := mapM (fun p => treshape [:: p.2; num_vecs] p.1) (zip AX (out_shape_flat A)) in
    let! c := tcat rows in
    Ok (VTensor (if is_vec then squeeze_last c else c)).

(* _torch_base.py 78-109 (__matmul__) *)
Definition op_matmul (A : linop) (X : pyval T) : res (pyval T) :=
  let! '(Xl, list_format, is_vec, num_vecs) := check_input_and_preprocess A X in
  let! AX := matmat A Xl in
  check_output_and_postprocess A AX list_format is_vec num_vecs.

End Model.

Section Proofs.
Variable T : Type.
Local Notation tens := (tensor T).
Implicit Types (A : linop T) (S : seq (seq nat)).

Lemma all_zip_shape (p : seq nat -> seq nat -> bool) (X : seq tens) S :
  size X = size S ->
  all (fun q => p (tshape q.1) q.2) (zip X S) = all (fun q => p q.1 q.2) (zip (map (@tshape T) X) S).
Proof. by elim: X S => [|x X IH] [|s S] //= [/IH ->]. Qed.

Lemma all_eq_zip (a b : seq (seq nat)) : size a = size b ->
  all (fun q => q.1 == q.2) (zip a b) = (a == b).
Proof. by elim: a b => [|x a IH] [|y b] //= [/IH ->]; rewrite eqseq_cons. Qed.

Lemma rcons_inv_eq (s u : seq nat) K :
  (size s == size u + 1) && (take (size s).-1 s == u) && (last 0 s == K) = (s == rcons u K).
Proof.
case/lastP: s => [|s k]; first by rewrite /= addn1; symmetry; apply/eqP; case: u.
rewrite size_rcons last_rcons addn1 eqSS -cats1 take_size_cat //= cats1 eqseq_rcons.
by case: eqP => [e|ne] /=; [ | symmetry; apply/negbTE; apply/negP => /andP[/eqP e _]; case: ne; rewrite e].
Qed.

Lemma undup_size1 (x : nat) (s : seq nat) : (size (undup (x :: s)) == 1) = all (eq_op^~ x) s.
Proof.
apply/idP/idP => [h|h].
  apply/allP => y hy.
  have: y \in undup (x :: s) by rewrite mem_undup inE hy orbT.
  have: x \in undup (x :: s) by rewrite mem_undup inE eqxx.
  by case: (undup (x :: s)) h => [|z [|? ?]] //= _; rewrite !inE => /eqP -> /eqP ->.
have -> : undup (x :: s) = [:: x]; last by [].
elim: s h => [|y s IH] //= /andP[/eqP -> hs]; rewrite inE eqxx /=.
by move: (IH hs) => /=.
Qed.

Lemma head_undup (x : nat) (s : seq nat) : all (eq_op^~ x) s -> head 0 (undup (x :: s)) = x.
Proof.
move=> h; have := undup_size1 x s; rewrite h => /eqP.
case E: (undup (x :: s)) => [|y [|? ?]] //= _.
have: y \in undup (x :: s) by rewrite E inE eqxx.
rewrite mem_undup inE => /orP[/eqP //|/(allP h) /eqP //].
Qed.

(* list-matrix recognition *)
Lemma list_matrix_check (X : seq tens) S : size X = size S -> X <> [::] ->
  let trailing := undup [seq last 0 (tshape x) | x <- X] in
  all (fun p => (ndim p.1 == size p.2 + 1) && (take (ndim p.1).-1 (tshape p.1) == p.2)) (zip X S)
       && (size trailing == 1)
  = (map (@tshape T) X == [seq rcons s (head 0 trailing) | s <- S]).
Proof.
move=> hs hX trailing; rewrite /ndim.
rewrite (all_zip_shape (fun a b => (size a == size b + 1) && (take (size a).-1 a == b))) //.
case: X hX hs @trailing => [|x X] //= _; case: S => [|s S] //= [hs].
set l := last 0 (tshape x); set ls := [seq last 0 (tshape x) | x <- X].
change (if l \in ls then undup ls else l :: undup ls) with (undup (l :: ls)).
rewrite undup_size1 eqseq_cons.
have [hall|hnall] := boolP (all (eq_op^~ l) ls); last first.
  rewrite andbF; symmetry; apply/negbTE/negP => /andP[/eqP e1 /eqP e2].
  move: (head 0 _) e1 e2 => K e1 e2.
  case/negP: hnall; apply/allP => y; rewrite /ls (map_comp (last 0)) e2 => /mapP[z /mapP[u _ ->] ->].
  by rewrite /l e1 !last_rcons.
rewrite andbT head_undup // -rcons_inv_eq eqxx andbT; congr (_ && _).
have {}hall: all (eq_op^~ l) (map (last 0) (map (@tshape T) X)) by rewrite -map_comp.
have {}hs : size (map (@tshape T) X) = size S by rewrite size_map.
elim: (map (@tshape T) X) S hs hall => [|a b IH] [|c d] //= [hs] /andP[hl /IH h].
by rewrite h // eqseq_cons -rcons_inv_eq hl andbT.
Qed.

(* splitting flat content into a list matrix *)
Definition unflatten (S : seq (seq nat)) (K : nat) (d : seq T) : seq tens :=
  [seq Tensor (rcons p.1 K) p.2 | p <- zip S (reshape [seq numel s * K | s <- S] d)].

Lemma total_mul S K : sumn [seq numel s * K | s <- S] = total S * K.
Proof. by rewrite /total -sumn_map_mulr -map_comp. Qed.

Lemma size_reshape_T (sh : seq nat) (d : seq T) : size (reshape sh d) = size sh.
Proof. by elim: sh d => //= n sh IH d; rewrite IH. Qed.

Lemma unflatten_shape S K d : map (@tshape T) (unflatten S K d) = [seq rcons s K | s <- S].
Proof.
rewrite -map_comp /unflatten /=.
elim: S d => //= s S IH d; congr cons; exact: IH.
Qed.

Lemma unflatten_flat S K d : size d = total S * K -> flat (unflatten S K d) = d.
Proof.
move=> hd; rewrite /flat /unflatten -map_comp.
rewrite (eq_map (_ : _ =1 snd)) // -/(unzip2 _) unzip2_zip ?size_reshape_T ?size_map //.
by rewrite reshapeKr // total_mul hd.
Qed.

Lemma unflatten_wf S K d : size d = total S * K -> all (@wf T) (unflatten S K d).
Proof.
rewrite /unflatten /total; elim: S d => [|s S IH] d //= hd.
rewrite {1}/wf /= numel_rcons size_take.
have hle : numel s * K <= size d by rewrite hd mulnDl leq_addr.
case: ltnP => h; last have {h}h : size d = numel s * K by apply/eqP; rewrite eqn_leq h hle.
  by rewrite eqxx IH // size_drop hd mulnDl addKn.
by rewrite h eqxx IH // size_drop hd mulnDl addKn.
Qed.

Lemma unflatten_valid S K d : size d = total S * K -> valid_mat S K (unflatten S K d).
Proof. by move=> h; split; [exact: unflatten_shape | exact: unflatten_wf]. Qed.

Lemma preprocess_split S K rest d : numel rest = K -> size d = total S * K ->
  mapM (fun p : tens * seq nat => treshape (rcons p.2 K) p.1)
    (zip [seq Tensor (p.1 :: rest) p.2 | p <- zip (map numel S) (reshape [seq n * numel rest | n <- map numel S] d)] S)
  = Ok (unflatten S K d).
Proof.
move=> hK; rewrite hK /unflatten /total; elim: S d => [|s S IH] d //= hd.
rewrite /treshape /= numel_rcons size_take.
have hle : numel s * K <= size d by rewrite hd mulnDl leq_addr.
have -> : (if numel s * K < size d then numel s * K else size d) = numel s * K.
  by case: ltnP => // h; apply/eqP; rewrite eqn_leq h hle.
by rewrite eqxx /= IH // size_drop hd mulnDl addKn.
Qed.

Lemma check_tensor_ok A (t : tens) K : wf t ->
  tshape t = [:: total (in_shape A)] /\ K = 1 \/ tshape t = [:: total (in_shape A); K] ->
  check_tensor_and_preprocess A t =
    Ok (unflatten (in_shape A) K (tdata t), ndim t == 1, K).
Proof.
rewrite /wf /check_tensor_and_preprocess /ndim /op_shape /in_shape_flat /tsplit.
move=> /eqP + he; case: he => [[-> ->]|->] /= hsz; rewrite /total eqxx /= ?eqxx /=.
  by rewrite (@preprocess_split _ 1 [::]) // hsz mulnA muln1.
by rewrite muln1 in hsz; rewrite (@preprocess_split _ K [:: K]) //= muln1.
Qed.

Lemma check_tensor_bad A (t : tens) : 0 < ndim t ->
  ~ documented_format (in_shape A) (VTensor t) -> check_tensor_and_preprocess A t = Err ValueError.
Proof.
rewrite /check_tensor_and_preprocess /ndim /= /op_shape /in_shape_flat -/(total _).
case: (tshape t) => [|n [|K [|? ?]]] //= _ h; (case: eqP => //= e; subst n).
- by case: h; left.
- by case: h; right; exists K.
Qed.

Lemma check_list_vec A (ts : seq tens) : map (@tshape T) ts = in_shape A ->
  check_tensor_list_and_preprocess A ts = Ok ([seq unsqueeze_last x | x <- ts], true, 1).
Proof.
move=> h; rewrite /check_tensor_list_and_preprocess.
have hs : size ts = size (in_shape A) by rewrite -h size_map.
by rewrite hs eqxx /= (all_zip_shape (fun a b => a == b)) // all_eq_zip ?size_map // h eqxx.
Qed.

Lemma size_map_eq (X : seq tens) S f : map (@tshape T) X = map f S -> size X = size S.
Proof. by move/(congr1 size); rewrite !size_map. Qed.

Lemma rcons_map_neq S K : S <> [::] -> (map (rcons^~ K) S == S) = false.
Proof.
case: S => // s S _; apply/negbTE/negP => /eqP [e _].
by move/(congr1 size): e; rewrite size_rcons => /eqP; rewrite -{2}[size s]addn0 -addn1 eqn_add2l.
Qed.

Lemma check_list_mat A (ts : seq tens) K : in_shape A <> [::] ->
  map (@tshape T) ts = [seq rcons s K | s <- in_shape A] ->
  check_tensor_list_and_preprocess A ts = Ok (ts, false, K).
Proof.
move=> hne h; rewrite /check_tensor_list_and_preprocess.
have hs := size_map_eq h.
have hts : ts <> [::] by move=> e; move: hs hne; rewrite e; case: (in_shape A).
rewrite hs eqxx /= (all_zip_shape (fun a b => a == b)) // all_eq_zip ?size_map // h rcons_map_neq //.
rewrite list_matrix_check // h.
have -> : head 0 (undup [seq last 0 (tshape x) | x <- ts]) = K.
  rewrite (map_comp (last 0)) h -map_comp.
  case: (in_shape A) hne => // s S _.
  rewrite /= -/(undup (_ :: _)) head_undup last_rcons //.
  by apply/allP => y /mapP[u _ ->] /=; rewrite last_rcons.
by rewrite eqxx.
Qed.

Lemma check_list_bad A (ts : seq tens) :
  ~ documented_format (in_shape A) (VList ts) -> check_tensor_list_and_preprocess A ts = Err ValueError.
Proof.
move=> /= h; rewrite /check_tensor_list_and_preprocess.
case: eqP => //= hs.
rewrite (all_zip_shape (fun a b => a == b)) // all_eq_zip ?size_map //.
case: eqP => [e|ne]; first by case: h; left.
have hts : ts <> [::] by move=> e; apply: ne; move: hs; rewrite e; case: (in_shape A).
rewrite list_matrix_check //; case: eqP => // e.
by case: h; right; eexists; exact: e.
Qed.

(* postprocessing *)
Lemma postprocess_bad A (AX : seq tens) lf v n :
  map (@tshape T) AX <> [seq rcons s n | s <- out_shape A] ->
  check_output_and_postprocess A AX lf v n = Err ValueError.
Proof.
move=> h; rewrite /check_output_and_postprocess; case: eqP => //= hs.
case hh: (has _ _) => //; case: h.
elim: AX (out_shape A) hs hh => [|x X IH] [|s S] //= [hs] /norP[].
by rewrite negbK => /eqP -> /negbTE hh; rewrite (IH S).
Qed.

Lemma postprocess_has (AX : seq tens) S n :
  map (@tshape T) AX = [seq rcons s n | s <- S] ->
  has (fun p => tshape p.1 != rcons p.2 n) (zip AX S) = false.
Proof.
move=> h; apply/negbTE; rewrite -all_predC /=.
by elim: AX S h => [|x X IH] [|s S] //= [-> /IH ->]; rewrite eqxx.
Qed.

Lemma postprocess_list A (AX : seq tens) (v : bool) n : (v -> n = 1) ->
  valid_mat (out_shape A) n AX ->
  exists2 Y, check_output_and_postprocess A AX true v n = Ok (VList Y) &
    [/\ map (@tshape T) Y = (if v then out_shape A else [seq rcons s n | s <- out_shape A]),
        all (@wf T) Y & flat Y = flat AX].
Proof.
move=> hv [hsh hwf]; rewrite /check_output_and_postprocess.
rewrite (size_map_eq hsh) eqxx /= postprocess_has //.
eexists; first reflexivity.
case: v hv => [/(_ isT) e|_] //; subst n.
have h : [seq squeeze_last x | x <- AX] = [seq Tensor p.1 p.2 | p <- zip (out_shape A) (map (@tdata T) AX)].
  elim: AX (out_shape A) hsh {hwf} => [|x X IH] [|s S] //= [hx /IH ->].
  by congr cons; case: x hx => /= sh d ->; rewrite squeeze_unsqueeze.
rewrite h; have hs : size (out_shape A) = size (map (@tdata T) AX) by rewrite size_map (size_map_eq hsh).
split.
- rewrite -map_comp (eq_map (_ : _ =1 fst)) // -/(unzip1 _) unzip1_zip // hs //.
- move: (out_shape A) hsh hwf {h hs}; elim: AX => [|x X IH] [|s S] //= [hx h] /andP[hw hws].
  by rewrite IH // andbT; move: hw; rewrite /wf /= hx numel_rcons muln1.
- rewrite /flat -map_comp (eq_map (_ : _ =1 snd)) // -/(unzip2 _) unzip2_zip // hs //.
Qed.

Lemma postprocess_rows S n (AX : seq tens) : valid_mat S n AX ->
  mapM (fun p => treshape [:: p.2; n] p.1) (zip AX (map numel S))
   = Ok [seq Tensor [:: p.1; n] p.2 | p <- zip (map numel S) (map (@tdata T) AX)].
Proof.
case; elim: AX S => [|x X IH] [|s S] //= [hx h] /andP[hw hws].
rewrite {1}/treshape /= muln1; move: hw; rewrite /wf hx numel_rcons => /eqP ->.
by rewrite eqxx /= IH.
Qed.

Lemma postprocess_tensor A (AX : seq tens) (v : bool) n : out_shape A <> [::] -> (v -> n = 1) ->
  valid_mat (out_shape A) n AX ->
  exists2 y, check_output_and_postprocess A AX false v n = Ok (VTensor y) &
    [/\ tshape y = (if v then [:: total (out_shape A)] else [:: total (out_shape A); n]),
        wf y & tdata y = flat AX].
Proof.
move=> hne hv hval; have [hsh hwf] := hval.
rewrite /check_output_and_postprocess (size_map_eq hsh) eqxx /= postprocess_has //.
rewrite postprocess_rows //=; set rows := map _ _.
have hs : size (map numel (out_shape A)) = size (map (@tdata T) AX) by rewrite !size_map (size_map_eq hsh).
have hcat : tcat rows = Ok (Tensor [:: total (out_shape A); n] (flat AX)).
  have hd : flatten [seq tdata t | t <- rows] = flat AX.
    by rewrite /rows -map_comp (eq_map (_ : _ =1 snd)) // -/(unzip2 _) unzip2_zip // hs.
  have hh : sumn [seq head 0 (tshape t) | t <- rows] = total (out_shape A).
    by rewrite /rows -map_comp (eq_map (_ : _ =1 fst)) // -/(unzip1 _) unzip1_zip // hs.
  have hb : all (fun t => (0 < ndim t) && (behead (tshape t) == [:: n])) rows.
    by rewrite /rows all_map; elim: (zip _ _) => //= p ps ->; rewrite eqxx.
  have hr : rows <> [::].
    move=> e; move: (congr1 size e); rewrite /rows size_map size_zip -hs minnn size_map.
    by case: (out_shape A) hne.
  rewrite /tcat; case: (rows) hr hd hh hb => [//|r rs] _ hd hh hb.
  have /= /andP[/andP[_ /eqP hr0] _] := hb.
  by move: hb hd hh; rewrite /= hr0 => -> -> ->.
rewrite hcat /=; eexists; first reflexivity.
have hw : size (flat AX) = total (out_shape A) * n.
  rewrite size_flat //; have -> : [seq numel (tshape t) | t <- AX] = [seq numel s * n | s <- out_shape A].
    rewrite (map_comp numel) hsh -map_comp; apply: eq_map => s; exact: numel_rcons.
  exact: total_mul.
case: v hv => [/(_ isT) e|_] /=; last by rewrite /wf /= muln1 hw eqxx.
by subst n; rewrite /squeeze_last /= /wf /= hw.
Qed.

End Proofs.

Section Main.
Variable T : Type.
Implicit Types (inS outS : seq (seq nat)) (X Y : pyval T).

Lemma documented_has_format inS X : wf_val X -> documented_format inS X ->
  exists l cols, has_format inS l cols X.
Proof.
case: X => [t|ts||] //= hw [h|[K h]].
- by exists false, None.
- by exists false, (Some K).
- by exists true, None.
- by exists true, (Some K).
Qed.

Lemma has_format_documented inS l cols X : has_format inS l cols X ->
  wf_val X /\ documented_format inS X.
Proof.
case: X l cols => [t|ts||] [] // [K|] /= [h hw]; split=> //; try by left.
- by right; exists K.
- by right; exists K.
Qed.

Lemma check_input_ok (A : linop T) l cols X : in_shape A <> [::] ->
  has_format (in_shape A) l cols X ->
  exists2 Xl, check_input_and_preprocess A X = Ok (Xl, l, cols == None, ncols cols) &
     valid_mat (in_shape A) (ncols cols) Xl /\ flat Xl = content X.
Proof.
move=> hne; case: X l cols => [t|ts||] [] // [K|] /= [h hw].
- have hsz : size (tdata t) = total (in_shape A) * K by move/eqP: hw; rewrite h /= muln1.
  rewrite (@check_tensor_ok _ _ _ K) //=; last by right.
  rewrite /ndim h /=; eexists; first reflexivity.
  by split; [exact: unflatten_valid | exact: unflatten_flat].
- have hsz : size (tdata t) = total (in_shape A) * 1 by move/eqP: hw; rewrite h /= muln1.
  rewrite (@check_tensor_ok _ _ _ 1) //=; last by left.
  rewrite /ndim h /=; eexists; first reflexivity.
  by split; [exact: unflatten_valid | exact: unflatten_flat].
- rewrite (@check_list_mat _ _ _ K) //=; eexists; first reflexivity.
  by [].
- rewrite check_list_vec //=; eexists; first reflexivity.
  split; last exact: map_unsqueeze_data.
  split.
    rewrite -h -map_comp -(map_comp (rcons^~ 1)); exact: eq_map.
  by elim: ts hw {h} => //= t ts IH /andP[ht /IH ->]; rewrite andbT /wf /= numel_rcons muln1.
Qed.

Lemma postprocess_ok (A : linop T) l cols AX : out_shape A <> [::] ->
  valid_mat (out_shape A) (ncols cols) AX ->
  exists2 Y, check_output_and_postprocess A AX l (cols == None) (ncols cols) = Ok Y &
    has_format (out_shape A) l cols Y /\ content Y = flat AX.
Proof.
move=> hne hv; case: l.
  have [|y -> [h1 h2 h3]] := @postprocess_list T A AX (cols == None) (ncols cols) _ hv.
    by case: (cols).
  by exists (VList y) => //; split=> //=; split=> //; move: h1; case: (cols).
have [//||y -> [h1 h2 h3]] := @postprocess_tensor T A AX (cols == None) (ncols cols) _ _ hv.
  by case: (cols).
by exists (VTensor y) => //; split=> //=; split=> //; move: h1; case: (cols).
Qed.

Lemma matmul_accepts inS outS l cols X : inS <> [::] -> has_format inS l cols X ->
  exists Xl, [/\ valid_mat inS (ncols cols) Xl, flat Xl = content X &
    forall mm e, mm Xl = Err e -> op_matmul (LinOp inS outS mm) X = Err e].
Proof.
move=> hne hX.
pose A0 := @LinOp T inS outS (fun _ => Err ValueError).
have [Xl hc [hv hf]] := @check_input_ok A0 l cols X hne hX.
exists Xl; split=> // mm e hm; rewrite /op_matmul.
have -> : check_input_and_preprocess (LinOp inS outS mm) X = check_input_and_preprocess A0 X by [].
by rewrite hc /= hm.
Qed.

Lemma matmul_rejects inS outS mm X : ~ documented_format inS X ->
  (if X is VTensor t then tshape t <> [::] else True) ->
  op_matmul (LinOp inS outS mm) X = Err ValueError.
Proof.
case: X => [t|ts||] //= h h0; rewrite /op_matmul /=.
- by rewrite check_tensor_bad // /ndim lt0n; apply/eqP => /size0nil.
- by rewrite check_list_bad.
Qed.

Lemma matmul_zero_dim inS outS mm (t : tensor T) : tshape t = [::] ->
  op_matmul (LinOp inS outS mm) (VTensor t) = Err IndexError.
Proof. by move=> h; rewrite /op_matmul /= /check_tensor_and_preprocess /ndim h. Qed.

Lemma format_exclusive inS l cols cols' X : inS <> [::] ->
  has_format inS l cols X -> has_format inS l cols' X -> cols = cols'.
Proof.
move=> hne; case: X l => [t|ts||] [] // [h _] [h' _]; move: h'; rewrite h.
- by case: cols cols' {h} => [K|] [K'|] //= [] ->.
- case: inS hne {h} => [//|s S] _; case: cols cols' => [K|] [K'|] //= [].
  + by move/(congr1 (last 0)); rewrite !last_rcons => ->.
  + by move/(congr1 size)/eqP; rewrite size_rcons -{2}[size s]addn0 -addn1 eqn_add2l.
  + by move/(congr1 size)/eqP; rewrite size_rcons -{1}[size s]addn0 -addn1 eqn_add2l.
Qed.

Lemma matmul_ok_inv (A : linop T) l cols X Y : in_shape A <> [::] -> out_shape A <> [::] ->
  (forall Xl AX, valid_mat (in_shape A) (ncols cols) Xl -> matmat A Xl = Ok AX -> all (@wf T) AX) ->
  has_format (in_shape A) l cols X -> op_matmul A X = Ok Y ->
  has_format (out_shape A) l cols Y /\
  exists Xl AX, [/\ valid_mat (in_shape A) (ncols cols) Xl, flat Xl = content X,
     matmat A Xl = Ok AX, valid_mat (out_shape A) (ncols cols) AX & content Y = flat AX].
Proof.
move=> hne hne' hwf hX; have [Xl hc [hv hf]] := check_input_ok hne hX.
rewrite /op_matmul hc /=; case E: (matmat A Xl) => [AX|//] /= hp.
case: (map (@tshape T) AX =P [seq rcons s (ncols cols) | s <- out_shape A]) => [hs|/postprocess_bad hb];
  last by rewrite hb in hp.
have hval : valid_mat (out_shape A) (ncols cols) AX by split=> //; apply: hwf hv E.
have [Y' hY' [h1 h2]] := @postprocess_ok A l cols AX hne' hval.
move: hp; rewrite hY' => -[<-]; split=> //.
by exists Xl, AX.
Qed.

Lemma matmul_bad_output (A : linop T) l cols X : in_shape A <> [::] ->
  has_format (in_shape A) l cols X ->
  (forall Xl, valid_mat (in_shape A) (ncols cols) Xl -> exists2 AX, matmat A Xl = Ok AX &
     map (@tshape T) AX <> [seq rcons s (ncols cols) | s <- out_shape A]) ->
  op_matmul A X = Err ValueError.
Proof.
move=> hne hX h; have [Xl hc [hv hf]] := check_input_ok hne hX.
rewrite /op_matmul hc /=; have [AX -> /= hb] := h _ hv.
exact: postprocess_bad.
Qed.

End Main.

Section Product.
Variable R : ringType.
Import GRing.Theory.

Lemma matmul_product (A : linop R) k0 M l cols X :
  in_shape A <> [::] -> out_shape A <> [::] ->
  multiplies k0 (matmat A) (in_shape A) (out_shape A) M ->
  has_format (in_shape A) l cols X -> k0 <= ncols cols ->
  exists Y, [/\ op_matmul A X = Ok Y, has_format (out_shape A) l cols Y &
    is_product M (total (out_shape A)) (total (in_shape A)) (ncols cols) (content X) (content Y)].
Proof.
move=> hne hne' hM hX hk; have [Xl hc [hv hf]] := check_input_ok hne hX.
have [AX [h1 h2 h3]] := hM _ _ hk hv.
have [Y hY [h4 h5]] := @postprocess_ok R A l cols AX hne' h2.
exists Y; split=> //; first by rewrite /op_matmul hc /= h1.
by rewrite -hf h5.
Qed.

(* A reference operator that multiplies with a given dense matrix; used in
   examples to show that hypotheses of theorems can be met. *)
Definition dense_matmat (M : nat -> nat -> R) (inS outS : seq (seq nat))
    (X : seq (tensor R)) : res (seq (tensor R)) :=
  let K := last 0 (tshape (head (Tensor [::] [::]) X)) in
  let c := flat X in
  Ok (unflatten outS K
       (flatten (mkseq (fun i => mkseq (fun k =>
          sumr (total inS) (fun j => M i j * entry K c j k)%R) K) (total outS)))).

Lemma dense_multiplies M inS outS : inS <> [::] ->
  multiplies 0 (dense_matmat M inS outS) inS outS M.
Proof.
move=> hne K X _ [hs hw]; have hK : last 0 (tshape (head (Tensor [::] [::]) X)) = K.
  by case: X inS hne hs {hw} => [|x X] [|s S] //= _ [-> _]; rewrite last_rcons.
rewrite /dense_matmat hK; eexists; split; first reflexivity.
  by apply: unflatten_valid; rewrite flatten_mkseq_uniform.
rewrite unflatten_flat ?flatten_mkseq_uniform // => i k hi hk.
by rewrite {1}/entry nth_mk2 // sumrE.
Qed.

End Product.
