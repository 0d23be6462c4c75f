(* Who shares memory with whom during `A @ X`: tensors are views of buffers, lists
   of tensors are objects.  Models the parts of the multiplication that allocate,
   alias or write in place:
   _torch_base.py 78-109, 147-294 (__matmul__ and its checks), 526-547 (_matmat of
   the curvature operators), hessian.py 45-84, ggn.py 47-78 (columns added in
   place), kfac.py 335-397, inverse.py 557-663.
   Values are those of TorchBase.v, Curvature.v, Kfac.v, KfacInverse.v.

   Simplified: all views are contiguous, so that reshape and split never copy (a
   copy could only remove sharing). *)
From Coq Require Import Reals.
From Coquelicot Require Import Coquelicot.
From mathcomp Require Import all_ssreflect all_algebra.
From Verif Require Import PyPrelude Tensor Spec TorchBase RInst ROrd Calculus Curvature HessGGN Risk Losses Fisher Jacobian Submatrix Kfac KfacInverse.
Set Implicit Arguments.
Unset Strict Implicit.
Unset Printing Implicit Defensive.
Local Notation tens := (tensor R).
Local Open Scope nat_scope.

(* ---- memory ---- *)
Record view := View { vb : nat; voff : nat; vsh : seq nat }.        (* buffer, offset, shape *)
Record heap := Heap { hbufs : seq (seq R); hlists : seq (seq view) }.
Definition buf (h : heap) (b : nat) : seq R := nth [::] (hbufs h) b.
Definition vread (h : heap) (v : view) : tens := Tensor (vsh v) (take (numel (vsh v)) (drop (voff v) (buf h (vb v)))).
Definition lread (h : heap) (l : nat) : seq tens := map (vread h) (nth [::] (hlists h) l).

(* programs: they change memory and return or raise *)
Definition hm (A : Type) := heap -> heap * res A.
Definition hret A (a : A) : hm A := fun h => (h, Ok a).
Definition hlift A (r : res A) : hm A := fun h => (h, r).
Definition hbind A B (m : hm A) (k : A -> hm B) : hm B :=
  fun h => match m h with (h', Err e) => (h', Err e) | (h', Ok a) => k a h' end.
Notation "'do!' x ':=' e 'in' k" := (hbind e (fun x => k)) (at level 200, x name, e at level 200, k at level 200).
Fixpoint hmap A B (f : A -> hm B) (xs : seq A) : hm (seq B) :=
  if xs is x :: xs' then do! y := f x in do! ys := hmap f xs' in hret (y :: ys) else hret [::].
Fixpoint hfor A (f : A -> hm unit) (xs : seq A) : hm unit :=
  if xs is x :: xs' then do! _ := f x in hfor f xs' else hret tt.

(* the entries of a tensor at the moment it is used *)
Definition hread (v : view) : hm tens := fun h => (h, Ok (vread h v)).
(* a new tensor *)
Definition halloc (t : tens) : hm view :=
  fun h => (Heap (rcons (hbufs h) (tdata t)) (hlists h), Ok (View (size (hbufs h)) 0 (tshape t))).
(* an in-place operation: f computes the new contents *)
Definition splice (d : seq R) (off : nat) (b : seq R) : seq R := take off b ++ d ++ drop (off + size d) b.
Definition hinplace (v : view) (f : tens -> res tens) : hm unit :=
  fun h => match f (vread h v) with
           | Err e => (h, Err e)
           | Ok t => (Heap (set_nth [::] (hbufs h) (vb v) (splice (tdata t) (voff v) (buf h (vb v)))) (hlists h), Ok tt)
           end.
Definition hnewlist (vs : seq view) : hm nat := fun h => (Heap (hbufs h) (rcons (hlists h) vs), Ok (size (hlists h))).
Definition hgetlist (l : nat) : hm (seq view) := fun h => (h, Ok (nth [::] (hlists h) l)).
Definition hsetlist (l : nat) (vs : seq view) : hm unit := fun h => (Heap (hbufs h) (set_nth [::] (hlists h) l vs), Ok tt).

(* ---- __matmul__ ---- *)
(* what the caller passes or receives; a list is a list object *)
Inductive harg := HTensor of view | HList of nat | HOther.
Definition arg_value (h : heap) (X : harg) : pyval R :=
  match X with HTensor v => VTensor (vread h v) | HList l => VList (lread h l) | HOther => VOther end.

(* [x.reshape( *s, K) for x, s in zip(X.split(...), shapes)]: views of X's buffer *)
Fixpoint split_views (v : view) (off K : nat) (S : seq (seq nat)) : seq view :=
  if S is s :: S' then View (vb v) (voff v + off) (rcons s K) :: split_views v (off + numel s * K) K S' else [::].
(* x.unsqueeze(-1), x.squeeze(-1): views *)
Definition unsqueeze_view (v : view) : view := View (vb v) (voff v) (rcons (vsh v) 1).
Definition squeeze_view (v : view) : view :=
  View (vb v) (voff v) (if (vsh v != [::]) && (last 0 (vsh v) == 1) then take (size (vsh v)).-1 (vsh v) else vsh v).

(* _torch_base.py 147-254: a new list, except for a matrix in list format, where it
   is the caller's list itself (line 252) *)
Definition hpreprocess (A : linop R) (X : harg) : hm (nat * bool * bool * nat) :=
  match X with
  | HTensor v =>
      do! t := hread v in
      do! r := hlift (check_tensor_and_preprocess A t) in
      do! l := hnewlist (split_views v 0 r.2 (in_shape A)) in
      hret (l, false, r.1.2, r.2)
  | HList l =>
      do! vs := hgetlist l in
      do! ts := hmap hread vs in
      do! r := hlift (check_tensor_list_and_preprocess A ts) in
      if r.1.2 then do! l' := hnewlist (map unsqueeze_view vs) in hret (l', true, true, r.2)
      else hret (l, true, false, r.2)
  | HOther => hlift (Err ValueError)
  end.
(* _torch_base.py 256-294: in list format, a vector is a new list of views, a matrix
   is the list that _matmat returned; torch.cat makes a new tensor *)
Definition hpostprocess (A : linop R) (l : nat) (list_format is_vec : bool) (num_vecs : nat) : hm harg :=
  do! vs := hgetlist l in
  do! ts := hmap hread vs in
  do! Y := hlift (check_output_and_postprocess A ts list_format is_vec num_vecs) in
  match Y with
  | VTensor t => do! v := halloc t in hret (HTensor v)
  | _ => if is_vec then do! l' := hnewlist (map squeeze_view vs) in hret (HList l') else hret (HList l)
  end.
(* _torch_base.py 78-109, for an operator whose _matmat maps list objects to list
   objects; [A] holds its shapes *)
Definition hmatmul (A : linop R) (mat : nat -> hm nat) (X : harg) : hm harg :=
  do! p := hpreprocess A X in
  do! r := mat p.1.1.1 in
  hpostprocess A r p.1.1.2 p.1.2 p.2.

(* ---- the operators' _matmat ---- *)
(* zip(vs, cs): v.op_(c) *)
Fixpoint hzip (f : tens -> tens -> res tens) (vs : seq view) (cs : seq tens) : hm unit :=
  match vs, cs with
  | v :: vs', c :: cs' => do! _ := hinplace v (fun t => f t c) in hzip f vs' cs'
  | _, _ => hret tt
  end.
Definition hzeros (vs : seq view) : hm (seq view) := hmap (fun v => do! t := hread v in halloc (zeros_like t)) vs.

(* the columns of a batch: ggn.py 66-78, gradient_moments.py 164-175, fisher.py
   254-265; [f] multiplies one column (autograd: new tensors) *)
Definition hcolumns (f : seq tens -> res (seq tens)) (M : seq view) : hm (seq view) :=
  do! ts := hmap hread M in
  do! K := hlift (the_one [seq last 0%N (tshape m) | m <- ts]) in
  do! G := hzeros M in
  do! _ := hfor (fun n =>
      do! ts := hmap hread M in
      do! c := hlift (f [seq col_sel n m | m <- ts]) in
      hzip (fun t c => col_add n t c) G c) (iota 0 K) in
  hret G.

(* hessian.py 68-84; split_list copies lists, not tensors.  [fs] are the
   Hessian-vector products of the blocks. *)
Definition hblocks (block_sizes : seq int) (fs : seq (seq tens -> res (seq tens))) (M : seq view) : hm (seq view) :=
  do! ts := hmap hread M in
  do! K := hlift (the_one [seq last 0%N (tshape m) | m <- ts]) in
  do! HM := hzeros M in
  do! M_b := hlift (split_list M block_sizes) in
  do! HM_b := hlift (split_list HM block_sizes) in
  do! _ := hfor (fun b => hfor (fun n =>
      do! ts := hmap hread b.1.1 in
      do! c := hlift (b.2 [seq col_sel n m | m <- ts]) in
      hzip (fun t c => col_add n t c) b.1.2 c) (iota 0 K)) (zip (zip M_b HM_b) fs) in
  hret HM.

(* jacobian.py 91-114: stack and cat make new tensors *)
Definition hjac X Y (so : seq nat) (net : X -> point -> seq R) (S : seq (seq nat)) (th : point)
    (loader : seq (seq (X * Y))) (l : nat) : hm nat :=
  do! M := hgetlist l in
  do! ts := hmap hread M in
  do! K := hlift (the_one [seq last 0%N (tshape m) | m <- ts]) in
  do! JM := hmap (fun b =>
      do! ts := hmap hread M in
      do! t := hlift (jac_block so net S th K ts b) in halloc t) loader in
  do! ts := hmap hread JM in
  do! c := hlift (tcat ts) in
  do! v := halloc c in
  hnewlist [:: v].

(* jacobian.py 208-239 *)
Definition hjacT X Y (so : seq nat) (net : X -> point -> seq R) (S : seq (seq nat)) (th : point)
    (loader : seq (seq (X * Y))) (l : nat) : hm nat :=
  do! M := hgetlist l in
  do! ts := hmap hread M in
  do! K := hlift (the_one [seq last 0%N (tshape m) | m <- ts]) in
  do! JTM := hmap (fun s => halloc (Tensor (rcons s K) (nseq (numel s * K) 0%R))) S in
  do! _ := hfor (fun q : seq (X * Y) * nat =>
      hfor (fun n =>
        do! ts := hmap hread M in
        do! c := hlift (let! v := Jacobian.single [seq col_sel n (row_slice q.2 (q.2 + size q.1) m) | m <- ts] in
                        vjp th (model_out so net q.1) (pack 0 S) v) in
        hzip (fun t c => col_add n t c) JTM c) (iota 0 K))
    (zip loader (0 :: scanl addn 0 [seq size b | b <- loader])) in
  hnewlist JTM.

(* _torch_base.py 526-547 *)
Section Curv.
Variables (batch : Type) (batch_size : batch -> nat).
Definition hcurvature (red : reduction) (N_data : nat) (data : seq batch) (matmat_batch : batch -> seq view -> hm (seq view))
    (l : nat) : hm nat :=
  do! M := hgetlist l in
  do! AM := hzeros M in
  do! _ := hfor (fun b =>
      do! nf := hlift (normalization_factor red (batch_size b) N_data) in
      do! BM := matmat_batch b M in
      do! ts := hmap hread BM in
      hzip (fun t c => add_alpha nf t c) AM ts) data in
  hnewlist AM.
End Curv.

(* the four operators with this _matmat; the values of the products are those of
   Risk.v and Fisher.v *)
Section Ops.
Variables (X Y : Type) (net : X -> point -> seq R).
Local Notation batch := (seq (X * Y)).
Section WithLoss.
Variables (O : nat) (lossd : seq R -> Y -> R).
(* hessian.py 62-70: the parameters and gradients of each block *)
Definition hess_products (S : seq (seq nat)) (bs : seq int) (th : point) (L : point -> R) : res (seq (seq tens -> res (seq tens))) :=
  let! p_b := split_list (pack 0 S) bs in
  let! g_b := split_list (autograd (pack 0 S) L) bs in
  Ok [seq hvp th q.1 q.2 | q <- zip p_b g_b].
Definition hhessian (red : reduction) (num_data : option nat) (loader : seq batch) (S : seq (seq nat)) (bs : seq int) (th : point) : nat -> hm nat :=
  hcurvature (@size _) red (infer_num_data (@size _) num_data loader) loader (fun b M =>
    do! fs := hlift (hess_products S bs th (batch_loss O net lossd red b)) in hblocks bs fs M).
(* ggn.py 47-78 *)
Definition hggn (red : reduction) (num_data : option nat) (loader : seq batch) (S : seq (seq nat)) (th : point) : nat -> hm nat :=
  hcurvature (@size _) red (infer_num_data (@size _) num_data loader) loader (fun b M =>
    hcolumns (ggnvp (fun o => loss_func O lossd red (mkseq o (size b * O)) [seq d.2 | d <- b])
                (size b * O) (fun z i => nth 0%R (predict net b z) i) (pack 0 S) th) M).
End WithLoss.
Section WithKind.
Variables (T C : nat) (kind : loss_kind) (Y1 : Type) (tgt : Y -> nat -> Y1) (lossrow : seq R -> Y1 -> R).
(* gradient_moments.py 114-175 *)
Definition ef_product (red : reduction) (S : seq (seq nat)) (th : point) (b : batch) : res (seq tens -> res (seq tens)) :=
  let rows := (size b * T)%N in
  let lossO o := loss2d C kind lossrow red (mkseq o (rows * C)) (ys2d T tgt b) in
  let! rf := reduction_factor kind red rows C in
  let g i := (pd i lossO (out2d T C kind net b th) * rf)%R in
  let! k := py_div (2%:R^-1)%R rf in
  Ok (ggnvp (pseudo_loss k 1 rows C (fun _ => g)) (rows * C) (out2d T C kind net b) (pack 0 S) th).
Definition hef (red : reduction) (num_data : option nat) (loader : seq batch) (S : seq (seq nat)) (th : point) : nat -> hm nat :=
  hcurvature (@size _) red (infer_num_data (@size _) num_data loader) loader (fun b M =>
    do! f := hlift (ef_product red S th b) in hcolumns f M).
(* fisher.py 202-265, for the would-be gradients g that are drawn for each batch
   (drawing them makes new tensors only) *)
Definition mc_product (red : reduction) (S : seq (seq nat)) (th : point) (samples : nat) (b : batch) (g : nat -> nat -> R)
    : res (seq tens -> res (seq tens)) :=
  let rows := (size b * T)%N in
  let! rf := reduction_factor kind red rows C in
  let! k1 := py_div (2%:R^-1)%R rf in
  let! k := py_div k1 (samples%:R)%R in
  Ok (ggnvp (pseudo_loss k samples rows C g) (rows * C) (out2d T C kind net b) (pack 0 S) th).
Definition hmc (red : reduction) (N : nat) (data : seq (batch * (nat -> nat -> R))) (S : seq (seq nat)) (th : point) (samples : nat) : nat -> hm nat :=
  hcurvature (fun b : batch * (nat -> nat -> R) => size b.1) red N data (fun b M =>
    do! f := hlift (mc_product red S th samples b.1 b.2) in hcolumns f M).
End WithKind.
End Ops.

(* kfac.py 335-397 with the factors computed.  KM[pos] = M[pos] (line 388) puts the
   caller's tensor into the result list; the next line replaces it. *)
Section KFAC.
Local Notation cov := (dict nat_eqType tens).
Variables (sep : bool) (inC grC : cov).
Local Notation kviews := (seq (option view)).
Definition hkget (s : kviews) (i : nat) : res view := let! o := lget s i in if o is Some t then Ok t else Err AttributeError.
Definition hkset (s : kviews) (i : nat) (v : view) : res kviews :=
  if (i < size s)%N then Ok (set_nth None s i (Some v)) else Err IndexError.
Fixpoint hfold A S (f : S -> A -> hm S) (s : S) (xs : seq A) : hm S :=
  if xs is x :: xs' then do! s' := f s x in hfold f s' xs' else hret s.

(* kfac.py 379-391, one parameter treated separately *)
Definition hkfac_single (M : seq view) (name : nat) (KM : kviews) (p : pname * nat) : hm kviews :=
  do! m := hlift (lget M p.2) in
  do! KM1 := if p.1 == Weight then
               do! t := hread m in
               do! y := hlift (let! mw := rearr_w t in let! aaT := dgetE name inC in mm_right mw aaT) in
               do! v := halloc y in
               hlift (hkset KM p.2 v)
             else hlift (hkset KM p.2 m) in
  do! x := hlift (hkget KM1 p.2) in
  do! t := hread x in
  do! y := hlift (let! ggT := dgetE name grC in mm_left ggT t) in
  do! v := halloc y in
  hlift (hkset KM1 p.2 v).
(* simplified: split returns two views of one new buffer; here two new buffers *)
Definition hkfac_joint (M : seq view) (name : nat) (KM : kviews) (w b : nat) : hm kviews :=
  do! vw := hlift (lget M w) in
  do! mw0 := hread vw in
  do! mw := hlift (rearr_w mw0) in
  do! vb := hlift (lget M b) in
  do! mb0 := hread vb in
  do! y := hlift (let! mb := unsqueeze_mid mb0 in
                  let! mj := cat_mid mw mb in
                  let! aaT := dgetE name inC in
                  let! ggT := dgetE name grC in
                  let! y := sandwich ggT mj aaT in
                  split_mid (nth 0%N (tshape mw) 1) y) in
  do! yw := halloc y.1 in
  do! yb := halloc y.2 in
  do! KM1 := hlift (hkset KM w yw) in
  hlift (hkset KM1 b yb).
Definition hkfac_layer (M : seq view) (KM : kviews) (e : nat * dict pname_eqType nat) : hm kviews :=
  do! wshape := hlift (if dget Weight e.2 is Some w then let! m := lget M w in Ok (Some (w, vsh m)) else Ok None) in
  do! KM1 :=
    match sep, dget Weight e.2, dget Bias e.2 with
    | false, Some w, Some b => hkfac_joint M e.1 KM w b
    | _, _, _ => hfold (hkfac_single M e.1) KM e.2
    end in
  if wshape is Some (w, s) then
    do! kw := hlift (hkget KM1 w) in
    do! t := hread kw in
    do! t' := hlift (treshape s t) in
    hlift (hkset KM1 w (View (vb kw) (voff kw) s))
  else hret KM1.
Definition hkfac (mp : mapping) (l : nat) : hm nat :=
  do! M := hgetlist l in
  do! KM := hfold (hkfac_layer M) (nseq (size M) None) mp in
  do! vs := hlift (mapM (fun o => if o is Some v then Ok v else Err AttributeError) KM) in
  hnewlist vs.
End KFAC.

(* inverse.py 620-663: g is the loop of KfacInverse.v, from the contents of the list
   to its contents at the end and the outcome.  The entries of the list object are
   replaced by new tensors, and the list object itself is returned.  Simplified:
   entries that are not assigned are replaced by equal ones. *)
Definition hinverse (g : seq tens -> lst R_rcfType) (l : nat) : hm nat :=
  do! vs := hgetlist l in
  do! ts := hmap hread vs in
  do! vs' := hmap halloc (g ts).1 in
  do! _ := hsetlist l vs' in
  do! _ := hlift (g ts).2 in
  hret l.
