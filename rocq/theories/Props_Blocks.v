(* C92: the documented blocks and sub-matrices of a Hessian. *)
From Coq Require Import Reals Lra.
From Coquelicot Require Import Coquelicot.
From mathcomp Require Import all_ssreflect all_algebra.
From Verif Require Import PyPrelude Tensor Spec TorchBase Numpy Submatrix Scipy RInst ROrd Calculus Curvature HessGGN Risk
  CurvOps OpSpec Export ParamSubset Functorch FunctorchProof Report Props_Curv Props_Functorch Props_Report Props_ReportRef Props_Params Blocks.
Set Implicit Arguments.
Unset Strict Implicit.
Unset Printing Implicit Defensive.
Import GRing.Theory.
Local Open Scope ring_scope.

(* extract_block returns the rows of parameter i and the columns of parameter j. *)
Theorem C92_extract_block (R : ringType) (mat : tensor R) (dims : seq nat) (i j : nat) :
  tshape mat = [:: sumn dims; sumn dims] -> wf mat -> (i < size dims)%N -> (j < size dims)%N ->
  exists2 b, extract_block mat dims i%:Z j%:Z = Ok b &
  [/\ tshape b = [:: nth 0 dims i; nth 0 dims j]%N, wf b &
      forall r c, (r < nth 0 dims i)%N -> (c < nth 0 dims j)%N ->
        entry (nth 0%N dims j) (tdata b) r c =
        entry (sumn dims) (tdata mat) (sumn (take i dims) + r) (sumn (take j dims) + c)].
Proof.
move=> s w hi hj.
by apply: (@extract_entries _ mat dims _ (entry (sumn dims) (tdata mat)) i j _ erefl hi hj); split.
Qed.
Print Assumptions C92_extract_block.

(* Indices that count from the end are understood, except for the last parameter: *)
Lemma starts_end (dims : seq nat) (k : nat) : (0 < k <= size dims)%N -> starts dims (- k%:Z) = starts dims (size dims - k)%:Z.
Proof.
move=> /andP[k0 hk]; rewrite (startsE (leq_subr _ _)) /starts /py_slice.
have e : - k%:Z + (size dims)%:Z = (size dims - k)%:Z by rewrite addrC subzn.
have -> : (- k%:Z < 0) = true by case: (k) k0.
rewrite e /= ltz_nat [(size dims < _)%N]ltnNge leq_subr /= drop0 //.
Qed.
Theorem C92_from_the_end (R : ringType) (mat : tensor R) (dims : seq nat) (k : nat) (l : int) :
  (1 < k <= size dims)%N ->
  extract_block mat dims (- k%:Z) l = extract_block mat dims (size dims - k)%:Z l /\
  extract_block mat dims l (- k%:Z) = extract_block mat dims l (size dims - k)%:Z.
Proof.
move=> /andP[k1 hk].
have e1 : starts dims (- k%:Z) = starts dims (size dims - k)%:Z by apply: starts_end; rewrite (ltnW k1).
have e2 : starts dims (- k%:Z + 1) = starts dims ((size dims - k)%:Z + 1).
  have -> : - k%:Z + 1 = - (k.-1)%:Z by case: (k) k1 => // k' _; rewrite intS opprD addrAC addNr add0r.
  rewrite starts_end; last by case: (k) k1 hk => [|[|k']] //= _ /ltnW.
  by rewrite -PoszD; congr (starts _ _%:Z); rewrite -subn1 subnBA ?(ltnW k1) // addnBAC // addn1.
by rewrite /extract_block e1 e2.
Qed.
Print Assumptions C92_from_the_end.

(* Finding: with -1 for the last parameter the block is empty. *)
Theorem C92_last_refuted (R : ringType) (mat : tensor R) (dims : seq nat) (l : int) m n : tshape mat = [:: m; n] ->
  exists2 b, extract_block mat dims (-1) l = Ok b & exists q, tshape b = [:: 0; q]%N.
Proof.
move=> e; rewrite /extract_block /slice_rows e addNr.
have -> : starts dims 0 = 0%N by rewrite (startsE (leq0n (size dims))) take0.
have -> a : py_slice (iota 0 m) a 0%:Z = [::] by rewrite /py_slice /= take0.
by rewrite /= /slice_cols /=; eexists; [by [] | eexists].
Qed.
Print Assumptions C92_last_refuted.

Section Operators.
Variables (R : ringType) (H HT : scipy_op R) (M : nat -> nat -> R).
Local Notation arr := (tensor R).
Hypothesis H_multiplies : vec_multiplies (sp_dot H) (sp_rows H) (sp_cols H) M.

Lemma mult_eye (f : arr -> res arr) m n : mat_multiplies f m n n M -> exists2 b, f (np_eye n) = Ok b & has_entries b m n M.
Proof.
have [s w e] := @eye_entries R n; move=> /(_ _ s w) [b [h1 h2 h3 h4]]; exists b => //; split=> // r c hr hc.
rewrite h4 // (bigD1 (Ordinal hc)) //= e // eqxx mulr1 big1 ?addr0 // => k /eqP ne.
by rewrite e // (_ : (k == c :> nat) = false) ?mulr0 //; apply/negbTE/eqP => ek; apply: ne; apply/val_inj.
Qed.

(* a single column of a single entry *)
Lemma submat_single rows c o : submat_init H HT rows [:: c] = Ok o -> no_bools [:: c] ->
  sp_dot (submat_op o) (np_eye 1) =
  let! y := sp_dot (submat_op o) (Tensor [:: 1%N] [:: 1]) in Ok (Tensor [:: size rows; 1%N] (tdata y)).
Proof.
move=> /submat_init_ok [-> hr hc] nc; have [cpos [c1 c2 c3 c4]] := int_index_pos hc nc.
case: cpos c1 c2 c3 c4 => [|p [|]] // c1 _ c3 _.
rewrite /sp_dot /sp_matvec /= /submat_matvec /= /np_assign /= size_nseq c1 positions_int //=.
case: (sp_dot H _) => //= y; case: (np_take y _) => //= z; rewrite /treshape /numel /= !muln1.
by case: eqP.
Qed.

Lemma sub_eye rows cols o : submat_init H HT rows cols = Ok o -> no_bools rows -> no_bools cols -> (0 < size cols)%N ->
  exists2 b, sp_dot (submat_op o) (np_eye (size cols)) = Ok b &
  has_entries b (size rows) (size cols)
    (fun i j => M (absz (idx_val (nth PNonInt rows i))) (absz (idx_val (nth PNonInt cols j)))).
Proof.
move=> ho nr nc hc; have [_ hv hm] := submat_multiplies ho nr nc H_multiplies.
case: (ltngtP 1 (size cols)) hc => [h _||h _] //.
  have [b [h1 h2 h3 h4]] := hm _ h _ (let: And3 s _ _ := eye_entries R (size cols) in s) (let: And3 _ w _ := eye_entries R (size cols) in w).
  exists b => //; split=> // r c hr hc; rewrite h4 // (bigD1 (Ordinal hc)) //=; have [_ _ e] := eye_entries R (size cols).
  rewrite e // eqxx mulr1 big1 ?addr0 // => k /eqP ne.
  by rewrite e // (_ : (k == c :> nat) = false) ?mulr0 //; apply/negbTE/eqP => ek; apply: ne; apply/val_inj.
case: cols ho nc h hv hm => [|c [|]] // ho nc _ hv hm.
have [|//|y [h1 h2 h3 h4]] := hv (Tensor [:: 1%N] [:: 1]); first by [].
rewrite /= (submat_single ho nc) h1 /=; eexists; first by [].
split=> // [|r k hr]; first by move: h3; rewrite /wf h2 /numel /= !muln1.
by rewrite ltnS leqn0 => /eqP ->; rewrite /entry /= muln1 addn0 h4 // big_ord1 /= mulr1.
Qed.
Lemma block_valid (dims : seq nat) (k : nat) : (k < size dims)%N ->
  valid_indices (sumn dims) (block_idxs dims k%:Z) /\ no_bools (block_idxs dims k%:Z) /\ size (block_idxs dims k%:Z) = nth 0%N dims k.
Proof.
move=> hk; have es : (starts dims (k%:Z + 1)%R - starts dims k%:Z)%N = nth 0%N dims k by rewrite startsS // addKn.
rewrite /block_idxs es; split; last by split; rewrite ?size_map ?size_iota // /no_bools all_map; apply/allP.
split; first by rewrite all_map; apply/allP.
  by rewrite -map_comp map_inj_uniq ?iota_uniq // => a b [].
rewrite all_map; apply/allP => p; rewrite mem_iota -startsS // => /andP[_ hp] /=.
by rewrite ltz_nat (leq_trans hp) // -PoszD addn1 starts_le.
Qed.

(* The operator of a block, multiplied with the identity, is the extracted block of the
   operator's matrix, for every pair of parameters. *)
Theorem C92_block_operator dims (i j : nat) mat : sp_rows H = sumn dims -> sp_cols H = sumn dims ->
  mat_multiplies (sp_dot H) (sumn dims) (sumn dims) (sumn dims) M ->
  sp_dot H (np_eye (sumn dims)) = Ok mat ->
  (i < size dims)%N -> (j < size dims)%N -> (0 < nth 0 dims j)%N ->
  exists B b, [/\ block_operator H HT dims i%:Z j%:Z = Ok B,
    (sp_rows B, sp_cols B) = (nth 0 dims i, nth 0 dims j)%N,
    sp_dot B (np_eye (nth 0%N dims j)) = Ok b,
    extract_block mat dims i%:Z j%:Z = Ok b &
    forall r c, (r < nth 0 dims i)%N -> (c < nth 0 dims j)%N ->
      entry (nth 0%N dims j) (tdata b) r c = M (sumn (take i dims) + r)%N (sumn (take j dims) + c)%N].
Proof.
move=> er ec hm em hi hj hj0.
have [mat' + hmat] := mult_eye hm; rewrite em => -[e]; subst mat'.
have [b eb [s w e]] := extract_entries hmat erefl hi hj.
have [vi [ni si]] := block_valid hi; have [vj [nj sj]] := block_valid hj.
have ho := @submat_init_valid R H HT _ _ (eq_ind_r (fun n => valid_indices n _) vi er) (eq_ind_r (fun n => valid_indices n _) vj ec).
have [b' eb' hb'] := sub_eye ho ni nj (eq_ind_r (fun n => 0 < n)%N hj0 sj).
exists (submat_op (Submat H HT (block_idxs dims i%:Z) (block_idxs dims j%:Z) (size (block_idxs dims i%:Z), size (block_idxs dims j%:Z)))), b.
have at_ k r : (k < size dims)%N -> (r < nth 0 dims k)%N ->
    absz (idx_val (nth PNonInt (block_idxs dims k%:Z) r)) = (sumn (take k dims) + r)%N.
  move=> hk hr; have es : (starts dims (k%:Z + 1)%R - starts dims k%:Z)%N = nth 0%N dims k by rewrite startsS // addKn.
  by rewrite /block_idxs es (nth_map 0%N) ?size_iota //= nth_iota // startsE // ltnW.
have ebb : b' = b.
  rewrite si sj in hb'; apply: (has_entries_eq hb' (And3 s w e)) => r c hr hc.
  by rewrite !at_.
split=> //; first by rewrite /block_operator ho.
- by rewrite /= si sj.
- by rewrite -ebb -eb' sj.
Qed.

(* For arbitrary lists of different indices the operator's product with the identity is
   the matrix indexed by the lists. *)
Theorem C92_index_lists rows cols mat : valid_indices (sp_rows H) rows -> valid_indices (sp_cols H) cols ->
  no_bools rows -> no_bools cols -> (0 < size cols)%N ->
  mat_multiplies (sp_dot H) (sp_rows H) (sp_cols H) (sp_cols H) M ->
  sp_dot H (np_eye (sp_cols H)) = Ok mat ->
  exists o b, [/\ submat_init H HT rows cols = Ok o, sp_dot (submat_op o) (np_eye (size cols)) = Ok b &
    (let! some_rows := index_rows mat rows in index_cols some_rows cols) = Ok b].
Proof.
move=> vr vc nr nc hc0 hm em; have [mat' + hmat] := mult_eye hm; rewrite em => -[e]; subst mat'.
have ho := @submat_init_valid R H HT _ _ vr vc; have [b eb hb] := sub_eye ho nr nc hc0.
exists (Submat H HT rows cols (size rows, size cols)), b; split=> //.
have [rp [r1 r2 r3 r4]] := int_index_pos vr nr; have [cp [c1 c2 c3 c4]] := int_index_pos vc nc.
have [s w e] := hmat; rewrite /index_rows s r1 positions_int //= /index_cols /= c1 positions_int //=.
have hr := rows_entries hmat r3; have hcc := cols_entries hr c3; congr Ok; rewrite r4 c4 in hcc.
rewrite r4; apply: (has_entries_eq hcc hb) => r c hr' hc'.
by rewrite {1}r1 {1}c1 !(nth_map 0%N) ?r4 ?c4.
Qed.

(* Finding: for a parameter without entries there is no product with the identity, although
   the block can be extracted. *)
Theorem C92_empty_parameter_refuted dims (i j : nat) : sp_rows H = sumn dims -> sp_cols H = sumn dims ->
  (i < size dims)%N -> (j < size dims)%N -> nth 0%N dims j = 0%N ->
  exists2 B, block_operator H HT dims i%:Z j%:Z = Ok B & sp_dot B (np_eye (nth 0%N dims j)) = Err ValueError.
Proof.
move=> er ec hi hj ej; have [vi [ni si]] := block_valid hi; have [vj [nj sj]] := block_valid hj.
have ho := @submat_init_valid R H HT _ _ (eq_ind_r (fun n => valid_indices n _) vi er) (eq_ind_r (fun n => valid_indices n _) vj ec).
rewrite /block_operator ho; eexists; first by [].
by rewrite ej /sp_dot /= /sp_matmat /= sj ej eqxx.
Qed.
End Operators.
Print Assumptions C92_block_operator.
Print Assumptions C92_index_lists.
Print Assumptions C92_empty_parameter_refuted.

Section Hessian.
Variables (X Y : Type) (O : nat) (net : X -> point -> seq R) (lossd : seq R -> Y -> R).
Hypothesis net_size : forall x th, size (net x th) = O.
Variables (trunc : R -> R) (red : reduction) (num_data : option nat) (loader : seq (seq (X * Y))).
Variables (S : seq (seq nat)) (th : point).
Hypothesis red_ok : red <> ROther.
Hypothesis loader0 : loader <> [::].
Hypothesis loader_ok : nonempty loader.
Hypothesis num_ok : (if num_data is Some n then 0 < n else true)%N.
Local Notation data := (flatten loader).
Local Notation D := (total S).
Local Notation dims := [seq numel s | s <- S].
Let the_risk (z : point) : R := mean_over red num_data loader * \sum_(d <- data) lossd (net d.1 z) d.2.
Hypothesis smooth : Forall_in (fun d => twice_diff D (fun z => lossd (net d.1 z) d.2) th) data.

(* Block (i, j) of the Hessian's matrix contains the mixed derivatives of the risk w.r.t.
   parameters i and j, and so does the documented sub-matrix operator. *)
Theorem C92_hessian_blocks (i j : nat) HT : (i < size S)%N -> (j < size S)%N -> (0 < numel (nth [::] S j))%N ->
  exists A H B b, [/\ hessian_operator O net lossd red num_data loader S None th = Ok A,
    sp_dot (exported trunc A) (np_eye D) = Ok H,
    extract_block H dims i%:Z j%:Z = Ok b,
    block_operator (exported trunc A) HT dims i%:Z j%:Z = Ok B /\ sp_dot B (np_eye (numel (nth [::] S j))) = Ok b &
    forall r c, (r < numel (nth [::] S i))%N -> (c < numel (nth [::] S j))%N ->
      entry (numel (nth [::] S j)) (tdata b) r c = pd (sumn (take j dims) + c) (pd (sumn (take i dims) + r) the_risk) th].
Proof.
move=> hi hj hj0; have S0 : S <> [::] by move=> e; rewrite e in hi.
have [A eA hA] := C14_hessian_of_empirical_risk net_size S0 red_ok loader0 loader_ok num_ok smooth.
have [[er ec] hv _ hm _] := exported_acts trunc hA.
have [H eH hH] := mult_eye (hm D).
have hv' : vec_multiplies (sp_dot (exported trunc A)) (sp_rows (exported trunc A)) (sp_cols (exported trunc A))
             (risk_hessian net lossd (mean_over red num_data loader) data th) by rewrite er ec.
have [|||B [b [h1 h2 h3 h4 h5]]] := @C92_block_operator _ (exported trunc A) HT _ hv' dims i j H er ec (hm D) eH.
- by rewrite size_map.
- by rewrite size_map.
- by rewrite (nth_map [::]).
by rewrite !(nth_map [::]) // in h3 h5; exists A, H, B, b; split.
Qed.

(* The operator built for parameter i alone realises the diagonal block. *)
Theorem C92_diagonal_blocks (i : nat) : (i < size S)%N ->
  exists A B H b, [/\ hessian_operator O net lossd red num_data loader S None th = Ok A,
    hessian_operator O (sub_net net S [:: i] th) lossd red num_data loader [:: nth [::] S i] None (chosen S [:: i] th) = Ok B,
    sp_dot (exported trunc A) (np_eye D) = Ok H,
    extract_block H dims i%:Z i%:Z = Ok b &
    sp_dot (exported trunc B) (np_eye (numel (nth [::] S i))) = Ok b].
Proof.
move=> hi; have S0 : S <> [::] by move=> e; rewrite e in hi.
have hsel : sublist S [:: i] by rewrite /sublist /= hi.
have [A [B [M [eA eB hA hB]]]] := C80_hessian net_size hsel S0 red_ok loader0 loader_ok num_ok smooth.
have [_ _ _ hmA _] := exported_acts trunc hA; have [[_ ec] _ _ hmB _] := exported_acts trunc hB.
have [H eH hH] := mult_eye (hmA D); have tS : total (sub_shapes S [:: i]) = numel (nth [::] S i) by rewrite /total /= addn0.
have [b' eb' hb'] := mult_eye (hmB _); rewrite tS in eb' hb'.
have hi' : (i < size dims)%N by rewrite size_map.
have [b eb hb] := extract_entries hH erefl hi' hi'.
exists A, B, H, b; split=> //; rewrite eb'; congr Ok; rewrite !(nth_map [::]) // in hb.
apply: (has_entries_eq hb' hb) => r c hr hc.
by rewrite /coord /coords /= cats0 !nth_mkseq // /total !map_take.
Qed.
End Hessian.
Print Assumptions C92_hessian_blocks.
Print Assumptions C92_diagonal_blocks.

(* Finding: the documented test of an off-diagonal block succeeds for every operator,
   whatever it multiplies with. *)
Theorem C92_test_refuted (ndiv : num R_realFieldType -> num R_realFieldType -> num R_realFieldType) nmax nmin (rtol atol : R_realFieldType) nan
    (B : scipy_op R_realFieldType) (mat : tensor R) (dims : seq nat) (i j : nat) :
  tshape mat = [:: sumn dims; sumn dims] -> wf mat -> (i < size dims)%N -> (j < size dims)%N ->
  0 <= rtol -> 0 <= atol ->
  @offdiagonal_test R_realFieldType
    (fun a b => (report_nonclose ndiv nmax nmin (finite a) (finite b) rtol atol nan).2) B mat dims i%:Z j%:Z = Ok tt.
Proof.
move=> s w hi hj r0 a0; have [b eb [s' w' e]] := @C92_extract_block R_ringType mat dims i j s w hi hj.
rewrite /offdiagonal_test [extract_block _ _ _ _]eb /= startsS // addKn /np_mm s' /= eqxx /=.
set P := Tensor _ _; have -> : P = b; last by rewrite report_same.
apply: (@has_entries_eq R_ringType P b _ _ _ _ (@mk2_entries R_ringType _ _ _) (And3 s' w' (fun r c _ _ => erefl))) => r c hr hc.
rewrite sumrE (bigD1 (Ordinal hc)) //=; have [_ _ ee] := eye_entries R_ringType (nth 0%N dims j).
rewrite ee // eqxx mulr1 big1 ?addr0 // => k /eqP ne.
by rewrite ee // (_ : (k == c :> nat) = false) ?mulr0 //; apply/negbTE/eqP => ek; apply: ne; apply/val_inj.
Qed.
Print Assumptions C92_test_refuted.

(* a 3 x 3 matrix for parameters with one and two entries *)
Definition ex_mat : tensor int_Ring := Tensor [:: 3; 3]%N [seq k%:Z | k <- iota 0 9].
Definition ex_op : scipy_op int_Ring :=
  let f x := Ok (Tensor [:: 3]%N (mkseq (fun i => sumr 3 (fun j => ((i * 3 + j)%N%:Z * nth 0 (tdata x) j : int_Ring))) 3)) in
  ScipyOp 3 3 f (columnwise f).

Example C92_ex_extract :
  [/\ extract_block ex_mat [:: 1; 2]%N 0 1 = Ok (Tensor [:: 1; 2]%N [:: 1; 2]),
      extract_block ex_mat [:: 1; 2]%N 1 0 = Ok (Tensor [:: 2; 1]%N [:: 3; 6]),
      extract_block ex_mat [:: 1; 2]%N 1 (-2) = Ok (Tensor [:: 2; 1]%N [:: 3; 6]) &
      extract_block ex_mat [:: 1; 2]%N (-1) 0 = Ok (Tensor [:: 0; 1]%N [::])].
Proof. by split; vm_compute. Qed.
Example C92_ex_block :
  [/\ sp_dot ex_op (np_eye 3) = Ok ex_mat,
      (let! B := block_operator ex_op ex_op [:: 1; 2]%N 0 1 in sp_dot B (np_eye 2)) = extract_block ex_mat [:: 1; 2]%N 0 1,
      (let! B := block_operator ex_op ex_op [:: 1; 2]%N 1 0 in sp_dot B (np_eye 1)) = Ok (Tensor [:: 2; 1]%N [:: 3; 6]) &
      (let! o := submat_init ex_op ex_op [:: PInt 2; PInt 0] [:: PInt 1; PInt 2] in sp_dot (submat_op o) (np_eye 2)) =
      (let! r := index_rows ex_mat [:: PInt 2; PInt 0] in index_cols r [:: PInt 1; PInt 2])].
Proof. by split; vm_compute. Qed.

(* linear regression with two parameters *)
Example C92_ex_hessian (trunc : R -> R) th HT :
  exists A H B b, [/\ hessian_operator 1 (module_net FEx.model FEx.named FEx.frozen FEx.params) FEx.lossd RMean None FEx.loader [:: [:: 1]; [:: 1]]%N None th = Ok A,
    sp_dot (exported trunc A) (np_eye 2) = Ok H, extract_block H [:: 1; 1]%N 0 1 = Ok b &
    block_operator (exported trunc A) HT [:: 1; 1]%N 0 1 = Ok B /\ sp_dot B (np_eye 1) = Ok b].
Proof.
have [|||||A [H [B [b [h1 h2 h3 h4 _]]]]] := @C92_hessian_blocks _ _ 1 (module_net FEx.model FEx.named FEx.frozen FEx.params) FEx.lossd (fun x z => FEx.model_size x _)
  trunc RMean None FEx.loader [:: [:: 1]; [:: 1]]%N th FEx.mean_ok FEx.loader_ok _ _ (@FEx.twice th) 0 1 HT => //.
by exists A, H, B, b; split.
Qed.
Example C92_ex_diagonal (trunc : R -> R) th :
  let net := module_net FEx.model FEx.named FEx.frozen FEx.params in
  exists A B H b, [/\ hessian_operator 1 net FEx.lossd RMean None FEx.loader [:: [:: 1]; [:: 1]]%N None th = Ok A,
    hessian_operator 1 (sub_net net [:: [:: 1]; [:: 1]]%N [:: 1%N] th) FEx.lossd RMean None FEx.loader [:: [:: 1%N]] None (chosen [:: [:: 1]; [:: 1]]%N [:: 1%N] th) = Ok B,
    sp_dot (exported trunc A) (np_eye 2) = Ok H, extract_block H [:: 1; 1]%N 1 1 = Ok b & sp_dot (exported trunc B) (np_eye 1) = Ok b].
Proof.
move=> net.
have [|||A [B [H [b hh]]]] := @C92_diagonal_blocks _ _ 1 net FEx.lossd (fun x z => FEx.model_size x _)
  trunc RMean None FEx.loader [:: [:: 1]; [:: 1]]%N th FEx.mean_ok FEx.loader_ok _ _ (@FEx.twice th) 1 => //.
by exists A, B, H, b.
Qed.
(* the test accepts an operator that multiplies everything with zero *)
Example C92_ex_test ndiv nmax nmin :
  @offdiagonal_test R_realFieldType (fun a b => (report_nonclose ndiv nmax nmin (finite a) (finite b) 0 0 false).2)
    (ScipyOp 1 1 (fun x => Ok (Tensor [:: 1%N] [:: 0])) (fun x => Ok (Tensor [:: 1; 1]%N [:: 0])))
    (Tensor [:: 2; 2]%N [:: 1; 1; 1; 1]) [:: 1; 1]%N 0 1 = Ok tt.
Proof. by apply: (@C92_test_refuted ndiv nmax nmin 0 0 false _ (Tensor [:: 2; 2]%N [:: 1; 1; 1; 1]) [:: 1; 1]%N 0 1). Qed.
