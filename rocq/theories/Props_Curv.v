(* C05 (Hessian, GGN), C14, C15, C19-C22: the loader-based curvature operators. *)
From Coq Require Import Reals Lra Permutation.
From Coquelicot Require Import Coquelicot.
From mathcomp Require Import all_ssreflect all_algebra.
From Verif Require Import PyPrelude Tensor Spec TorchBase Submatrix RInst Calculus Curvature HessGGN Risk Losses Fisher FisherMC FisherExp CurvOps.
Set Implicit Arguments.
Unset Strict Implicit.
Unset Printing Implicit Defensive.
Import GRing.Theory.
Local Open Scope ring_scope.

Section Props.
Variables (X Y : Type) (O : nat) (net : X -> point -> seq R) (lossd : seq R -> Y -> R).
Hypothesis net_size : forall x th, size (net x th) = O.
Local Notation batch := (seq (X * Y)).
Local Notation total_data l := (sumn [seq size b | b <- (l : seq batch)]).

Lemma nonempty_nil (loader : seq batch) n : (0 < infer_num_data (@size (X * Y)) None loader)%N ->
  raise_if (nilp loader) n = Ok tt.
Proof. by case: loader. Qed.

(* the number that 'mean' divides by *)
Definition mean_over (red : reduction) (num_data : option nat) (loader : seq batch) : R :=
  match red with
  | RMean => (match num_data with Some n => n | None => total_data loader end)%:R^-1
  | _ => 1
  end.

Lemma mean_overE red num_data loader :
  mean_over red num_data loader = weight red (infer_num_data (@size (X * Y)) num_data loader).
Proof. by rewrite /mean_over /weight; case: red => //; case: num_data. Qed.

(* the Hessian of the empirical risk *)
Definition risk_hessian c (data : seq (X * Y)) th (i j : nat) : R :=
  pd j (pd i (fun z => c * \sum_(d <- data) lossd (net d.1 z) d.2)) th.

Lemma hessian_acts red num_data loader S bs th : S <> [::] -> red <> ROther -> loader <> [::] -> nonempty loader ->
  (if num_data is Some n then 0 < n else true)%N ->
  check_block_sizes true (size S) bs = Ok [seq b%:Z | b <- (if bs is Some s then [seq `|b|%N | b <- s] else [:: size S])] ->
  sumn (if bs is Some s then [seq `|b|%N | b <- s] else [:: size S]) = size S ->
  Forall_in (fun d => twice_diff (total S) (fun z => lossd (net d.1 z) d.2) th) (flatten loader) ->
  exists2 A, hessian_operator O net lossd red num_data loader S bs th = Ok A &
    acts_as A S (fun i j => if same_block (block_dims (if bs is Some s then [seq `|b|%N | b <- s] else [:: size S]) S) i j
      then risk_hessian (mean_over red num_data loader) (flatten loader) th i j else 0).
Proof.
move=> hS hr hl hne hn hb hsum hd; rewrite /hessian_operator /curvature_init.
have -> : raise_if (nilp loader) StopIteration = Ok tt by case: loader hl {hne hd}.
rewrite /= hb /=; eexists; first by [].
have hN : (0 < infer_num_data (@size (X * Y)) num_data loader)%N.
  case: num_data hn => //= _; case: loader hl hne {hd} => //= b l _ /andP[h _].
  by rewrite addn_gt0 h.
rewrite mean_overE; apply: acts_as_multiplies => //.
exact: (@hessian_multiplies X Y O net net_size lossd red num_data loader S _ th hS hsum hr hN hne hd).
Qed.

(* C14 *)
Theorem C14_hessian_of_empirical_risk red num_data loader S th :
  S <> [::] -> red <> ROther -> loader <> [::] -> nonempty loader ->
  (if num_data is Some n then 0 < n else true)%N ->
  Forall_in (fun d => twice_diff (total S) (fun z => lossd (net d.1 z) d.2) th) (flatten loader) ->
  exists2 A, hessian_operator O net lossd red num_data loader S None th = Ok A &
    acts_as A S (risk_hessian (mean_over red num_data loader) (flatten loader) th).
Proof.
move=> hS hr hl hne hn hd.
have [||A hA hM] := @hessian_acts red num_data loader S None th hS hr hl hne hn _ _ hd; rewrite //= ?addn0 //.
exists A => //; apply: acts_as_ext hM _ => i j hi hj.
by rewrite same_block_one.
Qed.

(* C21 *)
Theorem C21_block_diagonal red num_data loader S (bs : seq nat) th :
  S <> [::] -> red <> ROther -> loader <> [::] -> nonempty loader ->
  (if num_data is Some n then 0 < n else true)%N ->
  sumn bs = size S -> all (fun b => 0 < b)%N bs ->
  Forall_in (fun d => twice_diff (total S) (fun z => lossd (net d.1 z) d.2) th) (flatten loader) ->
  exists2 A, hessian_operator O net lossd red num_data loader S (Some [seq b%:Z | b <- bs]) th = Ok A &
    acts_as A S (fun i j => if same_block (block_dims bs S) i j
      then risk_hessian (mean_over red num_data loader) (flatten loader) th i j else 0).
Proof.
move=> hS hr hl hne hn hsum hpos hd.
have e : [seq `|b|%N | b <- [seq b%:Z | b <- bs]] = bs by rewrite -map_comp -[RHS]map_id; apply: eq_map.
have := @hessian_acts red num_data loader S (Some [seq b%:Z | b <- bs]) th hS hr hl hne hn.
rewrite e; apply=> //.
apply/check_block_sizes_spec; split=> //; last by rewrite all_map.
by rewrite -hsum; elim: (bs) => //= b s ->; rewrite PoszD.
Qed.

Theorem C21_block_sizes_rejected red num_data loader S (bs : seq int) th : loader <> [::] ->
  ~ (foldr +%R 0 bs = (size S)%:Z /\ all (fun b => 0 < b)%R bs) ->
  hessian_operator O net lossd red num_data loader S (Some bs) th = Err ValueError.
Proof.
move=> hl h; rewrite /hessian_operator /curvature_init.
have -> : raise_if (nilp loader) StopIteration = Ok tt by case: loader hl.
rewrite /=; case: eqP => e //=.
have -> : has (fun b : int => (b <= 0)%R) bs; last by [].
have : ~~ all (fun b : int => 0 < b)%R bs by apply/negP => h'; apply: h.
by rewrite -has_predC; apply: sub_has => b /=; rewrite -Order.TotalTheory.leNgt.
Qed.

(* operators without support for blocks reject any block sizes *)
Theorem C21_blocks_unsupported red num_data loader S (bs : seq int) th : loader <> [::] ->
  ggn_operator O net lossd red num_data loader S (Some bs) th = Err ValueError.
Proof.
by move=> hl; rewrite /ggn_operator /curvature_init; case: loader hl.
Qed.

(* C15 *)
Definition jac_entry (d : X * Y) th (o j : nat) : R := pd j (fun z => nth 0 (net d.1 z) o) th.
Definition loss_hessian (d : X * Y) th (o o' : nat) : R :=
  pd o' (pd o (fun f => lossd (mkseq f O) d.2)) (nth 0 (net d.1 th)).

Definition ggn_matrix (c : R) (data : seq (X * Y)) th (i j : nat) : R :=
  c * \sum_(d <- data) \sum_(a < O) \sum_(b < O) jac_entry d th a i * (loss_hessian d th a b * jac_entry d th b j).

Theorem C15_ggn_of_empirical_risk red num_data loader S th :
  S <> [::] -> red <> ROther -> loader <> [::] -> nonempty loader ->
  (if num_data is Some n then 0 < n else true)%N ->
  exists2 A, ggn_operator O net lossd red num_data loader S None th = Ok A &
    acts_as A S (ggn_matrix (mean_over red num_data loader) (flatten loader) th).
Proof.
move=> hS hr hl hne hn; rewrite /ggn_operator /curvature_init.
have -> : raise_if (nilp loader) StopIteration = Ok tt by case: loader hl {hne}.
rewrite /=; eexists; first by [].
have hN : (0 < infer_num_data (@size (X * Y)) num_data loader)%N.
  case: num_data hn => //= _; case: loader hl hne => //= b l _ /andP[h _].
  by rewrite addn_gt0 h.
rewrite mean_overE; apply: acts_as_multiplies => //.
exact: (@ggn_multiplies X Y O net net_size lossd red num_data loader S th hS hr hN hne).
Qed.

(* C05: the matrices are symmetric, so returning the operator itself as its
   adjoint is right *)
Lemma hessian_symm c data th D i j :
  C2_at D (fun z => c * \sum_(d <- data) lossd (net d.1 z) d.2) th -> (i < D)%N -> (j < D)%N ->
  risk_hessian c data th i j = risk_hessian c data th j i.
Proof. by move=> h hi hj; apply: (pd_symm hi hj h). Qed.

Lemma block_hessian_symm c data th D bs S i j :
  C2_at D (fun z => c * \sum_(d <- data) lossd (net d.1 z) d.2) th -> (i < D)%N -> (j < D)%N ->
  (if same_block (block_dims bs S) i j then risk_hessian c data th i j else 0) =
  (if same_block (block_dims bs S) j i then risk_hessian c data th j i else 0).
Proof.
move=> h hi hj; rewrite (hessian_symm h hi hj); congr (if _ then _ else _).
elim: (block_dims bs S) i j {hi hj} => //= d ds IH i j.
by case: (ltnP i d) => h1; case: (ltnP j d) => h2 //=.
Qed.

Lemma ggn_symm c (data : seq (X * Y)) th i j :
  Forall_in (fun d => C2_at O (fun f => lossd (mkseq f O) d.2) (nth 0 (net d.1 th))) data ->
  ggn_matrix c data th i j = ggn_matrix c data th j i.
Proof.
move=> hd; congr (_ * _); elim: data hd => [|d l IH] /=; first by rewrite !big_nil.
case=> h /IH e; rewrite !big_cons e; congr (_ + _); rewrite exchange_big /=.
apply: eq_bigr => b _; apply: eq_bigr => a _.
rewrite /loss_hessian (pd_symm (ltn_ord a) (ltn_ord b) h) mulrCA mulrA mulrC.
by congr (_ * _); rewrite mulrC.
Qed.

Theorem C05_hessian_self_adjoint red num_data loader S th :
  S <> [::] -> red <> ROther -> loader <> [::] -> nonempty loader ->
  (if num_data is Some n then 0 < n else true)%N ->
  Forall_in (fun d => twice_diff (total S) (fun z => lossd (net d.1 z) d.2) th) (flatten loader) ->
  C2_at (total S) (fun z => mean_over red num_data loader * \sum_(d <- flatten loader) lossd (net d.1 z) d.2) th ->
  exists2 A, hessian_operator O net lossd red num_data loader S None th = Ok A & self_adjoint_op A S.
Proof.
move=> hS hr hl hne hn hd h2; have [A eA hA] := C14_hessian_of_empirical_risk hS hr hl hne hn hd.
by exists A => //; apply: acts_as_self_adjoint hA _ => i j; apply: hessian_symm.
Qed.

Theorem C05_block_hessian_self_adjoint red num_data loader S (bs : seq nat) th :
  S <> [::] -> red <> ROther -> loader <> [::] -> nonempty loader ->
  (if num_data is Some n then 0 < n else true)%N ->
  sumn bs = size S -> all (fun b => 0 < b)%N bs ->
  Forall_in (fun d => twice_diff (total S) (fun z => lossd (net d.1 z) d.2) th) (flatten loader) ->
  C2_at (total S) (fun z => mean_over red num_data loader * \sum_(d <- flatten loader) lossd (net d.1 z) d.2) th ->
  exists2 A, hessian_operator O net lossd red num_data loader S (Some [seq b%:Z | b <- bs]) th = Ok A &
    self_adjoint_op A S.
Proof.
move=> hS hr hl hne hn hb hp hd h2; have [A eA hA] := C21_block_diagonal hS hr hl hne hn hb hp hd.
by exists A => //; apply: acts_as_self_adjoint hA _ => i j; apply: block_hessian_symm.
Qed.

Theorem C05_ggn_self_adjoint red num_data loader S th :
  S <> [::] -> red <> ROther -> loader <> [::] -> nonempty loader ->
  (if num_data is Some n then 0 < n else true)%N ->
  Forall_in (fun d => C2_at O (fun f => lossd (mkseq f O) d.2) (nth 0 (net d.1 th))) (flatten loader) ->
  exists2 A, ggn_operator O net lossd red num_data loader S None th = Ok A & self_adjoint_op A S.
Proof.
move=> hS hr hl hne hn h2; have [A eA hA] := @C15_ggn_of_empirical_risk red num_data loader S th hS hr hl hne hn.
by exists A => //; apply: acts_as_self_adjoint hA _ => i j _ _; apply: ggn_symm.
Qed.

(* C19: order and batching do not matter *)
Lemma mean_over_perm red num_data (l1 l2 : seq batch) : Permutation (flatten l1) (flatten l2) ->
  mean_over red num_data l1 = mean_over red num_data l2.
Proof.
move=> h; rewrite /mean_over; case: red => //; case: num_data => // .
have e : forall l : seq batch, total_data l = size (flatten l) by move=> l; rewrite size_flatten.
rewrite !e; congr (_%:R^-1); exact: Permutation_length h.
Qed.

Lemma Forall_in_perm (P : X * Y -> Prop) s t : Permutation s t -> Forall_in P s -> Forall_in P t.
Proof.
elim=> [//|x l l' _ IH /= [h /IH]//|x y l /= [h1 [h2 h3]]//|l l' l'' _ IH1 _ IH2 h].
by apply: IH2; apply: IH1.
Qed.

Theorem C19_hessian_batching red num_data (l1 l2 : seq batch) S th :
  S <> [::] -> red <> ROther -> l1 <> [::] -> l2 <> [::] -> nonempty l1 -> nonempty l2 ->
  (if num_data is Some n then 0 < n else true)%N ->
  Forall_in (fun d => twice_diff (total S) (fun z => lossd (net d.1 z) d.2) th) (flatten l1) ->
  Permutation (flatten l1) (flatten l2) ->
  exists A B, [/\ hessian_operator O net lossd red num_data l1 S None th = Ok A,
    hessian_operator O net lossd red num_data l2 S None th = Ok B & same_products S A B].
Proof.
move=> hS hr h1 h2 n1 n2 hn hd hp.
have [A eA hA] := C14_hessian_of_empirical_risk hS hr h1 n1 hn hd.
have [B eB hB] := C14_hessian_of_empirical_risk hS hr h2 n2 hn (Forall_in_perm hp hd).
exists A, B; split=> //; apply: acts_as_same hA _.
apply: acts_as_ext hB _ => i j _ _; rewrite /risk_hessian (mean_over_perm _ _ hp).
by apply: pd_ext => z; apply: pd_ext => w; rewrite (sum_permutation _ hp).
Qed.

Theorem C19_ggn_batching red num_data (l1 l2 : seq batch) S th :
  S <> [::] -> red <> ROther -> l1 <> [::] -> l2 <> [::] -> nonempty l1 -> nonempty l2 ->
  (if num_data is Some n then 0 < n else true)%N ->
  Permutation (flatten l1) (flatten l2) ->
  exists A B, [/\ ggn_operator O net lossd red num_data l1 S None th = Ok A,
    ggn_operator O net lossd red num_data l2 S None th = Ok B & same_products S A B].
Proof.
move=> hS hr h1 h2 n1 n2 hn hp.
have [A eA hA] := C15_ggn_of_empirical_risk th hS hr h1 n1 hn.
have [B eB hB] := C15_ggn_of_empirical_risk th hS hr h2 n2 hn.
exists A, B; split=> //; apply: acts_as_same hA _.
by apply: acts_as_ext hB _ => i j _ _; rewrite /ggn_matrix (mean_over_perm _ _ hp) (sum_permutation _ hp).
Qed.

(* C20 *)
Theorem C20_gradient_and_loss red num_data loader S th :
  red <> ROther -> loader <> [::] -> nonempty loader ->
  (if num_data is Some n then 0 < n else true)%N ->
  Forall_in (fun d => forall i, (i < total S)%N -> ex_pd i (fun z => lossd (net d.1 z) d.2) th) (flatten loader) ->
  let L z := mean_over red num_data loader * \sum_(d <- flatten loader) lossd (net d.1 z) d.2 in
  exists g, [/\ gradient_and_loss O net lossd true red num_data loader S th = Ok (g, L th),
    [seq tshape t | t <- g] = S, all (@wf R) g &
    forall i, (i < total S)%N -> nth 0 (flat g) i = pd i L th].
Proof.
move=> hr hl hne hn hd L.
have hN : (0 < infer_num_data (@size (X * Y)) num_data loader)%N.
  case: num_data hn {L} => //= _; case: loader hl hne {hd} => //= b l _ /andP[h _].
  by rewrite addn_gt0 h.
rewrite /L mean_overE.
exact: (@gradient_and_loss_ok X Y O net net_size lossd red num_data loader S th hr hN hne hd).
Qed.

Theorem C20_no_loss_function red num_data loader S th :
  gradient_and_loss O net lossd false red num_data loader S th = Err ValueError.
Proof. by []. Qed.

Theorem C19_gradient_and_loss_batching red num_data (l1 l2 : seq batch) S th :
  red <> ROther -> l1 <> [::] -> l2 <> [::] -> nonempty l1 -> nonempty l2 ->
  (if num_data is Some n then 0 < n else true)%N ->
  Forall_in (fun d => forall i, (i < total S)%N -> ex_pd i (fun z => lossd (net d.1 z) d.2) th) (flatten l1) ->
  Permutation (flatten l1) (flatten l2) ->
  gradient_and_loss O net lossd true red num_data l1 S th = gradient_and_loss O net lossd true red num_data l2 S th.
Proof.
move=> hr h1 h2 n1 n2 hn hd hp.
have [g [-> e2 e3 e4]] := C20_gradient_and_loss hr h1 n1 hn hd.
have [g' [-> e2' e3' e4']] := C20_gradient_and_loss hr h2 n2 hn (Forall_in_perm hp hd).
have sg : forall g : seq (tensor R), [seq tshape t | t <- g] = S -> all (@wf R) g -> size (flat g) = total S.
  move=> {e2 e3 e4 e2' e3' e4'} h <-; rewrite /flat; elim: h => //= t ts IH /andP[/eqP ht /IH].
  by rewrite size_cat ht /total /= => ->.
congr (Ok (_, _)); last by rewrite (mean_over_perm _ _ hp) (sum_permutation _ hp).
apply: tensor_list_ext; rewrite ?e2 ?e2' //; apply: (@eq_from_nth _ 0); rewrite ?sg // => i hi.
rewrite e4 // e4' //; apply: pd_ext => z.
by rewrite (mean_over_perm _ _ hp) (sum_permutation _ hp).
Qed.

(* C22: num_data *)
Theorem C22_inferred_num_data red loader S bs th :
  hessian_operator O net lossd red None loader S bs th =
    hessian_operator O net lossd red (Some (size (flatten loader))) loader S bs th /\
  ggn_operator O net lossd red None loader S bs th =
    ggn_operator O net lossd red (Some (size (flatten loader))) loader S bs th /\
  gradient_and_loss O net lossd true red None loader S th =
    gradient_and_loss O net lossd true red (Some (size (flatten loader))) loader S th.
Proof.
have e : infer_num_data (@size (X * Y)) None loader = size (flatten loader) by rewrite /= size_flatten.
rewrite /hessian_operator /ggn_operator /hessian_matmat /ggn_matmat /gradient_and_loss e /=.
by split.
Qed.

Lemma mean_over_scale red loader n : nonempty loader -> loader <> [::] ->
  mean_over red (Some n) loader =
  (if red is RMean then (size (flatten loader))%:R / n%:R else 1) * mean_over red None loader.
Proof.
move=> hne hl; rewrite /mean_over; case: red => //; rewrite ?mul1r //.
rewrite -size_flatten mulrAC divff ?mul1r // natr_neq0 //.
case: loader hl hne => //= b bs _ /andP[hb _].
by rewrite size_cat addn_gt0 hb.
Qed.

(* an operator's products determine those of the operator with another num_data:
   M is any matrix that describes the operator without num_data *)
Lemma scaled_products (A B : linop R) S (M P : nat -> nat -> R) (k : R) : acts_as A S M -> acts_as A S P -> acts_as B S (fun i j => k * P i j) ->
  acts_as B S (fun i j => k * M i j).
Proof.
move=> [_ _ hM] [_ _ hP] [s1 s2 hB]; split=> // l cols V hV.
have [W [w1 w2 w3]] := hB l cols V hV; exists W; split=> //.
have [U [u1 u2 u3]] := hM l cols V hV; have [U' [u1' u2' u3']] := hP l cols V hV.
move=> i m hi hm; rewrite w3 //.
have {u1'} eU : U' = U by move: u1'; rewrite u1 => -[].
rewrite eU in u3'; have := u3' i m hi hm; rewrite u3 // => eM.
under eq_bigr => j _ do rewrite -mulrA.
under [RHS]eq_bigr => j _ do rewrite -mulrA.
by rewrite -!mulr_sumr eM.
Qed.

Theorem C22_num_data_scaling red loader S th n A M :
  S <> [::] -> red <> ROther -> loader <> [::] -> nonempty loader -> (0 < n)%N ->
  Forall_in (fun d => twice_diff (total S) (fun z => lossd (net d.1 z) d.2) th) (flatten loader) ->
  hessian_operator O net lossd red None loader S None th = Ok A -> acts_as A S M ->
  exists2 B, hessian_operator O net lossd red (Some n) loader S None th = Ok B &
    acts_as B S (fun i j => (if red is RMean then (size (flatten loader))%:R / n%:R else 1) * M i j).
Proof.
move=> hS hr hl hne hn hd hA hM.
have [A' hA' hM'] := @C14_hessian_of_empirical_risk red None loader S th hS hr hl hne isT hd.
have [B hB hB'] := @C14_hessian_of_empirical_risk red (Some n) loader S th hS hr hl hne hn hd.
exists B => //; move: hA'; rewrite hA => -[e]; rewrite -e in hM'.
apply: scaled_products hM hM' _; apply: acts_as_ext hB' _ => i j _ _.
rewrite /risk_hessian -pd2_scal; apply: pd_ext => z; apply: pd_ext => w.
by rewrite mulrA mean_over_scale.
Qed.

Theorem C22_ggn_num_data_scaling red loader S th n A M :
  S <> [::] -> red <> ROther -> loader <> [::] -> nonempty loader -> (0 < n)%N ->
  ggn_operator O net lossd red None loader S None th = Ok A -> acts_as A S M ->
  exists2 B, ggn_operator O net lossd red (Some n) loader S None th = Ok B &
    acts_as B S (fun i j => (if red is RMean then (size (flatten loader))%:R / n%:R else 1) * M i j).
Proof.
move=> hS hr hl hne hn hA hM.
have [A' hA' hM'] := @C15_ggn_of_empirical_risk red None loader S th hS hr hl hne isT.
have [B hB hB'] := @C15_ggn_of_empirical_risk red (Some n) loader S th hS hr hl hne hn.
exists B => //; move: hA'; rewrite hA => -[e]; rewrite -e in hM'.
apply: scaled_products hM hM' _; apply: acts_as_ext hB' _ => i j _ _.
by rewrite /ggn_matrix mulrA mean_over_scale.
Qed.

End Props.

Print Assumptions C14_hessian_of_empirical_risk.
Print Assumptions C21_block_diagonal.
Print Assumptions C21_block_sizes_rejected.
Print Assumptions C21_blocks_unsupported.
Print Assumptions C15_ggn_of_empirical_risk.
Print Assumptions C05_hessian_self_adjoint.
Print Assumptions C05_block_hessian_self_adjoint.
Print Assumptions C05_ggn_self_adjoint.
Print Assumptions C19_hessian_batching.
Print Assumptions C19_ggn_batching.
Print Assumptions C19_gradient_and_loss_batching.
Print Assumptions C20_gradient_and_loss.
Print Assumptions C20_no_loss_function.
Print Assumptions C22_inferred_num_data.
Print Assumptions C22_num_data_scaling.
Print Assumptions C22_ggn_num_data_scaling.

(* toR under binders *)
Ltac toRb := rewrite /GRing.add /GRing.mul /GRing.opp /GRing.one /GRing.zero /=.

(* ---- concrete case: net(x; th) = (x th0 + th1, th0 th1), l(f, y) = (f0 - y)^2 + (f1 - 1)^2,
   parameters of shapes [1] and [1], a loader with batches of sizes 1 and 2 ---- *)
Definition exr_net (x : R) (th : point) : seq R := [:: x * th 0%N + th 1%N; th 0%N * th 1%N].
Definition exr_loss (f : seq R) (y : R) : R :=
  (nth 0 f 0 - y) * (nth 0 f 0 - y) + (nth 0 f 1 - 1) * (nth 0 f 1 - 1).
Definition exr_S : seq (seq nat) := [:: [:: 1]; [:: 1]]%N.
Definition exr_loader : seq (seq (R * R)) := [:: [:: (1, 0)]; [:: (0, 1); (1 + 1, 1)]].

Lemma exr_pd0 x y z : pd 0 (fun z => exr_loss (exr_net x z) y) z =
  (1 + 1) * (x * (x * z 0%N + z 1%N - y) + z 1%N * (z 0%N * z 1%N - 1)).
Proof.
rewrite /pd; apply: is_derive_unique; rewrite /exr_loss /exr_net /upd; toRb.
by auto_derive => //; toR; ring.
Qed.
Lemma exr_pd1 x y z : pd 1 (fun z => exr_loss (exr_net x z) y) z =
  (1 + 1) * ((x * z 0%N + z 1%N - y) + z 0%N * (z 0%N * z 1%N - 1)).
Proof.
rewrite /pd; apply: is_derive_unique; rewrite /exr_loss /exr_net /upd; toRb.
by auto_derive => //; toR; ring.
Qed.

Lemma exr_ex_pd i z x y : (i < 2)%N -> ex_pd i (fun z => exr_loss (exr_net x z) y) z.
Proof.
by case: i => [|[|]] // _; rewrite /ex_pd /exr_loss /exr_net /upd; toRb; auto_derive.
Qed.

Lemma exr_twice x y th : twice_diff 2 (fun z => exr_loss (exr_net x z) y) th.
Proof.
move=> i j hi hj; split.
  by apply: filter_forall => t; apply: exr_ex_pd.
case: i hi => [|[|]] // _.
  apply: (@ex_pd_ext _ _ _ _ (fun z => esym (exr_pd0 x y z))).
  by case: j hj => [|[|]] // _; rewrite /ex_pd /upd; toRb; auto_derive.
apply: (@ex_pd_ext _ _ _ _ (fun z => esym (exr_pd1 x y z))).
by case: j hj => [|[|]] // _; rewrite /ex_pd /upd; toRb; auto_derive.
Qed.

Example C14_ex th : [/\ (forall x z, size (exr_net x z) = 2%N), nonempty exr_loader, exr_loader <> [::] &
  Forall_in (fun d => twice_diff (total exr_S) (fun z => exr_loss (exr_net d.1 z) d.2) th) (flatten exr_loader)].
Proof. by split=> //; apply: Forall_in_all => d; apply: exr_twice. Qed.

(* an off-diagonal entry of that Hessian, so the matrix is not trivial *)
Example C14_ex_entry th : risk_hessian exr_net exr_loss 1 [:: (1 + 1, 1)] th 0 1 =
  (1 + 1) * ((1 + 1) + (th 0%N * th 1%N - 1) + th 1%N * th 0%N).
Proof.
rewrite /risk_hessian pd2_scal mul1r.
rewrite (@pd_ext _ (fun z => (1 + 1) * ((1 + 1) * ((1 + 1) * z 0%N + z 1%N - 1) + z 1%N * (z 0%N * z 1%N - 1)))); last first.
  move=> z; rewrite (@pd_ext _ (fun z => exr_loss (exr_net (1 + 1) z) 1)); first exact: exr_pd0.
  by move=> w; rewrite big_cons big_nil addr0.
rewrite /pd; apply: is_derive_unique; rewrite /upd; toRb.
by auto_derive => //; toR; ring.
Qed.

Example C21_ex : [/\ sumn [:: 1; 1]%N = size exr_S, all (fun b => 0 < b)%N [:: 1; 1]%N,
  same_block (block_dims [:: 1; 1]%N exr_S) 0 1 = false & same_block (block_dims [:: 1; 1]%N exr_S) 1 1].
Proof. by []. Qed.

Example C19_ex : Permutation (flatten exr_loader) (flatten [:: [:: (1 + 1, 1); (1, 0)]; [:: (0, 1)]] : seq (R * R)).
Proof.
exact: (@Permutation_app_comm (R * R) [:: (1, 0); (0, 1)] [:: (1 + 1, 1)]).
Qed.

(* the symmetry hypothesis holds as well *)
Lemma exr_C2 c data th : C2_at 2 (fun z => c * \sum_(d <- data) exr_loss (exr_net d.1 z) d.2) th.
Proof.
have key : forall z, pd 0 (pd 1 (fun z => c * \sum_(d <- data) exr_loss (exr_net d.1 z) d.2)) z =
    c * (\sum_(d <- data) (1 + 1) * (d.1 + (z 0%N * z 1%N - 1) + z 0%N * z 1%N)) /\
    pd 1 (pd 0 (fun z => c * \sum_(d <- data) exr_loss (exr_net d.1 z) d.2)) z =
    c * (\sum_(d <- data) (1 + 1) * (d.1 + (z 0%N * z 1%N - 1) + z 0%N * z 1%N)).
  move=> z; have hd : Forall_in (fun d => twice_diff 2 (fun z => exr_loss (exr_net d.1 z) d.2) z) data.
    by apply: Forall_in_all => d; apply: exr_twice.
  rewrite !pd2_scal (pd2_sum (isT : (1 < 2)%N) (isT : (0 < 2)%N) hd) (pd2_sum (isT : (0 < 2)%N) (isT : (1 < 2)%N) hd).
  split; congr (_ * _); apply: eq_bigr => d _.
    rewrite (pd_ext _ _ (exr_pd1 d.1 d.2)) /pd; apply: is_derive_unique; rewrite /upd; toRb.
    by auto_derive => //; toR; ring.
  rewrite (pd_ext _ _ (exr_pd0 d.1 d.2)) /pd; apply: is_derive_unique; rewrite /upd; toRb.
  by auto_derive => //; toR; ring.
have cont : forall i j u v, (i < 2)%N -> (j < 2)%N -> i != j ->
    continuity_2d_pt (fun u v => c * \sum_(d <- data) (1 + 1) * (d.1 +
      (upd (upd th i u) j v 0%N * upd (upd th i u) j v 1%N - 1) + upd (upd th i u) j v 0%N * upd (upd th i u) j v 1%N)) u v.
  move=> i j u v hi hj hij.
  have e : forall u v, upd (upd th i u) j v 0%N * upd (upd th i u) j v 1%N = u * v.
    by case: i j hi hj hij {u v} => [|[|]] // [|[|]] // _ _ _ u v; rewrite /upd //= mulrC.
  apply: (continuity_2d_pt_ext (fun u v => Rplus (Rmult (Rmult u v) (c * \sum_(d <- data) (1 + 1 + 1 + 1)))
     (c * \sum_(d <- data) (1 + 1) * (d.1 - 1)))).
    move=> a b; rewrite RplusE !RmultE mulrCA -mulrDr; congr (_ * _).
    rewrite mulr_sumr -big_split /=; apply: eq_bigr => d _; rewrite e; toR; ring.
  apply: continuity_2d_pt_plus; last exact: continuity_2d_pt_const.
  apply: continuity_2d_pt_mult; last exact: continuity_2d_pt_const.
  by apply: continuity_2d_pt_mult; [apply: continuity_2d_pt_id1 | apply: continuity_2d_pt_id2].
have exs : forall i z, (i < 2)%N -> ex_pd i (fun z => c * \sum_(d <- data) exr_loss (exr_net d.1 z) d.2) z.
  move=> i z hi; apply: ex_pd_scal; apply: ex_pd_sum; apply: Forall_in_all => d; exact: exr_ex_pd.
have exs2 : forall i j z, (i < 2)%N -> (j < 2)%N ->
    ex_pd i (pd j (fun z => c * \sum_(d <- data) exr_loss (exr_net d.1 z) d.2)) z.
  move=> i j z hi hj.
  have e : forall z, pd j (fun z => c * \sum_(d <- data) exr_loss (exr_net d.1 z) d.2) z =
      c * \sum_(d <- data) pd j (fun z => exr_loss (exr_net d.1 z) d.2) z.
    by move=> w; rewrite pd_scal pd_sum //; apply: Forall_in_all => d; apply: exr_ex_pd.
  apply: (@ex_pd_ext _ _ _ _ (fun z => esym (e z))); apply: ex_pd_scal; apply: ex_pd_sum.
  by apply: Forall_in_all => d; have [] := exr_twice d.1 d.2 z hj hi.
move=> i j hi hj hij; split.
- by apply: locally_2d_forall => u v; split; auto.
- case: i j hi hj hij => [|[|]] // [|[|]] // hi hj hij.
    by apply: continuity_2d_pt_ext (cont 0%N 1%N _ _ isT isT isT) => u v; have [-> _] := key (upd (upd th 0 u) 1 v).
  by apply: continuity_2d_pt_ext (cont 1%N 0%N _ _ isT isT isT) => u v; have [_ ->] := key (upd (upd th 1 u) 0 v).
case: i j hi hj hij => [|[|]] // [|[|]] // hi hj hij.
  by apply: continuity_2d_pt_ext (cont 0%N 1%N _ _ isT isT isT) => u v; have [_ ->] := key (upd (upd th 0 u) 1 v).
by apply: continuity_2d_pt_ext (cont 1%N 0%N _ _ isT isT isT) => u v; have [-> _] := key (upd (upd th 1 u) 0 v).
Qed.

Example C05_ex : forall th i j, (i < 2)%N -> (j < 2)%N ->
  risk_hessian exr_net exr_loss 1 (flatten exr_loader) th i j = risk_hessian exr_net exr_loss 1 (flatten exr_loader) th j i.
Proof. by move=> th i j hi hj; apply: (hessian_symm (exr_C2 1 _ th) hi hj). Qed.
