(* C83: data sources that shuffle, that can be iterated over only once, that are empty. *)
From Coq Require Import Reals Lra Permutation.
From Coquelicot Require Import Coquelicot.
From mathcomp Require Import all_ssreflect all_algebra.
From Verif Require Import PyPrelude Tensor Spec TorchBase Submatrix RInst Calculus ROrd Curvature HessGGN Risk Losses Fisher FisherMC FisherExp CurvOps Determinism Props_Det DataSource Props_Curv Props_Fisher.
Set Implicit Arguments.
Unset Strict Implicit.
Unset Printing Implicit Defensive.
Import GRing.Theory.
Local Open Scope ring_scope.

(* the number of data an operator works with *)
Definition counted (num_data : option nat) (n : nat) : nat := if num_data is Some k then k else n.

Section Generic.
Variables (X Y St : Type).
Local Notation batch := (seq (X * Y)).
Variable fresh : St -> seq batch * St.
Variables (supports has_loss fixed_order : bool) (S : seq (seq nat)).
Variable mm : nat -> seq int -> seq batch -> seq (tensor R) -> res (seq (tensor R)).
Variable evaluate : nat -> batch -> res (item [realFieldType of R]).
Variable probe : pyval R.
Hypothesis hS : S <> [::].
Local Notation construct := (construct fresh (@size (X * Y)) supports has_loss fixed_order S mm evaluate probe).
Local Notation product := (product fresh S mm).
Local Notation products := (products fresh S mm).

(* every pass over the source yields the data D, in whatever order and batches *)
Definition yields (D : seq (X * Y)) : Prop :=
  forall s, Permutation D (flatten (fresh s).1) /\ nonempty (fresh s).1.

(* in any sequence of products, whatever is passed in the others, the k-th result is the
   product with M if the k-th input has a documented format *)
Definition always_multiplies (o : operator batch St) (M : nat -> nat -> R) : Prop :=
  forall Vs k l cols, (k < size Vs)%N -> has_format S l cols (nth VOther Vs k) ->
  exists W, [/\ nth (Err TypeError) (products o Vs).1 k = Ok W, has_format S l cols W &
    is_product M (total S) (total S) (ncols cols) (content (nth VOther Vs k)) (content W)].

Lemma product_valid (o : operator batch St) l cols V : has_format S l cols V ->
  product o V = (op_matmul (LinOp S S (mm (o_N o) (o_bs o) (pass fresh (o_data o)).1)) V,
                 Operator (o_N o) (o_bs o) (pass fresh (o_data o)).2).
Proof.
move=> hV; have [Xl eX _] := @check_input_ok _ (LinOp S S (fun M => Ok M)) l cols V hS hV.
by rewrite /DataSource.product eX; case: (pass fresh (o_data o)).
Qed.

(* whatever is passed, a product leaves the number of data and the blocks *)
Lemma product_state N bs s V : exists s', (product (Operator N bs (Reiterable _ s)) V).2 = Operator N bs (Reiterable batch s').
Proof.
rewrite /DataSource.product; case: (check_input_and_preprocess _ V) => [r|e] /=; last by exists s.
by case: (fresh s) => l s'; exists s'.
Qed.

Lemma check_state N bs s : exists s',
  (check fresh has_loss fixed_order S mm evaluate probe (Operator N bs (Reiterable _ s))).2 = Operator N bs (Reiterable batch s').
Proof.
rewrite /check /=; case: (fresh s) => [[|b l1] s1].
  set p := check_passes _ _ _ _ _; case: p => [u|e]; last by exists s1.
  have [s2] := product_state N bs s1 probe; case: (product _ _) => r1 o2 /= ->.
  case: (as_numbers r1) => [a1|e]; last by exists s2.
  by have [s3] := product_state N bs s2 probe; case: (product _ _) => r2 o3 /= ->; exists s3.
case: (fresh s1) => l2 s2 /=.
set p := check_passes _ _ _ _ _; case: p => [u|e]; last by exists s2.
have [s3] := product_state N bs s2 probe; case: (product _ _) => r1 o2 /= ->.
case: (as_numbers r1) => [a1|e]; last by exists s3.
by have [s4] := product_state N bs s3 probe; case: (product _ _) => r2 o3 /= ->; exists s4.
Qed.

Lemma construct_state D num_data block_sizes chk s o d : yields D ->
  construct (Reiterable _ s) num_data block_sizes chk = (Ok o, d) ->
  exists2 bs, check_block_sizes supports (size S) block_sizes = Ok bs &
  exists s', o = Operator (counted num_data (size D)) bs (Reiterable _ s').
Proof.
move=> hD; rewrite /DataSource.construct /=; case E1: (fresh s) => [l1 s1].
case: l1 E1 => [|b l1] E1 //; case: (check_block_sizes _ _ _) => [bs|e] //.
set Nd := (match num_data with Some n => _ | None => _ end).
have [s2 ->] : exists s2, Nd = (counted num_data (size D), Reiterable batch s2).
  rewrite /Nd /counted; case: num_data Nd => [n|] _; first by exists s1.
  have [hp _] := hD s1; move: hp; rewrite /pass; case: (fresh s1) => l2 s2 /= hp; exists s2; congr (_, _).
  rewrite -[X in sumn X]/(shape l2) -size_flatten; exact/esym/(Permutation_length hp).
case: chk => [|[<- _]]; last by exists bs => //; exists s2.
have [s3] := check_state (counted num_data (size D)) bs s2.
case: (check _ _ _ _ _ _ _ _) => [[u|e] o'] //= -> [<- _].
by exists bs => //; exists s3.
Qed.

Lemma products_multiply D N bs s M : yields D ->
  (forall l, Permutation D (flatten l) -> nonempty l -> acts_as (LinOp S S (mm N bs l)) S M) ->
  always_multiplies (Operator N bs (Reiterable _ s)) M.
Proof.
move=> hD hM Vs; elim: Vs s => [//|V Vs IH] s k l cols hk hV.
have [s'] := product_state N bs s V.
case E: (product _ V) => [r o1] /= e; rewrite e in E.
rewrite E; case E2: (products _ Vs) => [rs o2].
case: k hk hV => [|k] hk hV; last first.
  by have [] := IH s' k l cols hk hV; rewrite E2 /= => W [h1 h2 h3]; exists W.
rewrite /= in hV *; rewrite (product_valid _ hV) /= in E.
have [hp hn] := hD s; case: (fresh s) hp hn E => l1 s1 hp hn /= [<- _].
by have [_ _ /(_ l cols V hV)] := hM l1 hp hn.
Qed.

Lemma always_correct D num_data block_sizes chk s o d M : yields D ->
  (forall bs l, check_block_sizes supports (size S) block_sizes = Ok bs ->
     Permutation D (flatten l) -> nonempty l -> acts_as (LinOp S S (mm (counted num_data (size D)) bs l)) S M) ->
  construct (Reiterable _ s) num_data block_sizes chk = (Ok o, d) -> always_multiplies o M.
Proof.
move=> hD hM hc; have [bs eb [s' ->]] := construct_state hD hc.
by apply: products_multiply hD _ => l; apply: hM.
Qed.

Lemma construct_unchecked D num_data block_sizes s : yields D -> D <> [::] ->
  (exists bs, check_block_sizes supports (size S) block_sizes = Ok bs) ->
  exists o d, construct (Reiterable _ s) num_data block_sizes false = (Ok o, d).
Proof.
move=> hD hne [bs eb]; rewrite /DataSource.construct /=; have [hp _] := hD s.
case: (fresh s) hp => [[|b l] s1] /= hp; first by case: hne; exact/Permutation_nil/Permutation_sym.
by rewrite eb; case: num_data => [n|]; last case: (fresh s1) => l2 s2 /=; do 2!eexists.
Qed.

(* ---- an empty source ---- *)
Theorem C83_empty num_data block_sizes chk d : (pass fresh d).1 = [::] ->
  (construct d num_data block_sizes chk).1 = Err StopIteration.
Proof.
rewrite /DataSource.construct; case: d => [s|[|b l]] //=.
by case: (fresh s) => l s' /= ->.
Qed.

(* ---- iterators ---- *)

(* a zero matrix *)
Definition zero_products (o : operator batch St) : Prop := always_multiplies o (fun _ _ => 0).

Hypothesis mm_nil : forall N bs, multiplies 0 (mm N bs [::]) S S (fun _ _ => 0).

Lemma exhausted N bs : zero_products (Operator N bs (Iterator _ [::])).
Proof.
move=> Vs; elim: Vs => [//|V Vs IH] k l cols hk hV.
have [r e] : exists r, product (Operator N bs (Iterator _ [::])) V = (r, Operator N bs (Iterator St [::])).
  by rewrite /DataSource.product; case: (check_input_and_preprocess _ V) => [x|x] /=; eexists.
rewrite /= e; case E2: (products _ Vs) => [rs o2].
case: k hk hV => [|k] hk hV; last first.
  by have [] := IH k l cols hk hV; rewrite E2 /= => W [h1 h2 h3]; exists W.
rewrite /= in hV *; move: e; rewrite (product_valid _ hV) /= => -[<-].
by have [_ _ /(_ l cols V hV)] := acts_as_multiplies hS (mm_nil N bs).
Qed.

(* no number of data given: counting exhausts the iterator (without its first batch) *)
Theorem C83_iterator_counted b l block_sizes o d :
  construct (Iterator _ (b :: l)) None block_sizes false = (Ok o, d) ->
  [/\ o_N o = size (flatten l), d = Iterator _ [::] & zero_products o].
Proof.
rewrite /DataSource.construct /=; case: (check_block_sizes _ _ _) => [bs|e] // [<- <-].
by split=> //=; [rewrite size_flatten | exact: exhausted].
Qed.

(* number of data given: the first product is over all batches but the first, the
   following ones over none *)
Theorem C83_iterator_given b l n block_sizes o d V f cols :
  construct (Iterator _ (b :: l)) (Some n) block_sizes false = (Ok o, d) -> has_format S f cols V ->
  exists bs, [/\ check_block_sizes supports (size S) block_sizes = Ok bs, d = Iterator _ l,
    (product o V).1 = op_matmul (LinOp S S (mm n bs l)) V & zero_products (product o V).2].
Proof.
rewrite /DataSource.construct /=; case: (check_block_sizes _ _ _) => [bs|e] // [<- <-] hV; exists bs.
by rewrite (product_valid _ hV); split=> //=; exact: exhausted.
Qed.

(* with the check: NameError *)
Theorem C83_iterator_checked b l block_sizes : has_loss ->
  (exists bs, check_block_sizes supports (size S) block_sizes = Ok bs) ->
  (construct (Iterator _ (b :: l)) None block_sizes true).1 = Err NameError.
Proof. by move=> hl [bs eb]; rewrite /DataSource.construct /= eb /check /= /check_passes /= hl. Qed.

(* number of data given, with the check: it compares the second with the third batch *)
Theorem C83_iterator_compared b b1 b2 n x1 x2 block_sizes : has_loss ->
  (exists bs, check_block_sizes supports (size S) block_sizes = Ok bs) ->
  evaluate n b1 = Ok x1 -> evaluate n b2 = Ok x2 ->
  item_ok S x1 -> item_ok S x2 -> nan_free (it_loss x1) -> nan_free (it_loss x2) ->
  (fixed_order -> batch_same x1 x2) ->
  ~~ close_to (total_loss [:: x1]) (total_loss [:: x2]) ->
  (construct (Iterator _ [:: b; b1; b2]) (Some n) block_sizes true).1 = Err RuntimeError.
Proof.
move=> hl [bs eb] e1 e2 o1 o2 n1 n2 hf hc; rewrite /DataSource.construct /= eb /check /= e1 e2 hl.
pose v : tensor (option R) := scalar (Some 0).
have [|h _] := @C26_single_batch_partial _ S fixed_order [:: x1] [:: x2] v v erefl erefl (conj o1 I) (conj o2 I) _ erefl (conj n1 I) (conj n2 I).
  by move=> /hf h; split.
have := h hc; rewrite /check_deterministic /=; case: check_passes => [[]|e] /=; last by case=> ->.
by rewrite expect_close_same //; case: t_closeP => // -[]; apply: t_close_refl.
Qed.
End Generic.
Print Assumptions C83_iterator_compared.
Print Assumptions C83_empty.
Print Assumptions C83_iterator_counted.
Print Assumptions C83_iterator_given.
Print Assumptions C83_iterator_checked.

(* How often the data are iterated over.  The state of the source counts. *)
Section Traversals.
Variables (X Y : Type).
Local Notation batch := (seq (X * Y)).
Variable fresh : nat -> seq batch * nat.
Hypothesis counts : forall s, (fresh s).1 <> [::] /\ (fresh s).2 = s.+1.
Variables (supports has_loss fixed_order : bool) (S : seq (seq nat)).
Variable mm : nat -> seq int -> seq batch -> seq (tensor R) -> res (seq (tensor R)).
Variable evaluate : nat -> batch -> res (item [realFieldType of R]).
Variable probe : pyval R.

Lemma product_counts N bs s V : product fresh S mm (Operator N bs (Reiterable _ s)) V =
  match check_input_and_preprocess (LinOp S S (fun M => Ok M)) V with
  | Ok _ => (op_matmul (LinOp S S (mm N bs (fresh s).1)) V, Operator N bs (Reiterable _ s.+1))
  | Err e => (Err e, Operator N bs (Reiterable _ s))
  end.
Proof.
rewrite /product /=; case: (check_input_and_preprocess _ V) => // _; have [_] := counts s.
by case: (fresh s) => l s' /= ->.
Qed.

Lemma probe_counts N bs s a : as_numbers (product fresh S mm (Operator N bs (Reiterable _ s)) probe).1 = Ok a ->
  (product fresh S mm (Operator N bs (Reiterable _ s)) probe).2 = Operator N bs (Reiterable _ s.+1).
Proof. by rewrite product_counts; case: (check_input_and_preprocess _ _). Qed.

(* constructing an operator: once for the first batch, once to count the data, four times
   for the check.  A product: once, and not at all if the input is rejected. *)
Theorem C83_traversals s num_data block_sizes chk o d :
  construct fresh (@size (X * Y)) supports has_loss fixed_order S mm evaluate probe
    (Reiterable _ s) num_data block_sizes chk = (Ok o, d) ->
  let n := (s + 1 + (if num_data is None then 1 else 0) + (if chk then 4 else 0))%N in
  [/\ d = Reiterable _ n, o_data o = d &
   forall V, o_data (product fresh S mm o V).2 =
     Reiterable _ (if check_input_and_preprocess (LinOp S S (fun M => Ok M)) V is Ok _ then n.+1 else n)].
Proof.
have prod : forall o n, o_data o = Reiterable batch n -> forall V, o_data (product fresh S mm o V).2 =
     Reiterable _ (if check_input_and_preprocess (LinOp S S (fun M => Ok M)) V is Ok _ then n.+1 else n).
  move=> [N bs d'] n /= -> V; rewrite product_counts.
  by case: (check_input_and_preprocess _ V).
rewrite /construct /=; have [h1 e1] := counts s; case: (fresh s) h1 e1 => [[|b l1] s1] //= _ ->.
case: (check_block_sizes _ _ _) => [bs|e] //.
set Nd := (match num_data with Some n => _ | None => _ end).
have [N ->] : exists N, Nd = (N, Reiterable batch (s + 1 + (if num_data is None then 1 else 0))%N).
  rewrite /Nd; case: num_data Nd => [n|] _; first by exists n; rewrite addn0 addn1.
  have [_] := counts s.+1; case: (fresh s.+1) => l2 s2 /= ->; eexists; congr (_, Reiterable _ _).
  by rewrite !addn1.
move: (s + 1 + _)%N => m.
case: chk => [|[<- <-]]; last by rewrite addn0; split=> // V; apply: prod.
rewrite /check /=; have [h1 e1] := counts m; case: (fresh m) h1 e1 => [[|b1 k1] m1] //= _ ->.
have [_ e2] := counts m.+1; case: (fresh m.+1) e2 => k2 m2 /= ->.
case: (check_passes _ _ _ _ _) => [u|e] //=.
have := @probe_counts N bs m.+2; case: (product _ _ _ _ _) => r1 o2 /=.
case: (as_numbers r1) => [a1|e] //= /(_ a1 erefl) ->.
have := @probe_counts N bs m.+3; case: (product _ _ _ _ _) => r2 o3 /=.
case: (as_numbers r2) => [a2|e] //= /(_ a2 erefl) ->.
case: (expect_close _ _) => [u2|e] //= [<- <-].
have -> : (m + 4 = m.+4)%N by rewrite addn4.
by split=> // V; apply: prod.
Qed.
End Traversals.
Print Assumptions C83_traversals.

(* ---- the operators ---- *)
Section Operators.
Variables (X Y St : Type).
Local Notation batch := (seq (X * Y)).
Variable fresh : St -> seq batch * St.
Variables (fixed_order : bool) (evaluate : nat -> batch -> res (item [realFieldType of R])) (probe : pyval R).

Lemma yields_nonnil D l : D <> [::] -> Permutation D (flatten (l : seq batch)) -> l <> [::].
Proof. by move=> h hp e; rewrite e in hp; case: h; exact/Permutation_nil/Permutation_sym. Qed.

Section Risk.
Variables (O : nat) (net : X -> point -> seq R) (lossd : seq R -> Y -> R).
Hypothesis net_size : forall x th, size (net x th) = O.
Variables (red : reduction) (S : seq (seq nat)) (th : point).
Hypotheses (hS : S <> [::]) (hr : red <> ROther).

Definition hessian_mm (N : nat) (bs : seq int) (l : seq batch) := hessian_matmat O net lossd red (Some N) l S bs th.
Definition ggn_mm (N : nat) (bs : seq int) (l : seq batch) := ggn_matmat O net lossd red (Some N) l S th.

(* Hessian: data in a new order, or in other batches, at every pass *)
Theorem C83_hessian D num_data s : yields fresh D -> D <> [::] -> (0 < counted num_data (size D))%N ->
  Forall_in (fun d => twice_diff (total S) (fun z => lossd (net d.1 z) d.2) th) D ->
  let make := construct fresh (@size (X * Y)) true true fixed_order S hessian_mm evaluate probe (Reiterable _ s) num_data None in
  (exists o d, make false = (Ok o, d)) /\
  forall chk o d, make chk = (Ok o, d) ->
    always_multiplies fresh S hessian_mm o
      (risk_hessian net lossd (if red is RMean then (counted num_data (size D))%:R^-1 else 1) D th).
Proof.
move=> hD hne hN hd /=; split; first by apply: construct_unchecked hD hne _; eexists.
move=> chk o d; apply: always_correct => // bs l [<-] hp hn.
have hl := yields_nonnil hne hp.
have [A eA hA] := @C14_hessian_of_empirical_risk X Y O net lossd net_size red (Some (counted num_data (size D))) l S th
  hS hr hl hn hN (Forall_in_perm hp hd).
move: eA; rewrite /hessian_operator /curvature_init; case: l hl hp hn hA => [//|b l] _ hp hn hA /= [eA].
rewrite -eA in hA; apply: acts_as_ext hA _ => i j _ _; rewrite /risk_hessian.
by apply: pd_ext => z; apply: pd_ext => w; rewrite (sum_permutation _ hp).
Qed.

(* GGN *)
Theorem C83_ggn D num_data s : yields fresh D -> D <> [::] -> (0 < counted num_data (size D))%N ->
  let make := construct fresh (@size (X * Y)) false true fixed_order S ggn_mm evaluate probe (Reiterable _ s) num_data None in
  (exists o d, make false = (Ok o, d)) /\
  forall chk o d, make chk = (Ok o, d) ->
    always_multiplies fresh S ggn_mm o
      (ggn_matrix O net lossd (if red is RMean then (counted num_data (size D))%:R^-1 else 1) D th).
Proof.
move=> hD hne hN /=; split; first by apply: construct_unchecked hD hne _; eexists.
move=> chk o d; apply: always_correct => // bs l [<-] hp hn.
have hl := yields_nonnil hne hp.
have [A eA hA] := @C15_ggn_of_empirical_risk X Y O net lossd net_size red (Some (counted num_data (size D))) l S th hS hr hl hn hN.
move: eA; rewrite /ggn_operator /curvature_init; case: l hl hp hn hA => [//|b l] _ hp hn hA /= [eA].
rewrite -eA in hA; apply: acts_as_ext hA _ => i j _ _; rewrite /ggn_matrix (sum_permutation _ hp).
by rewrite /mean_over; case: red.
Qed.

Lemma base_nil (mb : batch -> seq (tensor R) -> res (seq (tensor R))) N :
  multiplies 0 (base_matmat (@size _) red N [::] mb) S S (fun _ _ => 0).
Proof.
move=> K M _ hM; rewrite /base_matmat /=; have [h1 h2] := (zeros_valid hM, @zeros_entry _ K M).
by eexists; split; [by []|by []|move=> i k _ _; rewrite h2 big1 // => j _; rewrite mul0r].
Qed.
End Risk.

(* empirical Fisher *)
Section EF.
Variables (T C : nat) (kind : loss_kind) (net : X -> point -> seq R) (tgt : Y -> nat -> target).
Hypothesis net_size : forall x th, size (net x th) = (T * C)%N.
Hypotheses (T_gt0 : (0 < T)%N) (C_gt0 : (0 < C)%N).
Variables (red : reduction) (S : seq (seq nat)) (th : point).
Hypotheses (hS : S <> [::]) (hr : red <> ROther).
Definition ef_mm (N : nat) (bs : seq int) (l : seq batch) := ef_matmat T C kind net tgt (torch_row kind C) red (Some N) l S th.

Theorem C83_empirical_fisher D num_data s : yields fresh D -> D <> [::] -> (0 < counted num_data (size D))%N ->
  Forall_in (datum_ok T C kind net tgt (total S) th) D ->
  let make := construct fresh (@size (X * Y)) false true fixed_order S ef_mm evaluate probe (Reiterable _ s) num_data None in
  let N := counted num_data (size D) in
  (exists o d, make false = (Ok o, d)) /\
  forall chk o d, make chk = (Ok o, d) ->
    always_multiplies fresh S ef_mm o
      (ef_matrix T C kind net tgt (if red is RMean then (if kind is LCE then (N * T)%N else (N * T * C)%N)%:R^-1 else 1) D th).
Proof.
move=> hD hne hN hd /=; split; first by apply: construct_unchecked hD hne _; eexists.
move=> chk o d; apply: always_correct => // bs l [<-] hp hn.
have hl := yields_nonnil hne hp.
have [A eA hA] := @C16_empirical_fisher X Y T C kind net tgt net_size T_gt0 C_gt0 red (Some (counted num_data (size D))) l S th
  hS hr hl hn hN (Forall_in_perm hp hd).
move: eA; rewrite /ef_operator /curvature_init; case: l hl hp hn hA => [//|b l] _ hp hn hA /= [eA].
rewrite -eA in hA; apply: acts_as_ext hA _ => i j _ _; rewrite /ef_matrix (sum_permutation _ hp).
by rewrite /terms_over; case: red; case: kind.
Qed.
End EF.
End Operators.
Print Assumptions C83_hessian.
Print Assumptions C83_ggn.
Print Assumptions C83_empirical_fisher.

(* ---- concrete cases ---- *)
Definition exd_D : seq (R * R) := [:: (1 + 1, 1)].
Definition exd_mm := hessian_mm 2 exr_net exr_loss RSum exr_S (fun _ => 0).
Definition exd_fresh (n : nat) : seq (seq (R * R)) * nat :=
  (if odd n then exr_loader else [:: [:: (1 + 1, 1); (1, 0)]; [:: (0, 1)]], n.+1).

Example C83_ex : [/\ yields exd_fresh (flatten exr_loader), (0 < counted None (size (flatten exr_loader)))%N &
  (exd_fresh 0).1 <> (exd_fresh 1).1].
Proof.
split=> //; move=> n; rewrite /exd_fresh; case: (odd n); split=> //; exact: C19_ex.
Qed.

(* the promise made for re-iterable sources does not hold for iterators: the Hessian is not
   zero, the operator is *)
Theorem C83_iterator_refuted (fresh : unit -> seq (seq (R * R)) * unit) fixed_order evaluate probe :
  exists o d, construct fresh (@size (R * R)) true true fixed_order exr_S exd_mm evaluate probe
      (Iterator _ [:: exd_D]) None None false = (Ok o, d) /\
    ~ always_multiplies fresh exr_S exd_mm o (risk_hessian exr_net exr_loss 1 exd_D (fun _ => 0)).
Proof.
case E : (construct fresh (@size (R * R)) true true fixed_order exr_S exd_mm evaluate probe
      (Iterator _ [:: exd_D]) None None false) => [[o|//] d]; exists o, d; split=> // h.
have [] := C83_iterator_counted _ _ E => //; first by move=> N bs; apply: base_nil.
move=> _ _ hz.
have hV : has_format exr_S false None (VTensor (Tensor [:: 2%N] [:: (0:R); 1])) by [].
have [W [eW _ hW]] := h [:: _] 0%N false None isT hV.
have [W' [+ _ hW']] := hz [:: _] 0%N false None isT hV; rewrite eW => -[eWW]; rewrite -eWW in hW'.
have := hW 0%N 0%N isT isT; rewrite (hW' 0%N 0%N isT isT) big1 => [|j _]; last by rewrite mul0r.
rewrite !big_ord_recl big_ord0 /entry /= mulr0 mulr1 add0r addr0 C14_ex_entry mulr0 sub0r addr0 addrK mulr1.
by toR; lra.
Qed.
Print Assumptions C83_iterator_refuted.

(* the iterator theorems apply to that operator *)
Example C83_ex_iterator (fresh : unit -> seq (seq (R * R)) * unit) evaluate probe b l :
  (forall N bs, multiplies 0 (exd_mm N bs [::]) exr_S exr_S (fun _ _ => 0)) /\
  exists o, construct fresh (@size (R * R)) true true false exr_S exd_mm evaluate probe
      (Iterator _ (b :: l)) (Some 3%N) None false = (Ok o, Iterator _ l).
Proof. by split; [move=> N bs; apply: base_nil | eexists]. Qed.

(* a construction with the check, over the shuffling source: six passes *)
Example C83_ex_traversals : let mm := fun (_ : nat) (_ : seq int) (_ : seq (seq (R * R))) (M : seq (tensor R)) => Ok M in
  let ev := fun (_ : nat) (b : seq (R * R)) => Ok (Item (XTensor (scalar (Some 0))) (scalar (Some 0)) (scalar (Some 0)) (scalar (Some 0)) [::]) in
  exists o, construct exd_fresh (@size (R * R)) true false false [:: [:: 1%N]] mm ev (VTensor (Tensor [:: 1%N] [:: 0]))
    (Reiterable _ 0%N) None None true = (Ok o, Reiterable _ 6%N).
Proof.
move=> mm ev; rewrite /construct /= /check /= /check_passes /= /product /=.
rewrite expect_close_same /=; last by [].
have -> : t_closeb (Tensor [:: 1%N] [:: Some (0 : R)]) (Tensor [:: 1%N] [:: Some 0]).
  by apply/t_closeP => //; apply: t_close_refl.
by eexists.
Qed.

(* losses 2 and 1 for the second and third batch of an iterator *)
Example C83_ex_compared (fresh : unit -> seq (seq (R * R)) * unit) mm probe : let S := [:: [:: 1%N]] in
  let ev := fun (_ : nat) (b : seq (R * R)) => Ok (Item (XTensor (scalar (Some (0:R)))) (scalar (Some 0)) (scalar (Some 0))
     (scalar (Some (if b is [:: p] then p.2 else 0))) [:: Tensor [:: 1%N] [:: Some 0]]) in
  (construct fresh (@size (R * R)) true true false S mm ev probe (Iterator _ [:: [:: (0, 0)]; [:: (0, 1 + 1)]; [:: (0, 1)]]) (Some 3%N) None true).1 = Err RuntimeError.
Proof.
move=> S ev; apply: (@C83_iterator_compared _ _ _ _ _ _ _ _ _ _ _ _ _ _ _ _ _ _ erefl _ erefl erefl) => //; first by eexists.
by rewrite /total_loss !big_seq1 /val /= ex_not_close.
Qed.
