(* Model of curvlinops/sampling.py, trace/hutchinson.py, diagonal/hutchinson.py,
   norm/hutchinson.py and trace/meyer2020hutch.py. *)
From Coq Require Import String.
From mathcomp Require Import all_ssreflect all_algebra.
From Verif Require Import PyPrelude Tensor Spec Numpy Submatrix Inverse.
Set Implicit Arguments.
Unset Strict Implicit.
Unset Printing Implicit Defensive.
Import Order.Theory GRing.Theory Num.Theory.
Local Open Scope ring_scope.

(* ------------------------------------------------------------------ *)
Section Model.
Variable R : comRingType.
Local Notation arr := (tensor R).

(* what one call to numpy.random delivers: binomial(1, 0.5, size) as booleans,
   randn as numbers *)
Record draw := Draw { dr_binom : nat -> bool; dr_randn : nat -> R }.

(* sampling.py 7-17 (rademacher) *)
Definition rademacher (d : draw) (dim : nat) : arr :=
  Tensor [:: dim] (mkseq (fun i => (nat_of_bool (dr_binom d i))%:R * 2%:R - 1) dim).

(* sampling.py 20-29 (normal) *)
Definition normal (d : draw) (dim : nat) : arr := Tensor [:: dim] (mkseq (dr_randn d) dim).

(* sampling.py 32-51 (random_vector).  The format specifier in the error message
   is itself invalid, which also raises ValueError. *)
Definition random_vector (d : draw) (dim : nat) (dist : string) : res arr :=
  if String.eqb dist "rademacher" then Ok (rademacher d dim)
  else if String.eqb dist "normal" then Ok (normal d dim)
  else Err ValueError.

(* numpy.dot of two vectors *)
Definition np_dot (u v : arr) : res R :=
  if tshape u == tshape v then Ok (sumr (size (tdata u)) (fun i => nth 0 (tdata u) i * nth 0 (tdata v) i))
  else Err ValueError.

(* len(A.shape) != 2 or A.shape[0] != A.shape[1] *)
Definition not_square (shape : seq nat) : bool :=
  (size shape != 2%N) || (nth 0%N shape 0 != nth 0%N shape 1).

(* An array or SciPy operator: its shape and '@' on vectors *)
Record mv_op := MvOp { mv_shape : seq nat; mv_dot : arr -> res arr }.

(* trace/hutchinson.py 52-63 and diagonal/hutchinson.py 56-67 (__init__) *)
Definition hutch_init (A : mv_op) : res mv_op :=
  if not_square (mv_shape A) then Err ValueError else Ok A.

(* trace/hutchinson.py 65-82 (sample) *)
Definition trace_sample (A : mv_op) (d : draw) (dist : string) : res R :=
  let dim := nth 0%N (mv_shape A) 1 in
  let! v := random_vector d dim dist in
  let! Av := mv_dot A v in
  np_dot v Av.

(* diagonal/hutchinson.py 69-86 (sample) *)
Definition diag_sample (A : mv_op) (d : draw) (dist : string) : res arr :=
  let dim := nth 0%N (mv_shape A) 1 in
  let! v := random_vector d dim dist in
  let! Av := mv_dot A v in
  ew *%R v Av.

(* norm/hutchinson.py 41-66 (__init__ does not check; sample) *)
Definition frob_sample (A : mv_op) (d : draw) (dist : string) : res R :=
  let dim := nth 0%N (mv_shape A) 1 in
  let! v := random_vector d dim dist in
  let! Av := mv_dot A v in
  np_dot Av Av.

(* ------------------------------------------------------------------ *)
(* Hutch++, trace/meyer2020hutch.py.  Products with A are numbered so that A may
   fail (or be interrupted) at some of them. *)
Variable rng : nat -> draw.
Variable hA : nat -> arr -> res arr.
Variable qr : arr -> res arr.

(* the attributes of HutchPPTraceEstimator (meyer2020hutch.py 91-105) *)
Record hpp := Hpp {
  hp_dim : nat; hp_basis_dim : int; hp_basis_dist : string;
  hp_Q : option arr; hp_tr : option R;
  hp_draws : nat; hp_prods : nat   (* draws and products made so far (ghost) *) }.

(* meyer2020hutch.py 58-105 (__init__) *)
Definition hpp_init (shape : seq nat) (basis_dim : option int) (basis_dist : string) : res hpp :=
  if not_square shape then Err ValueError else
  let dim := nth 0%N shape 1 in
  let bd := if basis_dim is Some b then b else (minn 10 (maxn (dim %/ 100) 1))%:Z in
  if dim%:Z < bd then Err ValueError else
  Ok (Hpp dim bd basis_dist None None 0 0).

(* assignment to _Q and _tr_QT_A_Q (meyer2020hutch.py 146-152); the ghost
   counters after a draw or a product *)
Definition set_subspace (o : hpp) Q t :=
  Hpp (hp_dim o) (hp_basis_dim o) (hp_basis_dist o) Q t (hp_draws o) (hp_prods o).
Definition count (o : hpp) d p :=
  Hpp (hp_dim o) (hp_basis_dim o) (hp_basis_dist o) (hp_Q o) (hp_tr o) d p.

(* state transformers that keep the state reached when an exception is raised *)
Definition draw_vector (o : hpp) (dist : string) : hpp * res arr :=
  match random_vector (rng (hp_draws o)) (hp_dim o) dist with
  | Ok v => (count o (hp_draws o).+1 (hp_prods o), Ok v)
  | Err e => (o, Err e)
  end.
Definition apply_A (o : hpp) (v : arr) : hpp * res arr :=
  (count o (hp_draws o) (hp_prods o).+1, hA (hp_prods o) v).

(* range(n) for a Python integer *)
Definition range_len (z : int) : nat := if z is Posz n then n else 0%N.

(* meyer2020hutch.py 139-145: the list comprehension *)
Fixpoint basis_columns (k : nat) (o : hpp) : hpp * res (seq arr) :=
  match k with
  | 0 => (o, Ok [::])
  | k'.+1 =>
    match draw_vector o (hp_basis_dist o) with
    | (o1, Err e) => (o1, Err e)
    | (o1, Ok v) =>
      match apply_A o1 v with
      | (o2, Err e) => (o2, Err e)
      | (o2, Ok Av) =>
        match basis_columns k' o2 with
        | (o3, Ok cs) => (o3, Ok (Av :: cs))
        | (o3, Err e) => (o3, Err e)
        end
      end
    end
  end.

(* Q[:, i] *)
Definition np_column (Q : arr) (i : nat) : res arr :=
  let n := nth 0%N (tshape Q) 0 in let k := nth 0%N (tshape Q) 1 in
  if (i < k)%N then Ok (Tensor [:: n] (mkseq (fun l => entry k (tdata Q) l i) n)) else Err IndexError.

(* meyer2020hutch.py 148-152: for i in range(basis_dim), accumulating into the
   attribute; [is] are the remaining loop indices *)
Fixpoint trace_loop (idx : seq nat) (o : hpp) : hpp * res unit :=
  match idx with
  | [::] => (o, Ok tt)
  | i :: idx' =>
    match hp_Q o, hp_tr o with
    | Some Q, Some t =>
      match np_column Q i with
      | Err e => (o, Err e)
      | Ok v =>
        match apply_A o v with
        | (o1, Err e) => (o1, Err e)
        | (o1, Ok Av) =>
          match np_dot v Av with
          | Err e => (o1, Err e)
          | Ok s => trace_loop idx' (set_subspace o1 (Some Q) (Some (t + s)))
          end
        end
      end
    | _, _ => (o, Err TypeError)
    end
  end.

(* meyer2020hutch.py 134-152 (maybe_compute_and_cache_subspace) *)
Definition maybe_compute (o : hpp) : hpp * res unit :=
  match hp_Q o, hp_tr o with
  | Some _, Some _ => (o, Ok tt)
  | _, _ =>
    let n := range_len (hp_basis_dim o) in
    match basis_columns n o with
    | (o1, Err e) => (o1, Err e)
    | (o1, Ok cs) =>
      match np_column_stack cs with
      | Err e => (o1, Err e)
      | Ok AS =>
        match qr AS with
        | Err e => (o1, Err e)
        | Ok Q => trace_loop (iota 0 n) (set_subspace o1 (Some Q) (Some 0))
        end
      end
    end
  end.

(* v - Q @ (Q.T @ v) *)
Definition project_out (Q v : arr) : arr :=
  let n := nth 0%N (tshape Q) 0 in let k := nth 0%N (tshape Q) 1 in
  Tensor (tshape v) (mkseq (fun i => nth 0 (tdata v) i -
    sumr k (fun j => entry k (tdata Q) i j * sumr n (fun l => entry k (tdata Q) l j * nth 0 (tdata v) l))) n).

(* meyer2020hutch.py 107-132 (sample) *)
Definition hpp_sample (o : hpp) (dist : string) : hpp * res R :=
  match maybe_compute o with
  | (o1, Err e) => (o1, Err e)
  | (o1, Ok _) =>
    match draw_vector o1 dist with
    | (o2, Err e) => (o2, Err e)
    | (o2, Ok v) =>
      match hp_Q o2, hp_tr o2 with
      | Some Q, Some t =>
        let v' := project_out Q v in
        match apply_A o2 v' with
        | (o3, Err e) => (o3, Err e)
        | (o3, Ok Av) =>
          match np_dot v' Av with
          | Ok s => (o3, Ok (t + s))
          | Err e => (o3, Err e)
          end
        end
      | _, _ => (o2, Err TypeError)
      end
    end
  end.

(* a history of sample calls (exceptions are caught by the caller) *)
Definition hpp_run (o : hpp) (ds : seq string) : hpp :=
  foldl (fun o d => (hpp_sample o d).1) o ds.

End Model.

(* ------------------------------------------------------------------ *)
(* expectations *)
Section Expectation.
Variable R : realFieldType.
Local Notation arr := (tensor R).

(* uniform average over n fair bits *)
Definition avg n (f : {ffun 'I_n -> bool} -> R) : R := (\sum_b f b) / (2 ^ n)%:R.

(* the draw that delivers given bits *)
Definition bits_draw n (b : {ffun 'I_n -> bool}) : draw R :=
  Draw (fun i => if insub i is Some i' then b i' else false) (fun _ => 0).
Definition reals_draw (x : nat -> R) : draw R := Draw (fun _ => false) x.

(* a linear expectation on functions of an infinite vector under which the first n
   coordinates are uncorrelated with second moment 1 (the standard normal
   distribution is one) *)
Definition white (n : nat) (E : ((nat -> R) -> R) -> R) : Prop :=
  [/\ forall f g, (forall x, f x = g x) -> E f = E g,
      forall f g, E (fun x => f x + g x) = E f + E g,
      forall c f, E (fun x => c * f x) = c * E f,
      E (fun _ => 1) = 1 &
      forall i j, (i < n)%N -> (j < n)%N -> E (fun x => x i * x j) = (i == j)%:R].

(* the two values of a Rademacher variable, sampling.py 16-17 (specification) *)
Definition sign (b : bool) : R := (nat_of_bool b)%:R * 2%:R - 1.
Lemma signE b : sign b = if b then 1 else -1.
Proof. by case: b; rewrite /sign ?mul1r ?mul0r ?sub0r // -[2%:R]/(1 + 1) addrK. Qed.
Lemma sign_sq b : sign b * sign b = 1.
Proof. by rewrite signE; case: b; rewrite ?mulr1 ?mulN1r ?opprK. Qed.

(* flipping one bit is a bijection that changes one sign *)
Definition flip n (i : 'I_n) (b : {ffun 'I_n -> bool}) : {ffun 'I_n -> bool} :=
  [ffun j => if j == i then ~~ b j else b j].
Lemma flipK n (i : 'I_n) : involutive (flip i).
Proof. by move=> b; apply/ffunP => j; rewrite !ffunE; case: eqP => //; rewrite negbK. Qed.

Lemma card_bits n : #|{ffun 'I_n -> bool}| = (2 ^ n)%N.
Proof. by rewrite card_ffun card_bool card_ord. Qed.

Lemma pow2_neq0 n : (2 ^ n)%:R != 0 :> R.
Proof. by rewrite pnatr_eq0 expn_eq0. Qed.

Lemma avg_const n c : avg (fun _ : {ffun 'I_n -> bool} => c) = c.
Proof. by rewrite /avg sumr_const card_bits -[c *+ _]mulr_natr mulfK // pow2_neq0. Qed.

Lemma avgD n f g : avg (n := n) (fun b => f b + g b) = avg f + avg g.
Proof. by rewrite /avg big_split mulrDl. Qed.
Lemma avgZ n c f : avg (n := n) (fun b => c * f b) = c * avg f.
Proof. by rewrite /avg -mulr_sumr mulrA. Qed.
Lemma avg_ext n f g : f =1 g -> avg (n := n) f = avg g.
Proof. by move=> h; rewrite /avg (eq_bigr _ (fun b _ => h b)). Qed.
Lemma avg_sum n (I : finType) (F : I -> {ffun 'I_n -> bool} -> R) :
  avg (fun b => \sum_i F i b) = \sum_i avg (F i).
Proof. by rewrite /avg exchange_big /= mulr_suml. Qed.

Lemma avg_sign_moment n (i j : 'I_n) :
  avg (fun b : {ffun 'I_n -> bool} => sign (b i) * sign (b j)) = (i == j)%:R.
Proof.
have [->|ne] := eqVneq i j.
  by rewrite (@avg_ext _ _ (fun _ => 1)) ?avg_const // => b; apply: sign_sq.
rewrite /avg; set S := \sum_b _.
have h : S = - S.
  rewrite {1}/S (reindex_inj (inv_inj (flipK i))) /= -sumrN; apply: eq_bigr => b _.
  rewrite !ffunE eqxx eq_sym (negbTE ne) !signE.
  by case: (b i); case: (b j); rewrite /= ?mulr1 ?mulrN1 ?opprK.
have -> : S = 0.
  apply/eqP; have : S + S == 0 by rewrite {1}h addNr.
  by rewrite -mulr2n mulrn_eq0.
by rewrite mul0r.
Qed.

(* the Rademacher average, seen as a functional on infinite vectors, is white *)
Definition rademacher_E n (f : (nat -> R) -> R) : R :=
  avg (fun b : {ffun 'I_n -> bool} => f (fun i => if insub i is Some i' then sign (b i') else 0)).
Lemma rademacher_white n : white n (@rademacher_E n).
Proof.
split; rewrite /rademacher_E.
- by move=> f g h; apply: avg_ext => b.
- by move=> f g; rewrite avgD.
- by move=> c f; rewrite avgZ.
- by rewrite avg_const.
- move=> i j hi hj; rewrite !insubT.
  by rewrite (avg_sign_moment (Ordinal hi) (Ordinal hj)).
Qed.

Section White.
Variables (n : nat) (E : ((nat -> R) -> R) -> R).
Hypothesis hE : white n E.

Lemma white_sum (I : Type) (r : seq I) (F : I -> (nat -> R) -> R) :
  E (fun x => \sum_(i <- r) F i x) = \sum_(i <- r) E (F i).
Proof.
have [h1 h2 h3 _ h4] := hE; elim: r => [|i r IH].
  rewrite big_nil (h1 _ (fun x => 0 * 1)) ?h3 ?mul0r // => x.
  by rewrite big_nil ?mul0r.
by rewrite big_cons -IH -h2; apply: h1 => x; rewrite big_cons.
Qed.

(* E[v^T M v] = tr M *)
Lemma white_quadratic (M : nat -> nat -> R) :
  E (fun x => \sum_(i < n) x i * (\sum_(j < n) M i j * x j)) = \sum_(i < n) M i i.
Proof.
have [h1 h2 h3 _ h4] := hE.
rewrite white_sum; apply: eq_bigr => i _.
rewrite (h1 _ (fun x => \sum_(j < n) M i j * (x i * x j))); last first.
  by move=> x; rewrite mulr_sumr; apply: eq_bigr => j _; rewrite mulrCA.
rewrite white_sum (bigD1 i) //= h3 h4 // eqxx mulr1 big1 ?addr0 // => j ne.
by rewrite h3 h4 // eq_sym (negbTE (_ : nat_of_ord j != i)) ?mulr0.
Qed.

Lemma white_diag (M : nat -> nat -> R) (i : nat) : (i < n)%N ->
  E (fun x => x i * (\sum_(j < n) M i j * x j)) = M i i.
Proof.
have [h1 h2 h3 _ h4] := hE => hi.
rewrite (h1 _ (fun x => \sum_(j < n) M i j * (x i * x j))); last first.
  by move=> x; rewrite mulr_sumr; apply: eq_bigr => j _; rewrite mulrCA.
rewrite white_sum (bigD1 (Ordinal hi)) //= h3 h4 // eqxx mulr1 big1 ?addr0 // => j ne.
by rewrite h3 h4 // eq_sym (negbTE (_ : nat_of_ord j != i)) ?mulr0.
Qed.

(* E[|M v|^2] = sum of squared entries *)
Lemma white_frob m (M : nat -> nat -> R) :
  E (fun x => \sum_(i < m) (\sum_(j < n) M i j * x j) * (\sum_(j < n) M i j * x j)) =
  \sum_(i < m) \sum_(j < n) M i j ^+ 2.
Proof.
have [h1 h2 h3 _ h4] := hE.
rewrite white_sum; apply: eq_bigr => i _.
rewrite (h1 _ (fun x => \sum_(j < n) x j * (\sum_(k < n) (M i j * M i k) * x k))); last first.
  move=> x; rewrite mulr_suml; apply: eq_bigr => j _.
  rewrite !mulr_sumr; apply: eq_bigr => k _.
  by rewrite [M i j * x j]mulrC -!mulrA.
rewrite (white_quadratic (fun j k => M i j * M i k)).
by apply: eq_bigr => j _; rewrite expr2.
Qed.
End White.

(* values of the drawn vectors *)
Definition draw_val (d : draw R) (dist : string) (i : nat) : R :=
  if String.eqb dist "rademacher" then sign (dr_binom d i) else dr_randn d i.
Definition valid_dist (dist : string) : bool :=
  String.eqb dist "rademacher" || String.eqb dist "normal".

Lemma random_vector_ok (d : draw R) n dist : valid_dist dist ->
  random_vector d n dist = Ok (Tensor [:: n] (mkseq (draw_val d dist) n)).
Proof.
rewrite /random_vector /valid_dist /draw_val.
by case: (String.eqb dist "rademacher") => //=; case: (String.eqb dist "normal").
Qed.
Lemma random_vector_bad (d : draw R) n dist : ~~ valid_dist dist -> random_vector d n dist = Err ValueError.
Proof.
rewrite /random_vector /valid_dist.
by case: (String.eqb dist "rademacher") => //=; case: (String.eqb dist "normal").
Qed.

(* product of A with a drawn vector *)
Lemma mv_mkseq f m n (M : nat -> nat -> R) g : vec_multiplies f m n M ->
  f (Tensor [:: n] (mkseq g n)) = Ok (Tensor [:: m] (mkseq (fun i => \sum_(j < n) M i j * g j) m)).
Proof.
move=> h; have [|| y [h1 h2 h3 h4]] := h (Tensor [:: n] (mkseq g n)) => //=.
  by rewrite /wf /= size_mkseq muln1.
rewrite h1; congr Ok; case: y h1 h2 h3 h4 => s d /= _ -> /eqP /= hs h4; congr Tensor.
rewrite muln1 in hs; apply: (@eq_from_nth _ 0); rewrite ?size_mkseq // hs => i hi.
by rewrite h4 // nth_mkseq //; apply: eq_bigr => j _; rewrite nth_mkseq.
Qed.

Lemma np_dot_mkseq n (f g : nat -> R) :
  np_dot (Tensor [:: n] (mkseq f n)) (Tensor [:: n] (mkseq g n)) = Ok (\sum_(i < n) f i * g i).
Proof.
rewrite /np_dot /= eqxx size_mkseq sumrE; congr Ok.
by apply: eq_bigr => i _; rewrite !nth_mkseq.
Qed.

Section Samples.
Variables (A : mv_op R) (m n : nat) (M : nat -> nat -> R).
Hypothesis hs : mv_shape A = [:: m; n].
Hypothesis hm : vec_multiplies (mv_dot A) m n M.

Lemma trace_sample_val d dist : m = n -> valid_dist dist ->
  trace_sample A d dist = Ok (\sum_(i < n) draw_val d dist i * (\sum_(j < n) M i j * draw_val d dist j)).
Proof.
move=> e hd; rewrite /trace_sample hs /= random_vector_ok //= (mv_mkseq _ hm) /= e.
by rewrite np_dot_mkseq.
Qed.

Lemma frob_sample_val d dist : valid_dist dist ->
  frob_sample A d dist = Ok (\sum_(i < m) (\sum_(j < n) M i j * draw_val d dist j) * (\sum_(j < n) M i j * draw_val d dist j)).
Proof.
by move=> hd; rewrite /frob_sample hs /= random_vector_ok //= (mv_mkseq _ hm) /= np_dot_mkseq.
Qed.

Lemma diag_sample_val d dist : m = n -> valid_dist dist ->
  diag_sample A d dist = Ok (Tensor [:: n] (mkseq (fun i => draw_val d dist i * (\sum_(j < n) M i j * draw_val d dist j)) n)).
Proof.
move=> e hd; rewrite /diag_sample hs /= random_vector_ok //= (mv_mkseq _ hm) /= e /ew /= eqxx.
congr (Ok (Tensor _ _)); rewrite /mkseq.
by rewrite -[zip _ _]/(zip _ _); elim: (iota 0 n) => [|i s IH] //=; rewrite IH.
Qed.

Lemma sample_bad_dist d dist : ~~ valid_dist dist ->
  [/\ trace_sample A d dist = Err ValueError, diag_sample A d dist = Err ValueError &
      frob_sample A d dist = Err ValueError].
Proof. by move=> h; rewrite /trace_sample /diag_sample /frob_sample random_vector_bad. Qed.
End Samples.

Lemma draw_val_bits n (b : {ffun 'I_n -> bool}) (i : 'I_n) : draw_val (bits_draw b) "rademacher" i = sign (b i).
Proof. by rewrite /draw_val /= valK. Qed.

Lemma avg_rademacher_E n (f : (nat -> R) -> R) (F : {ffun 'I_n -> bool} -> R) :
  (forall b, F b = f (fun i => if insub i is Some i' then sign (b i') else 0)) ->
  avg F = rademacher_E n f.
Proof. by move=> h; apply: avg_ext. Qed.

End Expectation.

(* ------------------------------------------------------------------ *)
(* Hutch++ *)
Lemma mkseqS T (f : nat -> T) j : mkseq f j.+1 = f 0%N :: mkseq (fun i => f i.+1) j.
Proof. by rewrite /mkseq /= (iotaDl 1 0 j : iota 1 j = _) -map_comp. Qed.

Section HutchPP.
Variable R : realFieldType.
Local Notation arr := (tensor R).
Variables (rng : nat -> draw R) (hA : nat -> arr -> res arr) (qr : arr -> res arr).
Variables (n k : nat) (bdist : string) (M : nat -> nat -> R).

(* an estimator that has not been sampled (meyer2020hutch.py 99-105) *)
Definition fresh : hpp R := Hpp n k%:Z bdist None None 0 0.

(* Q^T M Q's trace from the entries of Q *)
Definition col_quad (q : arr) (i : nat) : R :=
  \sum_(l < n) entry k (tdata q) l i * (\sum_(m < n) M l m * entry k (tdata q) m i).
Definition sub_trace (q : arr) : R := \sum_(i < k) col_quad q i.
Definition ready (q : arr) (h : nat) : hpp R :=
  Hpp n k%:Z bdist (Some q) (Some (sub_trace q)) (k + h)%N (k + k + h)%N.

(* A S for the first k draws *)
Definition sketch : arr :=
  Tensor [:: n; k] (flatten (mkseq (fun i => mkseq (fun c => \sum_(l < n) M i l * draw_val (rng c) bdist l) k) n)).

(* (I - Q Q^T) v and its quadratic form (meyer2020hutch.py 130-132; specification) *)
Definition residual (q : arr) (v : nat -> R) (i : nat) : R :=
  v i - \sum_(j < k) entry k (tdata q) i j * (\sum_(l < n) entry k (tdata q) l j * v l).
Definition res_quad (q : arr) (v : nat -> R) : R :=
  \sum_(i < n) residual q v i * (\sum_(j < n) M i j * residual q v j).

Hypothesis hAok : forall c, vec_multiplies (hA c) n n M.
Hypothesis hbd : valid_dist bdist.

Lemma basis_columns_ok j (o : hpp R) : hp_dim o = n -> hp_basis_dist o = bdist ->
  basis_columns rng hA j o =
  (count o (hp_draws o + j) (hp_prods o + j),
   Ok (mkseq (fun c => Tensor [:: n] (mkseq (fun i => \sum_(l < n) M i l * draw_val (rng (hp_draws o + c)) bdist l) n)) j)).
Proof.
elim: j o => [|j IH] o hn hb; first by case: o hn hb => *; rewrite /count /= !addn0.
rewrite /= /draw_vector hn hb random_vector_ok //= (mv_mkseq _ (hAok _)) IH //=.
rewrite /count /= !addSnnS [in RHS]mkseqS addn0; congr (_, Ok (_ :: _)).
by rewrite /mkseq; apply: eq_map => c /=; rewrite addSnnS.
Qed.

Lemma trace_loop_ok idx (o : hpp R) q t : tshape q = [:: n; k] -> all (fun i => i < k)%N idx ->
  hp_Q o = Some q -> hp_tr o = Some t ->
  trace_loop hA idx o =
  (set_subspace (count o (hp_draws o) (hp_prods o + size idx)) (Some q) (Some (t + \sum_(i <- idx) col_quad q i)), Ok tt).
Proof.
move=> hq; elim: idx o t => [|i idx IH] o t /= hi hQ ht.
  by rewrite big_nil addr0 addn0 /set_subspace /count /= -hQ -ht; case: o {hQ ht}.
case/andP: hi => hi hidx; rewrite hQ ht /np_column hq /= hi /= (mv_mkseq _ (hAok _)) np_dot_mkseq.
rewrite (IH _ (t + col_quad q i)) //= big_cons addrA.
by rewrite /set_subspace /count /= addSnnS.
Qed.

Lemma maybe_compute_fresh q : (0 < k)%N -> qr sketch = Ok q -> tshape q = [:: n; k] ->
  maybe_compute rng hA qr fresh = (ready q 0, Ok tt).
Proof.
move=> hk hq hs; rewrite /maybe_compute /= basis_columns_ok //= /np_column_stack.
set cs := mkseq _ k; have hcs : size cs = k by rewrite size_mkseq.
have hall : all (fun c => tshape c == [:: n]) cs by apply/allP => c /mapP [c' _ ->].
case E: cs hcs hall => [|c0 cs'] hcs hall; first by move: hk; rewrite -hcs.
have e0 : tshape c0 = [:: n] by move: hall => /= /andP [/eqP].
rewrite e0 hall /=.
have -> : Tensor [:: n; (size cs').+1] (flatten (mkseq (fun i => mkseq (fun c =>
     nth 0 (tdata (nth (Tensor [::] [::]) (c0 :: cs') c)) i) (size cs').+1) n)) = sketch.
  rewrite -[(size cs').+1]/(size (c0 :: cs')) hcs -E /sketch; congr (Tensor _ (flatten _)).
  apply/eq_in_map => i; rewrite mem_iota add0n => /andP [_ hi].
  apply/eq_in_map => c; rewrite mem_iota add0n => /andP [_ hc].
  by rewrite /cs nth_mkseq //= nth_mkseq.
rewrite hq (@trace_loop_ok _ _ q 0) //=; last by apply/allP => i; rewrite mem_iota.
rewrite /set_subspace /count /ready /= add0r size_iota !add0n !addn0.
by rewrite -(subn0 k) -/(index_iota 0 k) big_mkord subn0.
Qed.

Lemma maybe_compute_ready q h : maybe_compute rng hA qr (ready q h) = (ready q h, Ok tt).
Proof. by []. Qed.

Lemma project_out_val q (v : nat -> R) : tshape q = [:: n; k] ->
  project_out q (Tensor [:: n] (mkseq v n)) = Tensor [:: n] (mkseq (residual q v) n).
Proof.
move=> hq; rewrite /project_out hq /=; congr Tensor; apply/eq_in_map => i.
rewrite mem_iota add0n => /andP [_ hi]; rewrite nth_mkseq // sumrE /residual; congr (_ - _).
apply: eq_bigr => j _; rewrite sumrE; congr (_ * _).
by apply: eq_bigr => l _; rewrite nth_mkseq.
Qed.

(* one sample in any state reached without exceptions *)
Lemma sample_ready q h dist : tshape q = [:: n; k] -> valid_dist dist ->
  hpp_sample rng hA qr (ready q h) dist =
  (ready q h.+1, Ok (sub_trace q + res_quad q (draw_val (rng (k + h)) dist))).
Proof.
move=> hq hd; rewrite /hpp_sample maybe_compute_ready /draw_vector /= random_vector_ok //=.
by rewrite project_out_val //= (mv_mkseq _ (hAok _)) np_dot_mkseq /ready /count /= !addnS.
Qed.

Lemma sample_fresh q dist : (0 < k)%N -> qr sketch = Ok q -> tshape q = [:: n; k] -> valid_dist dist ->
  hpp_sample rng hA qr fresh dist =
  (ready q 1, Ok (sub_trace q + res_quad q (draw_val (rng k) dist))).
Proof.
move=> hk hqr hq hd; rewrite /hpp_sample (maybe_compute_fresh hk hqr hq) /draw_vector /= random_vector_ok //=.
by rewrite project_out_val //= (mv_mkseq _ (hAok _)) np_dot_mkseq /ready /count /= !addnS !addn0.
Qed.

Lemma sample_after q ds dist : (0 < k)%N -> qr sketch = Ok q -> tshape q = [:: n; k] ->
  all valid_dist ds -> valid_dist dist ->
  hpp_sample rng hA qr (hpp_run rng hA qr fresh ds) dist =
  (ready q (size ds).+1, Ok (sub_trace q + res_quad q (draw_val (rng (k + size ds)) dist))).
Proof.
move=> hk hqr hq hds hd.
have hrun : (0 < size ds)%N -> hpp_run rng hA qr fresh ds = ready q (size ds).
  elim/last_ind: ds hds => [//|ds d IH]; rewrite all_rcons => /andP [hd' hds] _.
  rewrite /hpp_run -cats1 foldl_cat /= -/(hpp_run rng hA qr fresh ds) size_cat addn1.
  case: (posnP (size ds)) => [/size0nil e|ne]; first by rewrite e /= (sample_fresh hk hqr hq).
  by rewrite IH // sample_ready.
case: (posnP (size ds)) => [/size0nil e|ne]; first by rewrite e /= (sample_fresh hk hqr hq) // addn0.
by rewrite hrun // sample_ready.
Qed.

(* ---- algebra ---- *)
Definition qmx (q : arr) : 'M[R]_(n, k) := \matrix_(i, j) entry k (tdata q) i j.
Definition mmx : 'M[R]_n := \matrix_(i, j) M i j.
Definition orthonormal (q : arr) : Prop := forall i j, (i < k)%N -> (j < k)%N ->
  \sum_(l < n) entry k (tdata q) l i * entry k (tdata q) l j = (i == j)%:R.
Definition proj (q : arr) : 'M[R]_n := 1%:M - qmx q *m (qmx q)^T.

Lemma orthonormal_mx q : orthonormal q -> (qmx q)^T *m qmx q = 1%:M.
Proof.
move=> h; apply/matrixP => i j; rewrite !mxE -h //.
by apply: eq_bigr => l _; rewrite !mxE.
Qed.

Lemma sub_traceE q : sub_trace q = \tr ((qmx q)^T *m mmx *m qmx q).
Proof.
rewrite /sub_trace /mxtrace; apply: eq_bigr => i _; rewrite -mulmxA !mxE /col_quad.
apply: eq_bigr => l _; rewrite !mxE; congr (_ * _).
by apply: eq_bigr => m _; rewrite !mxE.
Qed.

Lemma residualE q (v : nat -> R) (i : 'I_n) : residual q v i = (proj q *m \col_j v j) i 0.
Proof.
rewrite /proj mulmxBl mul1mx -mulmxA !mxE /residual; congr (_ - _).
apply: eq_bigr => j _; rewrite !mxE; congr (_ * _).
by apply: eq_bigr => l _; rewrite !mxE.
Qed.

Lemma proj_sym q : (proj q)^T = proj q.
Proof. by rewrite /proj linearB /= trmx1 trmx_mul trmxK. Qed.

Lemma proj_idem q : orthonormal q -> proj q *m proj q = proj q.
Proof.
move=> h; rewrite {1}/proj mulmxBl mul1mx -mulmxA /proj mulmxBr mulmx1 mulmxA orthonormal_mx //.
by rewrite mul1mx subrr mulmx0 subr0.
Qed.

Lemma res_quadE q (v : nat -> R) :
  res_quad q v = \sum_(i < n) v i * (\sum_(j < n) mxfun (proj q *m mmx *m proj q) i j * v j).
Proof.
pose V : 'cV[R]_n := \col_j v j.
have -> : res_quad q v = (V^T *m (proj q *m mmx *m proj q) *m V) 0 0.
  rewrite -!mulmxA (mulmxA V^T) -{1}[proj q]proj_sym -trmx_mul [RHS]mxE /res_quad.
  apply: eq_bigr => i _; rewrite residualE [X in _ = X * _]mxE; congr (_ * _); rewrite !mxE.
  by apply: eq_bigr => j _; rewrite residualE [X in _ = X * _]mxE.
rewrite -mulmxA mxE; apply: eq_bigr => i _; rewrite !mxE; congr (_ * _).
by apply: eq_bigr => j _; rewrite mxfun_ord [V _ _]mxE.
Qed.

Lemma hpp_trace q : orthonormal q ->
  sub_trace q + \tr (proj q *m mmx *m proj q) = \tr mmx.
Proof.
move=> h; rewrite sub_traceE mxtrace_mulC mulmxA.
rewrite [\tr (proj q *m _ *m _)]mxtrace_mulC mulmxA proj_idem //.
by rewrite /proj mulmxBl mul1mx linearB /= addrC subrK.
Qed.

End HutchPP.
