(* C67-C69: averaging over Lanczos runs, cached runs, spectral boundaries. *)
From Coq Require Import Reals Lra String.
From Coquelicot Require Import Coquelicot.
From mathcomp Require Import all_ssreflect all_algebra.
From Verif Require Import PyPrelude Tensor Spec Numpy Submatrix Inverse Estimators RInst Calculus ROrd Lanczos Props_Spectrum.
Set Implicit Arguments.
Unset Strict Implicit.
Unset Printing Implicit Defensive.
Import GRing.Theory Num.Theory.
Local Open Scope ring_scope.

(* ---- lemmas ---- *)
Lemma size_dadd p q : size p = size q -> size (dadd p q) = size p.
Proof. by move=> h; rewrite size_map size_zip h minnn. Qed.
Lemma nth_dadd p q j : size p = size q -> (j < size p)%N -> nth R0 (dadd p q) j = nth R0 p j + nth R0 q j.
Proof. by move=> h hj; rewrite (nth_map (R0, R0)) ?size_zip -?h ?minnn // nth_zip. Qed.
Lemma size_dscale c p : size (dscale c p) = size p. Proof. exact: size_map. Qed.
Lemma nth_dscale c p j : (j < size p)%N -> nth R0 (dscale c p) j = c * nth R0 p j.
Proof. by move=> h; rewrite (nth_map R0). Qed.
Lemma size_ddiv p c : size (ddiv p c) = size p. Proof. exact: size_map. Qed.
Lemma nth_ddiv p c j : (j < size p)%N -> nth R0 (ddiv p c) j = nth R0 p j / c.
Proof. by move=> h; rewrite (nth_map R0). Qed.

Section Generic.
Variable draw : nat -> res lrun.
Variable from : lrun -> res spectrum.
Variables (num_points : nat) (xs : seq R) (dens : lrun -> seq R).
Variable runs : nat -> lrun.

(* arithmetic mean of the densities of the first n runs *)
Definition mean_density (n : nat) : seq R :=
  mkseq (fun j => (\sum_(i < n) nth R0 (dens (runs i)) j) / n%:R) num_points.

Lemma loop_mean todo n g grid avg :
  (forall i, (n <= i < n + todo)%N -> draw (g + (i - n)) = Ok (runs i) /\
     from (runs i) = Ok (xs, dens (runs i)) /\ size (dens (runs i)) = num_points) ->
  size avg = num_points -> (forall j, (j < num_points)%N -> nth R0 avg j * n%:R = \sum_(i < n) nth R0 (dens (runs i)) j) ->
  (0 < n + todo)%N -> ((0 < n)%N -> grid = Some xs /\ avg = mean_density n) ->
  average_loop draw from todo n g grid avg = (g + todo, Ok (xs, mean_density (n + todo)))%N.
Proof.
elim: todo n g grid avg => [|k IH] n g grid avg hr hs ha hn hg /=.
  by rewrite addn0 in hn *; have [-> ->] := hg hn; rewrite addn0.
have [] := hr n; first by rewrite leqnn addnS ltnS leq_addr.
rewrite subnn addn0 => -> [-> hsz].
have n1 : (n.+1%:R : R) != 0 by rewrite pnatr_eq0.
have hsz' : size (dscale (1 - 1 / n.+1%:R) avg) = size (ddiv (dens (runs n)) n.+1%:R) by rewrite size_dscale size_ddiv hs.
have key j : (j < num_points)%N -> nth R0 (dadd (dscale (1 - 1 / n.+1%:R) avg) (ddiv (dens (runs n)) n.+1%:R)) j * n.+1%:R =
    \sum_(i < n.+1) nth R0 (dens (runs i)) j.
  move=> hj; rewrite nth_dadd // ?size_dscale ?hs // nth_dscale ?hs // nth_ddiv ?hsz //.
  rewrite mulrDl divfK // big_ord_recr /= -ha //; congr (_ + _).
  by rewrite mulrAC mulrBl !mul1r mulVf // mulrSr addrK mulrC.
rewrite (IH n.+1 g.+1 _ _) //.
- by rewrite addSn addnS addSnnS.
- move=> i /andP [h1 h2]; have := hr i; rewrite (ltnW h1) -addSnnS h2 => /(_ isT).
  by rewrite addSnnS -subSn.
- by rewrite size_dadd // size_dscale.
- move=> _; split=> //; apply: (@eq_from_nth _ R0); first by rewrite size_dadd // size_dscale size_mkseq.
  move=> j; rewrite size_dadd // size_dscale hs => hj; rewrite nth_mkseq // -key //.
  by rewrite mulfK.
Qed.

(* the cached variant *)
Lemma sum_dens (rs : seq lrun) acc j : (forall r, List.In r rs -> size (dens r) = size acc) -> (j < size acc)%N ->
  size (foldl (fun a (s : spectrum) => dadd a s.2) acc [seq (xs, dens r) | r <- rs]) = size acc /\
  nth R0 (foldl (fun a (s : spectrum) => dadd a s.2) acc [seq (xs, dens r) | r <- rs]) j = nth R0 acc j + \sum_(r <- rs) nth R0 (dens r) j.
Proof.
elim: rs acc => [|r rs IH] acc hs hj /=; first by rewrite big_nil addr0.
have hr : size acc = size (dens r) by rewrite hs //; left.
have sz := size_dadd hr.
have [||-> ->] := IH (dadd acc (dens r)); first by move=> r' hr'; rewrite sz hs //; right.
  by rewrite sz.
by rewrite sz nth_dadd // big_cons addrA.
Qed.

Lemma mapM_map (f : lrun -> res spectrum) (h : lrun -> spectrum) rs :
  (forall r, List.In r rs -> f r = Ok (h r)) -> mapM f rs = Ok (map h rs).
Proof.
elim: rs => //= r rs IH hh; rewrite hh; last by left.
by rewrite IH // => r' hr'; apply: hh; right.
Qed.

Lemma In_mkseq (T : Type) (f : nat -> T) n x : List.In x (mkseq f n) -> exists2 i, (i < n)%N & x = f i.
Proof.
have gen m k : List.In x (map f (seq.iota m k)) -> exists2 i, (m <= i < m + k)%N & x = f i.
  elim: k m => //= k IH m [<-|/IH [i /andP [h1 h2] ->]].
    by exists m => //; rewrite leqnn addnS ltnS leq_addr.
  by exists i => //; rewrite ltnW // addnS -addSn.
by case/gen => i hi ->; exists i.
Qed.

Lemma mean_of_runs (n : nat) : (0 < n)%N ->
  (forall i, (i < n)%N -> from (runs i) = Ok (xs, dens (runs i)) /\ size (dens (runs i)) = num_points) ->
  (let! spectra := mapM from (mkseq runs n) in
   if spectra is s0 :: rest then
     Ok (s0.1, ddiv (foldl (fun acc s => dadd acc s.2) s0.2 rest) (Posz n)%:~R)
   else Err IndexError) = Ok (xs, mean_density n).
Proof.
case: n => // n _ hr; rewrite (mapM_map (h := fun r => (xs, dens r))); last first.
  by move=> r /(@In_mkseq _ runs) h; have [i hi ->] := h; case: (hr i hi).
rewrite /=; congr Ok; congr (_, _); set tl := [seq runs i | i <- _].
have hsz r : List.In r tl -> size (dens r) = size (dens (runs 0%N)).
  move=> h; have : List.In r (mkseq runs n.+1) by right.
  by move=> {}h; have [i hi ->] := @In_mkseq _ runs _ _ h; have [_ ->] := hr i hi; have [_ ->] := hr 0%N isT.
have s0 : size (dens (runs 0%N)) = num_points by case: (hr 0%N isT).
case: (posnP num_points) => np.
  have zero rs (acc : seq R) : size acc = 0%N -> size (foldl (fun a (s : spectrum) => dadd a s.2) acc rs) = 0%N.
    by elim: rs acc => //= r rs IH acc h; apply: IH; rewrite size_map size_zip h min0n.
  by rewrite /mean_density np; apply: size0nil; rewrite size_ddiv zero // s0.
have szf : size (foldl (fun a (s : spectrum) => dadd a s.2) (dens (runs 0%N)) [seq (xs, dens r) | r <- tl]) = num_points.
  by case: (@sum_dens tl (dens (runs 0%N)) 0 hsz); rewrite s0.
apply: (@eq_from_nth _ R0); first by rewrite size_ddiv size_mkseq szf.
move=> j; rewrite size_ddiv szf => hj; rewrite nth_ddiv ?szf // nth_mkseq //; congr (_ / _).
have [_ ->] := @sum_dens tl (dens (runs 0%N)) j hsz (ltac:(by rewrite s0)).
rewrite big_ord_recl; congr (_ + _).
rewrite /tl big_map -[in LHS](addn0 1%N) iotaDl big_map -(subn0 n) -/(index_iota 0 n) big_mkord subn0.
by apply: eq_bigr => i _.
Qed.
End Generic.

(* the grid depends on the boundaries and hyper-parameters only *)
Lemma from_iter_ok run ncv b np kappa margin : run_size run ncv -> ncv <> 1%N ->
  exists2 p, spectrum_from_iter run b np kappa margin = Ok (linspace (pad_lo b.1 b.2 margin) (pad_hi b.1 b.2 margin) np, p) & size p = np.
Proof.
case: run b => [evals evecs] [lo hi]; rewrite /run_size /= => hr hn; rewrite /spectrum_from_iter hr /= /bump_width.
by case: eqP => // _ /=; eexists; [reflexivity|rewrite size_map size_linspace].
Qed.
Definition log_grid (b : R * R) (np : nat) (margin eps : R) : seq R :=
  let L := pad_lo (ln (b.1 + eps)) (ln (b.2 + eps)) margin in let H := pad_hi (ln (b.1 + eps)) (ln (b.2 + eps)) margin in
  [seq exp (x * ((H - L) / 2%:R) + (H + L) / 2%:R) | x <- linspace (-1) 1 np].
Lemma log_from_iter_ok run ncv b np kappa margin eps : run_size run ncv -> ncv <> 1%N ->
  exists2 p, log_spectrum_from_iter run b np kappa margin eps =
    Ok (log_grid b np margin eps, p) & size p = np.
Proof.
case: run b => [evals evecs] [lo hi]; rewrite /run_size /= => hr hn; rewrite /log_spectrum_from_iter hr /= /bump_width.
by case: eqP => // _ /=; eexists; [reflexivity|rewrite size_map size_linspace].
Qed.

Definition density_of (r : res spectrum) : seq R := if r is Ok s then s.2 else [::].

(* ---------------------------------------------------------------- C67 *)
(* the arithmetic mean, at every grid point, of the densities [ps i] of n runs *)
Definition is_mean (n num_points : nat) (ps : nat -> seq R) (avg : seq R) : Prop :=
  size avg = num_points /\ forall j, (j < num_points)%N -> nth R0 avg j = Rdiv (\sum_(i < n) nth R0 (ps i) j) (INR n).

Lemma mean_is_mean np dens runs n : (0 < n)%N -> is_mean n np (fun i => dens (runs i)) (mean_density np dens runs n).
Proof.
move=> hn; split; first by rewrite size_mkseq.
move=> j hj; rewrite nth_mkseq // natR RdivE //; apply: Rgt_not_eq; exact: INR_pos.
Qed.

Theorem C67_average draw eigsh (runs : nat -> lrun) ncv n num_points kappa boundaries margin tol b g :
  (approximate_boundaries eigsh tol boundaries).2 = Ok b ->
  (0 < n)%N -> ncv <> 1%N -> (forall i, (i < n)%N -> draw (g + i)%N = Ok (runs i) /\ run_size (runs i) ncv) ->
  exists grid avg,
    [/\ approximate_spectrum draw eigsh num_points (Posz n) kappa boundaries margin tol g = ((g + n)%N, Ok (grid, avg)),
       forall i, (i < n)%N -> exists p, spectrum_from_iter (runs i) b num_points kappa margin = Ok (grid, p) &
       is_mean n num_points (fun i => density_of (spectrum_from_iter (runs i) b num_points kappa margin)) avg].
Proof.
move=> hb hn h1 hr; rewrite /approximate_spectrum hb /=.
pose from run := spectrum_from_iter run b num_points kappa margin; pose dens run := density_of (from run).
exists (linspace (pad_lo b.1 b.2 margin) (pad_hi b.1 b.2 margin) num_points), (mean_density num_points dens runs n).
have hf i : (i < n)%N -> from (runs i) = Ok (linspace (pad_lo b.1 b.2 margin) (pad_hi b.1 b.2 margin) num_points, dens (runs i)) /\
    size (dens (runs i)) = num_points.
  move=> hi; have [_ hs] := hr i hi.
  by have [p e sz] := from_iter_ok b num_points kappa margin hs h1; rewrite /dens /from e.
split.
- apply: (@loop_mean draw from num_points (linspace (pad_lo b.1 b.2 margin) (pad_hi b.1 b.2 margin) num_points) dens runs n 0 g None) => //.
  + by move=> i /=; rewrite add0n subn0 => hi; have [e _] := hr i hi; have := hf i hi; split.
  + by rewrite size_nseq.
  + by move=> j hj; rewrite big_ord0 mulr0.
- by move=> i hi; have [e _] := hf i hi; rewrite -/(from (runs i)) e; eexists.
- exact: (mean_is_mean num_points dens runs hn).
Qed.
Print Assumptions C67_average.

Theorem C67_log_average draw eigsh (runs : nat -> lrun) ncv n num_points kappa boundaries margin tol eps b g :
  (approximate_boundaries_abs eigsh tol boundaries).2 = Ok b ->
  (0 < n)%N -> ncv <> 1%N -> (forall i, (i < n)%N -> draw (g + i)%N = Ok (runs i) /\ run_size (runs i) ncv) ->
  exists grid avg,
    [/\ approximate_log_spectrum draw eigsh num_points (Posz n) kappa boundaries margin tol eps g = ((g + n)%N, Ok (grid, avg)),
       forall i, (i < n)%N -> exists p, log_spectrum_from_iter (runs i) b num_points kappa margin eps = Ok (grid, p) &
       is_mean n num_points (fun i => density_of (log_spectrum_from_iter (runs i) b num_points kappa margin eps)) avg].
Proof.
move=> hb hn h1 hr; rewrite /approximate_log_spectrum hb /=.
pose from run := log_spectrum_from_iter run b num_points kappa margin eps; pose dens run := density_of (from run).
exists (log_grid b num_points margin eps), (mean_density num_points dens runs n).
have hf i : (i < n)%N -> from (runs i) = Ok (log_grid b num_points margin eps, dens (runs i)) /\ size (dens (runs i)) = num_points.
  move=> hi; have [_ hs] := hr i hi.
  by have [p e sz] := log_from_iter_ok b num_points kappa margin eps hs h1; rewrite /dens /from e.
split.
- apply: (@loop_mean draw from num_points (log_grid b num_points margin eps) dens runs n 0 g None) => //.
  + by move=> i /=; rewrite add0n subn0 => hi; have [e _] := hr i hi; have := hf i hi; split.
  + by rewrite size_nseq.
  + by move=> j hj; rewrite big_ord0 mulr0.
- by move=> i hi; have [e _] := hf i hi; rewrite -/(from (runs i)) e; eexists.
- exact: (mean_is_mean num_points dens runs hn).
Qed.
Print Assumptions C67_log_average.

(* ---- the caching classes ---- *)
Section Cached.
Variable draw : nat -> res lrun.

Lemma fill_ok (runs : nat -> lrun) k g iters : (forall i, (i < k)%N -> draw (g + i)%N = Ok (runs i)) ->
  fill draw k g iters = ((g + k)%N, iters ++ mkseq runs k, Ok tt).
Proof.
elim: k runs g iters => [|k IH] runs g iters h /=; first by rewrite addn0 cats0.
have := h 0%N isT; rewrite addn0 => ->.
rewrite (IH (fun i => runs i.+1)); last by move=> i hi; rewrite addSnnS; apply: h.
rewrite addSnnS; congr (_, _, _); rewrite cat_rcons; congr (_ ++ _).
rewrite /mkseq /=; congr (_ :: _); rewrite -[in RHS](addn0 1%N) iotaDl -map_comp.
by apply: eq_map.
Qed.

(* fill appends, whatever the draws do; it never touches what is there *)
Lemma fill_grows k g iters : exists idx new,
  [/\ (fill draw k g iters).1.2 = iters ++ new, map draw idx = map Ok new, sorted ltn idx,
      all (fun i => g <= i < (fill draw k g iters).1.1)%N idx &
      (g <= (fill draw k g iters).1.1 <= g + k)%N /\
      ((fill draw k g iters).2 = Ok tt -> size new = k /\ (fill draw k g iters).1.1 = (g + k)%N)].
Proof.
elim: k g iters => [|k IH] g iters /=; first by exists [::], [::]; rewrite cats0 addn0 leqnn.
case E: (draw g) => [run|e] /=.
  have [idx [new [e1 e2 e3 e4 [/andP [e5 e5'] e6]]]] := IH g.+1 (rcons iters run).
  exists (g :: idx), (run :: new); split.
  - by rewrite e1 cat_rcons.
  - by rewrite /= E e2.
  - rewrite /= path_min_sorted //; apply/allP => i hi; by have /allP /(_ i hi) /andP [] := e4.
  - rewrite /= leqnn e5 /=; apply/allP => i hi; have /allP /(_ i hi) /andP [h1 h2] := e4.
    by rewrite h2 ltnW.
  - by rewrite (ltnW e5) -addSnnS e5'; split=> // /e6 [<- ->]; rewrite addSnnS.
by exists [::], [::]; rewrite cats0; split=> //; rewrite leqnSn -addn1 leq_add2l.
Qed.

(* Hyper-parameters of a call and what the class does with one run.  Both classes
   are instances: see plain_class and log_class. *)
Variables (hyper : Type) (from : hyper -> R * R -> lrun -> res spectrum).

(* a program using one object: calls of its method, and other code that makes
   k draws from the same random number generator *)
Inductive event := Call of int & hyper | Other of nat.

Definition do_event (e : event) (c : cached) (g : nat) : nat * cached * seq (res spectrum) :=
  match e with
  | Call n h => let '(g', c', r) := cached_spectrum draw (from h) c n g in (g', c', [:: r])
  | Other k => (g + k, c, [::])%N
  end.
Fixpoint session (es : seq event) (c : cached) (g : nat) : nat * cached * seq (res spectrum) :=
  match es with
  | [::] => (g, c, [::])
  | e :: es' =>
      let '(g', c', rs) := do_event e c g in
      let '(g'', c'', rs') := session es' c' g' in (g'', c'', rs ++ rs')
  end.

Lemma event_grows e c g : exists idx new,
  [/\ c_iters (do_event e c g).1.2 = c_iters c ++ new, map draw idx = map Ok new, sorted ltn idx,
      all (fun i => g <= i < (do_event e c g).1.1)%N idx & (g <= (do_event e c g).1.1)%N /\
      c_bounds (do_event e c g).1.2 = c_bounds c].
Proof.
case: e => [n h|k] /=; last by exists [::], [::]; rewrite cats0 leq_addr.
rewrite /cached_spectrum /get_lanczos_iters.
have [idx [new [e1 e2 e3 e4 [/andP [e5 _] _]]]] := fill_grows (range_len n - size (c_iters c)) g (c_iters c).
by case: (fill draw _ _ _) e1 e4 e5 => [[g' its] r] /= -> e4 e5; exists idx, new.
Qed.

Lemma session_grows es c g : exists idx new,
  [/\ c_iters (session es c g).1.2 = c_iters c ++ new, map draw idx = map Ok new, sorted ltn idx,
      all (fun i => g <= i < (session es c g).1.1)%N idx & (g <= (session es c g).1.1)%N /\
      c_bounds (session es c g).1.2 = c_bounds c].
Proof.
elim: es c g => [|e es IH] c g; first by exists [::], [::]; rewrite /= cats0.
have [i1 [n1 [a1 a2 a3 a4 [a5 a6]]]] := event_grows e c g.
rewrite /=; case: (do_event e c g) a1 a2 a3 a4 a5 a6 => [[g' c'] rs] /= a1 a2 a3 a4 a5 a6.
have [i2 [n2 [b1 b2 b3 b4 [b5 b6]]]] := IH c' g'.
case: (session es c' g') b1 b2 b3 b4 b5 b6 => [[g'' c''] rs'] /= b1 b2 b3 b4 b5 b6.
exists (i1 ++ i2), (n1 ++ n2); split.
- by rewrite b1 a1 catA.
- by rewrite !map_cat a2 b2.
- rewrite (sorted_pairwise ltn_trans) pairwise_cat -!(sorted_pairwise ltn_trans) a3 b3 !andbT.
  apply/allrelP => x y hx hy.
  have /allP /(_ x hx) /andP [_ h1] := a4; have /allP /(_ y hy) /andP [h2 _] := b4.
  exact: leq_trans h1 h2.
- rewrite all_cat; apply/andP; split; apply/allP => x hx.
    by have /allP /(_ x hx) /andP [-> h1] := a4; rewrite /= (leq_trans h1).
  by have /allP /(_ x hx) /andP [h1 ->] := b4; rewrite (leq_trans a5 h1).
- by rewrite (leq_trans a5 b5) b6 a6.
Qed.

(* largest number of runs asked for *)
Definition most_runs (es : seq event) : nat := foldr (fun e m => maxn (if e is Call n _ then range_len n else 0%N) m) 0%N es.
Definition other_draws (es : seq event) : nat := foldr (fun e m => ((if e is Other k then k else 0) + m)%N) 0%N es.

Lemma session_size es c g : (forall i, exists run, draw i = Ok run) ->
  size (c_iters (session es c g).1.2) = maxn (size (c_iters c)) (most_runs es) /\
  (session es c g).1.1 = (g + other_draws es + (size (c_iters (session es c g).1.2) - size (c_iters c)))%N.
Proof.
move=> hd; elim: es c g => [|e es IH] c g /=; first by rewrite maxn0 subnn !addn0.
have step : size (c_iters (do_event e c g).1.2) = maxn (size (c_iters c)) (if e is Call n _ then range_len n else 0%N) /\
  (do_event e c g).1.1 = (g + (if e is Other k then k else 0) + (size (c_iters (do_event e c g).1.2) - size (c_iters c)))%N.
  case: e => [n h|k] /=; last by rewrite maxn0 subnn addn0.
  rewrite /cached_spectrum /get_lanczos_iters.
  pose runs i := if draw (g + i)%N is Ok r then r else (Tensor [::] [::], Tensor [::] [::]).
  rewrite (@fill_ok runs) /=; last by move=> i _; rewrite /runs; have [r ->] := hd (g + i)%N.
  by rewrite size_cat size_mkseq addn0 addKn; split=> //; rewrite maxnE.
case: (do_event e c g) step => [[g' c'] rs] /= [s1 s2]; have [t1 t2] := IH c' g'.
case: (session es c' g') t1 t2 => [[g'' c''] rs'] /= t1 t2; split; first by rewrite t1 s1 maxnA.
have l1 : (size (c_iters c) <= size (c_iters c'))%N by rewrite s1 leq_maxl.
have l2 : (size (c_iters c') <= size (c_iters c''))%N by rewrite t1 leq_maxl.
have e' : (size (c_iters c'') - size (c_iters c) = (size (c_iters c') - size (c_iters c)) + (size (c_iters c'') - size (c_iters c')))%N.
  by rewrite addnC addnBA // subnK.
by rewrite t2 s2 e' !addnA; congr (_ + _)%N; rewrite addnAC.
Qed.

(* result of a call on an object that holds enough runs *)
Lemma call_result (n : nat) h c g r :
  (cached_spectrum draw (from h) c (Posz n) g).2 = Ok r ->
  let c' := (cached_spectrum draw (from h) c (Posz n) g).1.2 in
  (n <= size (c_iters c'))%N /\
  forall c'' g'', c_bounds c'' = c_bounds c -> (exists tl, c_iters c'' = c_iters c' ++ tl) ->
    (cached_spectrum draw (from h) c'' (Posz n) g'') = (g'', c'', Ok r).
Proof.
rewrite /cached_spectrum /get_lanczos_iters /=.
have [idx [new [e1 e2 e3 e4 [e5 e6]]]] := fill_grows (n - size (c_iters c)) g (c_iters c).
case: (fill draw _ _ _) e1 e4 e5 e6 => [[g' its] [[]|//]] /= e1 e4 e5 e6 hr.
have [sz _] := e6 erefl.
have hn : (n <= size its)%N by rewrite e1 size_cat sz -maxnE leq_maxr.
split=> // c'' g'' hb [tl ht].
have -> : (n - size (c_iters c''))%N = 0%N by apply/eqP; rewrite subn_eq0 ht size_cat (leq_trans hn) // leq_addr.
rewrite /= ht take_cat; have -> : (if (n < size its)%N then take n its else its ++ take (n - size its) tl) = take n its.
  case: ltnP => // hh; have -> : n = size its by apply/eqP; rewrite eqn_leq hn hh.
  by rewrite subnn take0 cats0 take_size.
by rewrite {2}hb hr; case: c'' hb ht => i'' b'' /= _ <-.
Qed.
End Cached.

(* ---------------------------------------------------------------- C68 *)
(* Over any use of an object (its calls and other code drawing from the same random
   number generator): the runs it holds only grow at the end, and they are the
   results of the draws the object made, in that order. *)
Theorem C68_runs_are_kept draw hyper (from : hyper -> R * R -> lrun -> res spectrum) es c g :
  exists idx new,
    [/\ c_iters (session draw from es c g).1.2 = c_iters c ++ new, map draw idx = map Ok new, sorted ltn idx,
       all (fun i => g <= i < (session draw from es c g).1.1)%N idx &
       c_bounds (session draw from es c g).1.2 = c_bounds c].
Proof. by have [idx [new [h1 h2 h3 h4 [_ h5]]]] := session_grows draw from es c g; exists idx, new. Qed.
Print Assumptions C68_runs_are_kept.

(* as many runs are made as the most demanding call asked for *)
Theorem C68_number_of_runs draw hyper (from : hyper -> R * R -> lrun -> res spectrum) es b g :
  (forall i, exists run, draw i = Ok run) ->
  let '(g', c', _) := session draw from es (Cached [::] b) g in
  size (c_iters c') = most_runs es /\ g' = (g + other_draws es + most_runs es)%N.
Proof.
move=> hd; have := session_size from es (Cached [::] b) g hd.
by case: (session _ _ _ _ _) => [[g' c'] rs] /= [h1 h2]; rewrite h2 h1 max0n subn0.
Qed.
Print Assumptions C68_number_of_runs.

(* without other code drawing numbers, they are the first runs of the generator *)
Theorem C68_first_runs draw hyper (from : hyper -> R * R -> lrun -> res spectrum) es b g :
  (forall i, exists run, draw i = Ok run) -> other_draws es = 0%N ->
  map Ok (c_iters (session draw from es (Cached [::] b) g).1.2) = map draw (seq.iota g (most_runs es)).
Proof.
move=> hd ho; have := C68_number_of_runs from es b g hd.
have [idx [new [h1 h2 h3 h4 _]]] := C68_runs_are_kept draw from es (Cached [::] b) g.
case: (session _ _ _ _ _) h1 h4 => [[g' c'] rs] /= h1 h4 [sz eg]; rewrite h1 -h2; congr map.
rewrite ho addn0 in eg; rewrite eg in h4.
apply: (@irr_sorted_eq _ ltn ltn_trans ltnn _ _ h3 (iota_ltn_sorted g (most_runs es))).
have us : uniq idx by apply: sorted_uniq h3; [exact: ltn_trans|exact: ltnn].
have sub : {subset idx <= seq.iota g (most_runs es)} by move=> i hi; rewrite mem_iota; move/allP: h4 => /(_ i hi).
have szi : size idx = most_runs es by rewrite -sz h1 -(size_map draw) h2 size_map.
have [] := uniq_min_size us sub; first by rewrite size_iota szi.
by move=> _ e; exact: e.
Qed.
Print Assumptions C68_first_runs.

(* a call repeated later in the history, with anything in between, returns the same *)
Theorem C68_repeated_call draw hyper (from : hyper -> R * R -> lrun -> res spectrum) (n : nat) h es c g r :
  let '(g1, c1, r1) := cached_spectrum draw (from h) c (Posz n) g in
  r1 = Ok r ->
  let '(g2, c2, _) := session draw from es c1 g1 in
  cached_spectrum draw (from h) c2 (Posz n) g2 = (g2, c2, Ok r).
Proof.
have := @call_result draw hyper from n h c g r.
have := event_grows draw from (Call (Posz n) h) c g; rewrite /=.
case: (cached_spectrum draw (from h) c n g) => [[g1 c1] r1] /= [_ [_ [_ _ _ _ [_ hb]]]] hc hr.
have [_ {}hc] := hc hr.
have [idx [new [h1 _ _ _ [_ h5]]]] := session_grows draw from es c1 g1.
case: (session draw from es c1 g1) h1 h5 => [[g2 c2] rs] /= h1 h5.
by apply: hc; [rewrite h5|exists new].
Qed.
Print Assumptions C68_repeated_call.

(* the two classes *)
Definition plain_from (h : nat * R * R) (b : R * R) (run : lrun) : res spectrum := spectrum_from_iter run b h.1.1 h.1.2 h.2.
Definition log_from (h : nat * R * R * R) (b : R * R) (run : lrun) : res spectrum :=
  log_spectrum_from_iter run b h.1.1.1 h.1.1.2 h.1.2 h.2.
Lemma plain_class draw c n np kappa margin g :
  cached_approximate_spectrum draw c n np kappa margin g = cached_spectrum draw (plain_from (np, kappa, margin)) c n g.
Proof. by []. Qed.
Lemma log_class draw c n np kappa margin eps g :
  cached_approximate_log_spectrum draw c n np kappa margin eps g = cached_spectrum draw (log_from (np, kappa, margin, eps)) c n g.
Proof. by []. Qed.

(* ---------------------------------------------------------------- C67, cached *)
(* With equal random numbers and hyper-parameters, a new object and the function
   deliver the same. *)
Theorem C67_cached_agrees draw eigsh (runs : nat -> lrun) ncv n num_points kappa boundaries margin tol c g :
  cached_init eigsh tol boundaries = Ok c ->
  (0 < n)%N -> ncv <> 1%N -> (forall i, (i < n)%N -> draw (g + i)%N = Ok (runs i) /\ run_size (runs i) ncv) ->
  (cached_approximate_spectrum draw c (Posz n) num_points kappa margin g).2 =
  (approximate_spectrum draw eigsh num_points (Posz n) kappa boundaries margin tol g).2.
Proof.
rewrite /cached_init; case E: (approximate_boundaries eigsh tol boundaries).2 => [b|//] /= [<-] hn h1 hr.
have [grid [avg [-> hg [sz hm]]]] := C67_average num_points kappa margin E hn h1 hr.
rewrite /cached_approximate_spectrum /cached_spectrum /get_lanczos_iters /= subn0.
rewrite (@fill_ok draw runs); last by move=> i hi; case: (hr i hi).
rewrite /= take_oversize ?size_mkseq //.
pose from run := spectrum_from_iter run b num_points kappa margin; pose dens run := density_of (from run).
rewrite -[mapM _ _]/(mapM from _) (@mean_of_runs from num_points grid dens runs n) //; last first.
  move=> i hi; have [p ep] := hg i hi; have [_ hs] := hr i hi.
  have [p' ep' sz'] := from_iter_ok b num_points kappa margin hs h1.
  by rewrite /dens /from ep /=; split=> //; move: ep' sz'; rewrite ep => [] [_ ->].
congr Ok; congr (_, _); apply: (@eq_from_nth _ R0); first by rewrite size_mkseq sz.
move=> j; rewrite size_mkseq => hj; rewrite hm //.
by have [_ ->] := mean_is_mean num_points dens runs hn.
Qed.
Print Assumptions C67_cached_agrees.

Theorem C67_cached_log_agrees draw eigsh (runs : nat -> lrun) ncv n num_points kappa boundaries margin tol eps c g :
  cached_log_init eigsh tol boundaries = Ok c ->
  (0 < n)%N -> ncv <> 1%N -> (forall i, (i < n)%N -> draw (g + i)%N = Ok (runs i) /\ run_size (runs i) ncv) ->
  (cached_approximate_log_spectrum draw c (Posz n) num_points kappa margin eps g).2 =
  (approximate_log_spectrum draw eigsh num_points (Posz n) kappa boundaries margin tol eps g).2.
Proof.
rewrite /cached_log_init; case E: (approximate_boundaries_abs eigsh tol boundaries).2 => [b|//] /= [<-] hn h1 hr.
have [grid [avg [-> hg [sz hm]]]] := C67_log_average num_points kappa margin eps E hn h1 hr.
rewrite /cached_approximate_log_spectrum /cached_spectrum /get_lanczos_iters /= subn0.
rewrite (@fill_ok draw runs); last by move=> i hi; case: (hr i hi).
rewrite /= take_oversize ?size_mkseq //.
pose from run := log_spectrum_from_iter run b num_points kappa margin eps; pose dens run := density_of (from run).
rewrite -[mapM _ _]/(mapM from _) (@mean_of_runs from num_points grid dens runs n) //; last first.
  move=> i hi; have [p ep] := hg i hi; have [_ hs] := hr i hi.
  have [p' ep' sz'] := log_from_iter_ok b num_points kappa margin eps hs h1.
  by rewrite /dens /from ep /=; split=> //; move: ep' sz'; rewrite ep => [] [_ ->].
congr Ok; congr (_, _); apply: (@eq_from_nth _ R0); first by rewrite size_mkseq sz.
move=> j; rewrite size_mkseq => hj; rewrite hm //.
by have [_ ->] := mean_is_mean num_points dens runs hn.
Qed.
Print Assumptions C67_cached_log_agrees.

(* no repetition: the function reads an unbound variable, the class indexes an
   empty list *)
Theorem C67_no_repetitions draw eigsh num_points kappa boundaries margin tol eps g c b :
  (approximate_boundaries eigsh tol boundaries).2 = Ok b -> (approximate_boundaries_abs eigsh tol boundaries).2 = Ok b ->
  [/\ (approximate_spectrum draw eigsh num_points 0 kappa boundaries margin tol g).2 = Err NameError,
      (approximate_log_spectrum draw eigsh num_points 0 kappa boundaries margin tol eps g).2 = Err NameError,
      (cached_approximate_spectrum draw c 0 num_points kappa margin g).2 = Err IndexError &
      (cached_approximate_log_spectrum draw c 0 num_points kappa margin eps g).2 = Err IndexError].
Proof.
move=> h1 h2; rewrite /approximate_spectrum /approximate_log_spectrum h1 h2.
rewrite /cached_approximate_spectrum /cached_approximate_log_spectrum /cached_spectrum /get_lanczos_iters.
by rewrite [range_len 0]/= sub0n /= take0.
Qed.
Print Assumptions C67_no_repetitions.

(* A negative number of repetitions is not rejected by the classes: after a call
   with two repetitions, -1 uses the first run and returns the negative of its
   density.  So equal calls do not return equal results either. *)
Theorem C68_negative_repetitions_refuted draw run0 run1 ncv num_points kappa margin b g :
  draw g = Ok run0 -> draw g.+1 = Ok run1 -> run_size run0 ncv -> ncv <> 1%N ->
  let c := Cached [::] b in
  (cached_approximate_spectrum draw c (Negz 0) num_points kappa margin g).2 = Err IndexError /\
  exists p grid, spectrum_from_iter run0 b num_points kappa margin = Ok (grid, p) /\
  let '(g2, c2, _) := cached_approximate_spectrum draw c 2 num_points kappa margin g in
  (cached_approximate_spectrum draw c2 (Negz 0) num_points kappa margin g2).2 = Ok (grid, [seq (- x)%R | x <- p]).
Proof.
move=> d0 d1 hs h1 c; split; first by [].
have [p ep sz] := from_iter_ok b num_points kappa margin hs h1.
exists p; eexists; split; first exact: ep.
rewrite /cached_approximate_spectrum /cached_spectrum /get_lanczos_iters /= d0 /= d1 /= ep /=.
congr Ok; congr (_, _); apply: eq_map => x.
by rewrite -[(Negz 0)%:~R]/(- 1 : R) invrN1 mulrN1.
Qed.
Print Assumptions C68_negative_repetitions_refuted.

(* The defaults of the logarithmic function and class differ, so that with default
   arguments they disagree on the same runs. *)
Theorem C67_default_kappa_refuted : exists (run : lrun) (b : R * R) (margin eps : R),
  [/\ run_size run 2, Rlt R0 b.1 /\ Rlt b.1 b.2, Rlt R0 eps, Rle R0 margin &
   log_spectrum_from_iter run b 1 default_kappa_log margin eps <>
   log_spectrum_from_iter run b 1 default_kappa_log_cached margin eps].
Proof.
have k1 : default_kappa_log = Rdiv (IZR 104) (IZR 100).
  rewrite /default_kappa_log !natR RdivE; last by rewrite INR_IZR_INZ /=; lra.
  by rewrite !INR_IZR_INZ.
have k2 : default_kappa_log_cached = IZR 3 by rewrite /default_kappa_log_cached natR INR_IZR_INZ.
have g1 : Rlt R1 default_kappa_log by rewrite k1; lra.
have g2 : Rlt R1 default_kappa_log_cached by rewrite k2; lra.
have e1 := exp_ineq1 R1 (R1_neq_R0).
pose run : lrun := (Tensor [:: 2]%N [:: Rdiv R1 (IZR 2); R0], Tensor [:: 2; 2]%N [:: R1; R0; R0; R1]).
exists run, (Rdiv R1 (IZR 2), Rminus (exp R1) (Rdiv R1 (IZR 2))), R0, (Rdiv R1 (IZR 2)).
have rs : run_size run 2 by [].
split=> //=; [lra|lra|lra|].
have p1 : Rlt R0 (Rplus (Rdiv R1 (IZR 2)) (Rdiv R1 (IZR 2))) by lra.
have p2 : Rlt (Rdiv R1 (IZR 2)) (Rminus (exp R1) (Rdiv R1 (IZR 2))) by lra.
have dom k : Rlt R1 k -> exists p, [/\ log_spectrum_from_iter run (Rdiv R1 (IZR 2), Rminus (exp R1) (Rdiv R1 (IZR 2))) 1 k R0 (Rdiv R1 (IZR 2)) = Ok p & nth R0 p.2 0 = Rdiv (sqrt (Rmult (IZR 8) (ln k))) (sqrt (Rmult (IZR 2) PI))].
  move=> hk; have [xs [dn [e he hsz hv]]] := @C66_log_spectrum run 2 (Rdiv R1 (IZR 2), Rminus (exp R1) (Rdiv R1 (IZR 2))) 1 k R0 (Rdiv R1 (IZR 2)) rs isT hk (Rle_refl _) p1 p2.
  exists (map exp xs, dn); split=> //; have [-> _ _] := hv 0%N isT.
  have lo : ln (Rplus (Rdiv R1 (IZR 2)) (Rdiv R1 (IZR 2))) = R0.
    by have -> : Rplus (Rdiv R1 (IZR 2)) (Rdiv R1 (IZR 2)) = R1 by [field]; exact: ln_1.
  have hi : ln (Rplus (Rminus (exp R1) (Rdiv R1 (IZR 2))) (Rdiv R1 (IZR 2))) = R1.
    by have -> : Rplus (Rminus (exp R1) (Rdiv R1 (IZR 2))) (Rdiv R1 (IZR 2)) = exp R1 by [ring]; exact: ln_exp.
  have x0 : nth R0 xs 0 = R0.
    by case: he => _ /(_ isT) -> _ _; rewrite /= lo /pad_lo; ring.
  rewrite x0 exp_0 /= lo hi !big_ord_recl big_ord0 /ritz_weight /ritz_value /=.
  rewrite Rsqr_0 mul0r !addr0 /normal_pdf /bump /pad_lo /pad_hi.
  have -> : Rplus (Rabs (Rdiv R1 (IZR 2))) (Rdiv R1 (IZR 2)) = R1 by rewrite Rabs_pos_eq; lra.
  rewrite ln_1; have hr := kappa_root hk; have hp := PI2_pos.
  set S := sqrt (Rmult (IZR 8) _) in hr *; set P := sqrt (Rmult (IZR 2) PI) in hp *.
  have -> : forall A, (- Rdiv (Rsqr (Rminus R0 R0)) A)%R = R0 by move=> A; rewrite Rminus_0_r Rsqr_0 /Rdiv Rmult_0_l; exact: Ropp_0.
  rewrite exp_0; toR; rewrite /Rsqr.
  by rewrite -[INR 2]/(Rplus R1 R1); field; lra.
have [q1 [-> v1]] := dom _ g1; have [q2 [-> v2]] := dom _ g2.
move=> [eq]; move: v1; rewrite eq v2.
have hp := PI2_pos => h.
have {}h : sqrt (Rmult (IZR 8) (ln default_kappa_log_cached)) = sqrt (Rmult (IZR 8) (ln default_kappa_log)).
  by apply: (Rmult_eq_reg_r (Rinv (sqrt (Rmult (IZR 2) PI)))) => //; apply: Rinv_neq_0_compat; lra.
have l1 : Rlt R0 (ln default_kappa_log) by have := ln_increasing R1 default_kappa_log; rewrite ln_1; lra.
have l2 : Rlt (ln default_kappa_log) (ln default_kappa_log_cached) by apply: ln_increasing; rewrite ?k1 ?k2; lra.
have := sqrt_inj _ _ _ _ h; lra.
Qed.
Print Assumptions C67_default_kappa_refuted.

(* ---------------------------------------------------------------- C69 *)
Section Boundaries.
Variable eigsh : R -> nat -> string -> res (seq R).

(* given boundaries are used unchanged, without calling the eigen-solver *)
Theorem C69_given lo hi tol :
  approximate_boundaries eigsh tol (Some (Some lo, Some hi)) = ([::], Ok (lo, hi)) /\
  approximate_boundaries_abs eigsh tol (Some (Some lo, Some hi)) = ([::], Ok (Rabs lo, Rabs hi)).
Proof. by []. Qed.

(* one call for a missing boundary, with the caller's tolerance *)
Theorem C69_missing tol lo hi x y :
  [/\ eigsh tol 1 "SA" = Ok [:: x] -> approximate_boundaries eigsh tol (Some (None, Some hi)) = ([:: (tol, 1%N, "SA"%string)], Ok (x, hi)),
      eigsh tol 1 "LA" = Ok [:: y] -> approximate_boundaries eigsh tol (Some (Some lo, None)) = ([:: (tol, 1%N, "LA"%string)], Ok (lo, y)),
      eigsh tol 1 "SA" = Ok [:: x] -> eigsh tol 1 "LA" = Ok [:: y] ->
        approximate_boundaries eigsh tol (Some (None, None)) = ([:: (tol, 1%N, "SA"%string); (tol, 1%N, "LA"%string)], Ok (x, y)) &
      eigsh tol 2 "BE" = Ok [:: x; y] -> approximate_boundaries eigsh tol None = ([:: (tol, 2%N, "BE"%string)], Ok (x, y))].
Proof.
split.
- by move=> h; rewrite /approximate_boundaries /lbind /= h.
- by move=> h; rewrite /approximate_boundaries /lbind /= h.
- by move=> h1 h2; rewrite /approximate_boundaries /lbind /= h1 /= h2.
- by move=> h; rewrite /approximate_boundaries h.
Qed.

Theorem C69_missing_abs tol lo hi x y :
  [/\ eigsh tol 1 "SM" = Ok [:: x] -> approximate_boundaries_abs eigsh tol (Some (None, Some hi)) = ([:: (tol, 1%N, "SM"%string)], Ok (Rabs x, Rabs hi)),
      eigsh tol 1 "LM" = Ok [:: y] -> approximate_boundaries_abs eigsh tol (Some (Some lo, None)) = ([:: (tol, 1%N, "LM"%string)], Ok (Rabs lo, Rabs y)) &
      eigsh tol 1 "SM" = Ok [:: x] -> eigsh tol 1 "LM" = Ok [:: y] -> forall bs, bs = None \/ bs = Some (None, None) ->
        approximate_boundaries_abs eigsh tol bs = ([:: (tol, 1%N, "LM"%string); (tol, 1%N, "SM"%string)], Ok (Rabs x, Rabs y))].
Proof.
split.
- by move=> h; rewrite /approximate_boundaries_abs /lbind /= h.
- by move=> h; rewrite /approximate_boundaries_abs /lbind /= h.
- by move=> h1 h2 bs [->|->]; rewrite /approximate_boundaries_abs /lbind /= h2 /= h1.
Qed.

(* errors of the solver, and any other number of values than the requested one, end the
   estimation of the missing boundaries *)
Theorem C69_solver_fails tol lo hi :
  let fails (which : string) (k : nat) (e : exn) :=
    eigsh tol k which = Err e \/ e = ValueError /\ exists2 xs, eigsh tol k which = Ok xs & size xs <> k in
  [/\ forall e, fails "SA"%string 1%N e -> (approximate_boundaries eigsh tol (Some (None, hi))).2 = Err e,
      forall e, fails "LA"%string 1%N e -> (approximate_boundaries eigsh tol (Some (Some lo, None))).2 = Err e,
      forall e, fails "BE"%string 2%N e -> (approximate_boundaries eigsh tol None).2 = Err e,
      forall e, fails "LM"%string 1%N e -> (approximate_boundaries_abs eigsh tol (Some (Some lo, None))).2 = Err e &
      forall e, fails "SM"%string 1%N e -> (approximate_boundaries_abs eigsh tol (Some (None, Some lo))).2 = Err e].
Proof.
split=> e [h|[-> [[|x [|y [|z xs]]] h //= _]]]; rewrite /approximate_boundaries /approximate_boundaries_abs /lbind /= ?h //.
Qed.

(* never more than one call per missing boundary, whatever the solver does *)
Definition missing (bs : option (option R * option R)) : nat :=
  match bs with
  | None => 2
  | Some (a, b) => (if a is Some _ then 0 else 1) + (if b is Some _ then 0 else 1)
  end.
Theorem C69_number_of_calls tol bs :
  (size (approximate_boundaries eigsh tol bs).1 <= missing bs)%N /\
  (size (approximate_boundaries_abs eigsh tol bs).1 <= missing bs)%N /\
  all (fun k => k.1.1 == tol) ((approximate_boundaries eigsh tol bs).1 ++ (approximate_boundaries_abs eigsh tol bs).1).
Proof.
rewrite /approximate_boundaries /approximate_boundaries_abs /lbind /eigsh1.
case: bs => [[[a|] [b|]]|] /=; rewrite ?eqxx //;
  repeat (case: (eigsh _ _ _) => [[|? [|? ?]]|?] /=; rewrite ?eqxx //).
Qed.

(* With a solver that finds the extreme eigenvalues, the boundaries bracket the
   spectrum (plain) resp. the absolute values of the spectrum (logarithmic). *)
Variable spec : R -> Prop. (* the eigenvalues of A *)
Definition least (P : R -> Prop) (x : R) : Prop := P x /\ forall y, P y -> Rle x y.
Definition greatest (P : R -> Prop) (x : R) : Prop := P x /\ forall y, P y -> Rle y x.
Definition abs_spec (x : R) : Prop := exists2 y, spec y & x = Rabs y.
Definition eigsh_exact (tol : R) : Prop :=
  [/\ forall xs, eigsh tol 2 "BE" = Ok xs -> exists x y, [/\ xs = [:: x; y], least spec x & greatest spec y],
      forall xs, eigsh tol 1 "SA" = Ok xs -> exists2 x, xs = [:: x] & least spec x,
      forall xs, eigsh tol 1 "LA" = Ok xs -> exists2 x, xs = [:: x] & greatest spec x,
      forall xs, eigsh tol 1 "SM" = Ok xs -> exists2 x, xs = [:: x] & spec x /\ forall y, spec y -> Rle (Rabs x) (Rabs y) &
      forall xs, eigsh tol 1 "LM" = Ok xs -> exists2 x, xs = [:: x] & spec x /\ forall y, spec y -> Rle (Rabs y) (Rabs x)].

Theorem C69_estimates tol (bs : option (option R * option R)) lo hi : eigsh_exact tol ->
  ((approximate_boundaries eigsh tol bs).2 = Ok (lo, hi) ->
     (if bs is Some (Some a, _) then lo = a else least spec lo) /\
     (if bs is Some (_, Some b) then hi = b else greatest spec hi)) /\
  ((approximate_boundaries_abs eigsh tol bs).2 = Ok (lo, hi) ->
     (if bs is Some (Some a, _) then lo = Rabs a else least abs_spec lo) /\
     (if bs is Some (_, Some b) then hi = Rabs b else greatest abs_spec hi)).
Proof.
move=> [hBE hSA hLA hSM hLM].
have sm x : spec x /\ (forall y, spec y -> Rle (Rabs x) (Rabs y)) -> least abs_spec (Rabs x).
  by move=> [h1 h2]; split; [exists x|move=> y [z hz ->]; exact: h2].
have lm x : spec x /\ (forall y, spec y -> Rle (Rabs y) (Rabs x)) -> greatest abs_spec (Rabs x).
  by move=> [h1 h2]; split; [exists x|move=> y [z hz ->]; exact: h2].
rewrite /approximate_boundaries /approximate_boundaries_abs /lbind /eigsh1; split.
  case: bs => [[[a|] [b|]]|] /=.
  - by move=> [<- <-].
  - case E: (eigsh tol 1 "LA") => [xs|] //=; have [x -> hx] := hLA _ E => /= -[<- <-]; by [].
  - case E: (eigsh tol 1 "SA") => [xs|] //=; have [x -> hx] := hSA _ E => /= -[<- <-]; by [].
  - case E: (eigsh tol 1 "SA") => [xs|] //=; have [x -> hx] /= := hSA _ E.
    by case E': (eigsh tol 1 "LA") => [xs'|] //=; have [y -> hy] := hLA _ E' => /= -[<- <-].
  - by case E: (eigsh tol 2 "BE") => [xs|] //=; have [x [y [-> hx hy]]] := hBE _ E => /= -[<- <-].
case: bs => [[[a|] [b|]]|] /=.
- by move=> [<- <-].
- by case E: (eigsh tol 1 "LM") => [xs|] //=; have [x -> hx] := hLM _ E => /= -[<- <-]; split=> //; apply: lm.
- by case E: (eigsh tol 1 "SM") => [xs|] //=; have [x -> hx] := hSM _ E => /= -[<- <-]; split=> //; apply: sm.
- case E: (eigsh tol 1 "LM") => [xs|] //=; have [x -> hx] /= := hLM _ E.
  by case E': (eigsh tol 1 "SM") => [xs'|] //=; have [y -> hy] := hSM _ E' => /= -[<- <-]; split; [apply: sm|apply: lm].
- case E: (eigsh tol 1 "LM") => [xs|] //=; have [x -> hx] /= := hLM _ E.
  by case E': (eigsh tol 1 "SM") => [xs'|] //=; have [y -> hy] := hSM _ E' => /= -[<- <-]; split; [apply: sm|apply: lm].
Qed.
End Boundaries.
Print Assumptions C69_given.
Print Assumptions C69_missing.
Print Assumptions C69_solver_fails.
Example C69_ex_solver_fails : (approximate_boundaries (fun _ _ _ => Ok [:: 1; 2%:R]) 0 (Some (None, Some 3%:R))).2 = Err ValueError.
Proof.
have [h _ _ _ _] := C69_solver_fails (fun _ _ _ => Ok [:: 1; 2%:R]) 0 0 (Some 3%:R).
by apply: h; right; split=> //; exists [:: 1; 2%:R].
Qed.
Print Assumptions C69_missing_abs.
Print Assumptions C69_number_of_calls.
Print Assumptions C69_estimates.
