(* fast_lanczos (papyan2020traces/spectrum.py 374-422) with its in-place updates:
   NumPy arrays are views of buffers, 'v /= c' and 'v_next -= ...' write through them. *)
From Coq Require Import String.
From mathcomp Require Import all_ssreflect all_algebra.
From Verif Require Import PyPrelude Tensor Spec Numpy Submatrix Inverse NumpyMem Estimators Lanczos.
Set Implicit Arguments.
Unset Strict Implicit.
Unset Printing Implicit Defensive.
Import GRing.Theory Num.Theory.
Local Open Scope ring_scope.

Section Mem.
Variable F : rcfType.
Local Notation arr := (tensor F).

Local Notation mem := (memory F).

(* 'A @ v': may allocate, may return a view of existing memory *)
Definition mem_op := mem -> view -> res (mem * view).

Record mstate := MState { m_h : mem; m_v : view; m_prev : view; m_alphas : seq F; m_betas : seq F }.

(* spectrum.py 397-415, one pass.  The right-hand side of 'v_next -= alphas[m] * v' is a
   new array, computed before the write. *)
Definition mem_step (op : mem_op) (ncv : nat) (s : mstate) (m : nat) : res mstate :=
  let! p := op (m_h s) (m_v s) in
  let! q := if m == 0%N then Ok p
            else let! t := ew (fun x y => x - y) (vget p.1 p.2) (scal *%R (nth 0 (m_betas s) (m - 1)) (vget p.1 (m_prev s))) in
                 Ok (alloc p.1 t) in
  let! a := np_dot (vget q.1 q.2) (vget q.1 (m_v s)) in
  let! t := ew (fun x y => x - y) (vget q.1 q.2) (scal *%R a (vget q.1 (m_v s))) in
  let h := vput q.1 q.2 (tdata t) in
  if m == (ncv - 1)%N then Ok (MState h (m_v s) (m_prev s) (rcons (m_alphas s) a) (m_betas s))
  else
    let b := np_norm (vget h q.2) in
    let h := vput h q.2 (tdata (div_by (vget h q.2) b)) in
    Ok (MState h q.2 (m_v s) (rcons (m_alphas s) a) (rcons (m_betas s) b)).

(* spectrum.py 392-400: v = randn(dim), v /= norm(v); h0 is the memory in use before *)
Definition mem_start (h0 : mem) (dim : nat) (x : nat -> F) : mstate :=
  let '(h, v) := alloc h0 (Tensor [:: dim] (mkseq x dim)) in
  MState (vput h v (tdata (div_by (vget h v) (np_norm (vget h v))))) v (View 0 [::] [::]) [::] [::].

Definition mem_passes (op : mem_op) (h0 : mem) dim ncv (x : nat -> F) (k : nat) : res mstate :=
  foldM (mem_step op ncv) (mem_start h0 dim x) (seq.iota 0 k).

Variable eigh : arr -> res (arr * arr).
Variable eigh_tridiagonal : seq F -> seq F -> res (arr * arr).
(* spectrum.py 374-422 *)
Definition mem_lanczos (op : mem_op) (h0 : mem) (dim ncv : nat) (use_tridiagonal : bool) (x : nat -> F) : res (mem * (arr * arr)) :=
  if ncv == 0%N then Err ValueError else
  let! s := mem_passes op h0 dim ncv x ncv in
  let! r := if use_tridiagonal then eigh_tridiagonal (m_alphas s) (m_betas s)
            else eigh (tridiagonal ncv (m_alphas s) (m_betas s)) in
  Ok (m_h s, r).

(* ---- the run ---- *)
(* 'A @ v' returns new memory with the entries of the pure product *)
Definition new_memory (op : mem_op) (A : mv_op F) : Prop := forall h v, valid h v ->
  match op h v, mv_dot A (vget h v) with
  | Ok p, Ok y => [/\ extends h p.1, valid p.1 p.2, (size h <= v_buf p.2)%N & vget p.1 p.2 = y]
  | Err e, Err e' => e = e'
  | _, _ => False
  end.

Variables (op : mem_op) (A : mv_op F) (h0 : mem).
Hypothesis hop : new_memory op A.

(* the state of memory and that of the pure loop after m passes *)
Definition agrees (m : nat) (ms : mstate) (s : lstate F) : Prop :=
  [/\ extends h0 (m_h ms), valid (m_h ms) (m_v ms), vget (m_h ms) (m_v ms) = l_v s,
      m_alphas ms = l_alphas s /\ m_betas ms = l_betas s &
      (0 < m)%N -> valid (m_h ms) (m_prev ms) /\ vget (m_h ms) (m_prev ms) = l_prev s].

Lemma start_agrees x : agrees 0 (mem_start h0 (nth 0%N (mv_shape A) 1) x) (lanczos_start A x).
Proof.
set dim := nth 0%N _ 1; set t := Tensor [:: dim] (mkseq x dim).
have hw : wf t by rewrite /wf /= size_mkseq muln1.
rewrite /mem_start -/t; case e: (alloc h0 t) => [h v].
have hx : extends h0 h by have := alloc_extends h0 t; rewrite e.
have hv : valid h v by have := alloc_valid h0 hw; rewrite e.
have hg : vget h v = t by have := alloc_get h0 t; rewrite e.
have hb : v_buf v = size h0 by have := alloc_buf h0 t; rewrite e.
have hs : v_sh v = [:: dim] by rewrite -[LHS]/(tshape (vget h v)) hg.
rewrite hg; have hd : size (tdata (div_by t (np_norm t))) = numel (v_sh v) by rewrite hs [LHS]/= size_map size_mkseq /= muln1.
split; rewrite //= -/(div_by t (np_norm t)).
- by apply: vput_extends; rewrite // hb.
- exact: vput_valid.
- by rewrite (vput_get hv hd) hs.
Qed.

Lemma step_agrees ncv m ms s : agrees m ms s ->
  match mem_step op ncv ms m, lanczos_step A ncv s m with
  | Ok ms', Ok s' => [/\ m <> (ncv - 1)%N -> agrees m.+1 ms' s', extends h0 (m_h ms'),
      m_alphas ms' = l_alphas s' & m_betas ms' = l_betas s']
  | Err e, Err e' => e = e'
  | _, _ => False
  end.
Proof.
case=> hx hv gv [ea eb] hp; rewrite /mem_step /lanczos_step -gv -ea -eb.
have := hop hv; case: (op _ _) => [[h1 w1]|e] /=; case: (mv_dot A _) => [y|e'] //= [] x1 vl1 fr1 g1.
have x1' := extends_trans hx x1.
(* the vector to be updated *)
set P := (if m == 0%N then Ok (h1, w1) else _); set Q := (if m == 0%N then Ok y else _).
have : match P, Q with Ok p, Ok w => [/\ extends h1 p.1, valid p.1 p.2, (size (m_h ms) <= v_buf p.2)%N & vget p.1 p.2 = w]
       | Err e, Err e' => e = e' | _, _ => False end.
  rewrite /P /Q; case: eqP => [_|m0]; first by split=> //; apply: extends_refl.
  have [|vp gp] := hp; first by rewrite lt0n; apply/eqP.
  rewrite (extends_get x1 vp) gp g1.
  case et: (ew _ _ _) => [t|e] //=.
  have wt : wf t.
    have wa : wf y by rewrite -g1; apply: valid_wf vl1.
    have wb : wf (scal *%R (nth 0 (m_betas ms) (m - 1)) (l_prev s)) by have := valid_wf vp; rewrite gp /wf /= size_map.
    by have [] := ew_wf wa wb et.
  split; [exact: alloc_extends|exact: alloc_valid| |exact: alloc_get].
  by rewrite /=; case: x1.
case: P => [[h2 w]|e]; case: Q => [y'|e'] //= [] x2 vl2 fr2 g2.
have x12 := extends_trans x1 x2.
rewrite g2 (extends_get x12 hv).
case en: (np_dot _ _) => [a|e] //=.
case et: (ew _ _ _) => [t|e] //=.
have wy : wf y' by rewrite -g2; apply: valid_wf vl2.
have wv : wf (scal *%R a (vget (m_h ms) (m_v ms))) by have := valid_wf hv; rewrite /wf /= !size_map.
have [st wt] := ew_wf wy wv et.
have sw : tshape y' = v_sh w by rewrite -g2.
have dt : size (tdata t) = numel (v_sh w) by rewrite (eqP wt) st sw.
have gt : vget (vput h2 w (tdata t)) w = t by rewrite vput_get // -sw -st; case: (t).
have fr0 : (size h0 <= v_buf w)%N by case: hx => a0 _; apply: leq_trans a0 fr2.
have x3 : extends h0 (vput h2 w (tdata t)).
  by apply: vput_extends => //; exact: extends_trans hx x12.
have x3' : extends (m_h ms) (vput h2 w (tdata t)) by apply: vput_extends.
have gd : [seq nth 0 (nth [::] (vput h2 w (tdata t)) (v_buf w)) i | i <- v_idx w] = tdata t.
  by rewrite -[LHS]/(tdata (vget (vput h2 w (tdata t)) w)) gt.
rewrite gt; case: eqP => [ml|ml]; rewrite ea eb; first by split.
rewrite /= gd -/(tdata (div_by t (np_norm t))).
set b := np_norm t; set d := tdata (div_by t b).
have vl3 : valid (vput h2 w (tdata t)) w by apply: vput_valid.
have dd : size d = numel (v_sh w) by rewrite /d /= size_map dt.
have x4 : extends h0 (vput (vput h2 w (tdata t)) w d) by apply: vput_extends.
have x4' : extends (m_h ms) (vput (vput h2 w (tdata t)) w d) by apply: vput_extends.
split=> // _; split=> //=.
- exact: vput_valid.
- by rewrite vput_get // -sw -st.
- by rewrite (extends_get x4' hv) gv; split=> //; apply: extends_valid x4' hv.
Qed.

Lemma foldM_rcons (S : Type) (f : S -> nat -> res S) s0 l i :
  foldM f s0 (rcons l i) = let! s := foldM f s0 l in f s i.
Proof. by elim: l s0 => [|j l IH] s0 /=; [case: (f s0 i) | case: (f s0 j) => //= s; rewrite IH]. Qed.

(* the recorded coefficients are those of the pure loop; older memory is unchanged *)
Lemma passes_agree ncv x k : (k <= ncv)%N ->
  match mem_passes op h0 (nth 0%N (mv_shape A) 1) ncv x k, lanczos_passes A ncv x k with
  | Ok ms, Ok s => [/\ (k < ncv)%N -> agrees k ms s, extends h0 (m_h ms),
      m_alphas ms = l_alphas s & m_betas ms = l_betas s]
  | Err e, Err e' => e = e'
  | _, _ => False
  end.
Proof.
rewrite /mem_passes /lanczos_passes; elim: k => [|k IH] hk.
  by have h := start_agrees x; split=> //; case: h => ? ? ? [].
have hi : seq.iota 0 k.+1 = rcons (seq.iota 0 k) k by rewrite -[k.+1]addn1 iotaD cats1.
have := IH (ltnW hk); rewrite hi !foldM_rcons.
case: (foldM _ _ _) => [ms|e]; case: (foldM _ _ _) => [s|e'] //= [] /(_ hk) hs _ _ _.
have := step_agrees ncv hs; case: (mem_step _ _ _ _) => [ms'|e]; case: (lanczos_step _ _ _ _) => [s'|e'] //.
case=> h1 h2 h3 h4; split=> // hk'; apply: h1 => e.
by move: hk'; rewrite e subn1; case: (ncv) hk => //= n _; rewrite ltnn.
Qed.

Lemma mem_lanczosE ncv flag x :
  match mem_lanczos op h0 (nth 0%N (mv_shape A) 1) ncv flag x, fast_lanczos eigh eigh_tridiagonal A ncv flag x with
  | Ok p, Ok r => extends h0 p.1 /\ p.2 = r
  | Err e, Err e' => e = e'
  | _, _ => False
  end.
Proof.
rewrite /mem_lanczos /fast_lanczos; case: eqP => // n0.
have := passes_agree x (leqnn ncv); case: (mem_passes _ _ _ _ _ _) => [ms|e]; case: (lanczos_passes _ _ _ _) => [s|e'] //= [_ hx -> ->].
case: flag; first by case: (eigh_tridiagonal _ _).
by case: (eigh _).
Qed.

End Mem.
