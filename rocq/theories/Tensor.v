(* Row-major tensors and the torch tensor operations used by curvlinops.
   A tensor is its shape and its row-major data.  torch's strides, devices,
   dtypes and autograd graph are not modelled here. *)
From mathcomp Require Import all_ssreflect all_algebra.
From Verif Require Import PyPrelude.
Set Implicit Arguments.
Unset Strict Implicit.
Unset Printing Implicit Defensive.

(* torch.Size.numel() *)
Definition numel (s : seq nat) : nat := foldr muln 1 s.

Record tensor (T : Type) := Tensor { tshape : seq nat; tdata : seq T }.
Arguments Tensor {T}.

Section Ops.
Variable T : Type.
Implicit Types (t : tensor T) (s : seq nat).

Definition wf t := size (tdata t) == numel (tshape t).
Definition ndim t := size (tshape t).

(* Tensor.reshape( *s ): torch raises RuntimeError when sizes do not match. *)
Definition treshape s t : res (tensor T) :=
  if numel s == size (tdata t) then Ok (Tensor s (tdata t)) else Err RuntimeError.

(* Tensor.unsqueeze(-1) *)
Definition unsqueeze_last t := Tensor (rcons (tshape t) 1) (tdata t).

(* Tensor.squeeze(-1): drops a trailing axis of length one, else no effect. *)
Definition squeeze_last t :=
  if (tshape t != [::]) && (last 0 (tshape t) == 1)
  then Tensor (take (size (tshape t)).-1 (tshape t)) (tdata t) else t.

(* Tensor.split(sizes) along the first axis; torch raises RuntimeError unless
   the sizes add up to the axis length. *)
Definition tsplit (sizes : seq nat) t : res (seq (tensor T)) :=
  if sumn sizes == head 0 (tshape t) then
    let row := numel (behead (tshape t)) in
    Ok [seq Tensor (p.1 :: behead (tshape t)) p.2
       | p <- zip sizes (reshape [seq n * row | n <- sizes] (tdata t))]
  else Err RuntimeError.

(* torch.cat along the first axis; RuntimeError for an empty list or when the
   other axes disagree.  (torch's legacy exception for 1d empty tensors is not
   modelled; all uses in curvlinops concatenate tensors of equal rank.) *)
Definition tcat (ts : seq (tensor T)) : res (tensor T) :=
  match ts with
  | [::] => Err RuntimeError
  | t0 :: _ =>
      if all (fun t => (0 < ndim t) && (behead (tshape t) == behead (tshape t0))) ts
      then Ok (Tensor (sumn [seq head 0 (tshape t) | t <- ts] :: behead (tshape t0))
                      (flatten [seq tdata t | t <- ts]))
      else Err RuntimeError
  end.

(* the flat content of a tensor list: concatenated row-major entries *)
Definition flat (X : seq (tensor T)) : seq T := flatten [seq tdata t | t <- X].

End Ops.

Section Eq.
Variable T : eqType.
Definition tensor_enc (t : tensor T) := (tshape t, tdata t).
Definition tensor_dec (p : seq nat * seq T) := Tensor p.1 p.2.
Lemma tensor_encK : cancel tensor_enc tensor_dec.
Proof. by case. Qed.
Definition tensor_eqMixin := CanEqMixin tensor_encK.
Canonical tensor_eqType := EqType (tensor T) tensor_eqMixin.
End Eq.

Section Lemmas.
Variable T : Type.
Implicit Types (t : tensor T) (s : seq nat).

Lemma numel_rcons s K : numel (rcons s K) = numel s * K.
Proof. by elim: s => [|n s IH] /=; rewrite ?muln1 ?mul1n // IH mulnA. Qed.

Lemma numel_cons n s : numel (n :: s) = n * numel s.
Proof. by []. Qed.

Lemma numel_cat s1 s2 : numel (s1 ++ s2) = numel s1 * numel s2.
Proof. by elim: s1 => [|n s IH] /=; rewrite ?mul1n // IH mulnA. Qed.

Lemma size_flat (X : seq (tensor T)) : all (@wf T) X ->
  size (flat X) = sumn [seq numel (tshape t) | t <- X].
Proof.
move=> h; rewrite size_flatten /shape -map_comp; congr sumn.
by elim: X h => //= t X IH /andP[/eqP -> /IH ->].
Qed.

Lemma map_unsqueeze_data (X : seq (tensor T)) :
  flat [seq unsqueeze_last t | t <- X] = flat X.
Proof. by rewrite /flat -map_comp. Qed.

Lemma squeeze_unsqueeze s d : squeeze_last (Tensor (rcons s 1) d) = Tensor s d :> tensor T.
Proof.
rewrite /squeeze_last /= size_rcons /= last_rcons eqxx andbT.
by rewrite -cats1 take_size_cat //; case: s.
Qed.

Lemma sumn_map_mulr (s : seq nat) k : sumn [seq n * k | n <- s] = sumn s * k.
Proof. by elim: s => //= n s ->; rewrite mulnDl. Qed.

Lemma map_fst_zip A B (x : seq A) (y : seq B) : size x <= size y -> map fst (zip x y) = x.
Proof. exact: unzip1_zip. Qed.

End Lemmas.

Section Rows.
Variable T : Type.

Lemma flatten_mkseq_uniform (f : nat -> nat -> T) n m :
  size (flatten (mkseq (fun i => mkseq (f i) m) n)) = n * m.
Proof.
rewrite size_flatten /shape -map_comp /mkseq.
rewrite (@eq_map _ _ _ (fun=> m)); last by move=> i; rewrite /= size_mkseq.
by elim: n {1}0 => //= n IH j; rewrite IH mulSn.
Qed.

Lemma nth_flatten_uniform (x0 : T) (ss : seq (seq T)) m :
  all (fun s => size s == m) ss -> forall i k, i < size ss -> k < m ->
  nth x0 (flatten ss) (i * m + k) = nth x0 (nth [::] ss i) k.
Proof.
elim: ss => [|s ss IH] //= /andP[/eqP hs hss] [|i] k hi hk /=.
  by rewrite mul0n add0n nth_cat hs hk.
rewrite mulSn nth_cat hs -addnA ltnNge leq_addr /= addKn.
exact: IH.
Qed.

Lemma nth_mk2 (x0 : T) (f : nat -> nat -> T) n m i k : i < n -> k < m ->
  nth x0 (flatten (mkseq (fun i => mkseq (f i) m) n)) (i * m + k) = f i k.
Proof.
move=> hi hk; rewrite nth_flatten_uniform ?size_mkseq ?nth_mkseq ?nth_mkseq //.
by rewrite /mkseq all_map; apply/allP => j _ /=; rewrite size_map size_iota.
Qed.

End Rows.
