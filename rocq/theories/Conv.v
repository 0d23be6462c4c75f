(* Model of extract_patches and extract_averaged_patches:
   /repo/curvlinops/kfac_utils.py 144-246.  torch's unfold and einconv's
   index_pattern and get_conv_paddings are library functions, modelled by their
   documented result.  Numbers are exact. *)
From mathcomp Require Import all_ssreflect all_algebra.
From Verif Require Import PyPrelude Tensor Spec.
Set Implicit Arguments.
Unset Strict Implicit.
Unset Printing Implicit Defensive.
Import GRing.Theory.
Local Open Scope ring_scope.

Section Conv.
Variable F : fieldType.
Local Notation tens := (tensor F).

(* row-major data of a 4d tensor, and reading an entry of a 4d tensor whose last
   three axes have length b, c, d *)
Definition mk4 (a b c d : nat) (f : nat -> nat -> nat -> nat -> F) : seq F :=
  mkseq (fun e => f (e %/ d %/ c %/ b) (e %/ d %/ c %% b) (e %/ d %% c) (e %% d))%N (a * b * c * d).
Definition at4 (b c d : nat) (t : tens) (n i j k : nat) : F := nth 0 (tdata t) (((n * b + i) * c + j) * d + k).

(* kernel_size, stride and dilation after _pair; groups; padding: integers after
   _pair, or one of torch's strings *)
Inductive padding := PInt of nat & nat | PSame | PValid.
Record conv := Conv { c_k1 : nat; c_k2 : nat; c_s1 : nat; c_s2 : nat; c_pad : padding;
                      c_d1 : nat; c_d2 : nat; c_groups : nat }.

(* number of output positions of a convolution axis with input length i, kernel k,
   stride s, left and right padding and dilation d; None if there is none *)
Definition out_size (i k s pl pr d : nat) : option nat :=
  if (0 < k)%N && (0 < s)%N && (0 < d)%N && (d * k.-1 < i + pl + pr)%N
  then Some ((i + pl + pr - (d * k.-1).+1) %/ s).+1 else None.

(* einconv.utils.get_conv_paddings for a string; 'same' needs stride 1 *)
Definition conv_paddings (k s : nat) (same : bool) (d : nat) : res (nat * nat) :=
  if same then
    if s == 1%N then let t := (d * k.-1)%N in Ok ((t %/ 2)%N, (t - t %/ 2)%N) else Err ValueError
  else Ok (0%N, 0%N).

(* kfac_utils.py 171-178: padding as integers *)
Definition pad_axis (k s : nat) (same : bool) (d : nat) : res nat :=
  let! '(l, r) := conv_paddings k s same d in
  if l != r then Err NotImplementedError else Ok l.
Definition int_padding (c : conv) : res (nat * nat) :=
  let str same :=
    let! p1 := pad_axis (c_k1 c) (c_s1 c) same (c_d1 c) in
    let! p2 := pad_axis (c_k2 c) (c_s2 c) same (c_d2 c) in Ok (p1, p2) in
  match c_pad c with PInt p1 p2 => Ok (p1, p2) | PSame => str true | PValid => str false end.

(* rearrange "b (g c_in) i1 i2 -> b g c_in i1 i2" and mean over g:
   kfac_utils.py 181-182 and 219-220 *)
Definition group_mean (g : nat) (x : tens) : res tens :=
  match tshape x with
  | [:: n; C; i1; i2] =>
      if (0 < g)%N && (g %| C)%N then
        let c := (C %/ g)%N in
        Ok (Tensor [:: n; c; i1; i2]
             (mk4 n c i1 i2 (fun b e i j => sumr g (fun h => at4 C i1 i2 x b (h * c + e) i j) / g%:R)))
      else Err RuntimeError
  | _ => Err RuntimeError
  end.

(* torch.nn.functional.unfold on [n, c, i1, i2]: shape [n, c k1 k2, o1 o2] *)
Definition unfold (x : tens) (k1 k2 d1 d2 p1 p2 s1 s2 : nat) : res tens :=
  match tshape x with
  | [:: n; c; i1; i2] =>
      match out_size i1 k1 s1 p1 p1 d1, out_size i2 k2 s2 p2 p2 d2 with
      | Some o1, Some o2 =>
          Ok (Tensor [:: n; c * k1 * k2; o1 * o2]%N
               (mk4 n (c * k1 * k2) o1 o2 (fun b q u v =>
                  let h := (u * s1 + q %/ k2 %% k1 * d1)%N in
                  let w := (v * s2 + q %% k2 * d2)%N in
                  if (p1 <= h < p1 + i1)%N && (p2 <= w < p2 + i2)%N
                  then at4 c i1 i2 x b (q %/ k2 %/ k1) (h - p1) (w - p2) else 0)))
      | _, _ => Err RuntimeError
      end
  | _ => Err RuntimeError
  end.

(* rearrange "b q o -> b o q" *)
Definition swap12 (x : tens) : res tens :=
  match tshape x with
  | [:: n; q; o] => Ok (Tensor [:: n; o; q] (mk4 n o q 1 (fun b s j _ => nth 0 (tdata x) ((b * q + j) * o + s))))
  | _ => Err RuntimeError
  end.

(* kfac_utils.py 144-187 *)
Definition extract_patches (x : tens) (c : conv) : res tens :=
  let! '(p1, p2) := int_padding c in
  let! x' := group_mean (c_groups c) x in
  let! u := unfold x' (c_k1 c) (c_k2 c) (c_d1 c) (c_d2 c) p1 p2 (c_s1 c) (c_s2 c) in
  swap12 u.

(* einconv.index_pattern: entry (k, o, i) is 1 iff kernel element k meets input
   element i for output o, i.e. i = o s + k d - left padding *)
Definition index_pattern (i k s pl pr d : nat) : res tens :=
  if out_size i k s pl pr d is Some o then
    Ok (Tensor [:: k; o; i] (mk4 k o i 1 (fun e u h _ => (u * s + e * d == h + pl)%N%:R)))
  else Err ValueError.

(* reduce "k o i -> k i" with mean *)
Definition mean_mid (t : tens) : res tens :=
  match tshape t with
  | [:: k; o; i] =>
      Ok (Tensor [:: k; i] (mk4 k i 1 1 (fun e h _ _ => sumr o (fun u => nth 0 (tdata t) ((e * o + u) * i + h)) / o%:R)))
  | _ => Err RuntimeError
  end.

(* the padding pair index_pattern is called with on one axis *)
Definition axis_paddings (pad : padding) (first : bool) (k s d : nat) : res (nat * nat) :=
  match pad with
  | PInt p1 p2 => let p := if first then p1 else p2 in Ok (p, p)
  | PSame => conv_paddings k s true d
  | PValid => conv_paddings k s false d
  end.

(* kfac_utils.py 230-242: one axis *)
Definition axis_pattern (pad : padding) (first : bool) (i k s d : nat) : res tens :=
  let! '(pl, pr) := axis_paddings pad first k s d in
  let! pi := index_pattern i k s pl pr d in
  mean_mid pi.

(* einsum "b c i1 i2, k1 i1, k2 i2 -> b c k1 k2" and rearrange to b (c k1 k2) *)
Definition contract (x pi1 pi2 : tens) : res tens :=
  match tshape x, tshape pi1, tshape pi2 with
  | [:: n; c; i1; i2], [:: k1; j1], [:: k2; j2] =>
      if (i1 == j1) && (i2 == j2) then
        Ok (Tensor [:: n; c * k1 * k2]%N
             (mk4 n c k1 k2 (fun b e u v => sumr i1 (fun h => sumr i2 (fun w =>
                at4 c i1 i2 x b e h w * nth 0 (tdata pi1) (u * i1 + h) * nth 0 (tdata pi2) (v * i2 + w))))))
      else Err RuntimeError
  | _, _, _ => Err RuntimeError
  end.

(* kfac_utils.py 190-246 *)
Definition extract_averaged_patches (x : tens) (c : conv) : res tens :=
  let! x' := group_mean (c_groups c) x in
  match tshape x' with
  | [:: _; _; i1; i2] =>
      let! pi1 := axis_pattern (c_pad c) true i1 (c_k1 c) (c_s1 c) (c_d1 c) in
      let! pi2 := axis_pattern (c_pad c) false i2 (c_k2 c) (c_s2 c) (c_d2 c) in
      contract x' pi1 pi2
  | _ => Err RuntimeError
  end.
End Conv.
Arguments index_pattern {F}.
Arguments axis_pattern {F}.
