(* Specification vocabulary for Kronecker factors: the inputs a layer sees at its
   shared positions, the gradients w.r.t. its outputs, and the outer products the
   two KFAC approximations average.  Uses the description of a layer (nlayer) but
   none of the functions that model kfac.py. *)
From Coq Require Import Reals.
From Coquelicot Require Import Coquelicot.
From mathcomp Require Import all_ssreflect all_algebra.
From Verif Require Import PyPrelude Tensor Spec TorchBase RInst Calculus Curvature HessGGN Risk Losses Fisher FisherMC Conv Props_Conv Kfac KfacCov KfacCovHooks.
Set Implicit Arguments.
Unset Strict Implicit.
Unset Printing Implicit Defensive.
Import GRing.Theory.
Local Open Scope ring_scope.

Section Spec.
Variables (X : Type) (T C : nat) (kind : loss_kind).

(* feature j of the layer's input at shared position s; for a convolution: entry
   j = (e, a1, a2) of the patch under the kernel at output s = (y, z) *)
Definition lin_act (l : nlayer X) (d : nat) (x : X) (s j : nat) : R := nth 0 (nl_in l x) (s * d + j).
Definition conv_act (l : nlayer X) (c : conv) (Cc I1 I2 O2 p1 p2 : nat) (x : X) (s j : nat) : R :=
  group_pixel (c_groups c) Cc I1 I2 (Tensor [:: 1; Cc; I1; I2]%N (nl_in l x)) 0 (j %/ c_k2 c %/ c_k1 c)
    (hpos (c_s1 c) (c_d1 c) p1 (s %/ O2) (j %/ c_k2 c %% c_k1 c)%N) (hpos (c_s2 c) (c_d2 c) p2 (s %% O2) (j %% c_k2 c)%N).

(* number of shared positions, number of features, and the inputs.  KFAC-expand
   needs paddings that are equal on both sides (C46_uneven_same_padding). *)
Inductive input_geometry (ap : kfac_approx) (l : nlayer X) : nat -> nat -> (X -> nat -> nat -> R) -> Prop :=
| InLinear s d : nl_conv l = None -> nl_ishape l = rcons s d -> input_geometry ap l (numel s) d (lin_act l d)
| InConv c Cc I1 I2 p1 q1 p2 q2 O1 O2 : nl_conv l = Some c -> nl_ishape l = [:: Cc; I1; I2] ->
    (0 < c_groups c)%N -> (c_groups c %| Cc)%N -> paddings c p1 q1 p2 q2 ->
    out_size I1 (c_k1 c) (c_s1 c) p1 q1 (c_d1 c) = Some O1 -> out_size I2 (c_k2 c) (c_s2 c) p2 q2 (c_d2 c) = Some O2 ->
    (ap = Expand -> p1 = q1 /\ p2 = q2) ->
    input_geometry ap l (O1 * O2) (Cc %/ c_groups c * c_k1 c * c_k2 c)%N (conv_act l c Cc I1 I2 O2 p1 p2).

(* number of shared positions and channels of the output, and where channel i at
   position s sits in the output's entries *)
Inductive output_geometry (l : nlayer X) : nat -> nat -> (nat -> nat -> nat) -> Prop :=
| OutLinear s d : nl_conv l = None -> nl_oshape l = rcons s d -> output_geometry l (numel s) d (fun s i => s * d + i)%N
| OutConv c d O1 O2 : nl_conv l = Some c -> nl_oshape l = [:: d; O1; O2] ->
    output_geometry l (O1 * O2) d (fun s i => i * (O1 * O2) + s)%N.

(* what one datum with inputs a (position, feature) contributes to the input factor *)
Definition in_term (ap : kfac_approx) (joint : bool) (S d : nat) (a : nat -> nat -> R) (i j : nat) : R :=
  match ap with
  | Expand => S%:R^-1 * \sum_(s < S) aug d (a s) i * aug d (a s) j
  | Reduce => let m j := S%:R^-1 * \sum_(s < S) a s j in aug d m i * aug d m j
  end.
(* what one datum with output gradients g (position, channel) contributes to the
   gradient factor *)
Definition grad_term (ap : kfac_approx) (S : nat) (g : nat -> nat -> R) (i j : nat) : R :=
  match ap with
  | Expand => \sum_(s < S) g s i * g s j
  | Reduce => (\sum_(s < S) g s i) * (\sum_(s < S) g s j)
  end.

(* sum_t phi_t (prediction row t), as a function of the outputs z of layer l *)
Definition datum_loss (l : nlayer X) (x : X) (phi : nat -> point -> R) (z : point) : R :=
  \sum_(t < T) phi t (fun c => nth 0 (nl_tail l x z) (term_pos T C kind t c)).
(* its derivative w.r.t. entry p of the layer's output *)
Definition ograd (l : nlayer X) (x : X) (phi : nat -> point -> R) (p : nat) : R :=
  pd p (datum_loss l x phi) (nth 0 (nl_out l x)).

(* sizes, and the rest of the network only sees the layer's output *)
Definition layer_ok (l : nlayer X) : Prop :=
  [/\ (forall x, size (nl_in l x) = numel (nl_ishape l)), (forall x, size (nl_out l x) = numel (nl_oshape l)),
      (forall x z, size (nl_tail l x z) = (T * C)%N) &
      (forall x z z', (forall p, (p < numel (nl_oshape l))%N -> z p = z' p) -> nl_tail l x z = nl_tail l x z')].
End Spec.

(* geometry of all layers of a network: positions, features and inputs; positions,
   channels and layout of the outputs *)
Record geometry (X : Type) := Geometry {
  g_S1 : nat -> nat; g_d1 : nat -> nat; g_act : nat -> X -> nat -> nat -> R;
  g_S2 : nat -> nat; g_d2 : nat -> nat; g_pos : nat -> nat -> nat -> nat }.
Definition fits_geometry (X : Type) (T C : nat) (ap : kfac_approx) (mods : nat -> nlayer X) (mp : mapping) (g : geometry X) : Prop :=
  forall k ps, dget k mp = Some ps ->
    [/\ layer_ok T C (mods k), output_geometry (mods k) (g_S2 g k) (g_d2 g k) (g_pos g k) &
        (dmem Weight ps -> input_geometry ap (mods k) (g_S1 g k) (g_d1 g k) (g_act g k))].

(* the dictionary holds, for key k, the d x d matrix v *)
Definition is_factor (D : dict nat_eqType (tensor R)) (k d : nat) (v : nat -> nat -> R) : Prop :=
  exists t, [/\ dget k D = Some t, tshape t = [:: d; d], wf t &
    forall i j, (i < d)%N -> (j < d)%N -> entry d (tdata t) i j = v i j].

(* weight and bias are treated jointly *)
Definition joint_params (sep : bool) (ps : dict pname_eqType nat) : bool :=
  [&& ~~ sep, isSome (dget Weight ps) & isSome (dget Bias ps)].

(* A = 1/N sum over the data *)
Definition input_factor (X Y : Type) (ap : kfac_approx) (joint : bool) (N S d : nat) (act : X -> nat -> nat -> R)
    (data : seq (X * Y)) (i j : nat) : R :=
  N%:R^-1 * \sum_(x <- data) in_term ap joint S d (act x.1) i j.
