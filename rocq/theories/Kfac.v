(* Model of KFACLinearOperator's parameter mapping and matrix product:
   /repo/curvlinops/kfac.py 335-397 and 724-763.  Kronecker factors are looked up
   in the two dictionaries the operator keeps; how they are computed is modelled
   in KfacCov.v. *)
From mathcomp Require Import all_ssreflect all_algebra.
From Verif Require Import PyPrelude Tensor Spec.
Set Implicit Arguments.
Unset Strict Implicit.
Unset Printing Implicit Defensive.
Import GRing.Theory.
Local Open Scope ring_scope.

(* ---- Python dictionaries (insertion ordered) ---- *)
Section Dict.
Variables (K : eqType) (V : Type).
Definition dict := seq (K * V).
Definition dget (k : K) (d : dict) : option V := ohead [seq p.2 | p <- d & p.1 == k].
Definition dmem (k : K) (d : dict) : bool := k \in [seq p.1 | p <- d].
(* d[k] = v *)
Fixpoint dset (k : K) (v : V) (d : dict) : dict :=
  match d with
  | [::] => [:: (k, v)]
  | p :: d' => if p.1 == k then (k, v) :: d' else p :: dset k v d'
  end.
(* d[k] read *)
Definition dgetE (k : K) (d : dict) : res V := if dget k d is Some v then Ok v else Err KeyError.
Definition dkeys (d : dict) : seq K := [seq p.1 | p <- d].
End Dict.

(* ---- parameter names inside a module ---- *)
Inductive pname := Weight | Bias | Other of nat.
Definition pname_code (n : pname) : nat := match n with Weight => 0 | Bias => 1 | Other k => k.+2 end.
Definition pname_decode (n : nat) : pname := match n with 0 => Weight | 1 => Bias | k.+2 => Other k end.
Lemma pname_codeK : cancel pname_code pname_decode.
Proof. by case. Qed.
Definition pname_eqMixin := CanEqMixin pname_codeK.
Canonical pname_eqType := EqType pname pname_eqMixin.

(* A module as seen through named_modules() and named_parameters(): its qualified
   name, whether it is an instance of Linear or Conv2d, and its named parameters.
   Parameters are identified by data_ptr(), here a number. *)
Record module := Module { m_name : nat; m_supported : bool; m_params : seq (pname * nat) }.

(* Dict[str, Dict[str, int]]: module name, parameter name, position in params *)
Definition mapping := dict nat_eqType (dict pname_eqType nat).

(* kfac.py 749-755: the inner loop over mod.named_parameters(); [processed] is
   the set of data pointers seen so far *)
Definition map_params (param_ids : seq nat) (ps : seq (pname * nat)) (processed : seq nat)
    : dict pname_eqType nat * seq nat :=
  foldl (fun st p =>
    if p.2 \in param_ids then (dset p.1 (index p.2 param_ids) st.1, undup (p.2 :: st.2)) else st)
    ([::], processed) ps.

(* kfac.py 745-756: body of the loop over named_modules() *)
Definition map_module (param_ids : seq nat) (st : mapping * seq nat) (m : module) : mapping * seq nat :=
  if m_supported m && has (fun p => p.2 \in param_ids) (m_params m) then
    let r := map_params param_ids (m_params m) st.2 in
    (dset (m_name m) r.1 st.1, r.2)
  else st.

(* kfac.py 724-763 *)
Definition compute_parameter_mapping (param_ids : seq nat) (mods : seq module) : res mapping :=
  let st := foldl (map_module param_ids) ([::] : mapping, [::]) mods in
  let! _ := raise_if (size st.2 != size param_ids) NotImplementedError in
  Ok st.1.

Section Product.
Variable F : comRingType.
Local Notation tens := (tensor F).

(* row-major data of a 3d tensor *)
Definition mk3 (m n K : nat) (f : nat -> nat -> nat -> F) : seq F :=
  mkseq (fun e => f (e %/ K %/ n) (e %/ K %% n) (e %% K))%N (m * n * K).
Definition e2 (n : nat) (t : tens) (i j : nat) : F := entry n (tdata t) i j.
Definition e3 (n K : nat) (t : tens) (i j k : nat) : F := entry K (tdata t) (i * n + j) k.

(* einops.rearrange(t, "c_out ... v -> c_out (...) v") *)
Definition rearr_w (t : tens) : res tens :=
  match tshape t with
  | c :: (_ :: _) as s =>
      Ok (Tensor [:: c; numel (take (size (tshape t)).-2 (behead (tshape t))); last 0%N (tshape t)] (tdata t))
  | _ => Err RuntimeError
  end.

(* einsum(X, A, "c_out j v, j k -> c_out k v") *)
Definition mm_right (X A : tens) : res tens :=
  match tshape X, tshape A with
  | [:: c; j; v], [:: j'; k] =>
      if j == j' then
        Ok (Tensor [:: c; k; v] (mk3 c k v (fun a l e => sumr j (fun t => e3 j v X a t e * e2 k A t l))))
      else Err RuntimeError
  | _, _ => Err RuntimeError
  end.

(* einsum(G, X, "j k, k ... v -> j ... v") *)
Definition mm_left (G X : tens) : res tens :=
  match tshape G, tshape X with
  | [:: j; k], k' :: (_ :: _) as rest =>
      if k == k' then
        Ok (Tensor (j :: behead (tshape X))
             (mk3 j 1 (numel (behead (tshape X)))
                (fun a _ r => sumr k (fun t => e2 k G a t * e2 (numel (behead (tshape X))) X t r))))
      else Err RuntimeError
  | _, _ => Err RuntimeError
  end.

(* einsum(G, X, A, "i j, j k v, k l -> i l v") *)
Definition sandwich (G X A : tens) : res tens :=
  match tshape G, tshape X, tshape A with
  | [:: i; j], [:: j'; k; v], [:: k'; l] =>
      if (j == j') && (k == k') then
        Ok (Tensor [:: i; l; v] (mk3 i l v (fun a c e =>
              sumr j (fun t => sumr k (fun u => e2 j G a t * e3 k v X t u e * e2 l A u c)))))
      else Err RuntimeError
  | _, _, _ => Err RuntimeError
  end.

(* cat([X, Y], dim=-2) for 3d tensors *)
Definition cat_mid (X Y : tens) : res tens :=
  match tshape X, tshape Y with
  | [:: c; a; v], [:: c'; b; v'] =>
      if (c == c') && (v == v') then
        Ok (Tensor [:: c; a + b; v]%N
             (mk3 c (a + b) v (fun i j k => if (j < a)%N then e3 a v X i j k else e3 b v Y i (j - a) k)))
      else Err RuntimeError
  | _, _ => Err RuntimeError
  end.

(* t.unsqueeze(-2) for 2d tensors *)
Definition unsqueeze_mid (t : tens) : res tens :=
  match tshape t with
  | [:: c; v] => Ok (Tensor [:: c; 1; v]%N (tdata t))
  | _ => Err RuntimeError
  end.

(* X.split([w, 1], dim=-2) for a 3d tensor; the second part after squeeze_(1) *)
Definition split_mid (w : nat) (X : tens) : res (tens * tens) :=
  match tshape X with
  | [:: c; a; v] =>
      if (w + 1 == a)%N then
        Ok (Tensor [:: c; w; v] (mk3 c w v (fun i j k => e3 a v X i j k)),
            Tensor [:: c; v] (mk3 c 1 v (fun i _ k => e3 a v X i w k)))
      else Err RuntimeError
  | _ => Err RuntimeError
  end.

(* M[i] *)
Definition lget (A : Type) (s : seq A) (i : nat) : res A := if ohead (drop i s) is Some a then Ok a else Err IndexError.
(* KM[i]: the entry may still be None *)
Definition kget (s : seq (option tens)) (i : nat) : res tens :=
  let! o := lget s i in if o is Some t then Ok t else Err AttributeError.
(* KM[i] = t *)
Definition kset (s : seq (option tens)) (i : nat) (t : tens) : res (seq (option tens)) :=
  if (i < size s)%N then Ok (set_nth None s i (Some t)) else Err IndexError.

Local Notation cov := (dict nat_eqType tens).
Variables (sep : bool) (inC grC : cov).

(* kfac.py 379-391: weights and biases treated separately *)
Definition kfac_single (M : seq tens) (name : nat) (KM : seq (option tens)) (p : pname * nat)
    : res (seq (option tens)) :=
  let! m := lget M p.2 in
  let! x := if p.1 == Weight then
              let! mw := rearr_w m in
              let! aaT := dgetE name inC in
              mm_right mw aaT
            else Ok m in
  let! ggT := dgetE name grC in
  let! y := mm_left ggT x in
  kset KM p.2 y.

(* kfac.py 361-375: weight and bias treated jointly *)
Definition kfac_joint (M : seq tens) (name : nat) (KM : seq (option tens)) (w b : nat) : res (seq (option tens)) :=
  let! mw0 := lget M w in
  let! mw := rearr_w mw0 in
  let! mb0 := lget M b in
  let! mb := unsqueeze_mid mb0 in
  let! mj := cat_mid mw mb in
  let! aaT := dgetE name inC in
  let! ggT := dgetE name grC in
  let! y := sandwich ggT mj aaT in
  let! '(yw, yb) := split_mid (nth 0%N (tshape mw) 1) y in
  let! KM1 := kset KM w yw in
  kset KM1 b yb.

(* kfac.py 358-395: body of the loop over the mapping *)
Definition kfac_layer (M : seq tens) (KM : seq (option tens)) (e : nat * dict pname_eqType nat)
    : res (seq (option tens)) :=
  let! wshape := if dget Weight e.2 is Some w then let! m := lget M w in Ok (Some (w, tshape m)) else Ok None in
  let! KM1 :=
    match sep, dget Weight e.2, dget Bias e.2 with
    | false, Some w, Some b => kfac_joint M e.1 KM w b
    | _, _, _ => foldM (kfac_single M e.1) KM e.2
    end in
  if wshape is Some (w, s) then
    let! kw := kget KM1 w in
    let! kw' := treshape s kw in
    kset KM1 w kw'
  else Ok KM1.

(* kfac.py 335-397, with the factors already computed.  An entry that is still
   None makes the base class's output check fail (None has no shape). *)
Definition kfac_matmat (m : mapping) (M : seq tens) : res (seq tens) :=
  let! KM := foldM (kfac_layer M) (nseq (size M) None) m in
  mapM (fun o => if o is Some t then Ok t else Err AttributeError) KM.
End Product.
