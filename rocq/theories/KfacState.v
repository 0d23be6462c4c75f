(* Model of KFACLinearOperator as an object: construction, lazily computed and
   cached factors and properties, hooks on the model, saving and loading.
   /repo/curvlinops/kfac.py 48-71 (enums), 130-281 (constructor), 316-333, 355-356
   (lazy computation), 399-440, 765-927 (properties), 929-1093 (state dicts).

   Python objects that several owners can share are locations of a heap: the
   model's parameters, and the pair of factor dictionaries.  (The two dictionaries
   of an operator are created, saved and loaded together; one location holds both.)
   Simplified: devices (moving a tensor does not change its value), the progress
   bar, and user code that edits a state dict or the returned property tensors in
   place. *)
From Coq Require Import Reals String ZArith.
From Coquelicot Require Import Coquelicot.
From mathcomp Require Import all_ssreflect all_algebra.
From Verif Require Import PyPrelude Tensor Spec RInst ROrd Calculus Curvature HessGGN Risk Losses Fisher Kfac KfacScalar Conv KfacCov.
Set Implicit Arguments.
Unset Strict Implicit.
Unset Printing Implicit Defensive.
Import GRing.Theory.

(* ---- constructor arguments: kfac.py 212-245 ---- *)
(* any object can be passed; PyStr also stands for the members of the two enums,
   which are strings *)
Inductive pyarg := PyStr of string | PyOther.

(* FisherType(item) and KFACType(item): kfac.py 48-71 *)
Definition fisher_of (a : pyarg) : option fisher_type :=
  if a is PyStr s then
    if String.eqb s "type-2" then Some Type2 else if String.eqb s "mc" then Some MC
    else if String.eqb s "empirical" then Some Empirical else if String.eqb s "forward-only" then Some ForwardOnly
    else None
  else None.
Definition approx_of (a : pyarg) : option kfac_approx :=
  if a is PyStr s then
    if String.eqb s "expand" then Some Expand else if String.eqb s "reduce" then Some Reduce else None
  else None.

(* class of the loss: an instance of a supported class ([exact]: of the class
   itself, not of a subclass) with its reduction, or anything else *)
Record loss_obj := LossObj { l_kind : loss_kind; l_exact : bool; l_red : reduction }.
Inductive loss_arg := Supported of loss_obj | Unsupported.

(* kfac.py 222-245 *)
Definition ctor_checks (l : loss_arg) (ft : pyarg) (mc : Z) (ap : pyarg) : res (loss_obj * fisher_type * kfac_approx) :=
  match l with
  | Unsupported => Err ValueError
  | Supported lo =>
      match fisher_of ft with
      | None => Err ValueError
      | Some f =>
          if (if f is MC then false else ~~ (Z.eqb mc 1)) then Err ValueError else
          match approx_of ap with
          | None => Err ValueError
          | Some a => Ok (lo, f, a)
          end
      end
  end.

Local Open Scope ring_scope.
Local Notation tens := (tensor R).
Local Notation cov := (dict nat_eqType tens).

(* ---- settings, operators, saved states ---- *)
Record settings := Settings {
  s_bar : bool; s_shape : nat * nat; s_seed : nat; s_fisher : fisher_type; s_mc : nat; s_approx : kfac_approx;
  s_terms : nat; s_sep : bool; s_num_data : nat }.
Inductive prop := Trace | Det | Logdet | Frob.
Definition prop_code p := match p with Trace => 0 | Det => 1 | Logdet => 2 | Frob => 3 end%N.
Definition prop_eqb p q := prop_code p == prop_code q.
Definition cache := prop -> option R.          (* _trace, _det, _logdet, _frobenius_norm *)
Definition no_cache : cache := fun=> None.
Definition cset (p : prop) (v : R) (c : cache) : cache := fun q => if prop_eqb p q then Some v else c q.

(* the attributes of a KFACLinearOperator (kfac.py 247-272) *)
Record kop := Op {
  o_model : nat; o_loss : loss_obj; o_mapping : mapping; o_set : settings; o_dicts : nat; o_cache : cache }.

(* state_dict(): "model_func_state_dict" holds the live parameter tensors of the
   model, the factor dictionaries are the operator's own.  [sd_origin] is not part
   of the Python object: the mapping of the operator that was saved, used only to
   state theorems. *)
Record saved := Saved {
  sd_model : nat; sd_kind : loss_kind; sd_red : reduction; sd_set : settings; sd_dicts : nat; sd_cache : cache;
  sd_origin : mapping }.

Section Object.
Variable Theta : Type.                         (* values of all parameters of a model *)
Variable arch : Theta -> nat.                  (* names and shapes of the parameters *)
(* load_state_dict of a state that does not fit copies what fits and raises *)
Variable partial_load : Theta -> Theta -> Theta.

(* what reaches the hooks during a factor computation: the input of a module, the
   gradient w.r.t. its output; or a direct assignment of a gradient factor *)
Inductive firing := FIn of nat & tens | FGrad of nat & tens | FSet of nat & tens.
(* the data loop of operator o on a model with parameters th: any sequence of
   firings, cut short by the first exception.  [tick] counts the computations so
   far, i.e. data and model may behave differently each time. *)
Variable passes : kop -> Theta -> nat -> seq (res firing).
Variable mconv : nat -> nat -> option conv.    (* is module k of model m a Conv2d *)

Record mstate := MState { m_theta : Theta; m_hooks : seq nat }.   (* hooks: which operators have hooks on it *)
Record world := World { w_models : seq mstate; w_dicts : seq (cov * cov); w_ops : seq kop; w_saved : seq saved; w_tick : nat }.

(* access to the dictionaries, operators and models of a state *)
Definition get_dicts (w : world) (l : nat) : cov * cov := nth ([::], [::]) (w_dicts w) l.
Definition set_dicts (w : world) (l : nat) (d : cov * cov) : world :=
  World (w_models w) (set_nth ([::], [::]) (w_dicts w) l d) (w_ops w) (w_saved w) (w_tick w).
Definition upd_op (w : world) (i : nat) (o : kop) : world :=
  World (w_models w) (w_dicts w) (set_nth o (w_ops w) i o) (w_saved w) (w_tick w).
Definition upd_model (w : world) (i : nat) (m : mstate) : world :=
  World (set_nth m (w_models w) i m) (w_dicts w) (w_ops w) (w_saved w) (w_tick w).
Definition getn (T : Type) (s : seq T) (i : nat) : res T := lget s i.

(* kfac.py 316-321 *)
Definition reset (o : kop) : kop := Op (o_model o) (o_loss o) (o_mapping o) (o_set o) (o_dicts o) no_cache.
Definition with_cache (o : kop) (c : cache) : kop := Op (o_model o) (o_loss o) (o_mapping o) (o_set o) (o_dicts o) c.

(* what the hooks of operator o do with a firing: kfac.py 408-428, 599-722.  None:
   no such hook was installed. *)
Definition hook (o : kop) (f : firing) : option (res (update [fieldType of R])) :=
  let s := o_set o in
  match f with
  | FIn k t =>
      if dget k (o_mapping o) is Some ps then
        if dmem Weight ps then
          Some (let joint := [&& ~~ s_sep s, isSome (dget Weight ps) & isSome (dget Bias ps)] in
                let! a := input_covariance (s_approx s) (mconv (o_model o) k) joint (s_num_data s) t in
                Ok (UIn k a))
        else None
      else None
  | FGrad k t =>
      if dget k (o_mapping o) is Some ps then
        Some (let! g := gradient_covariance (s_approx s) (mconv (o_model o) k) (l_red (o_loss o)) (s_num_data s) (s_mc s) (s_terms s) t in
              Ok (UGrad k g))
      else None
  | FSet _ _ => None
  end.

(* the hook of operator number i runs: its dictionaries are updated *)
Definition run_hook (w : world) (f : firing) (i : nat) : res world :=
  let! o := getn (w_ops w) i in
  match hook o f with
  | None => Ok w
  | Some (Err e) => Err e
  | Some (Ok u) => let! d := apply_update (get_dicts w (o_dicts o)) u in Ok (set_dicts w (o_dicts o) d)
  end.
(* all hooks on the model run, in the order they were installed; what was written
   before an exception stays *)
Fixpoint run_hooks (w : world) (f : firing) (hs : seq nat) : world * res unit :=
  match hs with
  | [::] => (w, Ok tt)
  | i :: hs' => match run_hook w f i with Err e => (w, Err e) | Ok w' => run_hooks w' f hs' end
  end.
(* operator number [drv] (with dictionaries at [loc]) loops over its data *)
Fixpoint run_passes (w : world) (loc : nat) (hs : seq nat) (fs : seq (res firing)) : world * res unit :=
  match fs with
  | [::] => (w, Ok tt)
  | Err e :: _ => (w, Err e)
  | Ok (FSet k t) :: fs' =>
      let d := get_dicts w loc in run_passes (set_dicts w loc (d.1, dset k t d.2)) loc hs fs'
  | Ok f :: fs' =>
      match run_hooks w f hs with
      | (w', Err e) => (w', Err e)
      | (w', Ok _) => run_passes w' loc hs fs'
      end
  end.

(* kfac.py 399-440.  An exception leaves the hooks on the model. *)
Definition compute (w : world) (i : nat) : world * res unit :=
  match getn (w_ops w) i with
  | Err e => (w, Err e)
  | Ok o =>
      match getn (w_models w) (o_model o) with
      | Err e => (w, Err e)
      | Ok m =>
          let w1 := upd_op w i (reset o) in
          let hs := rcons (m_hooks m) i in
          let w2 := upd_model w1 (o_model o) (MState (m_theta m) hs) in
          let w3 := World (w_models w2) (w_dicts w2) (w_ops w2) (w_saved w2) (w_tick w2).+1 in
          match run_passes w3 (o_dicts o) hs (passes o (m_theta m) (w_tick w)) with
          | (w', Err e) => (w', Err e)
          | (w', Ok _) => (upd_model w' (o_model o) (MState (m_theta m) (m_hooks m)), Ok tt)   (* handles removed *)
          end
      end
  end.

(* "if not self._input_covariances and not self._gradient_covariances:
   self._compute_kfac()" -- kfac.py 355-356, 781-782, 818-819, 864-865, 906-907 *)
Definition ensure (w : world) (i : nat) : world * res unit :=
  match getn (w_ops w) i with
  | Err e => (w, Err e)
  | Ok o => let d := get_dicts w (o_dicts o) in
            if nilp d.1 && nilp d.2 then compute w i else (w, Ok tt)
  end.

(* ---- the properties ---- *)
(* The loop of KfacScalar.scalar_loop, keeping the value reached when an exception
   is raised: self._trace etc. are updated in the loop *)
Section ScalarRun.
Variables (T : Type) (op : T -> T -> T) (sep : bool) (inC grC : cov).
Variables (vj vw : tens -> tens -> res T) (vb : tens -> res T).
Fixpoint names_run (k : nat) (G : tens) (acc : T) (ps : seq (pname * nat)) : T * res unit :=
  match ps with
  | [::] => (acc, Ok tt)
  | p :: ps' =>
      match (if p.1 == Weight then let! A := dgetE k inC in vw G A else vb G) with
      | Err e => (acc, Err e)
      | Ok v => names_run k G (op acc v) ps'
      end
  end.
Fixpoint scalar_run (acc : T) (m : mapping) : T * res unit :=
  match m with
  | [::] => (acc, Ok tt)
  | e :: m' =>
      let r := match dgetE e.1 grC with
               | Err x => (acc, Err x)
               | Ok G =>
                   match sep, dget Weight e.2, dget Bias e.2 with
                   | false, Some _, Some _ =>
                       match (let! A := dgetE e.1 inC in vj G A) with
                       | Err x => (acc, Err x)
                       | Ok v => (op acc v, Ok tt)
                       end
                   | _, _, _ => names_run e.1 G acc e.2
                   end
               end in
      match r with
      | (acc', Err x) => (acc', Err x)
      | (acc', Ok _) => scalar_run acc' m'
      end
  end.
End ScalarRun.

(* value of the attribute when the property method ends, and its outcome *)
Definition prop_run (p : prop) (sep : bool) (inC grC : cov) (m : mapping) : R * res unit :=
  match p with
  | Trace => scalar_run (+%R : R -> R -> R) sep inC grC
      (fun G A => let! tg := mtrace G in let! ta := mtrace A in Ok (ta * tg))
      (fun G A => let! tg := mtrace G in let! ta := mtrace A in Ok (tg * ta))
      (fun G => let! tg := mtrace G in Ok (tg * 1)) 0 m
  | Det => scalar_run ( *%R : R -> R -> R) sep inC grC
      (fun G A => let! m := mrows G in let! dg := mdet G in let! n := mrows A in let! da := mdet A in Ok (da ^+ m * dg ^+ n))
      (fun G A => let! m := mrows G in let! dg := mdet G in let! n := mrows A in let! da := mdet A in Ok (dg ^+ n * da ^+ m))
      (fun G => let! m := mrows G in let! dg := mdet G in Ok (dg ^+ 1 * 1)) 1 m
  | Logdet =>
      let mlogdet t := let! d := mdet t in Ok (ln d) in
      scalar_run (+%R : R -> R -> R) sep inC grC
      (fun G A => let! m := mrows G in let! lg := mlogdet G in let! n := mrows A in let! la := mlogdet A in Ok (m%:R * la + n%:R * lg))
      (fun G A => let! m := mrows G in let! lg := mlogdet G in let! n := mrows A in let! la := mlogdet A in Ok (n%:R * lg + m%:R * la))
      (fun G => let! m := mrows G in let! lg := mlogdet G in Ok (1%:R * lg + 0)) 0 m
  | Frob =>
      match scalar_run (+%R : R -> R -> R) sep inC grC
        (fun G A => Ok (msquare_sum A * msquare_sum G)) (fun G A => Ok (msquare_sum G * msquare_sum A))
        (fun G => Ok (msquare_sum G * 1)) 0 m with
      | (v, Err e) => (v, Err e)
      | (v, Ok _) => if nilp (flatten [seq e.2 | e <- m]) then (v, Err AttributeError)
                     else (Num.sqrt (v : R_rcfType), Ok tt)
      end
  end.

(* kfac.py 765-927 *)
Definition read (w : world) (i : nat) (p : prop) : world * res R :=
  match getn (w_ops w) i with
  | Err e => (w, Err e)
  | Ok o =>
      match o_cache o p with
      | Some v => (w, Ok v)
      | None =>
          match ensure w i with
          | (w', Err e) => (w', Err e)
          | (w', Ok _) =>
              match getn (w_ops w') i with
              | Err e => (w', Err e)
              | Ok o' =>
                  let d := get_dicts w' (o_dicts o') in
                  let '(v, r) := prop_run p (s_sep (o_set o')) d.1 d.2 (o_mapping o') in
                  let w'' := upd_op w' i (with_cache o' (cset p v (o_cache o'))) in
                  match r with Err e => (w'', Err e) | Ok _ => (w'', Ok v) end
              end
          end
      end
  end.

(* kfac.py 335-397 *)
Definition matmat (w : world) (i : nat) (M : seq tens) : world * res (seq tens) :=
  match ensure w i with
  | (w', Err e) => (w', Err e)
  | (w', Ok _) =>
      (w', let! o := getn (w_ops w') i in
           let d := get_dicts w' (o_dicts o) in
           kfac_matmat (F := [fieldType of R]) (s_sep (o_set o)) d.1 d.2 (o_mapping o) M)
  end.

(* ---- saving and loading ---- *)
(* kfac.py 929-963; type(self._loss_func) must be one of the three classes *)
Definition state_dict (o : kop) : res saved :=
  if l_exact (o_loss o) then
    Ok (Saved (o_model o) (l_kind (o_loss o)) (l_red (o_loss o)) (o_set o) (o_dicts o) (o_cache o) (o_mapping o))
  else Err KeyError.

(* comparisons of load_state_dict (kfac.py 975-1010): type of the loss, its
   reduction, sets of keys *)
Definition kind_eqb (a b : loss_kind) : bool :=
  match a, b with LMSE, LMSE | LCE, LCE | LBCE, LBCE => true | _, _ => false end.
Definition red_eqb (a b : reduction) : bool :=
  match a, b with RSum, RSum | RMean, RMean | ROther, ROther => true | _, _ => false end.
Definition same_keys (a b : seq nat) : bool := all (mem a) b && all (mem b) a.

(* kfac.py 1003-1010: the keys checked are the operator's own *)
Definition own_keys_ok (d : cov * cov) (m : mapping) : bool :=
  let bad c := ~~ nilp (dkeys c) && ~~ same_keys (dkeys c) (dkeys m) in
  if nilp d.1 && nilp d.2 then true else ~~ (bad d.1 || bad d.2).

(* kfac.py 965-1027 *)
Definition load (w : world) (i : nat) (s : saved) : world * res unit :=
  match getn (w_ops w) i with
  | Err e => (w, Err e)
  | Ok o =>
      match getn (w_models w) (o_model o), getn (w_models w) (sd_model s) with
      | Ok m, Ok ms =>
          if arch (m_theta ms) != arch (m_theta m) then
            (upd_model w (o_model o) (MState (partial_load (m_theta m) (m_theta ms)) (m_hooks m)), Err RuntimeError)
          else
            let w1 := upd_model w (o_model o) (MState (m_theta ms) (m_hooks m)) in
            if ~~ kind_eqb (sd_kind s) (l_kind (o_loss o)) then (w1, Err ValueError)
            else if ~~ red_eqb (sd_red s) (l_red (o_loss o)) then (w1, Err ValueError)
            else
              let o1 := Op (o_model o) (o_loss o) (o_mapping o) (sd_set s) (o_dicts o) (o_cache o) in
              let w2 := upd_op w1 i o1 in
              if ~~ own_keys_ok (get_dicts w2 (o_dicts o1)) (o_mapping o1) then (w2, Err ValueError)
              else (upd_op w2 i (Op (o_model o) (o_loss o) (o_mapping o) (sd_set s) (sd_dicts s) (sd_cache s)), Ok tt)
      | Err e, _ | _, Err e => (w, Err e)
      end
  end.

(* kfac.py 236-270: a new operator with its own, empty dictionaries, for arguments
   of the right classes (ctor_checks has the others).  The base class's
   constructor, the count of loss terms and the determinism check are modelled in
   CurvOps.v, KfacCov.v and Determinism.v and left out here. *)
Definition mc_ok (s : settings) : bool := if s_fisher s is MC then true else s_mc s == 1%N.
Definition construct (w : world) (m : nat) (lo : loss_obj) (ids : seq nat) (mods : seq module) (s : settings) : world * res unit :=
  if ~~ mc_ok s then (w, Err ValueError) else
  match compute_parameter_mapping ids mods with
  | Err e => (w, Err e)
  | Ok mp =>
      if nilp ids then (w, Err RuntimeError) else   (* no device can be inferred: _torch_base.py 483, 841-853 *)
      (World (w_models w) (rcons (w_dicts w) ([::], [::]))
         (rcons (w_ops w) (Op m lo mp s (size (w_dicts w)) no_cache)) (w_saved w) (w_tick w), Ok tt)
  end.

(* kfac.py 1029-1080 (without the determinism check at its end) *)
Definition from_state_dict (w : world) (s : saved) (m : nat) (ids : seq nat) (mods : seq module) : world * res unit :=
  match construct w m (LossObj (sd_kind s) true (sd_red s)) ids mods (sd_set s) with
  | (w', Err e) => (w', Err e)
  | (w', Ok _) => load w' (size (w_ops w)) s
  end.

(* ---- histories ---- *)
Inductive action :=
  | ANew of nat & loss_obj & seq nat & seq module & settings     (* KFACLinearOperator(...) *)
  | AMatmat of nat & seq tens                                    (* op @ M *)
  | ARead of nat & prop                                          (* op.trace etc. *)
  | ASave of nat                                                 (* op.state_dict() *)
  | ALoad of nat & nat                                           (* op.load_state_dict(saved) *)
  | AFrom of nat & nat & seq nat & seq module                    (* from_state_dict(saved, model, ...) *)
  | ACopy of nat                                                 (* torch.load of a torch.save'd state *)
  | ATrain of nat & Theta.                                       (* the user changes a model's parameters *)

(* whether an action raised *)
Definition outcome (A : Type) (r : world * res A) : world * res unit := (r.1, let! _ := r.2 in Ok tt).

(* a deep copy of a state: new dictionaries and new parameter tensors *)
Definition copy_saved (w : world) (s : saved) : world * res unit :=
  match getn (w_models w) (sd_model s) with
  | Err e => (w, Err e)
  | Ok m =>
      (World (rcons (w_models w) (MState (m_theta m) [::])) (rcons (w_dicts w) (get_dicts w (sd_dicts s))) (w_ops w)
         (rcons (w_saved w) (Saved (size (w_models w)) (sd_kind s) (sd_red s) (sd_set s) (size (w_dicts w)) (sd_cache s) (sd_origin s)))
         (w_tick w), Ok tt)
  end.

(* the effect of one action (kfac.py 130-1093) *)
Definition step (w : world) (a : action) : world * res unit :=
  match a with
  | ANew m lo ids mods s => construct w m lo ids mods s
  | AMatmat i M => outcome (matmat w i M)
  | ARead i p => outcome (read w i p)
  | ASave i =>
      match (let! o := getn (w_ops w) i in state_dict o) with
      | Err e => (w, Err e)
      | Ok s => (World (w_models w) (w_dicts w) (w_ops w) (rcons (w_saved w) s) (w_tick w), Ok tt)
      end
  | ALoad i j => match getn (w_saved w) j with Err e => (w, Err e) | Ok s => load w i s end
  | AFrom j m ids mods => match getn (w_saved w) j with Err e => (w, Err e) | Ok s => from_state_dict w s m ids mods end
  | ACopy j => match getn (w_saved w) j with Err e => (w, Err e) | Ok s => copy_saved w s end
  | ATrain m th =>
      match getn (w_models w) m with Err e => (w, Err e) | Ok ms => (upd_model w m (MState th (m_hooks ms)), Ok tt) end
  end.
Definition run (w : world) (acts : seq action) : world := foldl (fun w a => (step w a).1) w acts.
End Object.
