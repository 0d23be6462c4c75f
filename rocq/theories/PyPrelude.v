(* Python-side vocabulary shared by all model files: exceptions as values, the
   result monad, and a few list helpers of Python's standard library.
   Nothing here models a particular file of /repo; it is the meta-language. *)
From mathcomp Require Import all_ssreflect.
Set Implicit Arguments.
Unset Strict Implicit.
Unset Printing Implicit Defensive.

(* The exception classes raised (explicitly or by Python/torch/numpy) in the
   modelled code. [UserError n] stands for whatever exception the user's model,
   loss function or data loader raises; the tag keeps different ones apart. *)
Inductive exn :=
  | ValueError | RuntimeError | NotImplementedError | IndexError | KeyError
  | TypeError | ZeroDivisionError | StopIteration | AttributeError
  | LinAlgError | NameError | UserError of nat.

Definition exn_code (e : exn) : nat :=
  match e with
  | ValueError => 0 | RuntimeError => 1 | NotImplementedError => 2
  | IndexError => 3 | KeyError => 4 | TypeError => 5 | ZeroDivisionError => 6
  | StopIteration => 7 | AttributeError => 8 | LinAlgError => 9 | NameError => 10
  | UserError n => 11 + n
  end.

Definition exn_decode (n : nat) : exn :=
  match n with
  | 0 => ValueError | 1 => RuntimeError | 2 => NotImplementedError
  | 3 => IndexError | 4 => KeyError | 5 => TypeError | 6 => ZeroDivisionError
  | 7 => StopIteration | 8 => AttributeError | 9 => LinAlgError | 10 => NameError
  | n => UserError (n - 11)
  end.

Lemma exn_codeK : cancel exn_code exn_decode.
Proof. by case=> //= n; congr UserError; rewrite -[RHS](addKn 11). Qed.

Definition exn_eqMixin := CanEqMixin exn_codeK.
Canonical exn_eqType := EqType exn exn_eqMixin.

(* Outcome of a Python call: a value or a raised exception. *)
Inductive res (A : Type) := Ok of A | Err of exn.
Arguments Ok {A}.
Arguments Err {A}.

Definition bind A B (m : res A) (f : A -> res B) : res B :=
  match m with Ok a => f a | Err e => Err e end.

Notation "'let!' x ':=' e 'in' k" := (bind e (fun x => k))
  (at level 200, x name, e at level 200, k at level 200).
Notation "'let!' ' p ':=' e 'in' k" := (bind e (fun x => let 'p := x in k))
  (at level 200, p pattern, e at level 200, k at level 200).

Definition is_ok A (m : res A) := if m is Ok _ then true else false.

(* [if b: raise e] *)
Definition raise_if (b : bool) (e : exn) : res unit := if b then Err e else Ok tt.

(* A Python comprehension [f(x) for x in xs] whose body may raise. *)
Fixpoint mapM A B (f : A -> res B) (xs : seq A) : res (seq B) :=
  match xs with
  | [::] => Ok [::]
  | x :: xs' => let! y := f x in let! ys := mapM f xs' in Ok (y :: ys)
  end.

(* A Python for loop over [xs] with loop state [s] whose body may raise. *)
Fixpoint foldM A S (f : S -> A -> res S) (s : S) (xs : seq A) : res S :=
  match xs with
  | [::] => Ok s
  | x :: xs' => let! s' := f s x in foldM f s' xs'
  end.

Section Lemmas.
Variables (A B S : Type).

Lemma bind_ok (m : res A) (f : A -> res B) b :
  bind m f = Ok b -> exists2 a, m = Ok a & f a = Ok b.
Proof. by case: m => //= a; exists a. Qed.

Lemma mapM_ok (f : A -> res B) g (xs : seq A) :
  (forall x, f x = Ok (g x)) -> mapM f xs = Ok (map g xs).
Proof. by move=> h; elim: xs => //= x xs ->; rewrite h. Qed.

Lemma mapM_size (f : A -> res B) xs ys : mapM f xs = Ok ys -> size ys = size xs.
Proof.
elim: xs ys => [|x xs IH] ys /=; first by case=> <-.
by case: (f x) => //= y; case E: (mapM f xs) => [zs|] //= [<-] /=; rewrite (IH zs).
Qed.

Lemma mapM_cat (f : A -> res B) xs ys :
  mapM f (xs ++ ys) = (let! a := mapM f xs in let! b := mapM f ys in Ok (a ++ b)).
Proof.
elim: xs => [|x xs IH] /=; first by case: (mapM f ys).
case: (f x) => //= y; rewrite IH; case: (mapM f xs) => //= zs.
by case: (mapM f ys).
Qed.

Lemma mapM_nth (f : A -> res B) a b xs ys : mapM f xs = Ok ys ->
  forall i, i < size xs -> f (nth a xs i) = Ok (nth b ys i).
Proof.
elim: xs ys => [|x xs IH] ys //=.
case E: (f x) => [y|] //=; case F: (mapM f xs) => [zs|] //= [<-] [|i] //=.
exact: IH.
Qed.

Lemma foldM_cat (f : S -> A -> res S) s xs ys :
  foldM f s (xs ++ ys) = (let! s' := foldM f s xs in foldM f s' ys).
Proof. by elim: xs s => //= x xs IH s; case: (f s x). Qed.

Lemma foldM_ok (f : S -> A -> res S) g s xs :
  (forall s x, f s x = Ok (g s x)) -> foldM f s xs = Ok (foldl g s xs).
Proof. by move=> h; elim: xs s => //= x xs IH s; rewrite h /= IH. Qed.

End Lemmas.
