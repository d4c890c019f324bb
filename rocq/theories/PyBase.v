(** Python-level basics: exceptions as values, list indexing, slices. *)
From Coq Require Export List Arith ZArith Lia Bool.
Export ListNotations.

Inductive pyerr : Type :=
| AssertionError | ValueError | IndexError | TypeError | KeyError
| StopIteration | NotImplementedError | ZeroDivisionError | RecursionError
| UnboundLocalError | LinAlgError | NameError | AttributeError.

(** Result of a Python call: a value or a raised exception. *)
Inductive res (A : Type) : Type :=
| Ok : A -> res A
| Err : pyerr -> res A.
Arguments Ok {A} _.
Arguments Err {A} _.

Definition bind {A B : Type} (x : res A) (f : A -> res B) : res B :=
  match x with Ok a => f a | Err e => Err e end.

Notation "'do' x <- a ; b" := (bind a (fun x => b))
  (at level 200, x pattern, a at level 100, b at level 200, right associativity).

(** [assert c] *)
Definition passert {A : Type} (c : bool) (k : res A) : res A :=
  if c then k else Err AssertionError.
Definition praise_unless {A : Type} (c : bool) (e : pyerr) (k : res A) : res A :=
  if c then k else Err e.

Fixpoint mapM {A B : Type} (f : A -> res B) (l : list A) : res (list B) :=
  match l with
  | [] => Ok []
  | x :: l' => do y <- f x; do ys <- mapM f l'; Ok (y :: ys)
  end.

Fixpoint foldM {A S : Type} (f : S -> A -> res S) (l : list A) (s : S) : res S :=
  match l with
  | [] => Ok s
  | x :: l' => do s' <- f s x; foldM f l' s'
  end.

(** Normalisation of a Python index (negative counts from the end);
    [None] is IndexError. *)
Definition pyidx (len : nat) (z : Z) : option nat :=
  if (0 <=? z)%Z
  then (if (z <? Z.of_nat len)%Z then Some (Z.to_nat z) else None)
  else (if (0 <=? z + Z.of_nat len)%Z then Some (Z.to_nat (z + Z.of_nat len)) else None).

Definition pyget {A : Type} (l : list A) (z : Z) : res A :=
  match pyidx (length l) z with
  | None => Err IndexError
  | Some n => match nth_error l n with Some x => Ok x | None => Err IndexError end
  end.

Fixpoint set_nth {A : Type} (n : nat) (x : A) (l : list A) : list A :=
  match l, n with
  | [], _ => []
  | _ :: l', O => x :: l'
  | y :: l', S n' => y :: set_nth n' x l'
  end.

(** Clamping of slice bounds: [slice(z, ...).indices(len)] with step 1. *)
Definition pyclamp (len : nat) (z : Z) : nat :=
  if (z <? 0)%Z
  then (if (z + Z.of_nat len <? 0)%Z then 0 else Z.to_nat (z + Z.of_nat len))
  else (if (Z.of_nat len <? z)%Z then len else Z.to_nat z).

(** [l[a:b]] for Python ints. *)
Definition pyslice {A : Type} (l : list A) (a b : Z) : list A :=
  let s := pyclamp (length l) a in
  let e := pyclamp (length l) b in
  firstn (e - s) (skipn s l).
