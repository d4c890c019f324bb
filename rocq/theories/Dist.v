(** Random values with finitely many outcomes: a list of outcomes with weights.  This is
    the meaning given to the draws from numpy's random generator. *)
From Coq Require Import Reals.
From Verif Require Export Pmf.
Open Scope nat_scope.

Definition dist (A : Type) : Type := list (A * R).
Definition dret {A : Type} (a : A) : dist A := [(a, 1%R)].
Definition dbind {A B : Type} (m : dist A) (f : A -> dist B) : dist B :=
  flat_map (fun p => map (fun q => (fst q, (snd p * snd q)%R)) (f (fst p))) m.
(** The mean of [f] *)
Definition expct {A : Type} (m : dist A) (f : A -> R) : R := rsum (map (fun p => snd p * f (fst p))%R m).

(** Random values that may be an exception *)
Definition rd (A : Type) : Type := dist (res A).
Definition rdbind {A B : Type} (m : rd A) (f : A -> rd B) : rd B :=
  dbind m (fun r => match r with Ok a => f a | Err e => dret (Err e) end).
Fixpoint foldD {A S : Type} (f : S -> A -> rd S) (l : list A) (s : S) : rd S :=
  match l with
  | [] => dret (Ok s)
  | a :: l' => rdbind (f s a) (foldD f l')
  end.
(** [n] independent repetitions *)
Fixpoint repeatD {A : Type} (n : nat) (m : rd A) : rd (list A) :=
  match n with
  | O => dret (Ok [])
  | S k => rdbind m (fun a => rdbind (repeatD k m) (fun l => dret (Ok (a :: l))))
  end.

(** numpy: [rng.choice(n, p=p)] draws [k < n] with probability [p[k]].  ValueError if [p] has
    the wrong length, a negative entry or a sum that differs from one by more than the square
    root of the machine precision. *)
Definition rng_choice (n : nat) (p : list R) : rd nat :=
  if Nat.eqb (length p) n && forallb (fun x => Rleb 0 x) p && Rleb (Rabs (rsum p - 1)) (/ 2 ^ 26)
  then map (fun k => (Ok k, nth k p 0%R / rsum p)%R) (seq 0 n)
  else dret (Err ValueError).
