(** Model of [cXY_E0] (utils/physics.py 58-91) over the reals.  [gamma] is a real number; the
    array operations of numpy are written element by element. *)
From Coq Require Import Reals ZArith List Bool.
From Verif Require Import Pmf.
Import ListNotations.
Open Scope R_scope.

(** physics.py 87: [k = (2 * np.pi / N) * (l - N / 2)] for one [l] *)
Definition momentum (N : Z) (l : nat) : R := (2 * PI / IZR N) * (INR l - IZR N / 2).
(** physics.py 88: [Lambda2 = 1 - (1 - gamma**2) * (np.sin(k))**2] *)
Definition lambda2 (gamma k : R) : R := 1 - (1 - gamma ^ 2) * sin k ^ 2.
(** physics.py 83-91.  [np.arange(N)] is empty for negative [N]; [Lambda2**0.5] is [sqrt]. *)
Definition cXY_E0 (N : Z) (gamma : R) : res R :=
  if negb (Z.eqb (N mod 2) 0) || Z.eqb (N mod 4) 0 then Err ValueError
  else Ok (- (1 / 2) * rsum (map (fun l => sqrt (lambda2 gamma (momentum N l))) (seq 0 (Z.to_nat N)))).
