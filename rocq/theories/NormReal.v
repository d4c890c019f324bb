(** [norm] and [normdist] with the real numbers they return (arrays of complex
    numbers), not only the squares of MpCanon.v. *)
From Coq Require Import Reals List ZArith.
From Verif Require Import MpCanon Cplx.
Import ListNotations.
Local Open Scope R_scope.

Section Norm.
Variable qr : nd CS -> res (nd CS * nd CS).

(** [np.linalg.norm(t)] of an array: the square root of the sum of the squared
    absolute values of its entries (exact arithmetic). *)
Definition np_norm (t : nd CS) : R :=
  sqrt (Cre (msum (shp t) (fun i => toC (Cre (get t i) * Cre (get t i) + Cim (get t i) * Cim (get t i))))).

(** mparray.py 1416-1435: [norm(mpa)]; the returned number together with the modified
    argument. *)
Definition mnorm (x : ltens CS) : res (R * ltens CS) :=
  do z <- canonicalize qr x CANone CANone;
  let '(cl, cr) := canonical_form z in
  if (cr =? 1)%Z then (do t <- pyget (lts z) 0; Ok (np_norm t, z))
  else if (cl =? Z.of_nat (llen z) - 1)%Z then (do t <- pyget (lts z) (-1); Ok (np_norm t, z))
  else Err ValueError.

(** mparray.py 1438-1447: [normdist(mpa1, mpa2)] *)
Definition mnormdist (x y : ltens CS) : res R :=
  do d <- msub x y; do p <- mnorm d; Ok (fst p).

(** mparray.py 1448-1450: the alternative that is commented out there; [inner] returns a
    number, here an array without legs.  The call norm(mpa1) modifies mpa1, which is what
    inner sees. *)
Definition mnormdist_alt (x y : ltens CS) : res R :=
  do p <- mnorm x; do q <- mnorm y; do i <- minner (snd p) (snd q);
  Ok (sqrt (fst p * fst p + fst q * fst q - 2 * Cre (get i []))).
End Norm.
