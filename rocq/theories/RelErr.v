(** The argument relerr of the SVD compression as a real number (mparray.py 908-922
    and 939-953). *)
From Coq Require Import Reals.
From Verif Require Export MpCanon Pmf.

(** [np.cumsum] of a list of real numbers. *)
Fixpoint cumsum (acc : R) (l : list R) : list R :=
  match l with [] => [] | x :: r => (acc + x)%R :: cumsum (acc + x)%R r end.
(** [np.searchsorted(a, v)] for non-decreasing [a]: the first position whose value
    is at least [v], or the length of [a].  numpy searches by bisection, which
    finds the same position. *)
Fixpoint searchsorted (a : list R) (v : R) : nat :=
  match a with [] => 0 | x :: r => if Rleb v x then 0 else S (searchsorted r v) end.
(** mparray.py 919-920 and 950-951: the number of singular values that relerr asks
    for.  If all values vanish, numpy divides zero by zero: the quotients are nan,
    which searchsorted places after every number, and position 0 is found. *)
Definition relerr_count (e : R) (sv : list CS) : nat :=
  let l := map Cre sv in
  let tot := rsum l in
  if Req_EM_T tot 0 then 1 else searchsorted (map (fun c => (c / tot)%R) (cumsum 0 l)) (1 - e)%R + 1.

Section RelErr.
Variable qr : nd CS -> res (nd CS * nd CS).
Variable svd : nd CS -> res (nd CS * list CS * nd CS).
Variable svdfunc : nd CS -> nat -> res (nd CS * list CS * nd CS).

(** mparray.py 830-859 with the assertion on relerr (909-910, 940-941): it follows
    the assertion on the rank directly, so that a value out of range has the effect
    of the rank 0. *)
Definition compress_svd_re (x : ltens CS) (rank : option nat) (relerr : option R) (direction : dirarg) (canon : bool)
  : res (ltens CS * CS) :=
  match relerr with
  | None => compress_svd qr svd svdfunc x rank None direction canon
  | Some e =>
      if andb (Rleb 0 e) (Rleb e 1) then compress_svd qr svd svdfunc x rank (Some (relerr_count e)) direction canon
      else compress_svd qr svd svdfunc x (Some 0) None direction canon
  end.
(** mparray.py 812-828, method 'svd': a copy is compressed. *)
Definition compression_svd_re (x : ltens CS) (rank : option nat) (relerr : option R) (direction : dirarg) (canon : bool)
  : res (ltens CS * CS) :=
  do c <- mpa_copy x; compress_svd_re c rank relerr direction canon.
End RelErr.
