(** Model of utils/pmf.py over the real and complex numbers (no rounding). *)
From Coq Require Import Reals.
From Verif Require Export Cplx NdArray.
Open Scope nat_scope.

(** [x <= y] as a boolean *)
Definition Rleb (x y : R) : bool := if Rle_dec x y then true else false.
Definition rsum (l : list R) : R := fold_right Rplus 0%R l.

(** An array of real or of complex type.  An array without axes stands for a single value. *)
Inductive vals := VReal (a : nd RS) | VCplx (a : nd CS).
(** The real parts *)
Definition reals (v : vals) : list R := match v with VReal a => dat a | VCplx a => map Cre (dat a) end.
Definition re_part (a : nd CS) : nd RS := mkNd (K:=RS) (shp a) (map Cre (dat a)).

(** utils/pmf.py 5-37: [project_nonneg].  The second component is the argument after the
    call: an array of real type is changed in place.  A single value is not (a numpy array
    without axes is treated like a number). *)
Definition trunc (t x : R) : R := if Rleb x t then 0%R else x.
Definition project_nonneg (v : vals) (imag_eps real_eps real_trunc : R) : res (nd RS * vals) :=
  do a <- match v with
          | VCplx a => passert (forallb (fun z => Rleb (Rabs (Cim z)) imag_eps) (dat a)) (Ok (re_part a))
          | VReal a => Ok a
          end;
  passert (forallb (fun x => Rleb (- real_eps) x) (dat a))
    (let out := mkNd (K:=RS) (shp a) (map (trunc real_trunc) (dat a)) in
     Ok (out, match v with
              | VReal b => match shp b with [] => v | _ => VReal out end
              | VCplx _ => v
              end)).

(** utils/pmf.py 40-53: [project_pmf].  [project_nonneg] returns the Python number [0.0]
    for a single value that is truncated; it has no method [sum] (AttributeError).  Division by
    [s = 0] gives [nan] in numpy and an unspecified value here. *)
Definition project_pmf (v : vals) (imag_eps real_eps real_trunc : R) : res (nd RS * vals) :=
  do r <- project_nonneg v imag_eps real_eps real_trunc;
  let (a, v') := r in
  praise_unless (negb (match shp a with [] => forallb (fun x => Rleb x real_trunc) (reals v) | _ => false end)) AttributeError
  (let s := rsum (dat a) in
   passert (Rleb (Rabs (s - 1)) real_eps)
    (let out := mkNd (K:=RS) (shp a) (map (fun x => x / s)%R (dat a)) in
     Ok (out, match v with
              | VReal b => match shp b with [] => v | _ => VReal out end
              | VCplx _ => v
              end))).
