(** Model of [MPPovm.pmf_as_array], [pmfs_as_array] and [block_pmfs_as_array]
    (mppovm.py 514-562) over the complex numbers (no rounding). *)
From Coq Require Import Reals.
From Verif Require Export Pmf MpPovm.
Open Scope nat_scope.

Section QR.
Variable qr : nd CS -> res (nd CS * nd CS).
(** mppovm.py 514-546: [project_pmf(pmf, eps, eps)] of the array; the second component is the
    state afterwards.  The array is taken to be of complex type: for one of real type the values
    returned are the same. *)
Definition pmf_as_array (x state : ltens CS) (mode : pmode) (eps : R) (impl : pimpl) : res (nd RS * ltens CS) :=
  do r <- pmf_raw qr x state mode impl;
  do q <- project_pmf (VCplx (fst r)) eps eps 0;
  Ok (fst q, snd r).
(** mppovm.py 548-553 *)
Definition pmfs_as_array (x : ltens CS) (states : list (ltens CS)) (mode : pmode) (eps : R) : res (list (nd RS)) :=
  mapM (fun st => do r <- pmf_as_array x st mode eps IAuto; Ok (fst r)) states.
(** mppovm.py 555-562; [redarg] is (width, startsites, stopsites), all None if no arguments are
    given.  [mpsmpo.reductions] yields reduced states and their mode. *)
Definition red_mode (m : pmode) : smode :=
  match m with EMps => MMps | EMpdo => MMpdo | EPmps => MPmps | EAuto | EOther => MOther end.
Definition back_mode (m : smode) : pmode :=
  match m with MMps => EMps | MMpdo => EMpdo | MPmps => EPmps | MOther => EOther end.
Definition block_pmfs_as_array (x state : ltens CS) (mode : pmode) (eps : R) (redarg : option Z * option (list Z) * option (list Z)) : res (list (nd RS)) :=
  let '(w, s, e) := match redarg with (None, None, None) => (Some (Z.of_nat (llen x)), None, None) | r => r end in
  do r <- reductions qr state (red_mode mode) w s e;
  pmfs_as_array x (fst r) (back_mode (snd r)) eps.
End QR.
