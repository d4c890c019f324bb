(** Model of the sampling functions of povm/mppovm.py over the complex numbers (no rounding).
    Draws from the random generator are random values ([Dist]). *)
From Coq Require Import Reals.
From Verif Require Export Dist PovmArr.
Open Scope nat_scope.

(** mparray.py 90-102: [get] with indices and [slice(None)] (here [None]). *)
Definition local_get_s {K : StarRing} (t : nd K) (i : option Z) : res (nd K) :=
  match i with
  | Some z => local_get t z
  | None => if Nat.ltb (ndim t) 3 then Err IndexError else Ok t
  end.
Definition mget_s {K : StarRing} (x : ltens K) (indices : list (option Z)) : res (ltens K) :=
  passert (Nat.eqb (List.length indices) (llen x)) (
  do ts <- mapM (fun p => local_get_s (snd p) (fst p)) (combine indices (lts x));
  mpa_new ts).

(** [abs(z)] of a complex number *)
Definition Cmod (z : CS) : R := sqrt (Cre z * Cre z + Cim z * Cim z).

(** mppovm.py 692-700: the marginals on [1], ..., [n] sites and on no site. *)
Definition marg_step {K : StarRing} (p : ltens K) (n_sites : nat) : res (@sumres K) :=
  do r <- msum_mpa p (SList (repeat (ESeq []) n_sites ++ [ESeq [0%Z]]));
  if Nat.ltb 0 n_sites
  then match r with SumMpa q => do q' <- prune q false; Ok (SumMpa q') | SumScalar _ => Err AttributeError end
  else Ok r.
Fixpoint marginals {K : StarRing} (n : nat) (p : ltens K) : res (list (ltens K) * @sumres K) :=
  match n with
  | O => Ok ([], SumMpa p)
  | S m =>
      do r <- marg_step p m;
      match m, r with
      | O, _ => Ok ([p], r)
      | S _, SumMpa q => do rest <- marginals m q; Ok (fst rest ++ [p], snd rest)
      | S _, SumScalar _ => Err AttributeError
      end
  end.

(** mppovm.py 660-681.  [marg]: the marginals on [1], ..., [n_sites] sites.  [out] starts as
    255 everywhere.  Division by a zero probability gives [nan], which [project_pmf] refuses. *)
Definition cond_step (marg : list (ltens CS)) (n_sites n_group : Z) (eps : R) (st : list nat * R) (n_out : Z) : rd (list nat * R) :=
  let (out, out_p) := st in
  let a :=
    do p <- pyget marg (Z.min n_sites (n_out + n_group) - 1);
    do q <- mget_s p (map (fun o => Some (Z.of_nat o)) (firstn (Z.to_nat n_out) out) ++ repeat None (llen p - Z.to_nat n_out));
    do q' <- prune q false;
    passert (negb (if Req_EM_T out_p 0 then true else false))
      (do r <- project_pmf (VCplx (nscale (toC (/ out_p)) (to_array q'))) eps eps 0; Ok (fst r)) in
  match a with
  | Err e => dret (Err e)
  | Ok p =>
      rdbind (rng_choice (size (shp p)) (dat p)) (fun c =>
      let new := unravel (shp p) c in
      dret (praise_unless (Nat.eqb (length new) (length (firstn (Z.to_nat n_group) (skipn (Z.to_nat n_out) out)))) ValueError
        (Ok (firstn (Z.to_nat n_out) out ++ new ++ skipn (Z.to_nat (n_out + n_group)) out, (out_p * nth c (dat p) 0)%R))))
  end.
Definition sample_cond_single (marg : list (ltens CS)) (n_group : Z) (out : list nat) (eps : R) : rd (list nat) :=
  let last := List.last marg (mkLt [] 0 0) in
  let n_sites := Z.of_nat (llen last) in
  if (n_group =? 0)%Z then dret (Err ValueError) else
  rdbind (foldD (cond_step marg n_sites n_group eps) (pyrange 0 n_sites n_group) (out, 1%R)) (fun st =>
  dret (do p <- mget last (map Z.of_nat (fst st));
        passert (Rleb (Cmod (get (to_array p) [] - toC (snd st))%K) eps) (Ok (fst st)))).

Section QR.
Variable qr : nd CS -> res (nd CS * nd CS).
(** mppovm.py 683-703: the random rows and the state afterwards *)
Definition sample_cond (x state : ltens CS) (mode : pmode) (n_samples : nat) (n_group : Z) (eps : R) : res (rd (list (list nat)) * ltens CS) :=
  do r <- pmf qr x state mode;
  do z <- prune (fst r) true;
  do s <- msum_mpa z SNone;
  do v <- match s with SumScalar a => Ok (get a []) | SumMpa _ => Err AttributeError end;
  passert (Rleb (Rabs (Cim v)) eps) (
  passert (Rleb (Rabs (1 - Cre v)) eps) (
  do ms <- marginals (llen z) z;
  do v0 <- match snd ms with SumScalar a => Ok (get a []) | SumMpa _ => Err TypeError end;
  passert (Rleb (Cmod (v0 - k1)%K) eps) (
  Ok (repeatD n_samples (sample_cond_single (fst ms) n_group (repeat 255 (length (nsoutdims x))) eps), snd r)))).
(** mppovm.py 705-710 *)
Definition sample_direct (x state : ltens CS) (mode : pmode) (n_samples : nat) (eps : R) : res (rd (list (list nat)) * ltens CS) :=
  do r <- pmf_as_array qr x state mode eps IAuto;
  let p := fst r in
  Ok (rdbind (repeatD n_samples (rng_choice (size (shp p)) (dat p))) (fun cs => dret (Ok (map (unravel (shp p)) cs))), snd r).
(** mppovm.py 712-762 without [pack].  The unknown method is a ValueError. *)
Inductive smethod : Type := SCond | SDirect | SUnknown.
Definition sample (x state : ltens CS) (n_samples : nat) (method : smethod) (n_group : Z) (mode : pmode) (eps : R) : res (rd (list (list nat)) * ltens CS) :=
  passert (Nat.eqb (llen x) (llen state)) (
  passert (forallb (fun d => Nat.leb d 255) (outdims x)) (
  do r <- match method with
          | SCond => sample_cond x state mode n_samples n_group eps
          | SDirect => sample_direct x state mode n_samples eps
          | SUnknown => Err ValueError
          end;
  Ok (rdbind (fst r) (fun out =>
        dret (passert (forallb (fun row => forallb (fun p => Nat.ltb (fst p) (snd p)) (combine row (nsoutdims x))) out) (Ok out))), snd r))).
End QR.
