(** Model of the estimators of povm/mppovm.py: packing of samples, empirical probabilities and
    linear functions of outcomes.  No rounding; the values nan and infinity of floating point
    numbers are modelled.  Types of arrays (dtype) are not modelled except where said. *)
From Coq Require Import Reals.
From Verif Require Export Sampling.
Open Scope nat_scope.

(** Floating point values without rounding.  Zero has no sign. *)
Inductive flt : Type := Fin (r : R) | PInf | NInf | NaN.
Definition finf (r : R) : flt := if Rlt_dec 0 r then PInf else if Rlt_dec r 0 then NInf else NaN.
Definition fneg (a : flt) : flt := match a with Fin x => Fin (- x) | PInf => NInf | NInf => PInf | NaN => NaN end.
Definition fadd (a b : flt) : flt :=
  match a, b with
  | Fin x, Fin y => Fin (x + y)
  | NaN, _ | _, NaN => NaN
  | PInf, NInf | NInf, PInf => NaN
  | PInf, _ | _, PInf => PInf
  | NInf, _ | _, NInf => NInf
  end.
Definition fsub (a b : flt) : flt := fadd a (fneg b).
Definition fmul (a b : flt) : flt :=
  match a, b with
  | Fin x, Fin y => Fin (x * y)
  | NaN, _ | _, NaN => NaN
  | Fin x, PInf | PInf, Fin x => finf x
  | Fin x, NInf | NInf, Fin x => finf (- x)
  | PInf, PInf | NInf, NInf => PInf
  | PInf, NInf | NInf, PInf => NInf
  end.
(** numpy division: no exception *)
Definition fdiv (a b : flt) : flt :=
  match a, b with
  | Fin x, Fin y => if Req_EM_T y 0 then finf x else Fin (x / y)
  | NaN, _ | _, NaN => NaN
  | Fin _, PInf | Fin _, NInf => Fin 0
  | PInf, Fin y => if Rlt_dec y 0 then NInf else PInf
  | NInf, Fin y => if Rlt_dec y 0 then PInf else NInf
  | _, _ => NaN
  end.
Definition fsum (l : list flt) : flt := fold_right fadd (Fin 0) l.
(** [a >= x] and [a < 0]; false for nan *)
Definition fge (a : flt) (x : R) : bool := match a with Fin y => Rleb x y | PInf => true | NInf | NaN => false end.
Definition fneg0 (a : flt) : bool := match a with Fin y => negb (Rleb 0 y) | NInf => true | PInf | NaN => false end.

(** Arrays of samples: packed (one integer per sample) or one row per sample *)
Inductive smp : Type := S1 (xs : list Z) | S2 (ncol : nat) (rows : list (list Z)).
Definition nsamples (s : smp) : nat := match s with S1 xs => length xs | S2 _ rows => length rows end.

Section Pack.
Context {K : StarRing}.
(** numpy: [ravel_multi_index] and [unravel_index] raise ValueError for indices out of range and
    if the number of entries does not fit the index type.  [dims = ()] is not modelled (here:
    ValueError). *)
Definition dims_ok (ds : list nat) : bool := match ds with [] => false | _ => (Z.of_nat (size ds) <=? 2 ^ 63 - 1)%Z end.
Definition zin (z : Z) (d : nat) : bool := ((0 <=? z) && (z <? Z.of_nat d))%Z.
Definition ravel_row (ds : list nat) (row : list Z) : res Z :=
  praise_unless (Nat.eqb (length row) (length ds) && forallb (fun p => zin (fst p) (snd p)) (combine row ds)) ValueError
    (Ok (Z.of_nat (ravel ds (map Z.to_nat row)))).
Definition unravel_row (ds : list nat) (k : Z) : res (list Z) :=
  praise_unless (zin k (size ds)) ValueError (Ok (map Z.of_nat (unravel ds (Z.to_nat k)))).
(** mppovm.py 764-785; [dt]: the range of the integer type, if one is given.  [min] of an empty
    array is a ValueError. *)
Definition pack_samples (x : ltens K) (s : smp) (dt : option (Z * Z)) : res (list Z) :=
  match s with
  | S1 _ => Err AssertionError
  | S2 ncol rows =>
      passert (Nat.eqb ncol (length (nsoutdims x))) (
      praise_unless (dims_ok (nsoutdims x)) ValueError (
      do ks <- mapM (ravel_row (nsoutdims x)) rows;
      match dt with
      | None => Ok ks
      | Some (lo, hi) =>
          match ks with
          | [] => Err ValueError
          | _ => passert (forallb (fun k => (lo <=? k)%Z) ks) (passert (forallb (fun k => (k <=? hi)%Z) ks) (Ok ks))
          end
      end))
  end.
(** mppovm.py 787-805; [astype(uint8)] reduces modulo 256 *)
Definition unpack_samples (x : ltens K) (s : smp) : res smp :=
  match s with
  | S2 _ _ => Err AssertionError
  | S1 ks =>
      passert (forallb (fun d => Nat.leb d 255) (outdims x)) (
      praise_unless (dims_ok (nsoutdims x)) ValueError (
      do rows <- mapM (unravel_row (nsoutdims x)) ks;
      Ok (S2 (length (nsoutdims x)) (map (map (fun z => z mod 256)%Z) rows))))
  end.

(** numpy: [bincount].  Negative values are a ValueError. *)
Definition bincount (xs : list Z) (minlength : nat) : res (list nat) :=
  praise_unless (forallb (fun z => 0 <=? z)%Z xs) ValueError
    (Ok (map (fun k => count_occ Z.eq_dec xs (Z.of_nat k)) (seq 0 (fold_right Nat.max minlength (map (fun z => S (Z.to_nat z)) xs))))).
(** mppovm.py 807-832: shape and entries.  Without non-singleton outcome dimensions, [n_out] is a
    float, which [bincount] refuses. *)
Definition est_pmf (x : ltens K) (s : smp) (normalize : bool) : res (list nat * list flt) :=
  let n := nsamples s in
  let n_out := size (nsoutdims x) in
  do ks <- match s with S1 xs => Ok xs | S2 _ _ => pack_samples x s None end;
  praise_unless (match nsoutdims x with [] => false | _ => true end) TypeError (
  do counts <- bincount ks n_out;
  passert (Nat.eqb (length counts) n_out) (
  passert (Nat.eqb (list_sum counts) n) (
  Ok (nsoutdims x, map (fun c => if normalize then fdiv (Fin (INR c)) (Fin (INR n)) else Fin (INR c)) counts)))).

(** Functions of outcomes are functions of a row of outcomes. *)
Definition ofun : Type := list Z -> R.
Definition zrow (ds : list nat) (k : nat) : list Z := map Z.of_nat (unravel ds k).
(** Results: values and covariances of several functions, or value and variance *)
Inductive lres : Type := LArr (ept : list flt) (cov : list (list flt)) | LVal (est var : flt).

(** mppovm.py 871, 922: [np.eye(n_out)] or functions that test for one outcome *)
Definition indicators (ds : list nat) : list ofun :=
  map (fun k row => if list_eq_dec Z.eq_dec row (zrow ds k) then 1%R else 0%R) (seq 0 (size ds)).

(** mppovm.py 887-953.  [weights] must be as long as the samples and not negative.  Without
    weights the number of samples is a Python integer and division by zero raises. *)
Definition est_lfun (x : ltens K) (coeff : option (list R)) (funs : option (list ofun)) (s : smp) (weights : option (list R)) (eps : R) : res lres :=
  do fs <- match funs with
           | Some fs => Ok fs
           | None => praise_unless (match nsoutdims x with [] => false | _ => true end) TypeError (Ok (indicators (nsoutdims x)))
           end;
  passert (match coeff with None => true | Some c => Nat.eqb (length c) (length fs) end) (
  match s with
  | S1 _ => Err AssertionError
  | S2 ncol rows =>
      passert (Nat.eqb ncol (length (nsoutdims x))) (
      passert (match weights with None => true | Some w => Nat.eqb (length w) (length rows) && forallb (fun v => Rleb 0 v) w end) (
      let w := match weights with None => map (fun _ => 1%R) rows | Some w => w end in
      let n_avg := rsum w in
      let ept := map (fun f : ofun => fdiv (Fin (rsum (map (fun p => f (snd p) * fst p)%R (combine w rows)))) (Fin n_avg)) fs in
      do factor <- match weights with
                   | None => praise_unless (Nat.ltb 1 (length rows)) ZeroDivisionError (Ok (Fin (n_avg / (n_avg - 1) / n_avg)))
                   | Some _ => Ok (fdiv (fdiv (Fin n_avg) (Fin (n_avg - 1))) (Fin n_avg))
                   end;
      let cov := map (fun fe : ofun * flt => map (fun ge : ofun * flt =>
                   fmul (fsub (fdiv (Fin (rsum (map (fun p => fst fe (snd p) * (fst ge (snd p) * fst p))%R (combine w rows)))) (Fin n_avg)) (fmul (snd fe) (snd ge))) factor)
                   (combine fs ept)) (combine fs ept) in
      match coeff with
      | None => Ok (LArr ept cov)
      | Some c =>
          let est := fsum (map (fun p => fmul (Fin (fst p)) (snd p)) (combine c ept)) in
          let var := fsum (map (fun p => fmul (Fin (fst p)) (fsum (map (fun q => fmul (snd q) (Fin (fst q))) (combine c (snd p))))) (combine c cov)) in
          passert (fge var (- eps)) (Ok (LVal est (if fneg0 var then Fin 0 else var)))
      end))
  end).
End Pack.

Section QR.
Variable qr : nd CS -> res (nd CS * nd CS).
(** mppovm.py 834-885; the second component is the state afterwards.  All numbers are finite. *)
Definition lfun (x : ltens CS) (coeff : option (list R)) (funs : option (list ofun)) (state : ltens CS) (mode : pmode) (eps : R) : res (lres * ltens CS) :=
  if (match coeff with Some [] => true | _ => false end) || (match funs with Some [] => true | _ => false end) then Ok (LVal (Fin 0) (Fin 0), state) else
  do r <- pmf_as_array qr x state mode eps IAuto;
  let ds := nsoutdims x in
  let p := dat (fst r) in
  praise_unless (match ds with [] => false | _ => true end) TypeError (
  let rows := map (zrow ds) (seq 0 (size ds)) in
  let fs := match funs with Some fs => fs | None => indicators ds end in
  passert (match coeff with None => true | Some c => Nat.eqb (length c) (length fs) end) (
  let ept := map (fun f : ofun => rsum (map (fun q => f (snd q) * fst q)%R (combine p rows))) fs in
  let cov := map (fun fe : ofun * R => map (fun ge : ofun * R =>
               (rsum (map (fun q => fst fe (snd q) * (fst ge (snd q) * fst q)) (combine p rows)) - snd fe * snd ge)%R)
               (combine fs ept)) (combine fs ept) in
  match coeff with
  | None => Ok (LArr (map Fin ept) (map (map Fin) cov), snd r)
  | Some c =>
      let est := rsum (map (fun p => fst p * snd p)%R (combine c ept)) in
      let var := rsum (map (fun p => fst p * rsum (map (fun q => snd q * fst q)%R (combine c (snd p))))%R (combine c cov)) in
      passert (Rleb (- eps) var) (Ok (LVal (Fin est) (Fin (if Rleb 0 var then var else 0%R)), snd r))
  end)).

(** [sum] of the values and of the variances of the members (mppovm.py 1412, 1437, 1504, 1533).
    Unpacking [zip( *... )] of no member is a ValueError. *)
Definition lres_sum (l : list lres) : res lres :=
  match l with
  | [] => Err ValueError
  | _ =>
      do vs <- mapM (fun r => match r with LVal e v => Ok (e, v) | LArr _ _ => Err TypeError end) l;
      Ok (LVal (fsum (map fst vs)) (fsum (map snd vs)))
  end.
(** Members one after the other, each with the state left by the one before *)
Fixpoint thread {A B S : Type} (f : A -> S -> res (B * S)) (l : list A) (s : S) : res (list B * S) :=
  match l with
  | [] => Ok ([], s)
  | a :: l' => do r <- f a s; do q <- thread f l' (snd r); Ok (fst r :: fst q, snd q)
  end.
(** mppovm.py 1393-1412.  Coefficients are given ([None] is not modelled). *)
Definition mppl_lfun (xs : list (ltens CS)) (coeff : list (list R)) (funs : option (list (option (list ofun)))) (state : ltens CS) (mode : pmode) (eps : R) : res (lres * ltens CS) :=
  let fs := match funs with None => map (fun _ => None) xs | Some fs => fs end in
  passert (Nat.eqb (length xs) (length coeff)) (passert (Nat.eqb (length xs) (length fs)) (
  do r <- thread (fun q st => lfun (fst q) (Some (fst (snd q))) (snd (snd q)) st mode eps) (combine xs (combine coeff fs)) state;
  do v <- lres_sum (fst r);
  Ok (v, snd r))).
End QR.

(** mppovm.py 1414-1437: [weights] and [eps] are not passed on; the default 1e-10 is used. *)
Definition mppl_est_lfun {K : StarRing} (xs : list (ltens K)) (coeff : list (list R)) (funs : option (list (option (list ofun)))) (samples : list smp) (weights : option (list (list R))) (eps : R) : res lres :=
  let fs := match funs with None => map (fun _ => None) xs | Some fs => fs end in
  passert (Nat.eqb (length xs) (length coeff)) (passert (Nat.eqb (length xs) (length fs)) (passert (Nat.eqb (length xs) (length samples)) (
  do l <- mapM (fun q => est_lfun (fst q) (Some (fst (snd q))) (fst (snd (snd q))) (snd (snd (snd q))) None (1 / 10 ^ 10)) (combine xs (combine coeff (combine fs samples)));
  lres_sum l))).

(** mppovm.py 1348-1356, 1358-1366, 1368-1377: the members one by one *)
Definition mppl_pack {K : StarRing} (xs : list (ltens K)) (samples : list smp) : res (list (list Z)) :=
  passert (Nat.eqb (length samples) (length xs)) (mapM (fun q => pack_samples (snd q) (fst q) None) (combine samples xs)).
Definition mppl_unpack {K : StarRing} (xs : list (ltens K)) (samples : list smp) : res (list smp) :=
  passert (Nat.eqb (length samples) (length xs)) (mapM (fun q => unpack_samples (snd q) (fst q)) (combine samples xs)).
Definition mppl_est_pmf {K : StarRing} (xs : list (ltens K)) (samples : list smp) (normalized : bool) : res (list (list nat * list flt)) :=
  passert (Nat.eqb (length samples) (length xs)) (mapM (fun q => est_pmf (fst q) (snd q) normalized) (combine xs samples)).
