(** Model of mpnum/mpsmpo.py: reductions of MPOs and PMPS, conversions between
    MPS, PMPS and MPO.

    Generators are modelled by the list of the values they yield when they are
    run to the end; an exception at any item is the result of the whole run. *)
From Verif Require Export MpCanon.

Section MpsMpo.
Context {K : StarRing}.

(** mpsmpo.py 142-158: [_check_reductions_args], zipped into windows
    (start, stop). *)
Definition check_reductions_args (n : nat) (width : option Z) (starts stops : option (list Z)) : res (list (Z * Z)) :=
  match stops with
  | None =>
      match width with
      | None => Err AssertionError
      | Some w =>
          let ss := match starts with None => pyrange 0 (Z.of_nat n - w + 1) 1 | Some l => l end in
          Ok (map (fun s => (s, s + w)%Z) ss)
      end
  | Some es =>
      match width with
      | Some _ => Err AssertionError
      | None => match starts with None => Err AssertionError | Some ss => Ok (combine ss es) end
      end
  end.

(** The dictionaries [rem_left] and [rem_right]. *)
Fixpoint assoc {A : Type} (k : nat) (d : list (nat * A)) : option A :=
  match d with
  | [] => None
  | (j, a) :: d' => if Nat.eqb k j then Some a else assoc k d'
  end.

(** mpsmpo.py 245-269: [get_remainder] for a non-negative number of sites.
    [left] stands for [end == 1]. *)
Fixpoint get_remainder (ts : list (nd K)) (left : bool) (cache : list (nat * nd K)) (n : nat)
  : res (nd K * list (nat * nd K)) :=
  match assoc n cache with
  | Some r => Ok (r, cache)
  | None =>
      match n with
      | O => Err RecursionError
      | S m =>
          do p <- get_remainder ts left cache m;
          do t <- pyget ts (if left then Z.of_nat m else (- Z.of_nat (S m))%Z);
          let add := trace_axes t 1 2 in
          do r <- (if left then matdot_py (fst p) add else matdot_py add (fst p));
          Ok (r, (S m, r) :: snd p)
      end
  end.
(** A negative number of sites recurses without end. *)
Definition get_remainder_z (ts : list (nd K)) (left : bool) (cache : list (nat * nd K)) (n : Z)
  : res (nd K * list (nat * nd K)) :=
  if (n <? 0)%Z then Err RecursionError else get_remainder ts left cache (Z.to_nat n).

(** mpsmpo.py 272-282, loop body *)
Definition red_mpo_window (ts : list (nd K)) (caches : list (nat * nd K) * list (nat * nd K)) (w : Z * Z)
  : res (ltens K * (list (nat * nd K) * list (nat * nd K))) :=
  let us := pyslice ts (fst w) (snd w) in
  do p <- get_remainder_z ts true (fst caches) (fst w);
  do t <- pyget us 0;
  do t' <- matdot_py (fst p) t;
  let us1 := set_nth 0 t' us in
  do q <- get_remainder_z ts false (snd caches) (Z.of_nat (List.length ts) - snd w);
  do u <- pyget us1 (-1);
  do u' <- matdot_py u (fst q);
  let us2 := set_nth (List.length us1 - 1) u' us1 in
  do z <- mpa_new us2;
  Ok (z, (snd p, snd q)).
Fixpoint red_mpo_loop (ts : list (nd K)) (caches : list (nat * nd K) * list (nat * nd K)) (ws : list (Z * Z))
  : res (list (ltens K)) :=
  match ws with
  | [] => Ok []
  | w :: ws' =>
      do p <- red_mpo_window ts caches w;
      do zs <- red_mpo_loop ts (snd p) ws';
      Ok (fst p :: zs)
  end.
(** mpsmpo.py 221-282 *)
Definition reductions_mpo (x : ltens K) (width : option Z) (starts stops : option (list Z)) : res (list (ltens K)) :=
  do ws <- check_reductions_args (llen x) width starts stops;
  passert (forallb (fun d => (d =? 2)%Z) (ndims x)) (
  let one := mkNd [1; 1] [k1] in
  red_mpo_loop (lts x) ([(0%nat, one)], [(0%nat, one)]) ws).

(** Unpacking of [lten.shape] into four numbers: ValueError otherwise. *)
Definition shape4 (t : nd K) : res (nat * nat * nat * nat) :=
  match shp t with [a; b; c; d] => Ok (a, b, c, d) | _ => Err ValueError end.

Section QR.
Variable qr : nd K -> res (nd K * nd K).

(** mpsmpo.py 299-317, loop body: the yielded PMPS and the modified argument. *)
Definition red_pmps_window (x : ltens K) (w : Z * Z) : res (ltens K * ltens K) :=
  do y <- canonicalize qr x (CAInt (fst w)) (CAInt (snd w));
  do t <- pyget (lts y) (fst w);
  do s <- shape4 t;
  let '(l, sys, anc, r) := s in
  let t' := reshape (transpose t [1; 0; 2; 3]) [1; sys; l * anc; r] in
  let us := t' :: pyslice (lts y) (fst w + 1) (snd w) in
  do u <- pyget us (-1);
  do s' <- shape4 u;
  let '(l', sys', anc', r') := s' in
  let u' := reshape u [l'; sys'; anc' * r'; 1] in
  do z <- mpa_new (set_nth (List.length us - 1) u' us);
  Ok (z, y).
Fixpoint red_pmps_loop (x : ltens K) (ws : list (Z * Z)) : res (list (ltens K) * ltens K) :=
  match ws with
  | [] => Ok ([], x)
  | w :: ws' =>
      do p <- red_pmps_window x w;
      do q <- red_pmps_loop (snd p) ws';
      Ok (fst p :: fst q, snd q)
  end.
(** mpsmpo.py 285-317: the yielded PMPS and the argument afterwards. *)
Definition reductions_pmps (x : ltens K) (width : option Z) (starts stops : option (list Z))
  : res (list (ltens K) * ltens K) :=
  do ws <- check_reductions_args (llen x) width starts stops;
  red_pmps_loop x ws.

(** mpsmpo.py 360-372: [dot] with its default axes (-1, 0) *)
Definition pmps_to_mpo (x : ltens K) : res (ltens K) := do a <- madj x; mdot x a (AInt (-1) 0).

(** mpsmpo.py 375-387 *)
Definition mps_to_pmps (x : ltens K) : res (ltens K) :=
  passert (forallb (fun d => (d =? 1)%Z) (ndims x))
    (mpa_new (map (fun t => reshape t (firstn 2 (shp t) ++ [1; nth 2 (shp t) 0])) (lts x))).

(** mpsmpo.py 390-399 *)
Definition pmps_to_mps (x : ltens K) : res (ltens K) :=
  passert (forallb (fun d => (d =? 2)%Z) (ndims x)) (
  passert (forallb (fun p => Nat.eqb (nth 1 p 0) 1) (mshape x))
    (mreshape x (RList (map (fun p => [Z.of_nat (nth 0 p 0)]) (mshape x))))).

(** mpsmpo.py 402-408 *)
Definition mps_to_mpo (x : ltens K) : res (ltens K) := do p <- mps_to_pmps x; pmps_to_mpo p.

(** mpsmpo.py 320-346; the argument itself is not changed, its PMPS copy is. *)
Definition reductions_mps_as_pmps (x : ltens K) (width : option Z) (starts stops : option (list Z))
  : res (list (ltens K)) :=
  do p <- mps_to_pmps x; do r <- reductions_pmps p width starts stops; Ok (fst r).
Definition reductions_mps_as_mpo (x : ltens K) (width : option Z) (starts stops : option (list Z))
  : res (list (ltens K)) :=
  do zs <- reductions_mps_as_pmps x width starts stops; mapM pmps_to_mpo zs.

(** mpsmpo.py 178-186, loop body of [pmps_dm_to_array] *)
Definition dm_step (out lt : nd K) : res (nd K) :=
  praise_unless (Nat.eqb (nth 1 (shp out) 0) (ldim lt)) ValueError (
  let o1 := tensordot out lt [1] [0] in
  let lc := nconj lt in
  praise_unless (list_eqb (gather [1; 3] (shp o1)) (gather [0; 2] (shp lc))) ValueError (
  let o2 := tensordot o1 lc [1; 3] [0; 2] in
  let o3 := rollaxis o2 3 2 in
  reshape_py o3 [(-1)%Z; Z.of_nat (nth 3 (shp o3) 0); Z.of_nat (nth 4 (shp o3) 0)])).
(** mpsmpo.py 161-192; sites without exactly two legs raise ValueError (at the
    contraction or when the shape is unpacked). *)
Definition pmps_dm_to_array (x : ltens K) (global : bool) : res (nd K) :=
  praise_unless (forallb (fun t => Nat.eqb (ndim t) 4) (lts x)) ValueError (
  do out <- foldM dm_step (lts x) (mkNd [1; 1; 1] [k1]);
  let osh := flat_map (fun p => if Nat.ltb 1 (nth 0 p 0) then [nth 0 p 0; nth 0 p 0] else []) (mshape x) in
  do a <- reshape_py out (map Z.of_nat osh);
  if global then
    passert (match osh with [] => false | d :: r => forallb (Nat.eqb d) r end)
      (local_to_global a (List.length osh / 2) 0 0)
  else Ok a).

(** mpsmpo.py 195-218: the PMPS of the reduced state and the argument afterwards
    (the generator is stopped after its first item).  After the assertion the sites
    are natural numbers. *)
Definition pmps_reduction (x : ltens K) (support : list Z) : res (ltens K * ltens K) :=
  passert (negb (Nat.eqb (List.length support) 0)) (
  passert (forallb (fun s => (0 <=? s)%Z && (s <? Z.of_nat (llen x))%Z) support) (
  let sup := map Z.to_nat support in
  let start := fold_right Nat.min (hd 0 sup) sup in
  let stop := S (fold_right Nat.max 0 sup) in
  do p <- red_pmps_window x (Z.of_nat start, Z.of_nat stop);
  let '(red, y) := p in
  if Nat.eqb (List.length sup) (stop - start) then Ok (red, y)
  else
    let rel := map (fun pos => pos - start) sup in
    do ts <- mapM (fun q => if memb (fst q) rel then Ok (snd q)
                            else reshape_py (snd q) [Z.of_nat (ldim (snd q)); 1%Z; (-1)%Z; Z.of_nat (rdim (snd q))])
                  (combine (seq 0 (llen red)) (lts red));
    do z <- mpa_new ts;
    Ok (z, y))).

(** mpsmpo.py 348-357: [reductions]; the mode of the results is returned too.
    Other modes raise ValueError. *)
Inductive smode : Type := MMps | MPmps | MMpdo | MOther.
Definition reductions (x : ltens K) (mode : smode) (width : option Z) (starts stops : option (list Z))
  : res (list (ltens K) * smode) :=
  match mode with
  | MMps => do zs <- reductions_mps_as_pmps x width starts stops; Ok (zs, MPmps)
  | MPmps => do r <- reductions_pmps x width starts stops; Ok (fst r, MPmps)
  | MMpdo => do zs <- reductions_mpo x width starts stops; Ok (zs, MMpdo)
  | MOther => Err ValueError
  end.
End QR.
End MpsMpo.
