(** Model of the methods of MPPovm and MPPovmList that use samples for other POVMs:
    match_elems, est_pmf_from, est_pmf_from_mpps, lfun_from, est_lfun_from
    (povm/mppovm.py 564-658, 955-1187, 1379-1391, 1439-1533). *)
From Coq Require Import Reals.
From Verif Require Export Estim Factory.
Open Scope nat_scope.

Section Gen.
Context {K : StarRing}.
(** [np.ones(sh)]; mppovm.py 609, 617: the array that is 1 where all three indices agree *)
Definition ones_nd (sh : list nat) : nd K := tab sh (fun _ => k1).
Definition eye3d (n : nat) : nd K := tab [n; n; n] (fun i => if Nat.eqb (nth 0 i 0) (nth 1 i 0) && Nat.eqb (nth 1 i 0) (nth 2 i 0) then k1 else k0).
(** mppovm.py 597-603: outcomes of [o] are summed where [x] has only one outcome. *)
Definition merge_other (x o : ltens K) : res (ltens K) :=
  do tr <- from_kron (map (fun p => if Nat.ltb 1 (fst p) then eye (snd p) else ones_nd [1; snd p]) (combine (outdims x) (outdims o)));
  do d <- mdot tr o (AInt (-1) 0);
  mppovm_new (lts d).
(** mppovm.py 606-607, 624-625: all inner products.  ([conj] of an MPPovm passes the checks of
    the constructor again.) *)
Definition inner_arr (x o : ltens K) : res (nd K) :=
  do c <- mconj x;
  do d <- mdot c o (ASeq [1; 2] [1; 2])%Z;
  do p <- prune d true;
  do a <- to_array_global p;
  Ok (reshape a (filter (fun d => Nat.ltb 1 d) (shp a))).
(** mppovm.py 609-616, 617-623, 626-627: all squared norms, before [.real] *)
Definition normsq_arr (x : ltens K) : res (nd K) :=
  do c <- mconj x;
  do d <- mdot c x (ASeq [1; 2] [1; 2])%Z;
  do e <- from_kron (map eye3d (outdims x));
  do z <- mdot e d (ASeq [1; 2] [0; 1])%Z;
  do p <- prune z true;
  Ok (to_array p).
End Gen.

(** [exclude_dup]: 'self', 'other' or another string *)
Inductive dupkey : Type := DSelf | DOther | DBad.
Definition has_dup (k : bool) (l : list dupkey) : bool :=
  existsb (fun d => match d with DSelf => k | DOther => negb k | DBad => false end) l.
Definition cabs2 (z : CS) : R := (Cre z * Cre z + Cim z * Cim z)%R.
Definition Rltb (x y : R) : bool := negb (Rleb y x).
Definition count_true (l : list bool) : nat := length (filter (fun b => b) l).
(** [np.outer] of two vectors, flattened *)
Definition outer (f : R -> R -> R) (a b : list R) : list R := flat_map (fun s => map (f s) b) a.
(** The two arrays returned by [match_elems]: their shape in two parts, and the entries *)
Record mtch : Type := mkM { m_s : list nat; m_o : list nat; m_match : list bool; m_pref : list flt }.

(** mppovm.py 564-658 *)
Definition match_elems (x o : ltens CS) (dup : list dupkey) (eps : R) : res mtch :=
  praise_unless (list_eqb (hdims x) (hdims o)) ValueError (
  passert (forallb (fun d => match d with DBad => false | _ => true end) dup) (
  do o' <- merge_other x o;
  do inn <- inner_arr x o';
  do sn <- normsq_arr x;
  do on <- normsq_arr o';
  let ir := map cabs2 (dat inn) in
  let sr := map Cre (dat sn) in
  let onr := map Cre (dat on) in
  passert (forallb (Rltb 0) sr) (
  passert (forallb (Rltb 0) onr) (
  passert (list_eqb (shp inn) (shp sn ++ shp on)) (
  let pairs := combine ir (outer Rmult sr onr) in
  passert (forallb (fun p => Rleb (- eps) ((snd p - fst p) / snd p)) pairs) (
  let m := map (fun p => Rleb (Rabs (fst p / snd p - 1)) eps) pairs in
  let n_s := size (shp sn) in
  let n_o := size (shp on) in
  let at_ i j := nth (i * n_o + j) m false in
  passert (negb (has_dup true dup) || forallb (fun j => Nat.leb (count_true (map (fun i => at_ i j) (seq 0 n_s))) 1) (seq 0 n_o)) (
  passert (negb (has_dup false dup) || forallb (fun i => Nat.leb (count_true (map (fun j => at_ i j) (seq 0 n_o))) 1) (seq 0 n_s)) (
  Ok (mkM (shp sn) (shp on) m (map (fun p => if (fst p : bool) then Fin (snd p) else NaN) (combine m (outer (fun s o => sqrt (s / o))%R sr onr)))))))))))).

(** The indices (row of [self], row of [other], prefactor) of the entries that are True, in the
    order of [np.argwhere] *)
Definition argwhere (m : mtch) : list (nat * nat * flt) :=
  filter (fun q => nth (fst (fst q) * size (m_o m) + snd (fst q)) (m_match m) false)
    (flat_map (fun i => map (fun j => (i, j, nth (i * size (m_o m) + j) (m_pref m) NaN)) (seq 0 (size (m_o m)))) (seq 0 (size (m_s m)))).
(** [match.any(...)] over the axes of [other] *)
Definition given_of (m : mtch) : list bool :=
  map (fun i => existsb (fun j => nth (i * size (m_o m) + j) (m_match m) false) (seq 0 (size (m_o m)))) (seq 0 (size (m_s m))).

Section Fill.
Context {K : StarRing}.
(** mppovm.py 1022-1052 *)
Definition holes (x : ltens K) (support : list nat) : list (nat * list nat) :=
  filter (fun h => Nat.ltb 0 (length (snd h)))
    (map (fun q => let '(pos, (l, r)) := q in (pos, firstn (r - l) (skipn l (outdims x))))
      (combine (seq 0 (S (length support))) (combine (0 :: map S support) (support ++ [llen x])))).
Definition fill_holes (x : ltens K) (support : list nat) (g : ltens K) : res (ltens K) :=
  passert (Nat.eqb (length support) (llen g)) (
  passert (forallb (fun p => Nat.eqb (nth 0 (snd p) 0) (nth (fst p) (outdims x) 0)) (combine support (mshape g))) (
  if Nat.eqb (length support) (llen x) then Ok g else
  match holes x support with
  | [] => Err ValueError
  | hs => inject g (map (fun h => Z.of_nat (fst h)) hs) (map (fun h => InjMany (map (fun d => Some (ones_nd [d])) (snd h))) hs)
  end)).
End Fill.

Section QR.
Variable qr : nd CS -> res (nd CS * nd CS).
(** mppovm.py 1054-1089; [None]: not a multiple of the identity.  A vanishing sum gives nan, which
    fails the assertion. *)
Definition elemsum_identity (x : ltens CS) (support : list nat) (given : list nat * list bool) (eps : R) : res (option R) :=
  passert (existsb (fun b => b) (snd given)) (
  let any_missing := negb (forallb (fun b => b) (snd given)) in
  do g0 <- from_array qr (mkNd (fst given) (map (fun b : bool => if b then k1 else k0) (snd given))) (NDInt 1) false;
  do g <- fill_holes x support g0;
  do es <- mdot g x (AInt (-1) 0);
  do e <- mpo_eye (llen x) (EyeList (hdims x));
  do n1 <- norm_sq qr es;
  do n2 <- norm_sq qr e;
  do inn <- minner (snd n1) (snd n2);
  let sum_norm := sqrt (Cre (fst n1)) in
  let eye_norm := sqrt (Cre (fst n2)) in
  let norm_prod := (sum_norm * eye_norm)%R in
  let inner := sqrt (cabs2 (get inn [])) in
  passert (Rltb 0 norm_prod && Rleb (- eps) ((norm_prod - inner) / norm_prod)) (
  if Rltb eps ((norm_prod - inner) / norm_prod) then Ok None else
  let fraction := (sum_norm / eye_norm)%R in
  passert (if any_missing then Rltb fraction (1 + eps) else Rleb (Rabs (fraction - 1)) eps) (Ok (Some fraction)))).

(** mppovm.py 1123-1131, 990-993: columns of the samples for [o] at sites where [x] has several
    outcomes *)
Definition other_support (x o : ltens CS) : list nat :=
  map fst (filter (fun p => Nat.ltb 1 (snd p))
    (combine (seq 0 (llen o)) (map fst (filter (fun p => Nat.ltb 1 (snd p)) (combine (outdims x) (outdims o)))))).
Definition columns (supp : list nat) (row : list Z) : list Z := map (fun k => nth k row 0%Z) supp.
Definition row_is (ds : list nat) (j : nat) (row : list Z) : bool := if list_eq_dec Z.eq_dec row (zrow ds j) then true else false.

(** mppovm.py 1091-1157; the tolerance of [match_elems] is always the default.  [rowidx] is the
    index of [m_pos] (negative numbers count from the end). *)
Definition rowidx (ds : list nat) (row : list Z) : res nat :=
  do l <- mapM (fun p => match pyidx (fst p) (snd p) with Some k => Ok k | None => Err IndexError end) (combine ds row);
  Ok (ravel ds l).
Definition est_pmf_from (x o : ltens CS) (s : smp) (eps : R) : res (list flt * nat) :=
  passert (Nat.eqb (llen x) (llen o)) (
  match s with
  | S1 _ => Err IndexError
  | S2 ncol rows =>
      passert (Nat.eqb ncol (length (nsoutdims o))) (
      do m <- match_elems x o [] (1 / 10 ^ 10);
      let supp := other_support x o in
      let oo := filter (fun d => Nat.ltb 1 d) (map (fun k => nth k (nsoutdims o) 0) supp) in
      passert (list_eqb (m_s m ++ m_o m) (nsoutdims x ++ oo)) (
      let given := given_of m in
      if negb (existsb (fun b => b) given) then Ok (map (fun _ => NaN) given, 0) else
      do f <- elemsum_identity x (nsoutpos x) (nsoutdims x, given) eps;
      match f with
      | None => Err AssertionError
      | Some f =>
          let rs := map (columns supp) rows in
          praise_unless (match nsoutdims x with [] => false | _ => true end) TypeError (
          do used <- match oo with
                     | [] => Ok (if existsb (fun b => b) given then 1 else 0)
                     | _ => do ks <- mapM (rowidx oo) rs;
                            Ok (count_true (map (fun k => existsb (fun i => nth (i * size oo + k) (m_match m) false) (seq 0 (size (m_s m)))) ks))
                     end;
          let est := map (fun i => fsum (map (fun q => fdiv (fmul (snd q) (Fin (INR (count_true (map (row_is oo (snd (fst q))) rs))))) (Fin (INR (length rows))))
                                          (filter (fun q => Nat.eqb (fst (fst q)) i) (argwhere m)))) (seq 0 (size (m_s m))) in
          passert (match fsum est with Fin t => Rleb (Rabs (t - f)) eps | _ => false end) (
          Ok (map (fun p => if (snd p : bool) then fst p else NaN) (combine est given), used)))
      end))
  end).

(** mppovm.py 1159-1187: averages weighted with the numbers of samples used; [np.nansum] skips
    nan, division by zero gives nan. *)
Definition est_pmf_from_mpps (x : ltens CS) (os : list (ltens CS)) (samples : list smp) (eps : R) : res (list (flt * nat)) :=
  passert (Nat.eqb (length os) (length samples)) (
  do es <- mapM (fun q => est_pmf_from x (fst q) (snd q) eps) (combine os samples);
  praise_unless (match nsoutdims x with [] => false | _ => true end) TypeError (
  Ok (map (fun k =>
    let l := filter (fun p => match fst p with NaN => false | _ => true end) (map (fun e => (nth k (fst e) NaN, snd e)) es) in
    let n := list_sum (map snd l) in
    (fdiv (fsum (map (fun p => fmul (fst p) (Fin (INR (snd p)))) l)) (Fin (INR n)), n)) (seq 0 (size (nsoutdims x)))))).
(** mppovm.py 1379-1391 (all members; the code is a generator) *)
Definition mppl_est_pmf_from (xs os : list (ltens CS)) (samples : list smp) (eps : R) : res (list (list (flt * nat))) :=
  match xs, os with
  | x :: _, o :: _ => passert (Nat.eqb (llen x) (llen o)) (mapM (fun x => est_pmf_from_mpps x os samples eps) xs)
  | _, _ => Err IndexError
  end.

(** ** Linear functions from other POVMs *)
(** Assignment of a float to an element of an integer array truncates. *)
Definition rtrunc (v : R) : Z := if Rle_dec 0 v then Int_part v else (- Int_part (- v))%Z.
(** One entry of the estimator: member of [other], outcome of [self], function, coefficient
    without the final division *)
Record lent : Type := mkE { e_pos : nat; e_out : nat; e_fun : ofun; e_num : flt }.
(** mppovm.py 985-1016: the entries for one member of [other] *)
Definition member_entries (x : ltens CS) (coeff : list R) (eps : R) (q : nat * (ltens CS * R)) : res (list (lent * R)) :=
  let '(pos, (o, w)) := q in
  do m <- match_elems x o [] eps;
  let supp := other_support x o in
  passert (Nat.eqb (length (m_s m) + length (m_o m)) (length (nsoutdims x) + length supp)) (
  Ok (map (fun a => let '(i, j, p) := a in
    (mkE pos i (fun row => if row_is (m_o m) j (columns supp row) then 1%R else 0%R) (fmul (fmul (Fin (nth i coeff 0%R)) (Fin w)) p), w)) (argwhere m))).
(** mppovm.py 1006: the integer accumulators *)
Definition accumulate (n : nat) (es : list (lent * R)) : list Z :=
  fold_left (fun acc e => map (fun p => if Nat.eqb (fst p) (e_out (fst e)) then rtrunc (IZR (snd p) + snd e) else snd p) (combine (seq 0 n) acc)) es (repeat 0%Z n).
(** mppovm.py 955-1020: the entries with their final coefficients, and the accumulators *)
Definition lfun_estimator1 (x : ltens CS) (os : list (ltens CS)) (weights : list R) (coeff : list nat * list R) (eps : R) : res (list (nat * (flt * ofun)) * list Z) :=
  passert (list_eqb (fst coeff) (nsoutdims x)) (
  do es <- mapM (member_entries x (snd coeff) eps) (combine (seq 0 (length os)) (combine os weights));
  let all := concat es in
  let acc := accumulate (size (nsoutdims x)) all in
  Ok (map (fun e => (e_pos (fst e), (fdiv (e_num (fst e)) (Fin (IZR (nth (e_out (fst e)) acc 0%Z))), e_fun (fst e)))) all, acc)).
(** mppovm.py 1439-1467: for every member of [other] its coefficients and functions, and the
    accumulators of the members of [self] *)
Definition lfun_estimator (xs os : list (ltens CS)) (coeff : list (list nat * list R)) (weights : list R) (eps : R) : res (list (list (flt * ofun)) * list (list Z)) :=
  passert (Nat.eqb (length weights) (length os)) (
  passert (Nat.eqb (length coeff) (length xs)) (
  do rs <- mapM (fun q => lfun_estimator1 (snd q) os weights (fst q) eps) (combine coeff xs);
  let all := concat (map fst rs) in
  Ok (map (fun pos => map snd (filter (fun e => Nat.eqb (fst e) pos) all)) (seq 0 (length os)), map snd rs))).
(** mppovm.py 1498-1499, 1527-1528 *)
Definition cannot (accs : list (list Z)) (coeff : list (list nat * list R)) : bool :=
  existsb (fun q => existsb (fun p => negb (if Req_EM_T (snd p) 0 then true else false) && (fst p =? 0)%Z) (combine (fst q) (snd (snd q)))) (combine accs coeff).
(** Coefficients as real numbers, if all are *)
Fixpoint reals (l : list flt) : option (list R) :=
  match l with
  | [] => Some []
  | Fin r :: l' => match reals l' with Some rs => Some (r :: rs) | None => None end
  | _ => None
  end.
(** A coefficient that is not a number makes the variance nan, and the assertion fails. *)
Definition lfun_c (x : ltens CS) (ents : list (flt * ofun)) (state : ltens CS) (mode : pmode) (eps : R) : res (lres * ltens CS) :=
  match reals (map fst ents) with
  | Some c => lfun qr x (Some c) (Some (map snd ents)) state mode eps
  | None => do r <- lfun qr x (Some (map (fun _ => 0%R) ents)) (Some (map snd ents)) state mode eps; Err AssertionError
  end.
Definition est_lfun_c (x : ltens CS) (ents : list (flt * ofun)) (s : smp) (eps : R) : res lres :=
  match reals (map fst ents) with
  | Some c => est_lfun x (Some c) (Some (map snd ents)) s None eps
  | None => do r <- est_lfun x (Some (map (fun _ => 0%R) ents)) (Some (map snd ents)) s None eps; Err AssertionError
  end.
(** mppovm.py 1469-1504; the second component is the state afterwards. *)
Definition lfun_from (xs os : list (ltens CS)) (coeff : list (list nat * list R)) (state : ltens CS) (mode : pmode) (other_weights : option (list R)) (eps : R) : res (lres * ltens CS) :=
  let ws := match other_weights with None => map (fun _ => 1%R) os | Some w => w end in
  do q <- lfun_estimator xs os coeff ws eps;
  if cannot (snd q) coeff then Ok (LVal NaN NaN, state) else
  do r <- thread (fun a s => lfun_c (fst a) (snd a) s mode eps) (combine os (fst q)) state;
  do v <- lres_sum (fst r);
  Ok (v, snd r).
(** mppovm.py 1506-1533 *)
Definition est_lfun_from (xs os : list (ltens CS)) (coeff : list (list nat * list R)) (samples : list smp) (eps : R) : res lres :=
  do q <- lfun_estimator xs os coeff (map (fun s => INR (nsamples s)) samples) eps;
  if cannot (snd q) coeff then Ok (LVal NaN NaN) else
  do l <- mapM (fun a => est_lfun_c (fst (snd a)) (fst a) (snd (snd a)) eps) (combine (fst q) (combine os samples));
  lres_sum l.
End QR.
