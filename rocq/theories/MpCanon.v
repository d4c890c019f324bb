(** Model of mpnum/mparray.py, part 2: canonicalization, norm, construction from
    dense arrays and SVD compression.

    [numpy.linalg.qr] and [numpy.linalg.svd] (mparray.py 25) are parameters of
    the model: functions from a matrix to its factors or to an exception
    ([LinAlgError]).  What is assumed about them is stated in [CanonSpec].
    In-place methods return the new state; the state left behind by a call that
    raises is in [ObjState]. *)
From Verif Require Export MpArray.
Open Scope string_scope.
Open Scope list_scope.

Section Canon.
Context {K : StarRing}.

(** [matdot] (extmath.py 34-36) as called on local tensors: tensordot raises
    ValueError when the contracted dimensions differ. *)
Definition matdot_py (a b : nd K) : res (nd K) :=
  praise_unless (Nat.eqb (rdim a) (ldim b)) ValueError (Ok (matdot a b)).

(** [a.T] of a matrix *)
Definition mat_T (a : nd K) : nd K := transpose a [1; 0].

Definition zshape (sh : list nat) : list Z := map Z.of_nat sh.

Section QR.
Variable qr : nd K -> res (nd K * nd K).

(** mparray.py 681-691, loop body of [_rcanonicalize] *)
Definition rcanon_step (x : ltens K) (site : Z) : res (ltens K) :=
  do t <- pyget (lts x) site;
  do d <- shape_last t;
  do m <- reshape_py t [-1; Z.of_nat d]%Z;
  do qr' <- qr m;
  let '(q, r) := qr' in
  do q' <- reshape_py q (zshape (removelast (shp t)) ++ [-1]%Z);
  do u <- pyget (lts x) (site + 1);
  do u' <- matdot_py r u;
  lt_update_slice x (mkSlice (Some site) (Some (site + 2)%Z) None) [q'; u'] (CSeq [Some "left"; None]).

(** mparray.py 673-691 *)
Definition rcanonicalize (x : ltens K) (to_site : Z) : res (ltens K) :=
  passert ((0 <=? to_site)%Z && (to_site <? Z.of_nat (llen x))%Z)
    (foldM rcanon_step (pyrange (lcan x) to_site 1) x).

(** mparray.py 702-711, loop body of [_lcanonicalize] *)
Definition lcanon_step (x : ltens K) (site : Z) : res (ltens K) :=
  do t <- pyget (lts x) site;
  do d <- shape0 t;
  do m <- reshape_py t [Z.of_nat d; -1]%Z;
  do qr' <- qr (mat_T m);
  let '(q, r) := qr' in
  do p <- pyget (lts x) (site - 1);
  do p' <- matdot_py p (mat_T r);
  do q' <- reshape_py (mat_T q) ((-1)%Z :: zshape (tl (shp t)));
  lt_update_slice x (mkSlice (Some (site - 1)%Z) (Some (site + 1)%Z) None) [p'; q'] (CSeq [None; Some "right"]).

(** mparray.py 693-711 *)
Definition lcanonicalize (x : ltens K) (to_site : Z) : res (ltens K) :=
  passert ((0 <? to_site)%Z && (to_site <=? Z.of_nat (llen x))%Z)
    (foldM lcanon_step (pyrange (rcan x - 1) (to_site - 1) (-1)) x).

(** Arguments [left] and [right] of [canonicalize]: None, 'afull' or an int. *)
Inductive carg : Type := CANone | CAFull | CAInt (z : Z).

(** mparray.py 592-671 *)
Definition canonicalize (x : ltens K) (left right : carg) : res (ltens K) :=
  let n := Z.of_nat (llen x) in
  let '(cl, cr) := canonical_form x in
  match left, right with
  | CANone, CANone =>
      if (cl <? n - cr)%Z then lcanonicalize x 1 else rcanonicalize x (n - 1)
  | _, _ =>
      let tl0 := match left with CANone => 0%Z | CAFull => (n - 1)%Z | CAInt z => z end in
      let tr0 := match right with CANone => n | CAFull => 1%Z | CAInt z => z end in
      let tl := if (tl0 <? 0)%Z then (tl0 + n)%Z else tl0 in
      let tr := if (tr0 <? 0)%Z then (tr0 + n)%Z else tr0 in
      if negb ((0 <=? tl)%Z && (tl <=? n)%Z) then Err IndexError
      else if negb ((0 <=? tr)%Z && (tr <=? n)%Z) then Err IndexError
      else if negb (tl <? tr)%Z then Err ValueError
      else
        do x1 <- (if (cl <? tl)%Z then rcanonicalize x tl else Ok x);
        if (tr <? cr)%Z then lcanonicalize x1 tr else Ok x1
  end.

(** [np.sum(np.abs(t)**2)], i.e. the square of [np.linalg.norm(t)] *)
Definition abs2 (t : nd K) : K := msum (shp t) (fun i => kconj (get t i) * get t i)%K.

(** mparray.py 1416-1435: [norm(mpa)], here its square, together with the
    modified argument. *)
Definition norm_sq (x : ltens K) : res (K * ltens K) :=
  do z <- canonicalize x CANone CANone;
  let '(cl, cr) := canonical_form z in
  if (cr =? 1)%Z then (do t <- pyget (lts z) 0; Ok (abs2 t, z))
  else if (cl =? Z.of_nat (llen z) - 1)%Z then (do t <- pyget (lts z) (-1); Ok (abs2 t, z))
  else Err ValueError.

(** mparray.py 1438-1447: [normdist(mpa1, mpa2)], squared. *)
Definition normdist_sq (x y : ltens K) : res K :=
  do d <- msub x y; do p <- norm_sq d; Ok (fst p).

(** mparray.py 1781-1804: [_extract_factors] for an iterator over the numbers of
    legs; the list is the rest of the iterator. *)
Fixpoint extract_factors (tens : nd K) (ns : list nat) : res (list (nd K)) :=
  match ns with
  | [] => Err StopIteration
  | n :: ns' =>
      if Nat.eqb (ndim tens) (n + 2) then Ok [tens]
      else if Nat.ltb (ndim tens) (n + 2) then Err AssertionError
      else
        do m <- reshape_py tens [Z.of_nat (size (firstn (S n) (shp tens))); -1]%Z;
        do qr' <- qr m;
        let '(q, r) := qr' in
        let k := ldim r in
        do q' <- reshape_py q (zshape (firstn (S n) (shp tens) ++ [k]));
        do r' <- reshape_py r (zshape (k :: skipn (S n) (shp tens)));
        do rest <- extract_factors r' ns';
        Ok (q' :: rest)
  end.
(** The same with an integer: the iterator that repeats [n].  The recursion ends
    after at most [ndim tens] steps unless [n = 0]; then it does not end at all
    (RecursionError). *)
Definition extract_factors_int (tens : nd K) (n : nat) : res (list (nd K)) :=
  match extract_factors tens (repeat n (ndim tens)) with
  | Err StopIteration => Err RecursionError
  | r => r
  end.

(** Argument [ndims] of [from_array]. *)
Inductive ndarg : Type := NDNone | NDInt (n : nat) | NDList (l : list nat).

(** mparray.py 207-246 *)
Definition from_array (a : nd K) (nds : ndarg) (has_virtual : bool) : res (ltens K) :=
  let a' := if has_virtual then a else add_virt a in
  do ts <- match nds with
           | NDNone => extract_factors_int a' (ndim a)
           | NDInt n => extract_factors_int a' n
           | NDList l => extract_factors a' l
           end;
  lt_init ts (Some (Z.of_nat (List.length ts) - 1)%Z, Some (Z.of_nat (List.length ts))).

(** mparray.py 189-205; [ndims] None or an int (a list fails at [%]: TypeError) *)
Definition from_array_global (a : nd K) (nds : ndarg) : res (ltens K) :=
  do n <- match nds with NDNone => Ok (ndim a) | NDInt n => Ok n | NDList _ => Err TypeError end;
  if Nat.eqb n 0 then Err ZeroDivisionError else
  passert (Nat.eqb (ndim a mod n) 0) (
  do b <- global_to_local a (ndim a / n) 0 0;
  from_array b (NDInt n) false).

(** mparray.py 501-518 *)
Definition split_sites (x : ltens K) (n : nat) : res (ltens K) :=
  do tss <- mapM (fun t =>
      if Nat.eqb n 0 then Err ZeroDivisionError else
      passert (Nat.eqb ((ndim t - 2) mod n) 0)
        (extract_factors_int t ((ndim t - 2) / n))) (lts x);
  mpa_new (concat tss).

Section SVD.
(** [np.linalg.svd(A)] (full matrices): [u], the list of singular values, [v]. *)
Variable svd : nd K -> res (nd K * list K * nd K).

(** [u[:, :k]], [v[:k]] *)
Definition take_cols (k : nat) (u : nd K) : nd K :=
  tab [nth 0 (shp u) 0; Nat.min k (nth 1 (shp u) 0)] (fun i => get u i).
Definition take_rows (k : nat) (v : nd K) : nd K :=
  tab [Nat.min k (nth 0 (shp v) 0); nth 1 (shp v) 0] (fun i => get v i).
(** [u * s[None, :]], [s[:, None] * v]; unequal lengths raise ValueError (numpy
    would broadcast length one: not modelled). *)
Definition scale_cols (u : nd K) (s : list K) : res (nd K) :=
  praise_unless (Nat.eqb (List.length s) (nth 1 (shp u) 0)) ValueError
    (Ok (tab (shp u) (fun i => get u i * nth (nth 1 i 0%nat) s k0)%K)).
Definition scale_rows (s : list K) (v : nd K) : res (nd K) :=
  praise_unless (Nat.eqb (List.length s) (nth 0 (shp v) 0)) ValueError
    (Ok (tab (shp v) (fun i => nth (nth 0 i 0%nat) s k0 * get v i)%K)).

(** utils/extmath.py 107-126: [truncated_svd(A, k)] *)
Definition truncated_svd (a : nd K) (k : nat) : res (nd K * list K * nd K) :=
  do r <- svd a;
  let '(u, s, v) := r in
  let k' := Nat.min k (List.length s) in
  Ok (take_cols k' u, firstn k' s, take_rows k' v).

(** Parameters of the SVD compression.  [relerr]: the map from the singular
    values to [np.searchsorted(np.cumsum(sv) / np.sum(sv), 1 - relerr) + 1]. *)
Variable svdfunc : nd K -> nat -> res (nd K * list K * nd K).

(** mparray.py 913-921 (l) and 944-952 (r): factors of the site and the number of
    singular values kept. *)
Definition svd_site (rank : nat) (relerr : option (list K -> nat)) (m : nd K)
  : res (nd K * list K * nd K * nat) :=
  match relerr with
  | None => do f <- svdfunc m rank; let '(u, s, v) := f in Ok (u, s, v, List.length s)
  | Some rk =>
      do f <- svd m; let '(u, s, v) := f in
      Ok (u, s, v, Nat.min (Nat.min (Nat.min (nth 0 (shp m) 0) (nth 1 (shp m) 0)) rank) (rk s))
  end.

(** mparray.py 943-959: one step of [_compress_svd_r]; the singular values and the
    rank that are yielded. *)
Definition csvd_r_factor (rank : nat) (relerr : option (list K -> nat)) (x : ltens K) (site : Z)
  : res (nd K * nd K * list K * nd K * nat) :=
  do t <- pyget (lts x) site;
  do d <- shape_last t;
  do m <- reshape_py t [-1; Z.of_nat d]%Z;
  do f <- svd_site rank relerr m;
  let '(u, s, v, k) := f in Ok (t, u, s, v, k).
Definition csvd_r_step (rank : nat) (relerr : option (list K -> nat)) (x : ltens K) (site : Z)
  : res (ltens K * (list K * nat)) :=
  do f <- csvd_r_factor rank relerr x site;
  let '(t, u, s, v, k) := f in
  do u' <- reshape_py (take_cols k u) (zshape (removelast (shp t) ++ [k]));
  do w <- pyget (lts x) (site + 1);
  do sv <- scale_rows (firstn k s) (take_rows k v);
  do w' <- matdot_py sv w;
  do z <- lt_update_slice x (mkSlice (Some site) (Some (site + 2)%Z) None) [u'; w'] (CSeq [Some "left"; None]);
  Ok (z, (s, k)).

(** mparray.py 912-928: one step of [_compress_svd_l]. *)
Definition csvd_l_step (rank : nat) (relerr : option (list K -> nat)) (x : ltens K) (site : Z)
  : res (ltens K * (list K * nat)) :=
  do t <- pyget (lts x) site;
  do d <- shape0 t;
  do m <- reshape_py t [Z.of_nat d; -1]%Z;
  do f <- svd_site rank relerr m;
  let '(u, s, v, k) := f in
  do w <- pyget (lts x) (site - 1);
  do us <- scale_cols (take_cols k u) (firstn k s);
  do w' <- matdot_py w us;
  do v' <- reshape_py (take_rows k v) (zshape (k :: tl (shp t)));
  do z <- lt_update_slice x (mkSlice (Some (site - 1)%Z) (Some (site + 1)%Z) None) [w'; v'] (CSeq [None; Some "right"]);
  Ok (z, (s, k)).

(** The loops, collecting what is yielded. *)
Fixpoint csvd_loop (step : ltens K -> Z -> res (ltens K * (list K * nat))) (sites : list Z) (x : ltens K)
  : res (ltens K * list (list K * nat)) :=
  match sites with
  | [] => Ok (x, [])
  | s :: sites' =>
      do p <- step x s;
      do q <- csvd_loop step sites' (fst p);
      Ok (fst q, snd p :: snd q)
  end.

(** mparray.py 901-931 and 933-962; the last yielded item is the returned
    overlap.  The range check of relerr concerns the number behind [relerr] and
    is part of the model over the reals. *)
Definition compress_svd_r (x : ltens K) (rank : nat) (relerr : option (list K -> nat))
  : res (ltens K * list (list K * nat) * K) :=
  passert (Nat.ltb 0 rank) (
  do p <- csvd_loop (csvd_r_step rank relerr) (pyrange 0 (Z.of_nat (llen x) - 1) 1) x;
  do t <- pyget (lts (fst p)) (-1);
  Ok (fst p, snd p, abs2 t)).
Definition compress_svd_l (x : ltens K) (rank : nat) (relerr : option (list K -> nat))
  : res (ltens K * list (list K * nat) * K) :=
  passert (Nat.ltb 0 rank) (
  do p <- csvd_loop (csvd_l_step rank relerr) (pyrange (Z.of_nat (llen x) - 1) 0 (-1)) x;
  do t <- pyget (lts (fst p)) 0;
  Ok (fst p, snd p, abs2 t)).

(** Argument [direction]; other values raise ValueError. *)
Inductive dirarg : Type := DNone | DLeft | DRight | DOther.

Definition max_rank (x : ltens K) : res nat :=
  match ranks x with [] => Err ValueError | r :: rs => Ok (fold_right Nat.max r rs) end.

(** mparray.py 830-859: the modified array and the returned overlap. *)
Definition compress_svd (x : ltens K) (rank : option nat) (relerr : option (list K -> nat))
    (direction : dirarg) (canon : bool) : res (ltens K * K) :=
  if Nat.eqb (llen x) 1 then (do p <- norm_sq x; Ok (snd p, fst p))
  else
    let '(ln, rn) := canonical_form x in
    let dir := match direction with
               | DNone => if (ln <? Z.of_nat (llen x) - rn)%Z then DLeft else DRight
               | d => d
               end in
    do rk <- match rank with Some r => Ok r | None => max_rank x end;
    match dir with
    | DRight =>
        do x1 <- (if canon then canonicalize x CANone (CAInt 1) else Ok x);
        do p <- compress_svd_r x1 rk relerr; Ok (fst (fst p), snd p)
    | DLeft =>
        do x1 <- (if canon then canonicalize x (CAInt (Z.of_nat (llen x) - 1)) CANone else Ok x);
        do p <- compress_svd_l x1 rk relerr; Ok (fst (fst p), snd p)
    | _ => Err ValueError
    end.

(** mparray.py 812-828, method 'svd': a copy is compressed. *)
Definition compression_svd (x : ltens K) (rank : option nat) (relerr : option (list K -> nat))
    (direction : dirarg) (canon : bool) : res (ltens K * K) :=
  do c <- mpa_copy x; compress_svd c rank relerr direction canon.

End SVD.

(** mparray.py 964-985.  [zip(range(len - 1), iterator)] pulls len - 1 items, so
    the update following the last yielded spectrum is not executed; [truncated_svd]
    is used whatever svdfunc the caller prefers elsewhere. *)
Definition singularvals (svd : nd K -> res (nd K * list K * nd K)) (x : ltens K) : res (list (list K) * ltens K) :=
  if Nat.eqb (llen x) 1 then Ok ([], x)
  else
    do x1 <- canonicalize x CANone (CAInt 1);
    do rk <- max_rank x1;
    passert (Nat.ltb 0 rk) (
    do p <- csvd_loop (csvd_r_step svd (truncated_svd svd) rk None) (pyrange 0 (Z.of_nat (llen x) - 2) 1) x1;
    do f <- csvd_r_factor svd (truncated_svd svd) rk None (fst p) (Z.of_nat (llen x) - 2);
    let '(_, _, s, _, _) := f in
    Ok (map fst (snd p) ++ [s], fst p)).

End QR.
End Canon.
