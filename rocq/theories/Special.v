(** Model of mpnum/special.py. *)
From Verif Require Export ExtMath.
Open Scope nat_scope.

Section Special.
Context {K : StarRing}.

(** [np.dot] of two matrices. *)
Definition dot2 (a b : nd K) : res (nd K) :=
  praise_unless (Nat.eqb (nth 1 (shp a) 0) (nth 0 (shp b) 0)) ValueError (Ok (matdot a b)).
(** [np.dot(l1[0, :, 0].conj(), l2)]: a vector times the second to last axis of [l2].
    (The index 0 exists: bonds of length one were asserted before.) *)
Definition dot_site (l1 l2 : nd K) : res (nd K) :=
  praise_unless (Nat.eqb (nth 1 (shp l1) 0) (nth 1 (shp l2) 0)) ValueError
    (Ok (tab [nth 0 (shp l2) 0; nth 2 (shp l2) 0]
             (fun idx => bigsum (nth 1 (shp l1) 0)
                (fun i => kconj (get l1 [0; i; 0]%nat) * get l2 [nth 0 idx 0%nat; i; nth 1 idx 0%nat])%K))).
(** special.py 19-38: [inner_prod_mps].  [zip] ends with the shorter of the two. *)
Fixpoint inner_loop (res0 : nd K) (ps : list (nd K * nd K)) : res (nd K) :=
  match ps with
  | [] => Ok res0
  | p :: rest => do m <- dot_site (fst p) (snd p); do r <- dot2 res0 m; inner_loop r rest
  end.
Definition inner_prod_mps (x y : ltens K) : res K :=
  passert (forallb (fun r => Nat.eqb r 1) (ranks x)) (
  passert (forallb (fun d => (d =? 1)%Z) (ndims x)) (
  passert (forallb (fun d => (d =? 1)%Z) (ndims y)) (
  match lts x, lts y with
  | t :: ts, u :: us =>
      do r0 <- dot_site t u;
      do r <- inner_loop r0 (combine ts us);
      Ok (get r [0; 0])
  | _, _ => Err StopIteration  (* an MPArray has at least one site *)
  end))).

(** [np.concatenate(ss, axis)] *)
Fixpoint locate (sizes : list nat) (i : nat) : nat * nat :=
  match sizes with
  | [] => (0, i)
  | n :: rest => if Nat.ltb i n then (0, i) else let q := locate rest (i - n) in (S (fst q), snd q)
  end.
Definition concat_np (ax : nat) (ss : list (nd K)) : res (nd K) :=
  match ss with
  | [] => Err ValueError
  | s0 :: _ =>
      praise_unless (forallb (fun s => list_eqb (set_nth ax 0 (shp s)) (set_nth ax 0 (shp s0))) ss) ValueError (
      let sizes := map (fun s => nth ax (shp s) 0) ss in
      Ok (tab (set_nth ax (fold_right Nat.add 0 sizes) (shp s0))
              (fun idx => let q := locate sizes (nth ax idx 0) in
                          get (nth (fst q) ss (mkNd [] [])) (set_nth ax (snd q) idx))))
  end.

(** A matrix in CSC format: column [j] has the entries [data[p]] in row [indices[p]] for
    [indptr[j] <= p < indptr[j+1]]. *)
Definition csc_dense (data : list K) (indices indptr : list nat) (rows cols : nat) : nd K :=
  tab [rows; cols] (fun idx =>
    let i := nth 0 idx 0 in let j := nth 1 idx 0 in
    let a := nth j indptr 0 in let b := nth (S j) indptr 0 in
    bigsum (b - a)%nat (fun k => if Nat.eqb (nth (a + k)%nat indices 0%nat) i then nth (a + k)%nat data k0 else k0)).
(** special.py 108-126: [_local_add_sparse]; the arguments are the flat data of the local
    tensors.  The matrix is represented densely. *)
Definition local_add_sparse (ltenss : list (list K)) : res (nd K) :=
  match ltenss with
  | [] => Err IndexError
  | l0 :: _ =>
      let dim := List.length l0 in
      let nr := List.length ltenss in
      praise_unless (forallb (fun l => Nat.eqb (List.length l) dim) ltenss) ValueError (
      let indptr := seq 0 (nr * dim + 1) in
      let indices := concat (repeat (seq 0 nr) dim) in
      let data := flat_map (fun d => map (fun l => nth d l k0) ltenss) (seq 0 dim) in
      Ok (csc_dense data indices indptr nr (dim * nr)))
  end.

(** [sv[:, None] * v] *)
Definition scale_sv (sv : list K) (v : nd K) : nd K := tab (shp v) (fun idx => nth (nth 0 idx 0%nat) sv k0 * get v idx)%K.

Variable svdfunc : nd K -> nat -> res (nd K * list K * nd K).

(** special.py 41-105: [sumup].  [nsite k] are the tensors that the iterators give next. *)
Definition nsite (mpas : list (ltens K)) (k : nat) : list (nd K) := map (fun x => nth k (lts x) (mkNd [] [])) mpas.
Fixpoint sumup_loop (mpas : list (ltens K)) (rank : nat) (sites : list nat) (prev : nat) (sv : list K) (v : nd K) : res (list (nd K) * list K * nd K) :=
  match sites with
  | [] => Ok ([], sv, v)
  | k :: rest =>
      let nr := List.length mpas in
      do sp <- local_add_sparse (map dat (nsite mpas k));
      do c <- dot2 (scale_sv sv v) sp;
      do c <- reshape_py c [-1; Z.of_nat nr]%Z;
      let rank_t := Nat.min rank (Nat.min (nth 0 (shp c) 0) (nth 1 (shp c) 0)) in
      do f <- svdfunc c rank_t;
      let '(u, sv', v') := f in
      do t <- reshape_py u [Z.of_nat prev; -1; Z.of_nat rank_t]%Z;
      do r <- sumup_loop mpas rank rest rank_t sv' v';
      let '(ts, sv2, v2) := r in Ok (t :: ts, sv2, v2)
  end.
Definition special_sumup (mpas : list (ltens K)) (rank : nat) (weights : option (list K)) : res (ltens K) :=
  match mpas with
  | [] => Err IndexError
  | x0 :: _ =>
      let n := llen x0 in
      let nr := List.length mpas in
      let ws := match weights with Some w => w | None => repeat k1 nr end in
      passert (forallb (fun x => Nat.eqb (llen x) n) mpas) (
      passert (Nat.eqb (List.length ws) nr) (
      if Nat.eqb n 1 then
        do s <- (match map (fun p => nscale (fst p) (snd p)) (combine ws (nsite mpas 0)) with
                 | [] => Err IndexError
                 | t :: ts => foldM (fun acc t => nadd_py acc t) ts t
                 end);
        mpa_new [s]
      else
        passert (forallb (fun x => Nat.eqb (fold_right Nat.max 0 (ranks x)) 1) mpas) (
        do c0 <- concat_np (ndim (nth 0 (lts x0) (mkNd [] [])) - 1) (map (fun p => nscale (fst p) (snd p)) (combine ws (nsite mpas 0)));
        do m0 <- reshape_py c0 [-1; Z.of_nat nr]%Z;
        do f <- svdfunc m0 rank;
        let '(u, sv, v) := f in
        do t0 <- reshape_py u [1; -1; Z.of_nat (List.length sv)]%Z;
        do r <- sumup_loop mpas rank (seq 1 (n - 2)) (List.length sv) sv v;
        let '(ts, sv2, v2) := r in
        do cl <- concat_np 0 (nsite mpas (n - 1));
        do cl <- reshape_py cl [Z.of_nat nr; -1]%Z;
        do cl <- dot2 (scale_sv sv2 v2) cl;
        do tl <- reshape_py cl [Z.of_nat (List.length sv2); -1; 1]%Z;
        let lt := t0 :: ts ++ [tl] in
        do z <- lt_init lt (Some (Z.of_nat (List.length lt) - 1)%Z, None);
        mreshape z (RList (map (map Z.of_nat) (mshape x0))))))
  end.
End Special.
