(** Model of the dense reference for the SVD compression in [_testing.py]. *)
From Coq Require Import ZArith.
From Verif Require Export MpCanon.

Section Ref.
Context {K : StarRing}.
(** [np.linalg.svd(a)] (full matrices) as in [MpCanon]; [full_matrices=False] returns
    the first min(m, n) columns of [u] and rows of [vt]. *)
Variable svd : nd K -> res (nd K * list K * nd K).
Definition svd_reduced (a : nd K) : res (nd K * list K * nd K) :=
  do f <- svd a;
  let '(u, s, v) := f in
  let d := Nat.min (nth 0 (shp a) 0) (nth 1 (shp a) 0) in
  Ok (take_cols d u, s, take_rows d v).

(** _testing.py 100-115: [singlecut(array, nr_left, target_rank)].  [retproj]: also
    the projectors on the singular vectors kept. *)
Definition singlecut (retproj : bool) (a : nd K) (nr_left target_rank : nat) : res (nd K * option (nd K * nd K)) :=
  do m <- reshape_py a [Z.of_nat (size (firstn nr_left (shp a))); -1]%Z;
  do f <- svd_reduced m;
  let '(u, s, vt) := f in
  let u := take_cols target_rank u in
  let s := firstn target_rank s in
  let vt := take_rows target_rank vt in
  do us <- scale_cols u s;
  do b <- matdot_py us vt;
  do c <- reshape_py b (zshape (shp a));
  Ok (c, if retproj then Some (matdot u (nconj (mat_T u)), matdot (nconj (mat_T vt)) vt) else None).

(** _testing.py 124-126: the loop over the bipartitions. *)
Fixpoint ref_loop (retproj : bool) (rank : nat) (js : list nat) (a : nd K) (ps : list (option (nd K * nd K)))
  : res (nd K * list (option (nd K * nd K))) :=
  match js with
  | [] => Ok (a, ps)
  | j :: js' => do r <- singlecut retproj a j rank; let '(b, p) := r in ref_loop retproj rank js' b (ps ++ [p])
  end.

(** _testing.py 86-131: [compression_svd(array, rank, direction, retproj)]; [right]:
    whether direction == 'right'.  The second component is the variable [projectors]
    at the end, which the function returns if [retproj]: lines 128-129 assign the
    result of [list.reverse], which is None. *)
Definition ref_compression_svd (a : nd K) (rank : nat) (right retproj : bool)
  : res (nd K * option (list (option (nd K * nd K)))) :=
  let n := ndim a in
  let js := if right then seq 1 (n - 1) else rev (seq 1 (n - 1)) in
  do r <- ref_loop retproj rank js a [];
  let '(b, ps) := r in
  Ok (b, if right then Some ps else None).
End Ref.
