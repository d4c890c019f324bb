(** Model of the randomised SVD (utils/extmath.py 129-318).

    Matrices are arrays of two axes; the argument is taken to be a matrix, for which
    [aslinearoperator] only gives [A * Q] and [A.H * Q] their meaning.  The numbers of
    components, oversamples and iterations are natural numbers. *)
From Verif Require Export MpCanon.
Open Scope nat_scope.

Section RandSvd.
Context {K : StarRing}.
(** [linalg.qr(a, mode='economic')], [linalg.lu(a, permute_l=True)] and
    [linalg.svd(a, full_matrices=False)] *)
Variables (qr lu : nd K -> res (nd K * nd K)) (thin_svd : nd K -> res (nd K * list K * nd K)).
(** The draws of the random state: the entries of the array that is returned for a
    shape.  They are real or complex numbers with the dtype of the argument. *)
Variable draw : list nat -> list nat -> K.

Definition nrows (a : nd K) : nat := nth 0 (shp a) 0.
Definition ncols (a : nd K) : nat := nth 1 (shp a) 0.
Definition mat_mul (a b : nd K) : nd K :=
  tab [nrows a; ncols b] (fun i => bigsum (ncols a) (fun c => kmul (get a [nth 0 i 0; c]) (get b [c; nth 1 i 0]))).
Definition mat_H (a : nd K) : nd K := tab [ncols a; nrows a] (fun i => kconj (get a [nth 1 i 0; nth 0 i 0])).

(** extmath.py 133-154; [known]: the dtype is [np.float_] or [np.complex_]. *)
Definition standard_normal (known : bool) (sh : list nat) : res (nd K) :=
  praise_unless known ValueError (Ok (tab sh (draw sh))).

(** The argument [piter_normalizer]; other values than the four documented ones are
    not refused. *)
Inductive normalizer : Type := NAuto | NNone | NLu | NQr | NUnknown.
(** extmath.py 198-222 *)
Definition power_step (nm : normalizer) (a q : nd K) : res (nd K) :=
  match nm with
  | NNone => Ok (mat_mul (mat_H a) (mat_mul a q))
  | NLu => do r <- lu (mat_mul a q); do r' <- lu (mat_mul (mat_H a) (fst r)); Ok (fst r')
  | NQr => do r <- qr (mat_mul a q); do r' <- qr (mat_mul (mat_H a) (fst r)); Ok (fst r')
  | _ => Ok q
  end.
Fixpoint power_iter (nm : normalizer) (a : nd K) (n_iter : nat) (q : nd K) : res (nd K) :=
  match n_iter with O => Ok q | S n => do q' <- power_step nm a q; power_iter nm a n q' end.
Definition approx_range_finder (known : bool) (a : nd K) (sketch_size n_iter : nat) (nm : normalizer) : res (nd K) :=
  do q <- standard_normal known [ncols a; sketch_size];
  let nm' := match nm with NAuto => if Nat.leb n_iter 2 then NNone else NLu | _ => nm end in
  do q' <- power_iter nm' a n_iter q;
  do r <- qr (mat_mul a q');
  Ok (fst r).

(** extmath.py 230-318.  [n_iter] and [transpose]: [None] is 'auto'.  The comparison
    with [.1 * min(M.shape)] is exact here. *)
Definition randomized_svd (known : bool) (m : nd K) (n_components n_oversamples : nat) (n_iter : option nat)
  (nm : normalizer) (transpose : option bool) : res (nd K * list K * nd K) :=
  let sketch_size := n_components + n_oversamples in
  let it := match n_iter with
    | Some n => n
    | None => if Nat.ltb (10 * n_components) (Nat.min (nrows m) (ncols m)) then 7 else 4
    end in
  let tr := match transpose with Some b => b | None => Nat.ltb (nrows m) (ncols m) end in
  let m' := if tr then mat_H m else m in
  do q <- approx_range_finder known m' sketch_size it nm;
  let b := mat_H (mat_mul (mat_H m') q) in
  do r <- thin_svd b;
  let '(uhat, s, v) := r in
  let u := mat_mul q uhat in
  if tr then Ok (mat_H (take_rows n_components v), firstn n_components s, mat_H (take_cols n_components u))
  else Ok (take_cols n_components u, firstn n_components s, take_rows n_components v).
End RandSvd.
