(** numpy arrays: a shape and the entries in row-major order, and the numpy
    primitives used by mpnum.  The primitives are library functions, modelled by
    their documented meaning; a primitive that numpy rejects for the given shapes
    is guarded where mpnum calls it. *)
From Verif Require Export Index PyBase.

Record nd (K : StarRing) : Type := mkNd { shp : list nat; dat : list K }.
Arguments mkNd {K} _ _.
Arguments shp {K} _.
Arguments dat {K} _.

Section Nd.
Context {K : StarRing}.

Definition ndim (a : nd K) : nat := length (shp a).

(** The number of entries matches the shape. *)
Definition ndwf (a : nd K) : Prop := length (dat a) = size (shp a).
Definition ndwfb (a : nd K) : bool := Nat.eqb (length (dat a)) (size (shp a)).

(** [a[idx]] *)
Definition get (a : nd K) (idx : list nat) : K := nth (ravel (shp a) idx) (dat a) k0.

(** Array with the given shape and entries. *)
Definition tab (sh : list nat) (f : list nat -> K) : nd K :=
  mkNd sh (map (fun n => f (unravel sh n)) (seq 0 (size sh))).

(** [a.reshape(sh)] (row-major); numpy raises ValueError unless the sizes agree. *)
Definition reshape (a : nd K) (sh : list nat) : nd K := mkNd sh (dat a).
Definition reshape_ok (a : nd K) (sh : list nat) : bool := Nat.eqb (size sh) (size (shp a)).

(** [a.transpose(axes)]: [out.shape[k] = a.shape[axes[k]]]. *)
Definition transpose (a : nd K) (axes : list nat) : nd K :=
  tab (gather axes (shp a)) (fun idx => get a (scatter axes idx)).

(** [np.tensordot(a, b, (axa, axb))] for normalised axes. *)
Definition tensordot (a b : nd K) (axa axb : list nat) : nd K :=
  let fa := freeaxes (ndim a) axa in
  let fb := freeaxes (ndim b) axb in
  tab (gather fa (shp a) ++ gather fb (shp b))
      (fun idx =>
         msum (gather axa (shp a))
              (fun c => get a (scatter (fa ++ axa) (firstn (length fa) idx ++ c)) *
                        get b (scatter (axb ++ fb) (c ++ skipn (length fa) idx)))%K).

(** [np.rollaxis(a, axis, start)], numpy/core/numeric.py, for axis, start >= 0. *)
Definition remove_at (n : nat) (l : list nat) : list nat := firstn n l ++ skipn (S n) l.
Definition insert_at (n x : nat) (l : list nat) : list nat := firstn n l ++ x :: skipn n l.
Definition rollaxis_order (n axis start : nat) : list nat :=
  let start' := if Nat.ltb axis start then start - 1 else start in
  if Nat.eqb axis start' then seq 0 n
  else insert_at start' axis (remove_at axis (seq 0 n)).
Definition rollaxis (a : nd K) (axis start : nat) : nd K :=
  transpose a (rollaxis_order (ndim a) axis start).

(** [a.conj()], [c * a], [a + b] (equal shapes). *)
Definition nconj (a : nd K) : nd K := mkNd (shp a) (map kconj (dat a)).
Definition nscale (c : K) (a : nd K) : nd K := mkNd (shp a) (map (fun x => c * x)%K (dat a)).
Definition nadd (a b : nd K) : nd K := tab (shp a) (fun idx => get a idx + get b idx)%K.

Definition zeros (sh : list nat) : nd K := tab sh (fun _ => k0).
(** [np.eye(n)] *)
Definition eye (n : nat) : nd K :=
  tab [n; n] (fun idx => delta (nth 0 idx 0) (nth 1 idx 0)).
(** [np.array(x)] (zero-dimensional), [np.array(x, ndmin=2)]. *)
Definition scalar (x : K) : nd K := mkNd [] [x].

(** [a[None, ..., None]], [a[..., None]], [a[None]], [a[:, None]]. *)
Definition add_virt (a : nd K) : nd K := reshape a (1 :: shp a ++ [1]).
Definition newaxis_last (a : nd K) : nd K := reshape a (shp a ++ [1]).
Definition newaxis_first (a : nd K) : nd K := reshape a (1 :: shp a).
Definition newaxis_second (a : nd K) : nd K :=
  match shp a with [] => a | d :: sh => reshape a (d :: 1 :: sh) end.

(** [a[0, ..., 0]], [a[..., 0]], [a[0]]. *)
Definition strip_virt (a : nd K) : nd K :=
  tab (removelast (tl (shp a))) (fun i => get a (0 :: i ++ [0])).
Definition take_last0 (a : nd K) : nd K :=
  tab (removelast (shp a)) (fun i => get a (i ++ [0])).
Definition take_first (k : nat) (a : nd K) : nd K :=
  tab (tl (shp a)) (fun i => get a (k :: i)).

(** [a[(slice(None),) * axis + (k,)]]: fix the index of one axis. *)
Definition take_axis (axis k : nat) (a : nd K) : nd K :=
  tab (remove_at axis (shp a)) (fun i => get a (insert_at axis k i)).

(** [np.concatenate(arrs, axis)]. *)
Fixpoint cat_get (axis : nat) (arrs : list (nd K)) (idx : list nat) : K :=
  match arrs with
  | [] => k0
  | a :: rest =>
      let k := nth axis idx 0 in
      let d := nth axis (shp a) 0 in
      if Nat.ltb k d then get a idx
      else cat_get axis rest (set_nth axis (k - d) idx)
  end.
Definition concatenate (arrs : list (nd K)) (axis : nat) : nd K :=
  let total := list_sum (map (fun a => nth axis (shp a) 0) arrs) in
  match arrs with
  | [] => mkNd [] []
  | a :: _ => tab (set_nth axis total (shp a)) (cat_get axis arrs)
  end.
(** axis = -1 *)
Definition concatenate_last (arrs : list (nd K)) : nd K :=
  match arrs with
  | [] => mkNd [] []
  | a :: _ => concatenate arrs (ndim a - 1)
  end.
(** numpy raises ValueError unless all other dimensions agree. *)
Definition list_eqb (l1 l2 : list nat) : bool :=
  if list_eq_dec Nat.eq_dec l1 l2 then true else false.
Definition concatenate_ok (arrs : list (nd K)) (axis : nat) : bool :=
  match arrs with
  | [] => false
  | a :: _ => forallb (fun b => list_eqb (set_nth axis 0 (shp b)) (set_nth axis 0 (shp a))
                                && Nat.ltb axis (ndim b)) arrs
  end.

(** [a.sum(axes)]: sum over the listed axes, the other axes keep their order. *)
Definition sum_axes (a : nd K) (axes : list nat) : nd K :=
  let fa := freeaxes (ndim a) axes in
  tab (gather fa (shp a))
      (fun idx => msum (gather axes (shp a)) (fun c => get a (scatter (fa ++ axes) (idx ++ c)))).

(** [np.trace(a, axis1=ax1, axis2=ax2)]. *)
Definition trace_axes (a : nd K) (ax1 ax2 : nat) : nd K :=
  let fa := freeaxes (ndim a) [ax1; ax2] in
  tab (gather fa (shp a))
      (fun idx => bigsum (Nat.min (nth ax1 (shp a) 0) (nth ax2 (shp a) 0))
                         (fun c => get a (scatter (fa ++ [ax1; ax2]) (idx ++ [c; c])))).

(** Normalisation of an axis number; numpy raises IndexError/AxisError on [None]. *)
Definition norm_axis (n : nat) (ax : Z) : option nat := pyidx n ax.

End Nd.

Notation ndK K := (nd K) (only parsing).
