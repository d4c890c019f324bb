(** Model of the dense helpers of utils/extmath.py ([block_diag] and [truncated_svd]
    are in MpArray.v and MpCanon.v). *)
From Verif Require Export MpCanon.
Open Scope nat_scope.

Section Ext.
Context {K : StarRing}.

(** [np.trace(array, axis1=.., axis2=..)]: a missing axis is AxisError (a ValueError),
    equal axes are ValueError. *)
Definition np_trace (a : nd K) (ax1 ax2 : Z) : res (nd K) :=
  match norm_axis (ndim a) ax1, norm_axis (ndim a) ax2 with
  | Some i, Some j => praise_unless (negb (Nat.eqb i j)) ValueError (Ok (trace_axes a i j))
  | _, _ => Err ValueError
  end.

(** extmath.py 15-31: [partial_trace]; the recursion removes the last entry of
    [traceout], so the argument here is the reversed list. *)
Fixpoint partial_trace_rev (a : nd K) (traceout : list Z) : res (nd K) :=
  match traceout with
  | [] => Ok a
  | k :: rest =>
      let sites := Nat.div (ndim a) 2 in
      passert (Nat.eqb (Nat.modulo (ndim a) 2) 0) (
      do r <- np_trace a k (k + Z.of_nat sites)%Z;
      partial_trace_rev r rest)
  end.
Definition partial_trace (a : nd K) (traceout : list Z) : res (nd K) := partial_trace_rev a (rev traceout).

(** extmath.py 34-36: [matdot] with the default axes; [tensordot] reads the last
    dimension of [A] and the first of [B] (IndexError if there is none). *)
Definition matdot_api (a b : nd K) : res (nd K) :=
  praise_unless (negb (Nat.eqb (ndim a) 0) && negb (Nat.eqb (ndim b) 0)) IndexError (
  praise_unless (Nat.eqb (List.last (shp a) 0) (hd 0 (shp b))) ValueError (Ok (matdot a b))).

(** [np.kron]: the array with fewer axes gets leading axes of length one; along each
    axis the index of the result is [i * len_b + j]. *)
Definition pad_axes (n : nat) (a : nd K) : nd K := reshape a (repeat 1 (n - ndim a) ++ shp a).
Fixpoint zipn (f : nat -> nat -> nat) (l m : list nat) : list nat :=
  match l, m with x :: l, y :: m => f x y :: zipn f l m | _, _ => [] end.
Definition kron_eq (a b : nd K) : nd K :=
  tab (zipn Nat.mul (shp a) (shp b))
      (fun idx => get a (zipn Nat.div idx (shp b)) * get b (zipn Nat.modulo idx (shp b)))%K.
Definition kron (a b : nd K) : nd K :=
  let n := Nat.max (ndim a) (ndim b) in kron_eq (pad_axes n a) (pad_axes n b).

(** extmath.py 39-43: [mkron]; without arguments [args[0]] is IndexError. *)
Definition mkron (args : list (nd K)) : res (nd K) :=
  match args with
  | [] => Err IndexError
  | a :: rest => Ok (fold_left kron rest a)
  end.
End Ext.
