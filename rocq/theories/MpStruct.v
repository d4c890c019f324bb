(** Model of mpnum/mpstruct.py: the container of local tensors and its
    canonical form bookkeeping.

    Simplifications: local tensors are immutable values (the code only hands out
    read-only views, mpstruct.py 14-18, 149-164, and rebinds list entries);
    dtypes and buffers are not modelled. *)
From Coq Require Export String Ascii.
From Verif Require Export NdArray.
Open Scope list_scope.

(** mpstruct.py 21-73: the fields [_ltens], [_lcanonical], [_rcanonical]. *)
Record ltens (K : StarRing) : Type := mkLt { lts : list (nd K); lcan : Z; rcan : Z }.
Arguments mkLt {K} _ _ _.
Arguments lts {K} _.
Arguments lcan {K} _.
Arguments rcan {K} _.

(** A Python slice object. *)
Record pyslc : Type := mkSlice { s_start : option Z; s_stop : option Z; s_step : option Z }.

(** [slice.indices(len)] (CPython PySlice_GetIndicesEx semantics);
    step 0 raises ValueError. *)
Definition slice_indices (s : pyslc) (len : nat) : res (Z * Z * Z) :=
  let n := Z.of_nat len in
  let step := match s_step s with None => 1%Z | Some z => z end in
  if (step =? 0)%Z then Err ValueError else
  let neg := (step <? 0)%Z in
  let lower := if neg then (-1)%Z else 0%Z in
  let upper := if neg then (n - 1)%Z else n in
  let clamp z := if (z <? 0)%Z then Z.max (z + n) lower else Z.min z upper in
  let start := match s_start s with None => if neg then upper else lower | Some z => clamp z end in
  let stop := match s_stop s with None => if neg then lower else upper | Some z => clamp z end in
  Ok (start, stop, step).

(** [range(start, stop, step)] for step <> 0. *)
Definition range_len (start stop step : Z) : nat :=
  if (0 <? step)%Z
  then Z.to_nat ((stop - start + step - 1) / step)
  else Z.to_nat ((start - stop - step - 1) / (- step)).
Definition pyrange (start stop step : Z) : list Z :=
  map (fun k => (start + Z.of_nat k * step)%Z) (seq 0 (range_len start stop step)).

(** The argument [canonicalization] of [update]: a single value (None or a
    string) or a sequence of them. *)
Inductive canon_arg : Type :=
| COne : option string -> canon_arg
| CSeq : list (option string) -> canon_arg.

Definition flag_is (f : option string) (s : string) : bool :=
  match f with None => false | Some t => String.eqb t s end.

(** Iterating over a Python string yields its characters as strings. *)
Fixpoint str_chars (s : string) : list (option string) :=
  match s with
  | EmptyString => []
  | String c s' => Some (String c EmptyString) :: str_chars s'
  end.

Section MpStruct.
Context {K : StarRing}.

Definition llen (x : ltens K) : nat := List.length (lts x).

(** [t.shape[0]] and [t.shape[-1]]; IndexError for a zero-dimensional array. *)
Definition shape0 (t : nd K) : res nat :=
  match shp t with [] => Err IndexError | d :: _ => Ok d end.
Definition shape_last (t : nd K) : res nat :=
  match shp t with [] => Err IndexError | d :: sh => Ok (List.last (d :: sh) 0) end.

(** mpstruct.py 70-73 and 128-129: neighbouring bond dimensions agree. *)
Fixpoint check_bonds (ts : list (nd K)) : res unit :=
  match ts with
  | t :: ((u :: _) as rest) =>
      do r <- shape_last t;
      do l <- shape0 u;
      passert (Nat.eqb r l) (check_bonds rest)
  | _ => Ok tt
  end.

(** mpstruct.py 48-73: [LocalTensors.__init__].  [lcanonical or 0] and
    [rcanonical or len(ltens)]: None and 0 are falsy. *)
Definition lt_init (ts : list (nd K)) (cform : option Z * option Z) : res (ltens K) :=
  let n := Z.of_nat (List.length ts) in
  let l := match fst cform with None => 0%Z | Some z => z end in
  let r := match snd cform with None => n | Some z => if (z =? 0)%Z then n else z end in
  passert (0 <? n)%Z (
  passert ((0 <=? l)%Z && (l <? n)%Z) (
  passert ((0 <? r)%Z && (r <=? n)%Z) (
  do _ <- check_bonds ts;
  Ok (mkLt ts l r)))).

(** mpstruct.py 75-101: [LocalTensors._update] for an index accepted by
    list assignment. *)
Definition lt_update1 (x : ltens K) (index : Z) (t : nd K) (flag : option string) : res (ltens K) :=
  match pyidx (llen x) index with
  | None => Err IndexError
  | Some n =>
      let ts := set_nth n t (lts x) in
      if flag_is flag "left" && (0 <=? lcan x - index)%Z
      then Ok (mkLt ts (Z.max (index + 1) (lcan x)) (rcan x))
      else if flag_is flag "right" && (-1 <=? index - rcan x)%Z
      then Ok (mkLt ts (lcan x) (Z.min index (rcan x)))
      else Ok (mkLt ts (Z.min index (lcan x)) (Z.max (index + 1) (rcan x)))
  end.

(** The loop over [zip(tens, range( *indices), canonicalization)], lines 135-136. *)
Fixpoint lt_update_loop (x : ltens K) (ts : list (nd K)) (pos : list Z) (flags : list (option string))
  : res (ltens K) :=
  match ts, pos, flags with
  | t :: ts', p :: pos', f :: flags' =>
      do x' <- lt_update1 x p t f; lt_update_loop x' ts' pos' flags'
  | _, _, _ => Ok x
  end.

(** mpstruct.py 103-143, slice branch.  A string is a [collections.Sequence],
    so a single 'left'/'right' is iterated character by character;
    [it.repeat(canonicalization)] is cut to the number of tensors, which is all
    that zip can consume. *)
Definition lt_update_slice (x : ltens K) (s : pyslc) (ts : list (nd K)) (c : canon_arg) : res (ltens K) :=
  do ind <- slice_indices s (llen x);
  let '(start, stop, step) := ind in
  do cur <- pyget (lts x) start;
  do c0 <- shape0 cur;
  do t0 <- pyget ts 0;
  do n0 <- shape0 t0;
  passert (Nat.eqb c0 n0) (
  do _ <- check_bonds ts;
  do curl <- pyget (lts x) (stop - 1);
  do c1 <- shape_last curl;
  do tl <- pyget ts (-1);
  do n1 <- shape_last tl;
  passert (Nat.eqb c1 n1) (
  let flags := match c with
               | COne None => repeat None (List.length ts)
               | COne (Some str) => str_chars str
               | CSeq l => l
               end in
  lt_update_loop x ts (pyrange start stop step) flags)).

(** mpstruct.py 103-143, integer branch. *)
Definition lt_update_int (x : ltens K) (index : Z) (t : nd K) (flag : option string) : res (ltens K) :=
  do cur <- pyget (lts x) index;
  passert (Nat.leb 2 (ndim t)) (
  do c0 <- shape0 cur; do n0 <- shape0 t;
  passert (Nat.eqb c0 n0) (
  do c1 <- shape_last cur; do n1 <- shape_last t;
  passert (Nat.eqb c1 n1) (
  lt_update1 x index t flag))).

(** mpstruct.py 174-184 *)
Definition canonical_form (x : ltens K) : Z * Z := (lcan x, rcan x).

(** mpstruct.py 191-194: [copy].  The copied arrays are equal values. *)
Definition lt_copy (x : ltens K) : res (ltens K) :=
  lt_init (lts x) (Some (lcan x), Some (rcan x)).

End MpStruct.
