(** Model of mpnum/mparray.py, part 1: construction, conversion, algebra and
    shape changes.  [MPArray] objects are modelled by their [LocalTensors]
    ([ltens]); the dynamic class of results ([astype], [type(self)]) is not
    modelled.  matdot is mpnum/utils/extmath.py 34-36. *)
From Verif Require Export MpStruct.

Section MpArray.
Context {K : StarRing}.

(** ** Accessors *)
(** [t.shape[0]], [t.shape[-1]], [t.shape[1:-1]] of a local tensor. *)
Definition ldim (t : nd K) : nat := hd 0 (shp t).
Definition rdim (t : nd K) : nat := List.last (shp t) 0.
Definition pdims (t : nd K) : list nat := removelast (tl (shp t)).

(** mparray.py 127-140: [ranks], [shape], [ndims]. *)
Definition ranks (x : ltens K) : list nat := map ldim (tl (lts x)).
Definition mshape (x : ltens K) : list (list nat) := map pdims (lts x).
Definition ndims (x : ltens K) : list Z := map (fun t => Z.of_nat (ndim t) - 2)%Z (lts x).
(** mparray.py 108-120 *)
Definition msize (x : ltens K) : nat := list_sum (map (fun t => size (shp t)) (lts x)).

(** mparray.py 71-80: [MPArray(ltens)] for a list of arrays. *)
Definition mpa_new (ts : list (nd K)) : res (ltens K) := lt_init ts (None, None).

(** mparray.py 82-84 *)
Definition mpa_copy (x : ltens K) : res (ltens K) := lt_copy x.

(** ** Dense conversion *)
(** extmath.py 34-36: tensordot over the last and the first axis. *)
Definition matdot (a b : nd K) : nd K := tensordot a b [ndim a - 1] [0].

(** mparray.py 1906-1921 *)
Definition ltens_to_array (ts : list (nd K)) : nd K :=
  match ts with
  | [] => mkNd [] []
  | t :: rest => fold_left matdot rest t
  end.

(** mparray.py 259-271 *)
Definition to_array (x : ltens K) : nd K := strip_virt (ltens_to_array (lts x)).

(** mparray.py 248-257 *)
Definition from_kron (factors : list (nd K)) : res (ltens K) := mpa_new (map add_virt factors).

(** array_transforms.py 14-46 and 49-81.  [sites = 0] raises ZeroDivisionError;
    skips larger than ndim are outside the model (natural subtraction). *)
Definition g2l_order (n sites left right : nat) : list nat :=
  let plegs := (n - (left + right)) / sites in
  seq 0 left
  ++ flat_map (fun i => map (fun j => left + i + sites * j) (seq 0 plegs)) (seq 0 sites)
  ++ seq (n - right) right.
Definition l2g_order (n sites left right : nat) : list nat :=
  let plegs := (n - (left + right)) / sites in
  seq 0 left
  ++ flat_map (fun j => map (fun i => left + plegs * i + j) (seq 0 sites)) (seq 0 plegs)
  ++ seq (n - right) right.
Definition global_to_local (a : nd K) (sites left right : nat) : res (nd K) :=
  if Nat.eqb sites 0 then Err ZeroDivisionError else
  passert (Nat.eqb ((ndim a - (left + right)) mod sites) 0)
    (Ok (transpose a (g2l_order (ndim a) sites left right))).
Definition local_to_global (a : nd K) (sites left right : nat) : res (nd K) :=
  if Nat.eqb sites 0 then Err ZeroDivisionError else
  passert (Nat.eqb ((ndim a - (left + right)) mod sites) 0)
    (Ok (transpose a (l2g_order (ndim a) sites left right))).

(** mparray.py 273-284 *)
Definition to_array_global (x : ltens K) : res (nd K) :=
  local_to_global (to_array x) (llen x) 0 0.

(** mparray.py 90-102: [lt[:, i, ..., :]]; too few legs or an index out of range
    raise IndexError. *)
Definition local_get (t : nd K) (i : Z) : res (nd K) :=
  if Nat.ltb (ndim t) 3 then Err IndexError else
  match pyidx (nth 1 (shp t) 0) i with
  | None => Err IndexError
  | Some k => Ok (take_axis 1 k t)
  end.
Definition mget (x : ltens K) (indices : list Z) : res (ltens K) :=
  passert (Nat.eqb (List.length indices) (llen x)) (
  do ts <- mapM (fun p => local_get (snd p) (fst p)) (combine indices (lts x));
  mpa_new ts).

(** mparray.py 286-306.  [it.product] varies the last factor fastest.
    [axes] holds one normalised axis (>= 0) per site. *)
Fixpoint product {A : Type} (ls : list (list A)) : list (list A) :=
  match ls with
  | [] => [[]]
  | l :: ls' => flat_map (fun x => map (cons x) (product ls')) l
  end.
Definition axis_slices (axis : nat) (t : nd K) : res (list (nd K)) :=
  if Nat.leb (ndim t) (S axis) then Err IndexError (* AxisError *) else
  let r := rollaxis t (S axis) 0 in
  Ok (map (fun k => take_first k r) (seq 0 (hd 0 (shp r)))).
Definition axis_iter (x : ltens K) (axes : list nat) : res (list (ltens K)) :=
  do sl <- mapM (fun p => axis_slices (fst p) (snd p)) (combine axes (lts x));
  mapM mpa_new (product sl).

(** ** Algebra *)
(** mparray.py 1889-1903: [_local_transpose].  numpy raises ValueError unless the
    axes are a permutation. *)
Definition permb (axes : list nat) (n : nat) : bool :=
  Nat.eqb (List.length axes) n && forallb (fun k => memb k axes) (seq 0 n).
Definition local_transpose (t : nd K) (axes : option (list Z)) : res (nd K) :=
  let last := ndim t - 1 in
  match axes with
  | None => Ok (transpose t (0 :: rev (seq 1 (last - 1)) ++ [last]))
  | Some l =>
      match mapM (fun ax => match norm_axis (ndim t) (ax + 1) with
                            | Some k => Ok k | None => Err ValueError end) l with
      | Err e => Err e
      | Ok l' =>
          let order := 0 :: l' ++ [last] in
          praise_unless (permb order (ndim t)) ValueError (Ok (transpose t order))
      end
  end.

(** mparray.py 311-337: [T], [transpose]; the canonical form is passed on. *)
Definition mtranspose (x : ltens K) (axes : option (list Z)) : res (ltens K) :=
  do ts <- mapM (fun t => local_transpose t axes) (lts x);
  lt_init ts (Some (lcan x), Some (rcan x)).
(** mparray.py 339-342 *)
Definition madj (x : ltens K) : res (ltens K) :=
  do ts <- mapM (fun t => do u <- local_transpose t None; Ok (nconj u)) (lts x);
  mpa_new ts.
(** mparray.py 344-347 *)
Definition mconj (x : ltens K) : res (ltens K) :=
  lt_init (map nconj (lts x)) (Some (lcan x), Some (rcan x)).

(** Broadcasting of [v] to the shape [sh] in an assignment [res[...] = v]:
    axes are aligned at the end, size-one axes are repeated. *)
Definition bcast_shape (sh v : list nat) : list nat := repeat 1 (List.length sh - List.length v) ++ v.
Definition bcast_ok (sh v : list nat) : bool :=
  Nat.leb (List.length v) (List.length sh) &&
  forallb (fun p => Nat.eqb (snd p) 1 || Nat.eqb (snd p) (fst p)) (combine sh (bcast_shape sh v)).
Definition bcast_idx (v idx : list nat) : list nat :=
  map (fun p => if Nat.eqb (snd p) 1 then 0 else fst p) (combine idx v).
Definition bcast_get (sh : list nat) (v : nd K) (idx : list nat) : K :=
  let vs := bcast_shape sh (shp v) in get (reshape v vs) (bcast_idx vs idx).

(** mparray.py 1859: [res[pl:pl+l, ..., pr:pr+r] = lt] *)
Definition slice_assign (rs : nd K) (pl pr : nat) (t : nd K) : nd K :=
  let l := ldim t in
  let r := rdim t in
  let blk := l :: pdims rs ++ [r] in
  tab (shp rs) (fun idx =>
    let a := hd 0 idx in
    let b := List.last idx 0 in
    let p := removelast (tl idx) in
    if Nat.leb pl a && Nat.ltb a (pl + l) && Nat.leb pr b && Nat.ltb b (pr + r)
    then bcast_get blk t ((a - pl) :: p ++ [b - pr])
    else get rs idx).
Definition slice_assign_ok (rs : nd K) (t : nd K) : bool :=
  bcast_ok (ldim t :: pdims rs ++ [rdim t]) (shp t).

(** mparray.py 1834-1861: [_local_add]; ValueError when a block cannot be
    broadcast. *)
Fixpoint local_add_loop (rs : nd K) (pl pr : nat) (ts : list (nd K)) : res (nd K) :=
  match ts with
  | [] => Ok rs
  | t :: ts' =>
      praise_unless (slice_assign_ok rs t) ValueError
        (local_add_loop (slice_assign rs pl pr t) (pl + ldim t) (pr + rdim t) ts')
  end.
Definition local_add (ts : list (nd K)) : res (nd K) :=
  match ts with
  | [] => Err IndexError
  | t :: _ =>
      let newshape := list_sum (map ldim ts) :: pdims t ++ [list_sum (map rdim ts)] in
      local_add_loop (zeros newshape) 0 0 ts
  end.

(** [a + b] for numpy arrays: shapes are aligned at the end, axes of size one (or
    missing) are repeated; ValueError if other sizes differ. *)
Definition bcast_common (sa sb : list nat) : list nat :=
  let n := Nat.max (List.length sa) (List.length sb) in
  map (fun p => if Nat.eqb (fst p) 1 then snd p else fst p)
      (combine (repeat 1 (n - List.length sa) ++ sa) (repeat 1 (n - List.length sb) ++ sb)).
Definition bcast_to (sh : list nat) (v : nd K) : nd K := tab sh (bcast_get sh v).
Definition nadd_py (a b : nd K) : res (nd K) :=
  if list_eqb (shp a) (shp b) then Ok (nadd a b) else
  let sh := bcast_common (shp a) (shp b) in
  praise_unless (bcast_ok sh (shp a) && bcast_ok sh (shp b)) ValueError (Ok (nadd (bcast_to sh a) (bcast_to sh b))).

Definition cat_last_py (ts : list (nd K)) : res (nd K) :=
  match ts with
  | [] => Err ValueError
  | t :: _ => praise_unless (concatenate_ok ts (ndim t - 1)) ValueError (Ok (concatenate_last ts))
  end.
Definition cat_first_py (ts : list (nd K)) : res (nd K) :=
  praise_unless (concatenate_ok ts 0) ValueError (Ok (concatenate ts 0)).

Definition dummy : nd K := mkNd [] [].

(** [l[1:-1]] *)
Definition inner_slice {A : Type} (l : list A) : list A := removelast (tl l).

(** mparray.py 349-360: [__add__] *)
Definition madd (x y : ltens K) : res (ltens K) :=
  passert (Nat.eqb (llen x) (llen y)) (
  if Nat.eqb (llen x) 1
  then do t <- nadd_py (hd dummy (lts x)) (hd dummy (lts y)); mpa_new [t]
  else
    do first <- cat_last_py [hd dummy (lts x); hd dummy (lts y)];
    do mid <- mapM (fun p => local_add [fst p; snd p])
                   (combine (inner_slice (lts x)) (inner_slice (lts y)));
    do last <- cat_first_py [List.last (lts x) dummy; List.last (lts y) dummy];
    mpa_new (first :: mid ++ [last])).

(** mparray.py 365-377: [__mul__]: scale the site [lcanon] and pass the form on.
    [ltens[:lcanon]] and [ltens[lcanon + 1:]] are Python slices. *)
Definition mmul (x : ltens K) (f : K) : res (ltens K) :=
  do t <- pyget (lts x) (lcan x);
  let pre := pyslice (lts x) 0 (lcan x) in
  let post := skipn (pyclamp (llen x) (lcan x + 1)) (lts x) in
  lt_init (pre ++ nscale f t :: post) (Some (lcan x), Some (rcan x)).
(** mparray.py 379-387: [__imul__] *)
Definition mimul (x : ltens K) (f : K) : res (ltens K) :=
  do t <- pyget (lts x) (lcan x);
  lt_update_int x (lcan x) (nscale f t) None.
(** mparray.py 362-363, 392-393 *)
Definition mneg (x : ltens K) : res (ltens K) := mmul x (kopp k1).
Definition msub (x y : ltens K) : res (ltens K) := do z <- mmul y (kopp k1); madd x z.
(** mparray.py 398-406: division by [d]; [dinv] stands for [1 / d]. *)
Definition mtruediv (x : ltens K) (dinv : K) : res (ltens K) := mmul x dinv.
Definition mitruediv (x : ltens K) (dinv : K) : res (ltens K) := mimul x dinv.

(** mparray.py 408-447: [sum].  The argument [axes]. *)
Inductive axel : Type := ENone | EInt (z : Z) | ESeq (l : list Z).
Inductive sumarg : Type := SNone | SOne (z : Z) | SList (l : list axel).
Inductive sumres : Type := SumMpa (x : ltens K) | SumScalar (a : nd K).

Definition uniform_axes (l : list axel) : res (list Z) :=
  mapM (fun e => match e with EInt z => Ok (z + 1)%Z | _ => Err TypeError end) l.
Definition site_axes (e : axel) (n : Z) : res (list Z) :=
  match e with
  | ENone => Ok (map (fun k => Z.of_nat k) (seq 1 (Z.to_nat n)))
  | ESeq l => Ok (map (fun z => z + 1)%Z l)
  | EInt _ => Err TypeError
  end.
Definition sum_axes_per_site (x : ltens K) (arg : sumarg) : res (list (list Z)) :=
  match arg with
  | SNone => mapM (site_axes ENone) (ndims x)
  | SOne z => Ok (map (fun _ => [z + 1]%Z) (lts x))
  | SList l =>
      match l with
      | ESeq _ :: _ =>
          passert (Nat.eqb (List.length l) (llen x))
            (mapM (fun p => site_axes (fst p) (snd p)) (combine l (ndims x)))
      | _ => do ax <- uniform_axes l; Ok (map (fun _ => ax) (lts x))
      end
  end.
Fixpoint nodupb (l : list nat) : bool :=
  match l with [] => true | x :: l' => negb (memb x l') && nodupb l' end.
(** [lt.sum(ax) if ax else lt]: AxisError (here IndexError) for an axis out of
    range, ValueError for duplicates. *)
Definition nsum_py (t : nd K) (axes : list Z) : res (nd K) :=
  match axes with
  | [] => Ok t
  | _ =>
      do ax <- mapM (fun z => match norm_axis (ndim t) z with Some k => Ok k | None => Err IndexError end) axes;
      praise_unless (nodupb ax) ValueError (Ok (sum_axes t ax))
  end.
Definition zsum (l : list Z) : Z := fold_right Z.add 0%Z l.
Definition msum_mpa (x : ltens K) (arg : sumarg) : res sumres :=
  do axs <- sum_axes_per_site x arg;
  do ts <- mapM (fun p => nsum_py (snd p) (fst p)) (combine axs (lts x));
  do out <- mpa_new ts;
  if (zsum (ndims out) =? 0)%Z then Ok (SumScalar (to_array out)) else Ok (SumMpa out).

(** ** Shape changes *)
(** numpy's interpretation of a shape with at most one -1; [None] is ValueError. *)
Definition resolve_shape (total : nat) (sh : list Z) : option (list nat) :=
  let known := fold_right (fun z acc => if (z =? -1)%Z then acc else (z * acc)%Z) 1%Z sh in
  let unknowns := List.length (filter (fun z => (z =? -1)%Z) sh) in
  if existsb (fun z => (z <? -1)%Z) sh then None
  else match unknowns with
  | O => if (known =? Z.of_nat total)%Z then Some (map Z.to_nat sh) else None
  | S O =>
      if (known =? 0)%Z then None
      else if (Z.of_nat total mod known =? 0)%Z
      then Some (map (fun z => if (z =? -1)%Z then Z.to_nat (Z.of_nat total / known) else Z.to_nat z) sh)
      else None
  | _ => None
  end.
Definition reshape_py (a : nd K) (sh : list Z) : res (nd K) :=
  match resolve_shape (size (shp a)) sh with
  | Some s => Ok (reshape a s)
  | None => Err ValueError
  end.
(** mparray.py 1877-1886 *)
Definition local_reshape (t : nd K) (sh : list Z) : res (nd K) :=
  reshape_py t (Z.of_nat (ldim t) :: sh ++ [Z.of_nat (rdim t)]).
(** mparray.py 1864-1874 *)
Definition local_ravel (t : nd K) : res (nd K) := local_reshape t [-1]%Z.

(** mparray.py 452-478: argument of [reshape]. *)
Inductive reshape_arg : Type :=
| RPrune                        (* the string 'prune' *)
| ROne (sh : list Z)            (* a single shape *)
| RList (shs : list (list Z)).  (* one shape per site *)
Definition mreshape (x : ltens K) (arg : reshape_arg) : res (ltens K) :=
  do shs <- match arg with
            | RPrune => Ok (map (fun p => map Z.of_nat (filter (fun d => Nat.ltb 1 d) p)) (mshape x))
            | ROne [] => Err IndexError
            | ROne sh => Ok (map (fun _ => sh) (lts x))
            | RList [] => Err IndexError
            | RList shs => Ok shs
            end;
  do ts <- mapM (fun p => local_reshape (fst p) (snd p)) (combine (lts x) shs);
  lt_init ts (Some (lcan x), Some (rcan x)).
Definition mravel (x : ltens K) : res (ltens K) := mreshape x (ROne [-1]%Z).

(** mparray.py 480-499 *)
Fixpoint chunks {A : Type} (fuel n : nat) (l : list A) : list (list A) :=
  match fuel, l with
  | S f, _ :: _ => firstn n l :: chunks f n (skipn n l)
  | _, _ => []
  end.
Definition group_sites (x : ltens K) (n : nat) : res (ltens K) :=
  if Nat.eqb n 0 then Err ZeroDivisionError else
  praise_unless (Nat.eqb (llen x mod n) 0) ValueError (
  if Nat.eqb n 1 then Ok x
  else mpa_new (map ltens_to_array (chunks (llen x) n (lts x)))).

(** mparray.py 520-540, 542-559, 561-581 *)
Definition list_update {A : Type} (l : list A) (z : Z) (f : A -> A) : res (list A) :=
  match pyidx (List.length l) z with
  | None => Err IndexError
  | Some n => match nth_error l n with
              | None => Err IndexError
              | Some a => Ok (set_nth n (f a) l)
              end
  end.
Definition vleg2leg (x : ltens K) (pos : Z) : res (ltens K) :=
  do ts1 <- list_update (lts x) pos newaxis_last;
  do ts2 <- list_update ts1 (pos + 1) newaxis_first;
  lt_init ts2 (Some (Z.min (lcan x) pos), Some (Z.max (rcan x) (pos + 2))).
Definition leg2vleg (x : ltens K) (pos : Z) : res (ltens K) :=
  do a <- pyget (lts x) pos; do ra <- shape_last a;
  passert (Nat.eqb ra 1) (
  do b <- pyget (lts x) (pos + 1); do lb <- shape0 b;
  passert (Nat.eqb lb 1) (
  do ts1 <- list_update (lts x) pos take_last0;
  do ts2 <- list_update ts1 (pos + 1) (take_first 0);
  lt_init ts2 (Some (Z.min (lcan x) pos), Some (Z.max (rcan x) (pos + 1))))).
Definition msplit (x : ltens K) (pos : Z) : res (option (ltens K) * option (ltens K)) :=
  if (pos <? 0)%Z then Ok (None, Some x)
  else if (Z.of_nat (llen x) <=? pos)%Z then Ok (Some x, None)
  else
    do y <- vleg2leg x pos;
    let p := Z.to_nat pos in
    do a <- lt_init (firstn (p + 1) (lts y)) (Some (Z.min (lcan y) pos), Some (Z.min (rcan y) (pos + 1)));
    do b <- lt_init (skipn (p + 1) (lts y))
                    (Some (Z.max 0 (lcan y - pos)), Some (Z.max 0 (rcan y - pos - 1)));
    Ok (Some a, Some b).

(** mparray.py 583-587 *)
Definition local_reverse (t : nd K) : nd K :=
  transpose t ((ndim t - 1) :: seq 1 (ndim t - 2) ++ [0]).
Definition mreverse (x : ltens K) : res (ltens K) := mpa_new (map local_reverse (rev (lts x))).

(** mparray.py 987-1013: [pad_ranks]; [np.pad] with zeros at the end of the
    virtual legs. *)
Definition npad (lp rp : nat) (t : nd K) : nd K :=
  tab ((ldim t + lp) :: pdims t ++ [rdim t + rp])
      (fun idx => if Nat.ltb (hd 0 idx) (ldim t) && Nat.ltb (List.last idx 0) (rdim t)
                  then get t idx else k0).
(** mparray.py 2062-2086 *)
Definition full_rank (ldims : list (list nat)) : list nat :=
  let d := map size ldims in
  map (fun cut => Nat.min (size (firstn cut d)) (size (skipn cut d))) (seq 1 (List.length ldims - 1)).
Definition pad_ranks (x : ltens K) (rank : option nat) (force_rank : bool) : res (ltens K) :=
  do rk <- match rank with
           | Some r => Ok r
           | None => match ranks x with
                     | [] => Err ValueError          (* max() of an empty sequence *)
                     | r :: rs => Ok (fold_right Nat.max r rs)
                     end
           end;
  let rks := if force_rank then map (fun _ => rk) (ranks x)
             else map (fun f => Nat.min f rk) (full_rank (mshape x)) in
  let pad := map (fun p => Nat.max (fst p) (snd p) - fst p) (combine (ranks x) rks) in
  mpa_new (map (fun p => npad (fst (fst p)) (snd (fst p)) (snd p))
               (combine (combine (0 :: pad) (pad ++ [0])) (lts x))).

(** ** Functions of several MPArrays *)
(** mparray.py 1118-1153 / 1805-1831: the argument [axes] (before the shift to
    true legs). *)
Inductive dotaxes : Type :=
| AInt (a b : Z)
| ASeq (la lb : list Z).
Definition true_leg (ax : Z) : Z := if (0 <=? ax)%Z then (ax + 1)%Z else (ax - 1)%Z.
Definition true_axes (ax : dotaxes) : list Z * list Z :=
  match ax with
  | AInt a b => ([true_leg a], [true_leg b])
  | ASeq la lb => (map true_leg la, map true_leg lb)
  end.

(** mparray.py 1805-1831: [_local_dot].  tensordot raises (IndexError) for an axis
    out of range and ValueError for repeated axes or unequal dimensions. *)
Definition local_dot (tl tr : nd K) (axes : list Z * list Z) : res (nd K) :=
  let cl := List.length (fst axes) in
  let cr := List.length (snd axes) in
  passert (Nat.eqb cl cr) (
  do axl <- mapM (fun z => match norm_axis (ndim tl) z with Some k => Ok k | None => Err IndexError end) (fst axes);
  do axr <- mapM (fun z => match norm_axis (ndim tr) z with Some k => Ok k | None => Err IndexError end) (snd axes);
  praise_unless (nodupb axl && nodupb axr && list_eqb (gather axl (shp tl)) (gather axr (shp tr))) ValueError (
  let r0 := tensordot tl tr axl axr in
  let r1 := rollaxis r0 (ndim tl - cl) 1 in
  let r2 := rollaxis r1 (ndim tl - cl) (ndim tl + ndim tr - cl - cr - 1) in
  let sh := (ldim tl * ldim tr) :: removelast (removelast (List.tl (List.tl (shp r2)))) ++ [rdim tl * rdim tr] in
  praise_unless (reshape_ok r2 sh) ValueError (Ok (reshape r2 sh)))).

(** mparray.py 1118-1153 *)
Definition mdot (x y : ltens K) (axes : dotaxes) : res (ltens K) :=
  passert (Nat.eqb (llen x) (llen y)) (
  do ts <- mapM (fun p => local_dot (fst p) (snd p) (true_axes axes)) (combine (lts x) (lts y));
  mpa_new ts).

(** mparray.py 1192-1231: [partialdot].  [zip] stops with the longer MPA. *)
Definition pdot_site (axes : list Z * list Z) (p : option (nd K) * option (nd K)) : res (nd K) :=
  match p with
  | (Some l, None) => Ok l
  | (None, Some r) => Ok r
  | (Some l, Some r) => local_dot l r axes
  | (None, None) => Ok dummy  (* cannot happen: one of the two is the longer MPA *)
  end.
Fixpoint take_pad {A : Type} (n : nat) (l : list (option A)) : list (option A) :=
  match n, l with
  | O, _ => []
  | S n', [] => None :: take_pad n' []
  | S n', x :: l' => x :: take_pad n' l'
  end.
Definition partialdot (x y : ltens K) (start_at : nat) (axes : dotaxes) : res (ltens K) :=
  let pad s n := take_pad n (repeat None start_at ++ map Some (lts s)) in
  let xs := if Nat.ltb (llen x) (llen y) then pad x (llen y) else map Some (lts x) in
  let ys := if Nat.ltb (llen x) (llen y) then map Some (lts y) else pad y (llen x) in
  do ts <- mapM (pdot_site (true_axes axes)) (combine xs ys);
  mpa_new ts.

(** mparray.py 1237-1253: [inner] *)
Definition minner (x y : ltens K) : res (nd K) :=
  passert (Nat.eqb (llen x) (llen y)) (
  do ts <- mapM (fun p => do a <- local_ravel (fst p); do b <- local_ravel (snd p);
                          local_dot (nconj a) b ([1], [1])%Z) (combine (lts x) (lts y));
  Ok (strip_virt (ltens_to_array ts))).

(** mparray.py 1156-1189: [sumup] *)
Fixpoint nsum_list (ts : list (nd K)) : res (nd K) :=
  match ts with
  | [] => Err ValueError
  | [t] => Ok t
  | t :: ts' => do s <- nsum_list ts'; nadd_py t s
  end.
Definition heads {A : Type} (d : A) (ls : list (list A)) : list A := map (hd d) ls.
(** [ltensiter] holds one iterator per summand.  With weights, [zip(weights,
    ltensiter)] advances only the first [len(weights)] iterators, so the other
    summands lag one site behind ([lag]). *)
Definition msumup (xs : list (ltens K)) (weights : option (list K)) : res (ltens K) :=
  match xs with
  | [] => Err IndexError
  | x0 :: _ =>
      let length := llen x0 in
      passert (forallb (fun x => Nat.eqb (llen x) length) xs) (
      let nw := match weights with None => List.length xs | Some ws => List.length ws end in
      let lag i := if Nat.ltb i nw then 0 else 1 in
      let site k := map (fun p => nth (k - lag (fst p)) (lts (snd p)) dummy)
                        (combine (seq 0 (List.length xs)) xs) in
      let first := match weights with
                   | None => site 0
                   | Some ws => map (fun p => nscale (fst p) (snd p)) (combine ws (site 0))
                   end in
      if Nat.eqb length 1 then
        do t <- nsum_list first; mpa_new [t]
      else
        do f <- cat_last_py first;
        do mid <- mapM (fun k => local_add (site k)) (seq 1 (length - 2));
        do l <- cat_first_py (site (length - 1));
        mpa_new (f :: mid ++ [l]))
  end.

(** mparray.py 1281-1303: [chain] *)
Definition mchain (xs : list (ltens K)) : res (ltens K) :=
  match xs with
  | [] => Err ValueError
  | _ => mpa_new (flat_map lts xs)
  end.

(** mparray.py 1400-1413: [localouter] *)
Definition localouter (x y : ltens K) : res (ltens K) :=
  passert (Nat.eqb (llen x) (llen y)) (
  do ts <- mapM (fun p => local_dot (newaxis_second (fst p)) (newaxis_second (snd p)) ([1], [1])%Z)
               (combine (lts x) (lts y));
  mpa_new ts).

(** mparray.py 1306-1335: [diag].  A tuple times a non-positive number is empty,
    so a negative [axis] indexes the first (virtual) leg of the local tensors. *)
Inductive diagres : Type := DiagArr (a : list (nd K)) | DiagMpa (l : list (ltens K)).
Definition local_index (axis k : nat) (t : nd K) : res (nd K) :=
  match nth_error (shp t) axis with
  | None => Err IndexError
  | Some d => if Nat.ltb k d then Ok (take_axis axis k t) else Err IndexError
  end.
Definition mdiag (x : ltens K) (axis : Z) : res diagres :=
  do s0 <- pyget (mshape x) 0;
  do dim <- pyget s0 axis;
  do ds <- mapM (fun d => pyget d axis) (mshape x);
  passert (forallb (fun d => Nat.eqb d dim) ds) (
  passert (forallb (fun d => Nat.eqb (List.length d) (List.length s0)) (mshape x)) (
  do mpas <- mapM (fun i => do ts <- mapM (local_index (Z.to_nat (axis + 1)) i) (lts x); mpa_new ts) (seq 0 dim);
  if Nat.eqb (List.length s0) 1 then Ok (DiagArr (map to_array mpas)) else Ok (DiagMpa mpas))).

(** mparray.py 1338-1397: [inject] for a sequence of positions; [InjMany l] is
    [num[i] = None] with a list of tensors, [InjRep n ten] is [num[i] = n].  A
    tensor [None] means the identity matrix. *)
Inductive inject_item : Type :=
| InjMany (tens : list (option (nd K)))
| InjRep (n : nat) (ten : option (nd K)).
Definition inject_site (rank pdim : nat) (ten : option (nd K)) : nd K :=
  let t := match ten with None => eye pdim | Some t => t end in
  let o := tensordot t (eye rank) [] [] in
  rollaxis o (ndim o - 1) 0.
Definition inject_list (i : inject_item) : list (option (nd K)) :=
  match i with InjMany l => l | InjRep n t => repeat t n end.
Fixpoint adjacent_lt (l : list Z) : bool :=
  match l with
  | a :: ((b :: _) as r) => (a <? b)%Z && adjacent_lt r
  | _ => true
  end.
Fixpoint pieces_of {A : Type} (l : list A) (pos : list Z) : list (list A) :=
  match pos with
  | a :: ((b :: _) as r) => pyslice l a b :: pieces_of l r
  | _ => []
  end.
Fixpoint inject_merge (lastdim : nat) (pieces : list (list (nd K))) (items : list inject_item) : list (nd K) :=
  match pieces, items with
  | p :: ((q :: _) as rest), i :: items' =>
      let rank := match p with [] => 1 | _ => rdim (List.last p dummy) end in
      let pdim := match q with [] => lastdim | t :: _ => nth 1 (shp t) 0 end in
      p ++ map (inject_site rank pdim) (inject_list i) ++ inject_merge lastdim rest items'
  | p :: _, _ => p
  | [], _ => []
  end.
Definition inject (x : ltens K) (pos : list Z) (items : list inject_item) : res (ltens K) :=
  passert (Nat.eqb (List.length pos) (List.length items)) (
  passert (adjacent_lt pos) (
  let bounds := (0 :: pos ++ [Z.of_nat (llen x)])%Z in
  mpa_new (inject_merge (nth 1 (shp (List.last (lts x) dummy)) 0) (pieces_of (lts x) bounds) items))).

(** mparray.py 1465-1492: [_prune_ltens] *)
Fixpoint prune_loop (last : nd K) (ts : list (nd K)) : list (nd K) :=
  match ts with
  | [] => [last]
  | t :: ts' =>
      if Nat.eqb (ndim t) 2 || Nat.eqb (ndim last) 2
      then prune_loop (matdot last t) ts'
      else last :: prune_loop t ts'
  end.
Definition prune_ltens (ts : list (nd K)) : list (nd K) :=
  match ts with [] => [] | t :: ts' => prune_loop t ts' end.
(** mparray.py 1495-1506: [prune] *)
Definition prune (x : ltens K) (singletons : bool) : res (ltens K) :=
  do y <- (if singletons && existsb (fun p => Nat.eqb (size p) 1) (mshape x)
           then mreshape x (RList (map (fun p => if Nat.eqb (size p) 1 then [] else map Z.of_nat p) (mshape x)))
           else Ok x);
  mpa_new (prune_ltens (lts y)).

(** mparray.py 1509-1547: [partialtrace].  [PTAll a b]: a pair of ints;
    [PTSites l]: one entry per site.  [zip] stops with the shorter list. *)
Inductive ptarg : Type := PTAll (a b : Z) | PTSites (l : list (option (Z * Z))).
Definition local_trace (t : nd K) (ax : Z * Z) : res (nd K) :=
  match norm_axis (ndim t) (true_leg (fst ax)), norm_axis (ndim t) (true_leg (snd ax)) with
  | Some a, Some b => praise_unless (negb (Nat.eqb a b)) ValueError (Ok (trace_axes t a b))
  | _, _ => Err ValueError
  end.
Definition pt_axis_ok (n : Z) (a : Z) : bool := (- n <=? a)%Z && (a <? n)%Z.
Definition partialtrace (x : ltens K) (arg : ptarg) : res (ltens K) :=
  do axes <- match arg with
             | PTAll a b => Ok (map (fun _ => Some (a, b)) (lts x))
             | PTSites [] => Err IndexError
             | PTSites l => Ok l
             end;
  passert (forallb (fun p => match snd p with
                             | None => true
                             | Some (a, b) => pt_axis_ok (fst p) a && pt_axis_ok (fst p) b
                             end) (combine (ndims x) axes)) (
  do ts <- mapM (fun p => match snd p with None => Ok (fst p) | Some ax => local_trace (fst p) ax end)
               (combine (lts x) axes);
  mpa_new (prune_ltens ts)).
(** mparray.py 1550-1566: [trace] *)
Definition mtrace (x : ltens K) (arg : ptarg) : res K :=
  do out <- partialtrace x arg;
  let a := to_array out in
  passert (Nat.eqb (size (shp a)) 1) (Ok (nth 0 (dat a) k0)).

(** mparray.py 1569-1617: [regular_slices]: list of (start, stop). *)
Definition regular_slices (length width offset : Z) : res (list (Z * Z)) :=
  if (offset =? 0)%Z then Err ZeroDivisionError else
  passert ((length - width) mod offset =? 0)%Z (
  let num := ((length - width) / offset + 1)%Z in
  Ok (map (fun i => (offset * Z.of_nat i, offset * Z.of_nat i + width)%Z) (seq 0 (Z.to_nat num)))).

(** mparray.py 1620-1639: [_embed_ltens_identity] *)
Definition embed_ltens_identity (x : ltens K) (emb : option (nd K)) : res (nd K) :=
  match emb with
  | Some e => Ok (add_virt e)
  | None =>
      match mshape x with
      | [d1; d2] :: _ => passert (Nat.eqb d1 d2) (Ok (add_virt (eye d1)))
      | _ => Err AssertionError
      end
  end.
(** mparray.py 1642-1661: [embed_slice] for a slice given by (start, stop). *)
Definition embed_slice (length : nat) (s : pyslc) (x : ltens K) (emb : option (nd K)) : res (ltens K) :=
  do ind <- slice_indices s length;
  let '(start, stop, step) := ind in
  passert (step =? 1)%Z (
  passert (Z.of_nat (llen x) =? stop - start)%Z (
  do e <- embed_ltens_identity x emb;
  mpa_new (repeat e (Z.to_nat start) ++ lts x ++ repeat e (Z.to_nat (Z.of_nat length - stop))))).

(** extmath.py 46-104: [block_diag].  [axes] normalised; summands are transposed so
    that the block axes come first, placed on the diagonal and transposed back.
    The inverse order is [np.argsort(axes_order)]. *)
Definition argsort_perm (order : list nat) : list nat := map (fun k => find_pos k order) (seq 0 (List.length order)).
Fixpoint add_lists (a b : list nat) : list nat :=
  match a, b with x :: a', y :: b' => (x + y) :: add_lists a' b' | _, _ => [] end.
Definition in_block (start shape idx : list nat) : bool :=
  forallb (fun p => Nat.leb (fst (fst p)) (snd p) && Nat.ltb (snd p) (fst (fst p) + snd (fst p)))
          (combine (combine start shape) idx).
Definition sub_lists (a b : list nat) : list nat := map (fun p => fst p - snd p) (combine a b).
Definition block_add (n : nat) (rs a : nd K) (start : list nat) : nd K :=
  let shape := firstn n (shp a) in
  tab (shp rs) (fun idx =>
    let hd := firstn n idx in
    if in_block start shape hd
    then (get rs idx + get a (sub_lists hd start ++ skipn n idx))%K
    else get rs idx).
Fixpoint block_loop (n : nat) (rs : nd K) (arrs : list (nd K)) (start : list nat) : nd K :=
  match arrs with
  | [] => rs
  | a :: arrs' => block_loop n (block_add n rs a start) arrs' (add_lists start (firstn n (shp a)))
  end.
Definition block_diag (summands : list (nd K)) (axes : list nat) : nd K :=
  match summands with
  | [] => dummy
  | s0 :: _ =>
      let n := List.length axes in
      let order := axes ++ freeaxes (ndim s0) axes in
      let arrs := map (fun a => transpose a order) summands in
      let a0 := transpose s0 order in
      let total := fold_right add_lists (repeat 0 n) (map (fun a => firstn n (shp a)) arrs) in
      let rs := block_loop n (zeros (total ++ skipn n (shp a0))) arrs (repeat 0 n) in
      transpose rs (argsort_perm order)
  end.

(** [transpose] with an order for [summands[0]] raises ValueError for another number
    of axes.  In [res[pos] += array] the axes of size one are repeated (all other
    axes of [res] are those of [summands[0]]); other sizes raise ValueError. *)
Definition block_rest (s0 : nd K) (axes : list nat) (a : nd K) : list nat := gather (freeaxes (ndim s0) axes) (shp a).
Definition block_expand (s0 : nd K) (axes : list nat) (a : nd K) : nd K :=
  bcast_to (map (fun k => nth k (shp (if memb k axes then a else s0)) 0) (seq 0 (ndim s0))) a.
Definition block_diag_py (summands : list (nd K)) (axes : list nat) : res (nd K) :=
  match summands with
  | [] => Err IndexError
  | s0 :: _ =>
      praise_unless (forallb (fun a => Nat.eqb (ndim a) (ndim s0)) summands) ValueError (
      if forallb (fun a => list_eqb (block_rest s0 axes a) (block_rest s0 axes s0)) summands
      then Ok (block_diag summands axes)
      else praise_unless (forallb (fun a => bcast_ok (block_rest s0 axes s0) (block_rest s0 axes a)) summands) ValueError
             (Ok (block_diag (map (block_expand s0 axes) summands) axes)))
  end.

(** mparray.py 1664-1733: [_local_sum_identity] *)
Definition local_sum_site (width n : nat) (mpas : list (ltens K)) (e : nd K) (pos : nat) : res (nd K) :=
  let s0 := (pos + 1) - width in
  let s1 := Nat.min n (pos + 1) in
  let l0 := map (fun i => nth (pos - i) (lts (nth i mpas (mkLt [] 0 0))) dummy) (seq s0 (s1 - s0)) in
  do l1 <- (if Nat.leb width pos
            then match l0 with
                 | [] => Err IndexError
                 | t :: r => do c <- cat_first_py [e; t]; Ok (c :: r)
                 end
            else Ok l0);
  do l2 <- (if Nat.ltb pos (n - 1)
            then do re <- (if Nat.eqb width 1 && Nat.leb width pos
                           then cat_first_py [zeros (shp e); e] else Ok e);
                 match l1 with
                 | [] => Err IndexError
                 | _ => do c <- cat_last_py [List.last l1 dummy; re]; Ok (removelast l1 ++ [c])
                 end
            else Ok l1);
  block_diag_py l2 [0; ndim (hd dummy l2) - 1].
Definition local_sum_identity (mpas : list (ltens K)) (emb : option (nd K)) : res (ltens K) :=
  match mpas with
  | [] => Err IndexError
  | x0 :: _ =>
      let width := llen x0 in
      let n := List.length mpas in
      do e <- embed_ltens_identity x0 emb;
      passert (forallb (fun x => Nat.eqb (llen x) width) mpas) (
      do ts <- mapM (local_sum_site width n mpas e) (seq 0 (n + width - 1));
      mpa_new ts)
  end.
(** mparray.py 1736-1775: [local_sum]; slices are given as (start, stop). *)
Definition zz_eqb (p q : Z * Z) : bool := (fst p =? fst q)%Z && (snd p =? snd q)%Z.
Fixpoint all_eq (l1 l2 : list (Z * Z)) : bool :=
  match l1, l2 with
  | [], [] => true
  | p :: l1', q :: l2' => zz_eqb p q && all_eq l1' l2'
  | _, _ => false
  end.
Definition local_sum (mpas : list (ltens K)) (emb : option (nd K))
           (length : nat) (slices : option (list (Z * Z))) : res (ltens K) :=
  match slices with
  | None => local_sum_identity mpas emb
  | Some [] => Err IndexError
  | Some (((a, b) :: _) as sl) =>
      do reg <- regular_slices (Z.of_nat length) (b - a) 1;
      if all_eq sl reg then local_sum_identity mpas emb
      else
        do xs <- mapM (fun p => embed_slice length (mkSlice (Some (fst (snd p))) (Some (snd (snd p))) None)
                                           (fst p) emb) (combine mpas sl);
        msumup xs None
  end.

End MpArray.
