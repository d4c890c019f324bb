(** Model of povm/localpovm.py.

    The scalars are generic; the constants the file takes from numpy are parameters:
    [ki] is [1j], [rsq n] is [1 / np.sqrt(n)], [frac n] is [1 / n], and [close1 x] says
    that [assert_almost_equal(x, 1.0)] passes. *)
From Verif Require Export ExtMath.
Open Scope nat_scope.

Section LocalPovm.
Context {K : StarRing}.
Variables (ki : K) (rsq frac : nat -> K) (close1 : K -> bool).

(** localpovm.py 17-36: the elements are one array; [_pinv] is a parameter of LinInv.v. *)
Record povm : Type := mkPovm { elements : nd K; info_complete : bool }.
(** [np.asarray] of a list of arrays; different shapes are ValueError (as in numpy since
    version 1.24; older versions make an array of objects). *)
Definition asarray (l : list (nd K)) : res (nd K) :=
  match l with
  | [] => Ok (mkNd [0] [])
  | a :: _ =>
      praise_unless (forallb (fun b => list_eqb (shp b) (shp a)) l) ValueError
        (Ok (mkNd (List.length l :: shp a) (concat (map (@dat K) l))))
  end.
Definition povm_new (l : list (nd K)) (ic : bool) : res povm := do a <- asarray l; Ok (mkPovm a ic).
(** localpovm.py 38-45 *)
Definition povm_len (p : povm) : nat := hd 0 (shp (elements p)).
Definition povm_get (p : povm) (k : nat) : nd K := take_axis 0 k (elements p).
Definition povm_list (p : povm) : list (nd K) := map (povm_get p) (seq 0 (povm_len p)).

(** localpovm.py 47-59: [from_vectors] *)
Definition outer (v w : list K) : nd K :=
  tab [List.length v; List.length w] (fun idx => kmul (nth (nth 0 idx 0) v k0) (nth (nth 1 idx 0) w k0)).
Definition from_vectors (vecs : list (list K)) (ic : bool) : res povm :=
  povm_new (map (fun v => outer v (map kconj v)) vecs) ic.

(** localpovm.py 61-71: [probability_map]; an array without three axes cannot be
    transposed (ValueError). *)
Definition povm_pmap (p : povm) : res (nd K) :=
  praise_unless (Nat.eqb (ndim (elements p)) 3) ValueError
    (reshape_py (transpose (elements p) [0; 2; 1]) [Z.of_nat (povm_len p); (-1)%Z]).

(** localpovm.py 88-133.  Row [k] of the array [vectors] is the [k]-th vector of the list;
    the loops visit the pairs [i < j] in lexicographic order and write two rows for each. *)
Definition upairs (dim : nat) : list (nat * nat) :=
  flat_map (fun i => map (fun j => (i, j)) (seq (S i) (dim - S i))) (seq 0 (dim - 1)).
Definition pair_row (dim i j : nat) (c : K) : list K :=
  map (fun l => if Nat.eqb l i then k1 else if Nat.eqb l j then c else k0) (seq 0 dim).
Definition pair_vectors (dim : nat) (c1 c2 : K) : list (list K) :=
  map (map (fun x => kmul x (rsq (2 * (dim - 1)))))
    (flat_map (fun p => [pair_row dim (fst p) (snd p) c1; pair_row dim (fst p) (snd p) c2]) (upairs dim)).
Definition x_povm (dim : nat) : res povm := from_vectors (pair_vectors dim k1 (- k1)%K) false.
Definition y_povm (dim : nat) : res povm := from_vectors (pair_vectors dim ki (- ki)%K) false.
Definition z_povm (dim : nat) : res povm :=
  from_vectors (map (fun i => map (fun j => delta i j) (seq 0 dim)) (seq 0 dim)) false.

(** localpovm.py 135-149 *)
Definition pauli_parts (dim : nat) : res (list povm) :=
  passert (Nat.ltb 1 dim) (
  do x <- x_povm dim;
  do y <- y_povm dim;
  if Nat.eqb dim 2 then do z <- z_povm dim; Ok [x; y; z] else Ok [x; y]).
(** localpovm.py 163-176: [zip] stops at the shorter sequence. *)
Definition povm_concat (povms : list povm) (weights : list K) (ic : bool) : res povm :=
  passert (close1 (fold_left kadd weights k0)) (
  povm_new (concat (map (fun q => map (nscale (snd q)) (povm_list (fst q))) (combine povms weights))) ic).
(** localpovm.py 152-160 *)
Definition pauli_povm (dim : nat) : res povm :=
  do parts <- pauli_parts dim;
  povm_concat parts (repeat (frac (List.length parts)) (List.length parts)) true.
End LocalPovm.
Arguments povm : clear implicits.
