(** Model of mpnum/factory.py.
    A random state is a stream of draws: [s k sh] is the array returned by its
    [k]-th call, for the shape [sh] (complex draws are one call here, the code makes
    two for real and imaginary part).  [rstate] is the argument [randstate]; None
    means numpy's global state.  The functions are given the number of the first
    draw instead of changing the state.
    Oracles: [qr] (numpy's reduced QR), [sqrt_] (square root of a sum of squares),
    [inv] (division, [x / y = x * inv y]). *)
From Verif Require Export MpsMpo ExtMath.
Open Scope nat_scope.

Section Factory.
Context {K : StarRing}.

Definition stream : Type := nat -> list nat -> nd K.
(** factory.py 35, 46: [randstate if randstate is not None else np.random] *)
Definition rng (glob : stream) (rs : option stream) : stream := match rs with None => glob | Some s => s end.

(** The arguments [ldim] and [rank]: a number, one tuple for all sites, or one tuple
    per site (an iterable is taken to be of the kind of its first element). *)
Inductive ldimarg : Type := LInt (d : nat) | LOne (p : list nat) | LMany (ps : list (list nat)).
Inductive rankarg : Type := RkInt (r : nat) | RkList (l : list nat).

(** factory.py 149-154: [ldim[0]] of an empty tuple is IndexError. *)
Definition site_dims (sites : nat) (ldim : ldimarg) : res (list (list nat)) :=
  match ldim with
  | LInt d => Ok (repeat [d] sites)
  | LOne [] => Err IndexError
  | LOne p => Ok (repeat p sites)
  | LMany [] => Err IndexError
  | LMany ps => Ok ps
  end.

(** factory.py 125-174: [_generate].  [func] gets the number of the call and the shape. *)
Definition generate (sites : nat) (ldim : ldimarg) (rank : rankarg) (func : stream) (force_rank : bool) : res (ltens K) :=
  do dims <- site_dims sites ldim;
  let rks := match rank with RkInt r => repeat r (sites - 1) | RkList l => l end in
  let rks' := if force_rank then rks else map (fun p => Nat.min (fst p) (snd p)) (combine rks (full_rank dims)) in
  passert (Nat.eqb (length dims) sites) (
  passert (Nat.eqb (length rks' + 1) sites) (
  let b := 1 :: rks' ++ [1] in
  mpa_new (map (fun p => func (fst p) (nth (fst p) b 0 :: snd p ++ [nth (S (fst p)) b 0]))
               (combine (seq 0 (length dims)) dims)))).

(** factory.py 241-259 *)
Definition mpa_zero (sites : nat) (ldim : ldimarg) (rank : rankarg) (force_rank : bool) : res (ltens K) :=
  generate sites ldim rank (fun _ sh => zeros sh) force_rank.

(** factory.py 262-281: [eye]; [ldim] is a number or a list of numbers. *)
Inductive eyearg : Type := EyeInt (d : nat) | EyeList (ds : list nat).
Definition mpo_eye (sites : nat) (ldim : eyearg) : res (ltens K) :=
  match ldim with
  | EyeList ds => passert (Nat.eqb (length ds) sites) (from_kron (map eye ds))
  | EyeInt d => from_kron (map eye (repeat d sites))
  end.

Definition axi (k : nat) (idx : list nat) : nat := nth k idx 0.
(** [np.diag(v)] for one-dimensional [v]; [np.zeros((d, d, d))] with
    [np.fill_diagonal(.., 1)]. *)
Definition ndiag (v : nd K) : nd K :=
  let d := hd 0 (shp v) in
  tab [d; d] (fun idx => delta (axi 0 idx) (axi 1 idx) * get v [axi 0 idx])%K.
Definition delta3 (d : nat) : nd K :=
  tab [d; d; d] (fun idx => delta (axi 0 idx) (axi 1 idx) * delta (axi 1 idx) (axi 2 idx))%K.

Section Oracles.
Variable qr : nd K -> res (nd K * nd K).
Variable sqrt_ inv : K -> K.

(** factory.py 284-310 *)
Definition diagonal_mpa (entries : nd K) (sites : nat) : res (ltens K) :=
  passert (Nat.ltb 0 sites) (
  praise_unless (Nat.eqb (ndim entries) 1) NotImplementedError (
  if Nat.ltb sites 2 then from_array qr entries NDNone false
  else
    let d := hd 0 (shp entries) in
    lt_init (reshape (eye d) [1; d; d] :: repeat (delta3 d) (sites - 2) ++ [reshape (ndiag entries) [d; d; 1]])
            (Some (Z.of_nat sites - 1)%Z, Some (Z.of_nat sites)))).

(** [mpa /= mp.norm(mpa.copy())] *)
Definition normalize (x : ltens K) : res (ltens K) :=
  do c <- mpa_copy x; do p <- norm_sq qr c; mitruediv x (inv (sqrt_ (fst p))).

(** factory.py 177-238: [random_mpa], first draw [k] *)
Definition random_mpa (s : stream) (k sites : nat) (ldim : ldimarg) (rank : rankarg) (normalized force_rank : bool) : res (ltens K) :=
  do x <- generate sites ldim rank (fun n => s (k + n)) force_rank;
  if normalized then normalize x else Ok x.

(** factory.py 346-371: [random_mps] *)
Definition random_mps (s : stream) (k sites : nat) (ldim : ldimarg) (rank : rankarg) (force_rank : bool) : res (ltens K) :=
  random_mpa s k sites ldim rank true force_rank.

(** factory.py 314-345: [random_mpo]; [l + l.swapaxes(1, 2).conj()] *)
Definition local_herm (t : nd K) : res (nd K) := nadd_py t (nconj (transpose t [0; 2; 1; 3])).
Definition random_mpo (s : stream) (k sites d : nat) (rank : rankarg) (hermitian normalized force_rank : bool) : res (ltens K) :=
  do x <- random_mpa s k sites (LOne [d; d]) rank false force_rank;
  do y <- (if hermitian then do ts <- mapM local_herm (lts x); mpa_new ts else Ok x);
  if normalized then normalize y else Ok y.

(** factory.py 428-442: [_unitary_haar]; [q * ph] scales the columns of [q] with the
    phases of the diagonal of [r].  [sqr] is scipy's QR, [phase d = d / abs(d)], [isq2]
    is [1 / sqrt(2)]. *)
Variable sqr : nd K -> res (nd K * nd K).
Variable phase : K -> K.
Variable isq2 : K.
Definition unitary_haar (s : stream) (k d : nat) : res (nd K) :=
  do p <- sqr (nscale isq2 (s k [d; d]));
  let '(q, r) := p in
  Ok (tab [d; d] (fun idx => get q idx * phase (get r [axi 1 idx; axi 1 idx]))%K).

(** factory.py 374-404: [random_mpdo].  The draws are [rank] times [sites] local
    tensors, then the weights, then one matrix per bond. *)
Fixpoint scramble (s : stream) (k : nat) (ns rs : list nat) (x : ltens K) : res (ltens K) :=
  match ns, rs with
  | n :: ns', r :: rs' =>
      do u <- unitary_haar s (k + n) r;
      do t <- pyget (lts x) (Z.of_nat n);
      do t' <- matdot_py t u;
      do x1 <- lt_update_int x (Z.of_nat n) t' None;
      do w <- pyget (lts x1) (Z.of_nat (S n));
      do w' <- matdot_py (nconj (mat_T u)) w;
      do x2 <- lt_update_int x1 (Z.of_nat (S n)) w' None;
      scramble s k ns' rs' x2
  | _, _ => Ok x
  end.
Definition unit_weights (raw : list K) : list K :=
  let t := fold_right kadd k0 raw in map (fun x => x * inv t)%K raw.
Definition random_mpdo (s : stream) (sites : nat) (ldim : ldimarg) (rank : nat) : res (ltens K) :=
  do psis <- mapM (fun i => random_mps s (i * sites) sites ldim (RkInt 1) false) (seq 0 rank);
  let ws := unit_weights (dat (s (rank * sites) [rank])) in
  do ms <- mapM (fun p => do m <- mps_to_mpo (snd p); mmul m (fst p)) (combine ws psis);
  do x <- msumup ms None;
  do y <- scramble s (rank * sites + 1) (seq 0 (length (ranks x))) (ranks x) x;
  do t <- mtrace y (PTAll 0 1);
  mitruediv y (inv t).

(** factory.py 53-75: [_random_vec] *)
Definition random_vec (s : stream) (k sites d : nat) : nd K :=
  let psi := s k (repeat d sites) in nscale (inv (sqrt_ (abs2 psi))) psi.
(** factory.py 78-99: [_random_op] *)
Definition random_op (s : stream) (k sites d : nat) (hermitian normalized : bool) : nd K :=
  let op0 := s k [Nat.pow d sites; Nat.pow d sites] in
  let op1 := if hermitian then nadd op0 (nconj (transpose op0 [1; 0])) else op0 in
  let op2 := if normalized then nscale (inv (sqrt_ (abs2 op1))) op1 else op1 in
  reshape op2 (repeat d (2 * sites)).
(** factory.py 102-126: [_random_state] *)
Definition random_state (s : stream) (k sites d : nat) : nd K :=
  let n := Nat.pow d sites in
  let m := s k [n; n] in
  let rho := matdot (nconj (transpose m [1; 0])) m in
  let t := get (trace_axes rho 0 1) [] in
  reshape (nscale (inv t) rho) (repeat d (2 * sites)).

(** factory.py 407-425: [random_local_ham].  The inner function calls [_random_op]
    without [randstate]: the draws always come from the global state. *)
Definition local_ham (glob : stream) (d intlen k : nat) : res (ltens K) :=
  do op <- global_to_local (random_op glob k intlen d true true) intlen 0 0;
  from_array qr op (NDInt 2) false.
Definition random_local_ham (glob : stream) (rs : option stream) (sites d intlen : nat) : res (ltens K) :=
  passert (Nat.leb intlen sites) (
  do hs <- mapM (local_ham glob d intlen) (seq 0 (sites + 1 - intlen));
  local_sum hs None 0 None).
End Oracles.
End Factory.
