(** Model of utils/physics.py (the Hamiltonians; [cXY_E0], a formula for the ground state
    energy, is not modelled). *)
From Verif Require Export ExtMath MpsMpo.
Open Scope nat_scope.

Section Physics.
Context {K : StarRing}.

(** physics.py 121-155: [mpo_cH].  [terms[-1]] of an empty list is not reached:
    [local_sum] of an empty list fails with IndexError. *)
Definition mpo_cH (terms : list (ltens K)) : res (ltens K) :=
  do h <- local_sum (removelast terms) None 0 None;
  do c <- inject (List.last terms (mkLt [] 0 0)) [1%Z] [InjRep (llen h - 2) None];
  madd h c.

(** The terms passed to [sparse_cH]: an object with the attribute [lt] or a matrix. *)
Inductive term : Type := TMpo (x : ltens K) | TMat (a : nd K).
(** [scipy.sparse] matrices are modelled by the dense matrix they stand for;
    [H = 0] followed by [H += m] is None / Some here, and a sum of matrices of different
    shapes is ValueError. *)
Definition sp_add (h : option (nd K)) (m : nd K) : res (option (nd K)) :=
  match h with
  | None => Ok (Some m)
  | Some a => praise_unless (list_eqb (shp a) (shp m)) ValueError (Ok (Some (nadd a m)))
  end.
Definition term_matrix (ldim : nat) (t : term) : res (nd K) :=
  match t with
  | TMat a => Ok a
  | TMpo x =>
      do a <- to_array_global x;
      reshape_py a [Z.of_nat (Nat.pow ldim 2); Z.of_nat (Nat.pow ldim 2)]
  end.
(** The loop over [terms[:-1]]; [N] is the number of all terms. *)
Definition cH_step (ldim N : nat) (h : option (nd K)) (p : nat * term) : res (option (nd K)) :=
  let pos := fst p in
  do t <- term_matrix ldim (snd p);
  sp_add h (kron (eye (Nat.pow ldim pos)) (kron t (eye (Nat.pow ldim (N - pos - 2))))).
(** [cyc.lt[0][0, ..., i]] and [cyc.lt[1][i, ..., 0]] *)
Definition first_of (t : nd K) (i : nat) : nd K := take_axis (ndim t - 2) i (take_axis 0 0 t).
Definition second_of (t : nd K) (i : nat) : nd K := take_axis (ndim t - 2) 0 (take_axis 0 i t).
(** physics.py 94-118: [sparse_cH].  [middle] uses the loop variable [pos] after the loop,
    which is unbound for a single term; the last term must have [ranks] and [lt].  A last
    term with one site has no [ranks[0]] (IndexError); only [lt[0]] and [lt[1]] are used. *)
Definition sparse_cH (terms : list term) (ldim : nat) : res (option (nd K)) :=
  let N := List.length terms in
  match rev terms with
  | [] => Err IndexError
  | last :: _ =>
      do h <- foldM (cH_step ldim N) (combine (seq 0 (N - 1)) (removelast terms)) None;
      praise_unless (Nat.ltb 1 N) UnboundLocalError (
      match last with
      | TMat _ => Err AttributeError
      | TMpo cyc =>
          match ranks cyc, lts cyc with
          | r :: _, t0 :: t1 :: _ =>
              foldM (fun h i => sp_add h (kron (first_of t0 i) (kron (eye (Nat.pow ldim (N - 2))) (second_of t1 i))))
                    (seq 0 r) h
          | _, _ => Err IndexError
          end
      end)
  end.

(** physics.py 31-55: [cXY_local_terms].  [ki] is the imaginary unit, [c1] and [c2] the
    numbers [(1 + gamma) * 0.25] and [(1 - gamma) * 0.25]; [mpo_X] and [mpo_Y] are
    one-site MPOs built by [from_array] (physics.py 22-28). *)
Definition one_site (a : nd K) : ltens K := mkLt [add_virt a] 0 1.
Definition pauli_x : nd K := mkNd [2; 2] [k0; k1; k1; k0].
Definition pauli_y (ki : K) : nd K := mkNd [2; 2] [k0; (- ki)%K; ki; k0].
Definition cXY_term (ki c1 c2 : K) : res (ltens K) :=
  do xx <- mchain [one_site pauli_x; one_site pauli_x];
  do yy <- mchain [one_site (pauli_y ki); one_site (pauli_y ki)];
  do a <- mmul xx c1;
  do b <- mmul yy c2;
  madd a b.
Definition cXY_local_terms (nr_sites : nat) (ki c1 c2 : K) : res (list (ltens K)) :=
  do t <- cXY_term ki c1 c2; Ok (repeat t nr_sites).
End Physics.
Arguments term : clear implicits.
