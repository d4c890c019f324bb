(** Model of [pauli_mpp] and [pauli_mpps] (povm/mppovm.py 1539-1599). *)
From Verif Require Export MpPovm LocalPovm.
Open Scope nat_scope.

Section PauliMpp.
Context {K : StarRing}.
Variables (ki : K) (rsq frac : nat -> K) (close1 : K -> bool).

(** mppovm.py 1539-1566.  [MPPovm.from_local_povm] takes the object or the array; it
    uses the array of the elements. *)
Definition pauli_mpp (nr_sites local_dim : nat) : res (ltens K) :=
  do p <- pauli_povm ki rsq frac close1 local_dim;
  from_local_povm (elements p) nr_sites.

(** mppovm.py 1569-1599.  [it.product] with [repeat]; [mp.chain] makes an MPPovm, the
    type of its first argument, and so checks the shapes. *)
Definition pauli_mpps (nr_sites local_dim : nat) : res (list (ltens K)) :=
  do ps <- pauli_parts ki rsq local_dim;
  do parts <- mapM (fun p => from_local_povm (elements p) 1) ps;
  do l <- mapM (fun factors => do z <- mchain factors; povm_checks z) (product (repeat parts nr_sites));
  mppl_new l.
End PauliMpp.
