(** Objects and references: which MPArray objects share their LocalTensors.

    The other model files treat an MPArray as a value.  Here an MPArray object is a reference to a
    LocalTensors cell (attribute [_lt], mparray.py 79), a program is a sequence of calls, and a
    call names its arguments.  A method that ends with [MPArray(...)] or [type(self)(...)] of new
    local tensors creates a cell and an object; one that ends with [return self] returns the
    object it was called on; one that calls [self._lt.update] writes to the cell.
    Local tensors themselves are values: no method writes into the buffer of an array that
    another object can reach (mpstruct.py 14-18, 149-164: only read-only views are handed out, and
    [_update] rebinds list entries).  A call that raises ends the program. *)
From Verif Require Export Linalg.
Open Scope nat_scope.

Section Heap.
Context {K : StarRing}.
(** [cells]: the LocalTensors instances; [objs]: for each MPArray object the number of its cell *)
Record store : Type := mkStore { cells : list (ltens K); objs : list nat }.
Definition empty_store : store := mkStore [] [].
Definition cell_of (s : store) (o : nat) : option nat := nth_error (objs s) o.
(** The value of an object *)
Definition val (s : store) (o : nat) : option (ltens K) :=
  match cell_of s o with None => None | Some a => nth_error (cells s) a end.
(** A name without object is a NameError. *)
Definition look (s : store) (o : nat) : res (ltens K) := match val s o with Some x => Ok x | None => Err NameError end.
(** mparray.py 71-80: [MPArray(LocalTensors(...))] *)
Definition alloc (s : store) (x : ltens K) : store * nat :=
  (mkStore (cells s ++ [x]) (objs s ++ [List.length (cells s)]), List.length (objs s)).
(** [MPArray(lt)] for a given LocalTensors instance, mparray.py 79 *)
Definition wrap (s : store) (a : nat) : store * nat := (mkStore (cells s) (objs s ++ [a]), List.length (objs s)).
(** [self._lt.update(...)] and everything that uses it *)
Definition write (s : store) (o : nat) (x : ltens K) : store :=
  match cell_of s o with None => s | Some a => mkStore (set_nth a x (cells s)) (objs s) end.
(** [self._lt = compr._lt], mparray.py 807, for a new object [compr] *)
Definition rebind (s : store) (o : nat) (x : ltens K) : store :=
  mkStore (cells s ++ [x]) (set_nth o (List.length (cells s)) (objs s)).

Section Ext.
Variable qr : nd K -> res (nd K * nd K).
Variable svd : nd K -> res (nd K * list K * nd K).
Variable tsvd : nd K -> nat -> res (nd K * list K * nd K).

(** Methods and functions of one array that return a new array *)
Inductive op1 : Type :=
| OCopy                                  (* mparray.py 82-84 *)
| OGet (indices : list Z)                (* 90-102 *)
| OTranspose (axes : option (list Z))    (* 311-337 *)
| OAdj                                   (* 339-342 *)
| OConj                                  (* 344-347 *)
| OMul (c : K)                           (* 365-377, 389-390 *)
| ONeg                                   (* 392-393 *)
| OTruediv (dinv : K)                    (* 398-402 *)
| OReshape (arg : reshape_arg)           (* 452-474 *)
| ORavel                                 (* 476-478 *)
| OSplitSites (n : nat)                  (* 501-518 *)
| OVleg2leg (pos : Z)                    (* 520-540 *)
| OLeg2vleg (pos : Z)                    (* 542-559 *)
| OReverse                               (* 583-587 *)
| OPadRanks (rank : option nat) (force : bool)  (* 987-1013 *)
| OInject (pos : list Z) (items : list (@inject_item K))  (* 1338-1397 *)
| OPrune (singletons : bool)             (* 1495-1506 *)
| OPartialtrace (arg : ptarg)            (* 1509-1547 *)
| OCompression (rank : option nat) (relerr : option (list K -> nat)) (d : dirarg) (canon : bool). (* 812-828 *)
Definition run1 (o : op1) (x : ltens K) : res (ltens K) :=
  match o with
  | OCopy => mpa_copy x
  | OGet i => mget x i
  | OTranspose a => mtranspose x a
  | OAdj => madj x
  | OConj => mconj x
  | OMul c => mmul x c
  | ONeg => mneg x
  | OTruediv d => mtruediv x d
  | OReshape a => mreshape x a
  | ORavel => mravel x
  | OSplitSites n => split_sites qr x n
  | OVleg2leg p => vleg2leg x p
  | OLeg2vleg p => leg2vleg x p
  | OReverse => mreverse x
  | OPadRanks r f => pad_ranks x r f
  | OInject p i => inject x p i
  | OPrune b => prune x b
  | OPartialtrace a => partialtrace x a
  | OCompression r e d c => do p <- compression_svd qr svd tsvd x r e d c; Ok (fst p)
  end.
(** Functions of two arrays, and of a list of arrays *)
Inductive op2 : Type :=
| OAdd                                   (* 349-360 *)
| OSub                                   (* 362-363 *)
| ODot (axes : dotaxes)                  (* 1118-1153 *)
| OPartialdot (start : nat) (axes : dotaxes)  (* 1192-1231 *)
| OLocalouter.                           (* 1400-1413 *)
Definition run2 (o : op2) (x y : ltens K) : res (ltens K) :=
  match o with
  | OAdd => madd x y
  | OSub => msub x y
  | ODot a => mdot x y a
  | OPartialdot n a => partialdot x y n a
  | OLocalouter => localouter x y
  end.
Inductive opn : Type :=
| OChain                                 (* 1284-1303 *)
| OSumup (weights : option (list K)).    (* 1156-1189 *)
Definition runn (o : opn) (xs : list (ltens K)) : res (ltens K) :=
  match o with OChain => mchain xs | OSumup w => msumup xs w end.
(** Methods that change the array they are called on, or functions that change their argument *)
Inductive inpl : Type :=
| IImul (c : K)                          (* 379-387 *)
| IItruediv (dinv : K)                   (* 404-406 *)
| ICanonicalize (l r : carg)             (* 592-671 *)
| ICompress (rank : option nat) (relerr : option (list K -> nat)) (d : dirarg) (canon : bool)  (* 713-811, method 'svd' *)
| IUpdate (index : Z) (t : nd K) (flag : option String.string)  (* mpstruct.py 103-143 *)
| IUpdateSlice (sl : pyslc) (ts : list (nd K)) (c : canon_arg)
| INorm                                  (* 1416-1435 *)
| ISingularvals.                         (* 964-985 *)
Definition runi (i : inpl) (x : ltens K) : res (ltens K) :=
  match i with
  | IImul c => mimul x c
  | IItruediv d => mitruediv x d
  | ICanonicalize l r => canonicalize qr x l r
  | ICompress r e d c => do p <- compress_svd qr svd tsvd x r e d c; Ok (fst p)
  | IUpdate i t f => lt_update_int x i t f
  | IUpdateSlice sl ts c => lt_update_slice x sl ts c
  | INorm => do p <- norm_sq qr x; Ok (snd p)
  | ISingularvals => do p <- singularvals qr svd x; Ok (snd p)
  end.

(** Calls.  The results are the names (numbers) of objects. *)
Inductive call : Type :=
| CNew (ts : list (nd K))                (* MPArray(list of arrays) *)
| C1 (o : op1) (x : nat)
| C2 (o : op2) (x y : nat)
| CN (o : opn) (xs : list nat)
| CSum (x : nat) (axes : sumarg)         (* mparray.py 408-447; a number is not an object *)
| CDiag (x : nat) (axis : Z)             (* mparray.py 1306-1335 *)
| CAxisIter (x : nat) (axes : list nat)  (* mparray.py 286-306 *)
| CSplit (x : nat) (pos : Z)             (* mparray.py 561-581 *)
| CGroup (x : nat) (n : nat)             (* mparray.py 480-499 *)
| CPos (x : nat)                         (* mparray.py 395-396 *)
| CWrap (x : nat)                        (* MPArray(x.lt) *)
| CIn (i : inpl) (x : nat)
| CVar (x : nat) (num_sweeps : nat) (rank : option nat) (var_sites : nat) (random_compr : nat -> res (ltens K)).
                                         (* compress(method='var'), mparray.py 805-808 *)
Fixpoint alloc_list (s : store) (l : list (ltens K)) : store * list nat :=
  match l with
  | [] => (s, [])
  | x :: l' => let '(s1, o) := alloc s x in let '(s2, os) := alloc_list s1 l' in (s2, o :: os)
  end.
Definition alloc_res (s : store) (r : res (ltens K)) : res (store * list nat) :=
  do x <- r; Ok (alloc_list s [x]).
Definition exec (s : store) (c : call) : res (store * list nat) :=
  match c with
  | CNew ts => alloc_res s (mpa_new ts)
  | C1 o x => do a <- look s x; alloc_res s (run1 o a)
  | C2 o x y => do a <- look s x; do b <- look s y; alloc_res s (run2 o a b)
  | CN o xs => do l <- mapM (look s) xs; alloc_res s (runn o l)
  | CSum x ax => do a <- look s x; do r <- msum_mpa a ax; Ok (match r with SumMpa z => alloc_list s [z] | SumScalar _ => (s, []) end)
  | CDiag x ax => do a <- look s x; do r <- mdiag a ax; Ok (match r with DiagMpa l => alloc_list s l | DiagArr _ => (s, []) end)
  | CAxisIter x ax => do a <- look s x; do l <- axis_iter a ax; Ok (alloc_list s l)
  | CSplit x pos =>
      do a <- look s x;
      if (pos <? 0)%Z then Ok (s, [x])
      else if (Z.of_nat (llen a) <=? pos)%Z then Ok (s, [x])
      else do p <- msplit a pos;
           match p with
           | (Some l, Some r) => Ok (alloc_list s [l; r])
           | _ => Err TypeError
           end
  | CGroup x n =>
      do a <- look s x; do g <- group_sites a n;
      if Nat.eqb n 1 then Ok (s, [x]) else Ok (alloc_list s [g])
  | CPos x => do a <- look s x; Ok (s, [x])
  | CWrap x => do a <- look s x; match cell_of s x with Some k => let '(s', o) := wrap s k in Ok (s', [o]) | None => Err NameError end
  | CIn i x => do a <- look s x; do b <- runi i a; Ok (write s x b, [x])
  | CVar x n r v rc => do a <- look s x; do p <- compression_var qr svd rc a n None r v; Ok (rebind s x (fst p), [x])
  end.
Fixpoint runs (s : store) (cs : list call) : res store :=
  match cs with [] => Ok s | c :: cs' => do p <- exec s c; runs (fst p) cs' end.
End Ext.
End Heap.
Arguments store : clear implicits.
Arguments call : clear implicits.
Arguments inpl : clear implicits.
