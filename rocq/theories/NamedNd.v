(** Model of mpnum/_named_ndarray.py: arrays with named axes. *)
From Coq Require Import String.
From Verif Require Export MpArray.

Record named (K : StarRing) : Type := mkNamed { narr : nd K; nnames : list string }.
Arguments mkNamed {K} _ _.
Arguments narr {K} _.
Arguments nnames {K} _.

Definition smemb (s : string) (l : list string) : bool := existsb (String.eqb s) l.
Fixpoint snodupb (l : list string) : bool :=
  match l with [] => true | s :: l' => negb (smemb s l') && snodupb l' end.

(** [tuple.index]: position of the first occurrence, else ValueError. *)
Fixpoint sindex (s : string) (l : list string) : option nat :=
  match l with
  | [] => None
  | x :: l' => if String.eqb s x then Some 0 else option_map S (sindex s l')
  end.

Section Named.
Context {K : StarRing}.

(** _named_ndarray.py 32-42: [__init__]; both assertions. *)
Definition named_new (a : nd K) (names : list string) : res (named K) :=
  passert (Nat.eqb (ndim a) (List.length names)) (
  passert (snodupb names) (Ok (mkNamed a names))).

(** _named_ndarray.py 44-47 *)
Definition axispos (x : named K) (s : string) : res nat :=
  match sindex s (nnames x) with Some k => Ok k | None => Err ValueError end.

(** _named_ndarray.py 49-61; the positions are looked up in the original names. *)
Definition nrename (x : named K) (translate : list (string * string)) : res (named K) :=
  do names <- foldM (fun names p => do k <- axispos x (fst p); Ok (set_nth k (snd p) names))
                    translate (nnames x);
  named_new (narr x) names.

(** _named_ndarray.py 63-66 *)
Definition named_conj (x : named K) : res (named K) := named_new (nconj (narr x)) (nnames x).

(** _named_ndarray.py 68-75; [ndarray.transpose] raises ValueError unless the
    positions are a permutation of the axes. *)
Definition nto_array (x : named K) (order : list string) : res (nd K) :=
  do pos <- mapM (axispos x) order;
  praise_unless (permb pos (ndim (narr x))) ValueError (Ok (transpose (narr x) pos)).

(** [np.tensordot(a, b, (axa, axb))] with numpy's errors (shape mismatch, repeated
    axes): ValueError. *)
Definition np_tensordot (a b : nd K) (axa axb : list nat) : res (nd K) :=
  praise_unless (nodupb axa && nodupb axb && list_eqb (gather axa (shp a)) (gather axb (shp b)))
    ValueError (Ok (tensordot a b axa axb)).

(** _named_ndarray.py 77-95 *)
Definition ntensordot (x y : named K) (axes : list (string * string)) : res (named K) :=
  let ax := map fst axes in
  let ay := map snd axes in
  do px <- mapM (axispos x) ax;
  do py <- mapM (axispos y) ay;
  let names := filter (fun s => negb (smemb s ax)) (nnames x) ++
               filter (fun s => negb (smemb s ay)) (nnames y) in
  do a <- np_tensordot (narr x) (narr y) px py;
  named_new a names.
End Named.
