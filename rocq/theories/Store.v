(** Model of MPArray.dump and MPArray.load (mparray.py 147-188).

    An h5py group is a list of named datasets and the two attributes that [load] reads.
    Simplifications: the attributes 'ranks' and 'shape' (strings kept for the reader of
    the file only) and the dtype of datasets are not modelled; a file on disk is the
    root group it contains. *)
From Coq Require Import DecimalString.
From Verif Require Export MpCanon.
Open Scope nat_scope.

(** [str(i)] for a natural number. *)
Definition str_nat (n : nat) : string := NilZero.string_of_uint (Nat.to_uint n).

Section Store.
Context {K : StarRing}.

Record group : Type := mkGroup {
  g_data : list (string * nd K);
  g_len : option nat;                      (* attrs['len'] *)
  g_cform : option (Z * Z) }.              (* attrs['canonical_form'] *)
Definition empty_group : group := mkGroup [] None None.

Fixpoint lookup (s : string) (l : list (string * nd K)) : option (nd K) :=
  match l with
  | [] => None
  | (k, v) :: l' => if String.eqb s k then Some v else lookup s l'
  end.

(** [target[name] = array]: h5py refuses a name that is in use (ValueError in current
    versions, RuntimeError in older ones). *)
Definition write (g : group) (name : string) (t : nd K) : res group :=
  match lookup name (g_data g) with
  | Some _ => Err ValueError
  | None => Ok (mkGroup ((name, t) :: g_data g) (g_len g) (g_cform g))
  end.
(** mparray.py 163-170: attributes are overwritten, then one dataset per site. *)
Definition dump_group (x : ltens K) (g : group) : res group :=
  foldM (fun g p => write g (str_nat (fst p)) (snd p)) (combine (seq 0 (llen x)) (lts x))
        (mkGroup (g_data g) (Some (llen x)) (Some (canonical_form x))).
(** mparray.py 155-158: [h5py.File(target, 'w')] truncates the file. *)
Definition dump_file (x : ltens K) (old : group) : res group := dump_group x empty_group.

(** mparray.py 172-188; a missing attribute or dataset is KeyError.  The class may be a
    subclass; [MPArray.__init__] is modelled. *)
Definition load (g : group) : res (ltens K) :=
  match g_len g with
  | None => Err KeyError
  | Some n =>
      do ts <- mapM (fun i => match lookup (str_nat i) (g_data g) with Some t => Ok t | None => Err KeyError end) (seq 0 n);
      match g_cform g with
      | None => Err KeyError
      | Some (l, r) => lt_init ts (Some l, Some r)
      end
  end.
End Store.
Arguments group : clear implicits.
