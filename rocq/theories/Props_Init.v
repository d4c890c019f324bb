(** Statements about [LocalTensors.__init__], [MPArray.__init__] and [copy]
    (mpstruct.py 48-73 and 191-194, mparray.py 71-84). *)
From Verif Require Import PfInit Examples.

(** C73.  [joined_at ts k]: tensors [k] and [k + 1] have axes, and the last axis of the one is as
    long as the first axis of the other.  [form_fits]: the requested form, with its defaults
    [form_l] and [form_r], lies within the chain. *)
Theorem C73_accepts (K : StarRing) (ts : list (nd K)) cl cr : form_fits (length ts) cl cr -> (forall k, S k < length ts -> joined_at ts k) ->
  lt_init ts (cl, cr) = Ok (mkLt ts (form_l cl) (form_r (length ts) cr)).
Proof. exact (init_accepts ts cl cr). Qed.
Print Assumptions C73_accepts.
(** The first pair that does not fit decides the error. *)
Theorem C73_bonds (K : StarRing) (ts : list (nd K)) cl cr k :
  form_fits (length ts) cl cr -> S k < length ts -> (forall j, j < k -> joined_at ts j) -> ~ joined_at ts k ->
  lt_init ts (cl, cr) = Err (if orb (Nat.eqb (ndim (nth k ts dummy)) 0) (Nat.eqb (ndim (nth (S k) ts dummy)) 0) then IndexError else AssertionError).
Proof. exact (init_first ts cl cr k). Qed.
Print Assumptions C73_bonds.
(** No tensor, or a form outside the chain *)
Theorem C73_form (K : StarRing) (ts : list (nd K)) cl cr : ~ form_fits (length ts) cl cr -> lt_init ts (cl, cr) = Err AssertionError.
Proof. exact (init_form ts cl cr). Qed.
Print Assumptions C73_form.
(** These are all cases. *)
Theorem C73_cases (K : StarRing) (ts : list (nd K)) cl cr : ~ form_fits (length ts) cl cr \/ (form_fits (length ts) cl cr /\
  ((forall k, S k < length ts -> joined_at ts k) \/ exists k, S k < length ts /\ (forall j, j < k -> joined_at ts j) /\ ~ joined_at ts k)).
Proof. exact (init_cases ts cl cr). Qed.
Print Assumptions C73_cases.
(** An accepted list of tensors with two axes or more and outer bonds one is a valid MPArray;
    its form promises nothing. *)
Theorem C73_new (K : StarRing) (ts : list (nd K)) x : mpa_new ts = Ok x -> Forall lt_ok ts -> ldim (hd dummy ts) = 1 -> rdim (List.last ts dummy) = 1 ->
  mpa_ok x /\ lts x = ts /\ canonical_form x = (0%Z, Z.of_nat (length ts)) /\ cform_ok x /\ canon_true x.
Proof. exact (new_valid ts x). Qed.
Print Assumptions C73_new.
Theorem C73_copy (K : StarRing) (x : ltens K) : mpa_ok x -> cform_ok x -> mpa_copy x = Ok x.
Proof. exact (copy_same x). Qed.
Print Assumptions C73_copy.
Example C73_ex : form_fits (length (lts ex_c)) (Some 1%Z) None /\ (forall k, S k < length (lts ex_c) -> joined_at (lts ex_c) k) /\
  lt_init (lts ex_c) (Some 1%Z, None) = Ok (mkLt (lts ex_c) 1 3) /\
  lt_init (lts ex_c) (Some 3%Z, None) = Err AssertionError /\ lt_init (lts ex_c) (None, Some (-1)%Z) = Err AssertionError /\
  lt_init (lts ex_c ++ [mk [] [gi 1]]) (None, None) = Err IndexError /\ lt_init (lts ex_c ++ [mk [3; 1] [gi 1; gi 1; gi 1]]) (None, None) = Err AssertionError.
Proof.
  split; [unfold form_fits; cbn; lia|]. split.
  - intros k Hk. destruct k as [|[|k]]; [repeat split; discriminate|repeat split; discriminate|cbn in Hk; lia].
  - repeat split.
Qed.
(** The constructor does not check the rest of the data model: outer bonds and the number of axes. *)
Theorem C73_model_refuted : exists ts (x : ltens GZ), Forall ndwf ts /\ mpa_new ts = Ok x /\ ~ mpa_ok x.
Proof.
  exists [mk [2; 2] [gi 1; gi 2; gi 3; gi 4]], (mkLt [mk [2; 2] [gi 1; gi 2; gi 3; gi 4]] 0 1). split; [repeat constructor|]. split; [reflexivity|].
  intros [_ H]. destruct H as (_ & H & _). vm_compute in H. discriminate.
Qed.
Print Assumptions C73_model_refuted.
Theorem C73_axes_refuted : exists ts (x : ltens GZ), Forall ndwf ts /\ mpa_new ts = Ok x /\ ~ Forall (fun t => 2 <= ndim t) (lts x).
Proof.
  exists [mk [1] [gi 1]; mk [1] [gi 2]], (mkLt [mk [1] [gi 1]; mk [1] [gi 2]] 0 2). split; [repeat constructor|]. split; [reflexivity|].
  intros H. inversion H as [|? ? H1 _]; subst. cbn in H1. lia.
Qed.
Print Assumptions C73_axes_refuted.
