(** Vocabulary of the property theorems: the entries of [to_array()], validity of
    an MPArray as a boolean, and the explicit sum over bond indices. *)
From Verif Require Export PfShape.

Section Dense.
Context {K : StarRing}.
Add Ring Kr : (k_ring K).

(** [x.to_array()[i_1..., i_2..., ...]] for one tuple of leg indices per site. *)
Definition entry (x : ltens K) (is : list (list nat)) : K := get (to_array x) (concat is).

(** One tuple of valid leg indices per site. *)
Definition valid_idx (is : list (list nat)) (shape : list (list nat)) : Prop := Forall2 inr is shape.

Lemma entry_amp (x : ltens K) is : mpa_ok x -> valid_idx is (mshape x) -> entry x is = amp (lts x) is 0 0.
Proof. intros Hx Hi. apply get_to_array; assumption. Qed.

(** Every index of the dense array is of this form. *)
Lemma dense_idx (x : ltens K) idx : mpa_ok x -> inr idx (shp (to_array x)) ->
  exists is, idx = concat is /\ valid_idx is (mshape x).
Proof. intros Hx Hi. rewrite shp_to_array in Hi by exact Hx. apply inr_concat_inv in Hi. exact Hi. Qed.

(** Executable validity check. *)
Definition lt_okb (t : nd K) : bool := ndwfb t && Nat.leb 2 (ndim t).
Fixpoint bondsb (ts : list (nd K)) (l r : nat) : bool :=
  match ts with
  | [] => Nat.eqb l r
  | t :: ts' => lt_okb t && Nat.eqb (ldim t) l && bondsb ts' (rdim t) r
  end.
Definition mpa_okb (x : ltens K) : bool :=
  negb (Nat.eqb (llen x) 0) && bondsb (lts x) 1 1.

Lemma bondsb_iff ts l r : bondsb ts l r = true <-> bonds ts l r.
Proof.
  revert l; induction ts as [|t ts IH]; intros l; cbn; [apply Nat.eqb_eq|].
  rewrite !andb_true_iff, IH, Nat.eqb_eq. unfold lt_okb, lt_ok. rewrite andb_true_iff, ndwfb_iff, Nat.leb_le. tauto.
Qed.
Lemma mpa_okb_ok x : mpa_okb x = true -> mpa_ok x.
Proof.
  unfold mpa_okb. rewrite andb_true_iff, bondsb_iff. intros [H B]. split; [|exact B].
  unfold llen in H. destruct (lts x); [discriminate|discriminate].
Qed.
Definition cform_okb (x : ltens K) : bool :=
  (0 <=? lcan x)%Z && (lcan x <? Z.of_nat (llen x))%Z && (0 <? rcan x)%Z && (rcan x <=? Z.of_nat (llen x))%Z.
Lemma cform_okb_ok x : cform_okb x = true -> cform_ok x.
Proof. unfold cform_okb. rewrite !andb_true_iff. unfold cform_ok, cf_ok. lia. Qed.

(** ** The explicit sum over all bond indices *)
(** Product of the entries selected by left bond [a], leg indices [is] and the
    right bond indices [bs] of the sites. *)
Fixpoint path_weight (ts : list (nd K)) (is : list (list nat)) (a : nat) (bs : list nat) : K :=
  match ts, is, bs with
  | t :: ts', i :: is', b :: bs' => (get t (a :: i ++ [b]) * path_weight ts' is' b bs')%K
  | _, _, _ => k1
  end.

Lemma amp_paths ts is a b l : length is = length ts -> ts <> [] -> bonds ts l 1 -> b = 0 ->
  amp ts is a b = msum (map ldim (tl ts)) (fun bs => path_weight ts is a (bs ++ [0])).
Proof.
  revert is a l; induction ts as [|t ts IH]; intros is a l Hl Hne Hb Eb; [congruence|].
  destruct is as [|i is]; [discriminate|]. cbn in Hl. injection Hl as Hl. cbn [amp]. destruct Hb as [Ht [El Hb]].
  destruct ts as [|u ts].
  - cbn in Hb. destruct is; [|discriminate]. rewrite Hb, bigsum_1. cbn. subst b. unfold delta. cbn. unfold ent. ring.
  - pose proof Hb as [Hu [Elu _]]. cbn [tl map msum]. rewrite Elu. apply bigsum_ext. intros c Hc.
    rewrite (IH is c (rdim t)) by (auto; discriminate). rewrite <- msum_mul_l. apply msum_ext. intros bs Hbs.
    cbn [path_weight app]. reflexivity.
Qed.

Theorem to_array_paths (x : ltens K) : mpa_ok x ->
  shp (to_array x) = concat (mshape x) /\
  forall is, valid_idx is (mshape x) ->
    entry x is = msum (ranks x) (fun bs => path_weight (lts x) is 0 (bs ++ [0])).
Proof.
  intros Hx. split; [apply shp_to_array; exact Hx|]. intros is Hi. rewrite entry_amp by assumption.
  destruct Hx as [Hne Hb]. unfold ranks. apply (amp_paths _ _ _ _ 1); auto.
  rewrite (Forall2_len _ _ _ _ _ Hi). apply mshape_length.
Qed.
End Dense.

(** Restating a result about [amp] as a result about [entry]. *)
Ltac split_all H :=
  lazymatch type of H with
  | ex _ => let z := fresh "z" in destruct H as [z H]; exists z; split_all H
  | _ /\ _ => let H1 := fresh "H" in destruct H as [H1 H]; split; [exact H1|]; split_all H
  | _ => idtac
  end.
Ltac to_amp :=
  repeat match goal with
  | |- context [entry ?x ?is] =>
      rewrite (entry_amp x is); [|solve [auto]|solve [auto | unfold valid_idx in *; congruence |
        match goal with E : mshape x = _ |- _ => rewrite E; auto end]]
  end.
Ltac dense H := split_all H; unfold valid_idx in *; intros; to_amp; auto.
