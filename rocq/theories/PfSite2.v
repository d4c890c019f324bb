(** transpose, adj, reshape, ravel, localouter. *)
From Verif Require Export PfSite.

Section Site2.
Context {K : StarRing}.
Add Ring Kr : (k_ring K).

(** ** transpose *)
Definition phys_order (s : list nat) : list nat := 0 :: map S s ++ [S (length s)].

Lemma phys_order_perm s : is_perm s -> is_perm (phys_order s).
Proof.
  intros P. unfold is_perm in *. unfold phys_order. cbn [length]. rewrite app_length, map_length. cbn [length].
  rewrite Nat.add_1_r. change (seq 0 (S (S (length s)))) with (0 :: seq 1 (S (length s))). constructor. rewrite (seq_S (length s) 1). apply Permutation_app_tail.
  rewrite <- seq_shift. apply Permutation_map. exact P.
Qed.

Lemma gather_phys s a p b : (forall k, In k s -> k < length p) -> length s = length p ->
  gather (phys_order s) (a :: p ++ [b]) = a :: gather s p ++ [b].
Proof.
  intros H E. unfold phys_order.
  change (gather (0 :: map S s ++ [S (length s)]) (a :: p ++ [b])) with (a :: gather (map S s ++ [S (length s)]) (a :: p ++ [b])).
  f_equal. rewrite gather_app, gather_map_S, gather_prefix by exact H. f_equal.
  cbn [gather map nth]. rewrite E, app_nth2, Nat.sub_diag by lia. reflexivity.
Qed.

Definition tphys (s : list nat) (t : nd K) : nd K := transpose t (phys_order s).

Lemma perm_lt s k : is_perm s -> In k s -> k < length s.
Proof. intros P H. apply is_perm_in in H; assumption. Qed.

Lemma tphys_spec s (t : nd K) : lt_ok t -> is_perm s -> length s = length (pdims t) ->
  same_bonds t (tphys s t) /\ pdims (tphys s t) = gather s (pdims t) /\
  (forall a i b, a < ldim t -> inr i (pdims t) -> b < rdim t -> ent (tphys s t) a (gather s i) b = ent t a i b) /\
  (left_iso t -> left_iso (tphys s t)) /\ (right_iso t -> right_iso (tphys s t)).
Proof.
  intros Ht P L. pose proof (lt_ok_shp _ Ht) as Es. unfold tphys.
  assert (Hb : forall k, In k s -> k < length (pdims t)) by (intros k Hk; rewrite <- L; apply perm_lt; assumption).
  assert (E : shp (transpose t (phys_order s)) = ldim t :: gather s (pdims t) ++ [rdim t]).
  { rewrite shp_transpose, Es. apply gather_phys; assumption. }
  assert (Ep : pdims (transpose t (phys_order s)) = gather s (pdims t)) by (eapply pdims_mk; exact E).
  assert (El : ldim (transpose t (phys_order s)) = ldim t) by (eapply ldim_mk; exact E).
  assert (Er : rdim (transpose t (phys_order s)) = rdim t) by (eapply rdim_mk; exact E).
  assert (Ent : forall a i b, a < ldim t -> inr i (pdims t) -> b < rdim t ->
            ent (transpose t (phys_order s)) a (gather s i) b = ent t a i b).
  { intros a i b Ha Hi Hb2. unfold ent.
    rewrite <- (gather_phys s a i b) by (rewrite (inr_length _ _ Hi); auto).
    apply get_transpose_gather; [apply phys_order_perm; exact P| |].
    - unfold phys_order. cbn [length]. rewrite app_length, map_length. cbn [length]. rewrite (ndim_lt _ Ht). lia.
    - apply inr_ent; assumption. }
  split; [split; [eapply lt_ok_mk; [apply wf_transpose|exact E]|split; assumption]|].
  split; [exact Ep|]. split; [exact Ent|]. split; intros H x y Hx Hy; rewrite ?El, ?Er, ?Ep in *; rewrite <- (H x y Hx Hy).
  - apply bigsum_ext. intros a Ha. rewrite msum_gather by auto. apply msum_ext. intros i Hi. rewrite !Ent by assumption. reflexivity.
  - apply bigsum_ext. intros a Ha. rewrite msum_gather by auto. apply msum_ext. intros i Hi. rewrite !Ent by assumption. reflexivity.
Qed.

(** New order of [n] physical legs. *)
Definition leg_perm (axes : option (list Z)) (n : nat) : list nat :=
  match axes with None => rev (seq 0 n) | Some l => map Z.to_nat l end.
(** The axes are a permutation of the [n] physical legs. *)
Definition leg_perm_ok (axes : option (list Z)) (n : nat) : Prop :=
  match axes with
  | None => True
  | Some l => Permutation l (map Z.of_nat (seq 0 n))
  end.

Lemma leg_perm_spec axes n : leg_perm_ok axes n -> is_perm (leg_perm axes n) /\ length (leg_perm axes n) = n.
Proof.
  destruct axes as [l|]; cbn.
  - intros P. apply (Permutation_map Z.to_nat) in P. rewrite map_map in P.
    rewrite (map_ext _ (fun x => x)) in P by (intros; apply Nat2Z.id). rewrite map_id in P.
    pose proof (Permutation_length P) as L. rewrite seq_length in L. split; [|exact L].
    unfold is_perm. rewrite L. exact P.
  - intros _. rewrite rev_length, seq_length. split; [|reflexivity]. unfold is_perm. rewrite rev_length, seq_length.
    symmetry. apply Permutation_rev.
Qed.

Lemma permb_perm axes n : is_perm axes -> length axes = n -> permb axes n = true.
Proof.
  intros P L. unfold permb. rewrite L, Nat.eqb_refl. cbn. apply forallb_forall. intros k Hk. apply in_seq in Hk.
  apply memb_iff. apply is_perm_in; [exact P|lia].
Qed.

Lemma local_transpose_eq (t : nd K) axes : lt_ok t -> leg_perm_ok axes (length (pdims t)) ->
  local_transpose t axes = Ok (tphys (leg_perm axes (length (pdims t))) t).
Proof.
  intros Ht Hp. unfold local_transpose, tphys. rewrite (ndim_lt _ Ht). set (n := length (pdims t)) in *.
  cbn [Nat.sub]. rewrite Nat.sub_0_r. destruct (leg_perm_spec axes n Hp) as [P L]. destruct axes as [l|].
  - assert (E : mapM (fun ax => match norm_axis (S (S n)) (ax + 1) with Some k => Ok k | None => Err ValueError end) l
                = Ok (map S (map Z.to_nat l))).
    { cbn [leg_perm_ok] in Hp.
      assert (G : forall z, In z l -> (0 <= z < Z.of_nat n)%Z).
      { intros z Hz. apply (Permutation_in _ Hp) in Hz. apply in_map_iff in Hz. destruct Hz as [k [<- Hk]]. apply in_seq in Hk. lia. }
      clear Hp P L. unfold norm_axis. induction l as [|z l IH]; [reflexivity|]. cbn [mapM map].
      assert (Hz := G z (or_introl eq_refl)).
      replace (z + 1)%Z with (Z.of_nat (S (Z.to_nat z))) by lia. rewrite pyidx_in by lia. cbn [bind].
      rewrite IH by (intros; apply G; right; assumption). reflexivity. }
    rewrite E. cbn [leg_perm] in *. unfold phys_order. rewrite L.
    rewrite permb_perm; [reflexivity| |].
    + pose proof (phys_order_perm _ P) as Q. unfold phys_order in Q. rewrite L in Q. exact Q.
    + cbn [length]. rewrite app_length, map_length. cbn [length]. lia.
  - cbn [leg_perm] in *. unfold phys_order. rewrite L. rewrite map_rev, seq_shift. reflexivity.
Qed.

Lemma mapM_ok_map (A B : Type) (f : A -> res B) (g : A -> B) l :
  (forall x, In x l -> f x = Ok (g x)) -> mapM f l = Ok (map g l).
Proof.
  induction l as [|x l IH]; intros H; [reflexivity|]. cbn [mapM map]. rewrite (H x (or_introl eq_refl)). cbn [bind].
  rewrite IH by (intros; apply H; right; assumption). reflexivity.
Qed.

Lemma lt_init_same (x : ltens K) us : mpa_ok x -> cform_ok x -> Forall2 same_bonds (lts x) us ->
  lt_init us (Some (lcan x), Some (rcan x)) = Ok (mkLt us (lcan x) (rcan x)) /\ mpa_ok (mkLt us (lcan x) (rcan x)) /\
  ranks (mkLt us (lcan x) (rcan x)) = ranks x.
Proof.
  intros [Hne Hb] Hc HF. pose proof (bonds_same _ _ _ _ Hb HF) as Hb'.
  pose proof (Forall2_len _ _ _ _ _ HF) as EL.
  assert (Hne' : us <> []) by (destruct us; [destruct (lts x); [congruence|discriminate]|discriminate]).
  split; [|split; [split; assumption|]].
  - apply (lt_init_ok _ 1 1); auto. rewrite <- EL. exact Hc.
  - unfold ranks. cbn [lts]. pose proof (ranks_same _ _ HF) as R.
    destruct (lts x); [congruence|]. destruct us; [congruence|]. cbn [map tl] in *. injection R as _ R. exact R.
Qed.

Theorem mtranspose_spec (x : ltens K) axes :
  mpa_ok x -> cform_ok x -> (forall p, In p (mshape x) -> leg_perm_ok axes (length p)) ->
  exists z, mtranspose x axes = Ok z /\ mpa_ok z /\
    mshape z = map (fun p => gather (leg_perm axes (length p)) p) (mshape x) /\ ranks z = ranks x /\
    canonical_form z = canonical_form x /\ (canon_true x -> canon_true z) /\
    forall is, Forall2 inr is (mshape x) ->
      amp (lts z) (map (fun i => gather (leg_perm axes (length i)) i) is) 0 0 = amp (lts x) is 0 0.
Proof.
  intros Hx Hc HP. pose proof Hx as [Hne Hb]. unfold mtranspose.
  assert (G : forall t, In t (lts x) -> lt_ok t /\ leg_perm_ok axes (length (pdims t))).
  { intros t Ht. split; [eapply bonds_in; eassumption|]. apply HP. apply in_map; exact Ht. }
  set (f := fun t : nd K => tphys (leg_perm axes (length (pdims t))) t).
  rewrite (mapM_ok_map _ _ _ f) by (intros t Ht; apply local_transpose_eq; apply G; exact Ht). cbn [bind].
  assert (T : forall t, In t (lts x) -> let s := leg_perm axes (length (pdims t)) in is_perm s /\ length s = length (pdims t)).
  { intros t Ht s. apply leg_perm_spec. apply G; exact Ht. }
  assert (HF : Forall2 same_bonds (lts x) (map f (lts x))).
  { apply Forall2_map_r. intros t Ht. apply tphys_spec; [apply G; exact Ht|apply T; exact Ht|apply T; exact Ht]. }
  destruct (lt_init_same x _ Hx Hc HF) as [E [Hz R]]. rewrite E. eexists. split; [reflexivity|]. split; [exact Hz|].
  split.
  { unfold mshape. cbn [lts]. rewrite !map_map. apply map_ext_in. intros t Ht.
    apply tphys_spec; [apply G; exact Ht|apply T; exact Ht|apply T; exact Ht]. }
  split; [exact R|]. split; [reflexivity|]. split.
  { apply canon_true_sites. apply Forall2_map_r. intros t Ht. unfold f.
    destruct (tphys_spec (leg_perm axes (length (pdims t))) t) as [_ [_ [_ H]]];
      [apply G; exact Ht|apply T; exact Ht|apply T; exact Ht|exact H]. }
  intros is His. cbn [lts]. apply (amp_same (lts x) _ is _) with (l := 1) (r := 1); auto.
  unfold mshape in His. clear -His G T. revert is His. induction (lts x) as [|t ts IH]; intros is His; inversion His as [|i ? is' ? Hi His']; subst; cbn [map]; constructor.
  - apply tphys_spec; [apply G; left; reflexivity|apply T; left; reflexivity|apply T; left; reflexivity].
  - intros a b Ha Hb. unfold f. rewrite (inr_length _ _ Hi). apply tphys_spec; auto;
      [apply G; left; reflexivity|apply T; left; reflexivity|apply T; left; reflexivity].
  - apply IH; auto.
    + intros t' Ht'. apply G; right; exact Ht'.
    + intros t' Ht'. apply T; right; exact Ht'.
Qed.

Theorem madj_spec (x : ltens K) : mpa_ok x ->
  exists z, madj x = Ok z /\ mpa_ok z /\ mshape z = map (@rev nat) (mshape x) /\ ranks z = ranks x /\
    canonical_form z = (0%Z, Z.of_nat (llen x)) /\
    forall is, Forall2 inr is (mshape x) -> amp (lts z) (map (@rev nat) is) 0 0 = kconj (amp (lts x) is 0 0).
Proof.
  intros Hx. pose proof Hx as [Hne Hb].
  assert (Hrev : forall l, gather (leg_perm None (length l)) l = rev l).
  { intros l. cbn [leg_perm]. unfold gather. rewrite map_rev. f_equal. apply gather_seq0. }
  set (f := fun t : nd K => tphys (leg_perm None (length (pdims t))) t).
  unfold madj. rewrite (mapM_ok_map _ _ _ (fun t => nconj (f t))).
  2:{ intros t Ht. rewrite local_transpose_eq; [reflexivity|eapply bonds_in; eassumption|exact I]. }
  cbn [bind].
  assert (S : forall t, In t (lts x) -> same_bonds t (f t) /\ pdims (f t) = rev (pdims t) /\
    forall a i b, a < ldim t -> inr i (pdims t) -> b < rdim t -> ent (f t) a (rev i) b = ent t a i b).
  { intros t Ht. destruct (leg_perm_spec None (length (pdims t)) I) as [P L].
    destruct (tphys_spec (leg_perm None (length (pdims t))) t) as [H1 [H2 [H3 _]]]; [eapply bonds_in; eassumption|assumption|assumption|].
    split; [exact H1|]. split; [unfold f; rewrite H2; apply Hrev|].
    intros a i b Ha Hi Hb2. rewrite <- (Hrev i), (inr_length _ _ Hi). apply H3; assumption. }
  assert (HF : Forall2 same_bonds (lts x) (map (fun t => nconj (f t)) (lts x))).
  { apply Forall2_map_r. intros t Ht. destruct (S t Ht) as [[H1 [H2 H3]] _].
    destruct (same_bonds_nconj _ H1) as [G1 [G2 G3]]. split; [exact G1|]. split; congruence. }
  pose proof (bonds_same _ _ _ _ Hb HF) as Hb'.
  destruct (mpa_new_chain (map (fun t => nconj (f t)) (lts x))) as [z [E [Hz [L [C1 C2]]]]];
    [destruct (lts x); [congruence|discriminate]|exact Hb'|].
  exists z. split; [exact E|]. split; [exact Hz|]. split.
  { unfold mshape. rewrite L, !map_map. apply map_ext_in. intros t Ht. apply S; exact Ht. }
  split.
  { unfold ranks. rewrite L. destruct (lts x) as [|t ts]; [congruence|]. cbn [map tl]. rewrite map_map. apply map_ext_in.
    intros u Hu. apply (S u). right; exact Hu. }
  split; [unfold canonical_form; rewrite C1, C2, map_length; reflexivity|].
  intros is His. rewrite L, <- (map_map f nconj), amp_nconj. f_equal.
  apply (amp_same (lts x) _ is _) with (l := 1) (r := 1); auto.
  unfold mshape in His. clear -His S. revert is His. induction (lts x) as [|t ts IH]; intros is His; inversion His as [|i ? is' ? Hi His']; subst; cbn [map]; constructor.
  - apply S; left; reflexivity.
  - intros a b Ha Hb. apply S; auto. left; reflexivity.
  - apply IH; auto. intros t' Ht'. apply S; right; exact Ht'.
Qed.
End Site2.
