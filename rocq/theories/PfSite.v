(** Operations that act site by site: from_kron, chain, localouter, transpose,
    conj, adj, reshape. *)
From Verif Require Export PfReindex.

Section Site.
Context {K : StarRing}.
Add Ring Kr : (k_ring K).

(** ** Generic amplitude lemmas *)
Definition same_bonds (t u : nd K) : Prop := lt_ok u /\ ldim u = ldim t /\ rdim u = rdim t.

Lemma bonds_same ts us l r : bonds ts l r -> Forall2 same_bonds ts us -> bonds us l r.
Proof.
  intros Hb HF. revert l Hb; induction HF as [|t u ts us [H1 [H2 H3]] HF IH]; intros l Hb; [exact Hb|].
  destruct Hb as [Ht [El Hb]]. cbn [bonds]. split; [exact H1|]. split; [congruence|]. apply IH. rewrite H3. exact Hb.
Qed.

Lemma ranks_same ts us : Forall2 same_bonds ts us -> map ldim us = map ldim ts.
Proof. intros H. induction H as [|t u ts us [H1 [H2 H3]] HF IH]; [reflexivity|]. cbn. congruence. Qed.

(** Sitewise linear relation: each entry of [u] at [j] is a sum of entries of [t]. *)
Inductive lin_amp : list (nd K) -> list (nd K) -> list (list nat) -> list (list nat) ->
                    list (list nat -> list nat) -> Prop :=
| la_nil : lin_amp [] [] [] [] []
| la_cons t u ts us j js sh shs g gs :
    rdim u = rdim t ->
    (forall a b, a < ldim t -> b < rdim t -> ent u a j b = msum sh (fun c => ent t a (g c) b)) ->
    lin_amp ts us js shs gs -> lin_amp (t :: ts) (u :: us) (j :: js) (sh :: shs) (g :: gs).

Lemma amp_lin ts us js shs gs : lin_amp ts us js shs gs ->
  forall l r a b, bonds ts l r -> a < l -> b < r ->
  amp us js a b = msums shs (fun cs => amp ts (zip2 (fun g c => g c) gs cs) a b).
Proof.
  intros H. induction H as [|t u ts us j js sh shs g gs Er He H IH]; intros l r a b Hb Ha Hb2; [reflexivity|].
  destruct Hb as [Ht [El Hb]]. cbn [amp msums zip2]. rewrite Er.
  rewrite msum_bigsum_swap || idtac.
  transitivity (bigsum (rdim t) (fun c => msum sh (fun d => msums shs (fun cs =>
    ent t a (g d) c * amp ts (zip2 (fun g c => g c) gs cs) c b)))%K).
  - apply bigsum_ext. intros c Hc. rewrite (IH _ _ c b Hb Hc Hb2). rewrite He by (try lia; exact Hc).
    rewrite <- msum_mul_r. apply msum_ext. intros d Hd. symmetry. apply msums_mul_l.
  - rewrite <- msum_bigsum_swap. apply msum_ext. intros d Hd. apply bigsum_msums_swap.
Qed.

(** Sitewise equal entries at corresponding indices. *)
Inductive same_amp : list (nd K) -> list (nd K) -> list (list nat) -> list (list nat) -> Prop :=
| sa_nil : same_amp [] [] [] []
| sa_cons t u ts us i is j js :
    rdim u = rdim t ->
    (forall a b, a < ldim t -> b < rdim t -> ent u a j b = ent t a i b) ->
    same_amp ts us is js -> same_amp (t :: ts) (u :: us) (i :: is) (j :: js).

Lemma amp_same ts us is js : same_amp ts us is js ->
  forall l r a b, bonds ts l r -> a < l -> b < r -> amp us js a b = amp ts is a b.
Proof.
  intros H. induction H as [|t u ts us i is j js Er He H IH]; intros l r a b Hb Ha Hb2; [reflexivity|].
  destruct Hb as [Ht [El Hb]]. cbn [amp]. rewrite Er. apply bigsum_ext. intros c Hc.
  rewrite (IH _ _ c b Hb Hc Hb2). rewrite He by (try lia; exact Hc). reflexivity.
Qed.

(** ** from_kron *)
Definition kprod (l : list K) : K := fold_right kmul k1 l.

Lemma add_virt_shp (f : nd K) : shp (add_virt f) = 1 :: shp f ++ [1].
Proof. reflexivity. Qed.
Lemma add_virt_ok (f : nd K) : ndwf f -> lt_ok (add_virt f) /\ ldim (add_virt f) = 1 /\ rdim (add_virt f) = 1 /\ pdims (add_virt f) = shp f.
Proof.
  intros H. pose proof (add_virt_shp f) as E. split; [|split; [eapply ldim_mk; exact E|split; [eapply rdim_mk; exact E|eapply pdims_mk; exact E]]].
  eapply lt_ok_mk; [|exact E]. apply wf_reshape; [exact H|]. rewrite size_cons, size_app, size_single. lia.
Qed.
Lemma ent_add_virt (f : nd K) i : inr i (shp f) -> ent (add_virt f) 0 i 0 = get f i.
Proof.
  intros Hi. unfold ent, add_virt. apply get_reshape'.
  change (0 :: i ++ [0]) with ([0] ++ i ++ [0]). change (1 :: shp f ++ [1]) with ([1] ++ shp f ++ [1]).
  rewrite ravel_app by (apply inr_single; lia). rewrite ravel_app by exact Hi.
  cbn [ravel]. rewrite size_nil, size_single. lia.
Qed.

Lemma bonds_kron (fs : list (nd K)) : Forall ndwf fs -> bonds (map add_virt fs) 1 1.
Proof.
  induction fs as [|f fs IH]; intros H; [reflexivity|]. inversion H; subst.
  destruct (add_virt_ok f) as [H4 [H5 [H6 _]]]; [assumption|]. cbn [map bonds]. rewrite H6. auto.
Qed.

Lemma amp_kron (fs : list (nd K)) is : Forall2 inr is (map shp fs) -> amp (map add_virt fs) is 0 0 = kprod (zip2 get fs is).
Proof.
  revert is; induction fs as [|f fs IH]; intros is H; inversion H as [|i ? is' ? Hi His]; subst; [reflexivity|].
  cbn [map amp zip2 kprod fold_right]. change (rdim (add_virt f)) with (rdim (reshape f (1 :: shp f ++ [1]))).
  assert (E : rdim (reshape f (1 :: shp f ++ [1])) = 1) by (eapply rdim_mk; reflexivity). rewrite E, bigsum_1.
  rewrite ent_add_virt by exact Hi. rewrite IH by exact His. reflexivity.
Qed.

Theorem from_kron_spec (fs : list (nd K)) : fs <> [] -> Forall ndwf fs ->
  exists z, from_kron fs = Ok z /\ mpa_ok z /\ mshape z = map shp fs /\ Forall (fun r => r = 1) (ranks z) /\
    canonical_form z = (0%Z, Z.of_nat (length fs)) /\
    forall is, Forall2 inr is (map shp fs) -> amp (lts z) is 0 0 = kprod (zip2 get fs is).
Proof.
  intros Hne Hw. unfold from_kron.
  destruct (mpa_new_chain (map add_virt fs)) as [z [E [Hz [L [C1 C2]]]]].
  - destruct fs; [congruence|discriminate].
  - apply bonds_kron; exact Hw.
  - exists z. split; [exact E|]. split; [exact Hz|]. split.
    + unfold mshape. rewrite L, map_map. apply map_ext_in. intros f Hf. apply add_virt_ok. rewrite Forall_forall in Hw. apply Hw; exact Hf.
    + split; [unfold ranks; rewrite L|split].
      * destruct fs as [|f fs]; [congruence|]. cbn [map tl]. apply Forall_forall. intros r Hr. apply in_map_iff in Hr.
        destruct Hr as [t [<- Ht]]. apply in_map_iff in Ht. destruct Ht as [g [<- _]]. reflexivity.
      * unfold canonical_form. rewrite C1, C2, map_length. reflexivity.
      * intros is His. rewrite L. apply amp_kron; exact His.
Qed.

(** ** chain *)
Lemma bonds_chain (xs : list (ltens K)) : Forall mpa_ok xs -> bonds (flat_map lts xs) 1 1.
Proof.
  induction xs as [|x xs IH]; intros H; [reflexivity|]. inversion H as [|? ? [Hx Bx] H']; subst. cbn [flat_map].
  apply bonds_app. exists 1. auto.
Qed.

Lemma amp_chain (xs : list (ltens K)) iss : Forall mpa_ok xs -> Forall2 (fun is x => Forall2 inr is (mshape x)) iss xs ->
  amp (flat_map lts xs) (concat iss) 0 0 = kprod (zip2 (fun x is => amp (lts x) is 0 0) xs iss).
Proof.
  intros H HF. induction HF as [|is x iss xs His HF IH]; [reflexivity|].
  inversion H as [|? ? [Hx Bx] H']; subst. cbn [flat_map concat zip2 kprod fold_right].
  rewrite (amp_app (lts x) _ is _ 0 0 1 1); [|rewrite (Forall2_len _ _ _ _ _ His); apply mshape_length|exact Bx|lia].
  rewrite bigsum_1. rewrite IH by exact H'. reflexivity.
Qed.

Theorem mchain_spec (xs : list (ltens K)) : xs <> [] -> Forall mpa_ok xs ->
  exists z, mchain xs = Ok z /\ mpa_ok z /\ lts z = flat_map lts xs /\ mshape z = flat_map mshape xs /\
    canonical_form z = (0%Z, Z.of_nat (llen z)) /\
    forall iss, Forall2 (fun is x => Forall2 inr is (mshape x)) iss xs ->
      amp (lts z) (concat iss) 0 0 = kprod (zip2 (fun x is => amp (lts x) is 0 0) xs iss).
Proof.
  intros Hne H. unfold mchain.
  destruct (mpa_new_chain (flat_map lts xs)) as [z [E [Hz [L [C1 C2]]]]].
  - destruct xs as [|x xs]; [congruence|]. inversion H as [|? ? [Hx Bx] H']; subst. cbn [flat_map].
    destruct (lts x); [congruence|discriminate].
  - apply bonds_chain; exact H.
  - exists z. split; [destruct xs; [congruence|exact E]|]. split; [exact Hz|]. split; [exact L|]. split.
    + unfold mshape at 1. rewrite L. clear. induction xs as [|x xs IH]; [reflexivity|]. cbn [flat_map].
      rewrite map_app, IH. reflexivity.
    + split; [unfold canonical_form; rewrite C1, C2, <- L; reflexivity|].
      intros iss Hi. rewrite L. apply amp_chain; assumption.
Qed.

(** ** conj *)
Lemma same_bonds_nconj (t : nd K) : lt_ok t -> same_bonds t (nconj t).
Proof. intros [H1 H2]. split; [split; [apply wf_nconj; exact H1|exact H2]|]. split; reflexivity. Qed.
Lemma ent_nconj (t : nd K) a i b : ent (nconj t) a i b = kconj (ent t a i b).
Proof. apply get_nconj. Qed.

Lemma amp_nconj (ts : list (nd K)) is a b : amp (map nconj ts) is a b = kconj (amp ts is a b).
Proof.
  revert is a; induction ts as [|t ts IH]; intros is a; cbn [map amp]; [symmetry; apply delta_conj|].
  destruct is as [|i is]; [symmetry; apply delta_conj|].
  rewrite bigsum_conj. change (rdim (nconj t)) with (rdim t). apply bigsum_ext. intros c Hc.
  rewrite kconj_mul, ent_nconj, IH. reflexivity.
Qed.

Lemma Forall2_map_r (A B : Type) (R : A -> B -> Prop) (f : A -> B) l :
  (forall x, In x l -> R x (f x)) -> Forall2 R l (map f l).
Proof.
  induction l as [|x l IH]; intros H; [constructor|]. cbn. constructor; [apply H; left; reflexivity|].
  apply IH. intros y Hy. apply H. right; exact Hy.
Qed.

Lemma bonds_in (ts : list (nd K)) l r t : bonds ts l r -> In t ts -> lt_ok t.
Proof. intros Hb Ht. apply bonds_ok in Hb. rewrite Forall_forall in Hb. apply Hb; exact Ht. Qed.

Lemma kconj_delta_inj (x : K) i j : kconj x = delta i j -> x = delta i j.
Proof. intros E. rewrite <- (kconj_invol _ x), E. apply delta_conj. Qed.

Lemma left_iso_nconj (t : nd K) : left_iso t -> left_iso (nconj t).
Proof.
  intros H b b' Hb Hb'. apply kconj_delta_inj. rewrite bigsum_conj. rewrite <- (H b b' Hb Hb').
  change (ldim (nconj t)) with (ldim t). change (pdims (nconj t)) with (pdims t).
  apply bigsum_ext. intros a Ha. rewrite msum_conj. apply msum_ext. intros i Hi.
  rewrite kconj_mul, !ent_nconj, !kconj_invol. reflexivity.
Qed.
Lemma right_iso_nconj (t : nd K) : right_iso t -> right_iso (nconj t).
Proof.
  intros H b b' Hb Hb'. apply kconj_delta_inj. rewrite bigsum_conj. rewrite <- (H b b' Hb Hb').
  change (rdim (nconj t)) with (rdim t). change (pdims (nconj t)) with (pdims t).
  apply bigsum_ext. intros a Ha. rewrite msum_conj. apply msum_ext. intros i Hi.
  rewrite kconj_mul, !ent_nconj, !kconj_invol. reflexivity.
Qed.

(** Sites related one to one keep the truth of the canonical form. *)
Lemma canon_true_sites (x : ltens K) (us : list (nd K)) :
  Forall2 (fun t u => (left_iso t -> left_iso u) /\ (right_iso t -> right_iso u)) (lts x) us ->
  canon_true x -> canon_true (mkLt us (lcan x) (rcan x)).
Proof.
  intros HF [HL HR].
  assert (G : forall k, k < length (lts x) -> (left_iso (nth k (lts x) dummy) -> left_iso (nth k us dummy)) /\
                                   (right_iso (nth k (lts x) dummy) -> right_iso (nth k us dummy))).
  { clear HL HR. induction HF as [|t u ts us' H HF IH]; intros k Hk; cbn in Hk; [lia|].
    destruct k as [|k]; [exact H|]. cbn [nth]. apply IH. lia. }
  pose proof (Forall2_len _ _ _ _ _ HF) as EL.
  split; cbn [lcan rcan lts]; unfold llen in *; cbn [lts]; intros k Hk Hn; rewrite <- EL in Hn; apply G; auto.
Qed.

Theorem mconj_spec (x : ltens K) : mpa_ok x -> cform_ok x ->
  exists z, mconj x = Ok z /\ mpa_ok z /\ mshape z = mshape x /\ ranks z = ranks x /\
    canonical_form z = canonical_form x /\ (canon_true x -> canon_true z) /\
    forall is, amp (lts z) is 0 0 = kconj (amp (lts x) is 0 0).
Proof.
  intros [Hne Hb] Hc. unfold mconj.
  assert (HF : Forall2 same_bonds (lts x) (map nconj (lts x))).
  { apply Forall2_map_r. intros t Ht. apply same_bonds_nconj. eapply bonds_in; eassumption. }
  pose proof (bonds_same _ _ _ _ Hb HF) as Hb'.
  rewrite (lt_init_ok _ 1 1 (lcan x) (rcan x)).
  - eexists. split; [reflexivity|]. split; [split; [cbn [lts]; destruct (lts x); [congruence|discriminate]|exact Hb']|].
    split; [unfold mshape; cbn [lts]; rewrite map_map; reflexivity|].
    split; [unfold ranks; cbn [lts]; destruct (lts x); [congruence|]; cbn [map tl]; rewrite map_map; reflexivity|].
    split; [reflexivity|]. split.
    + apply canon_true_sites. apply Forall2_map_r. intros t Ht. split; [apply left_iso_nconj|apply right_iso_nconj].
    + intros is. cbn [lts]. apply amp_nconj.
  - destruct (lts x); [congruence|discriminate].
  - exact Hb'.
  - rewrite map_length. exact Hc.
Qed.
End Site.
