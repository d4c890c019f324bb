(** Overlaps of chains of local tensors, isometric chains, and the norm. *)
From Verif Require Export PfCanon2 PfInner.

Lemma nth_firstn (A : Type) n k (l : list A) d : k < n -> nth k (firstn n l) d = nth k l d.
Proof.
  revert n l; induction k as [|k IH]; intros [|n] [|x l] H; try lia; try reflexivity. cbn. apply IH. lia.
Qed.
Lemma nth_skipn (A : Type) n k (l : list A) d : nth k (skipn n l) d = nth (n + k) l d.
Proof.
  revert l; induction n as [|n IH]; intros l; [reflexivity|]. destruct l; [destruct k; reflexivity|]. apply IH.
Qed.

Section Gram.
Context {K : StarRing}.
Add Ring Kr : (k_ring K).

(** Overlap of one site / of two chains, for fixed boundary indices. *)
Definition egram (t u : nd K) (a a' c c' : nat) : K :=
  msum (pdims t) (fun i => kconj (ent t a i c) * ent u a' i c')%K.
Definition gram (ts us : list (nd K)) (a a' b b' : nat) : K :=
  msums (map pdims ts) (fun is => kconj (amp ts is a b) * amp us is a' b')%K.

Lemma gram_cons t ts u us a a' b b' :
  gram (t :: ts) (u :: us) a a' b b' =
  bigsum (rdim t) (fun c => bigsum (rdim u) (fun c' => egram t u a a' c c' * gram ts us c c' b b'))%K.
Proof.
  unfold gram. cbn [map msums].
  transitivity (msum (pdims t) (fun i => bigsum (rdim t) (fun c => bigsum (rdim u) (fun c' =>
     kconj (ent t a i c) * ent u a' i c' * gram ts us c c' b b')))%K).
  - apply msum_ext. intros i Hi.
    transitivity (msums (map pdims ts) (fun is => bigsum (rdim t) (fun c => bigsum (rdim u) (fun c' =>
       kconj (ent t a i c) * ent u a' i c' * (kconj (amp ts is c b) * amp us is c' b'))))%K).
    + apply msums_ext. intros is His. cbn [amp]. rewrite bigsum_conj, bigsum_mul. apply bigsum_ext. intros c Hc.
      apply bigsum_ext. intros c' Hc'. rewrite (kconj_mul K). ring.
    + rewrite <- bigsum_msums_swap. apply bigsum_ext. intros c Hc. rewrite <- bigsum_msums_swap. apply bigsum_ext. intros c' Hc'.
      rewrite msums_mul_l. reflexivity.
  - rewrite msum_bigsum_swap. apply bigsum_ext. intros c Hc. rewrite msum_bigsum_swap. apply bigsum_ext. intros c' Hc'.
    rewrite msum_mul_r. reflexivity.
Qed.
Lemma gram_nil a a' b b' : gram [] [] a a' b b' = (delta a b * delta a' b')%K.
Proof. unfold gram. cbn. rewrite delta_conj. reflexivity. Qed.

Lemma gram_app ts us ts' us' l m l' m' a a' b b' :
  bonds ts l m -> bonds us l' m' -> map pdims ts = map pdims us -> a < l -> a' < l' ->
  gram (ts ++ ts') (us ++ us') a a' b b' =
  bigsum m (fun c => bigsum m' (fun c' => gram ts us a a' c c' * gram ts' us' c c' b b'))%K.
Proof.
  revert us l l' a a'. induction ts as [|t ts IH]; intros us l l' a a' B B' E Ha Ha'.
  - destruct us; [|discriminate]. cbn in B, B'. subst. cbn [app].
    rewrite (bigsum_single _ a) by (auto; intros c Hc Hn; apply bigsum_zero; intros c' _; rewrite gram_nil, delta_neq by auto; ring).
    rewrite (bigsum_single _ a') by (auto; intros c Hc Hn; rewrite gram_nil, (delta_neq a') by auto; ring).
    rewrite gram_nil, !delta_eq. ring.
  - destruct us as [|u us]; [discriminate|]. cbn [map] in E. injection E as E0 E. destruct B as [T1 [T2 T3]], B' as [U1 [U2 U3]].
    cbn [app]. rewrite gram_cons.
    transitivity (bigsum (rdim t) (fun d => bigsum (rdim u) (fun d' => bigsum m (fun c => bigsum m' (fun c' =>
       egram t u a a' d d' * gram ts us d d' c c' * gram ts' us' c c' b b'))))%K).
    + apply bigsum_ext. intros d Hd. apply bigsum_ext. intros d' Hd'.
      rewrite (IH us (rdim t) (rdim u)) by assumption. rewrite <- bigsum_mul_l. apply bigsum_ext. intros c Hc.
      rewrite <- bigsum_mul_l. apply bigsum_ext. intros c' Hc'. ring.
    + transitivity (bigsum (rdim t) (fun d => bigsum m (fun c => bigsum (rdim u) (fun d' => bigsum m' (fun c' =>
         egram t u a a' d d' * gram ts us d d' c c' * gram ts' us' c c' b b'))))%K).
      { apply bigsum_ext. intros d Hd. apply bigsum_swap. }
      rewrite bigsum_swap. apply bigsum_ext. intros c Hc.
      transitivity (bigsum (rdim t) (fun d => bigsum m' (fun c' => bigsum (rdim u) (fun d' =>
         egram t u a a' d d' * gram ts us d d' c c' * gram ts' us' c c' b b')))%K).
      { apply bigsum_ext. intros d Hd. apply bigsum_swap. }
      rewrite bigsum_swap. apply bigsum_ext. intros c' Hc'. rewrite gram_cons, <- bigsum_mul_r. apply bigsum_ext. intros d Hd.
      rewrite bigsum_mul_r. reflexivity.
Qed.

(** ** Isometric chains *)
Lemma lgram_iso ps ts us l m b b' : Forall left_iso ps -> bonds ps l m ->
  bigsum l (fun a => gram (ps ++ ts) (ps ++ us) a a b b') = bigsum m (fun c => gram ts us c c b b').
Proof.
  intros HF. revert l. induction HF as [|t ps Ht HF IH]; intros l B; [cbn in B; subst; reflexivity|].
  destruct B as [T1 [T2 T3]]. rewrite <- (IH _ T3). cbn [app].
  transitivity (bigsum l (fun a => bigsum (rdim t) (fun c => bigsum (rdim t) (fun c' =>
     egram t t a a c c' * gram (ps ++ ts) (ps ++ us) c c' b b')))%K).
  { apply bigsum_ext. intros a Ha. apply gram_cons. }
  rewrite bigsum_swap. apply bigsum_ext. intros c Hc. rewrite bigsum_swap. rewrite (bigsum_single _ c) by
    (auto; intros c' Hc' Hn; rewrite bigsum_mul_r, <- T2; unfold egram; rewrite (Ht c c') by assumption;
     rewrite delta_neq by auto; ring).
  rewrite bigsum_mul_r. unfold egram. rewrite <- T2, (Ht c c), delta_eq by assumption. ring.
Qed.

Lemma rgram_iso ps r m a a' : Forall right_iso ps -> bonds ps m r -> a < m -> a' < m ->
  bigsum r (fun b => gram ps ps a a' b b) = delta a a'.
Proof.
  intros HF. revert m a a'. induction HF as [|t ps Ht HF IH]; intros m a a' B Ha Ha'.
  - cbn in B. subst m. rewrite (bigsum_single _ a) by (auto; intros b Hb Hn; rewrite gram_nil, delta_neq by auto; ring).
    rewrite gram_nil, delta_eq, delta_sym. ring.
  - destruct B as [T1 [T2 T3]].
    transitivity (bigsum (rdim t) (fun c => bigsum (rdim t) (fun c' => egram t t a a' c c' * bigsum r (fun b => gram ps ps c c' b b)))%K).
    + transitivity (bigsum r (fun b => bigsum (rdim t) (fun c => bigsum (rdim t) (fun c' => egram t t a a' c c' * gram ps ps c c' b b)))%K).
      { apply bigsum_ext. intros b Hb. apply gram_cons. }
      rewrite bigsum_swap. apply bigsum_ext. intros c Hc. rewrite bigsum_swap. apply bigsum_ext. intros c' Hc'. apply bigsum_mul_l.
    + rewrite delta_sym. rewrite <- (Ht a' a) by lia. apply bigsum_ext. intros c Hc.
      rewrite (bigsum_single _ c) by (auto; intros c' Hc' Hn; rewrite (IH (rdim t)) by auto; rewrite delta_neq by auto; ring).
      rewrite (IH (rdim t)), delta_eq by auto. rewrite (Rmul_comm (k_ring K)), (Rmul_1_l (k_ring K)).
      unfold egram. apply msum_ext. intros i Hi. ring.
Qed.

Lemma rgram_app ps ts us l l' m r a a' : Forall right_iso ps -> bonds ps m r ->
  bonds ts l m -> bonds us l' m -> map pdims ts = map pdims us -> a < l -> a' < l' ->
  bigsum r (fun b => gram (ts ++ ps) (us ++ ps) a a' b b) = bigsum m (fun c => gram ts us a a' c c).
Proof.
  intros HF B Bt Bu E Ha Ha'.
  transitivity (bigsum m (fun c => bigsum m (fun c' => gram ts us a a' c c' * bigsum r (fun b => gram ps ps c c' b b)))%K).
  - transitivity (bigsum r (fun b => bigsum m (fun c => bigsum m (fun c' => gram ts us a a' c c' * gram ps ps c c' b b)))%K).
    { apply bigsum_ext. intros b Hb. apply (gram_app _ _ _ _ l m l' m); assumption. }
    rewrite bigsum_swap. apply bigsum_ext. intros c Hc. rewrite bigsum_swap. apply bigsum_ext. intros c' Hc'. apply bigsum_mul_l.
  - apply bigsum_ext. intros c Hc.
    rewrite (bigsum_single _ c) by (auto; intros c' Hc' Hn; rewrite (rgram_iso ps r m) by auto; rewrite delta_neq by auto; ring).
    rewrite (rgram_iso ps r m), delta_eq by auto. ring.
Qed.

(** Overlap with the boundary bonds traced. *)
Definition ovl (l r : nat) (ts us : list (nd K)) : K := bigsum l (fun a => bigsum r (fun b => gram ts us a a b b)).

Lemma ovl_left ps ts us l m r : Forall left_iso ps -> bonds ps l m -> ovl l r (ps ++ ts) (ps ++ us) = ovl m r ts us.
Proof.
  intros HF B. unfold ovl. rewrite bigsum_swap. rewrite (bigsum_swap m). apply bigsum_ext. intros b Hb. apply lgram_iso; assumption.
Qed.
Lemma ovl_right ps ts us l m r : Forall right_iso ps -> bonds ps m r -> bonds ts l m -> bonds us l m ->
  map pdims ts = map pdims us -> ovl l r (ts ++ ps) (us ++ ps) = ovl l m ts us.
Proof.
  intros HF B Bt Bu E. unfold ovl. apply bigsum_ext. intros a Ha. apply (rgram_app ps ts us l l m r); assumption.
Qed.
Lemma ovl_one t u : lt_ok t -> lt_ok u -> rdim u = rdim t ->
  ovl (ldim t) (rdim t) [t] [u] = bigsum (ldim t) (fun a => bigsum (rdim t) (fun b => egram t u a a b b)).
Proof.
  intros Ht Hu E. unfold ovl. apply bigsum_ext. intros a Ha. apply bigsum_ext. intros b Hb. rewrite gram_cons.
  rewrite (bigsum_single _ b) by (auto; intros c Hc Hn; apply bigsum_zero; intros c' _; rewrite gram_nil, delta_neq by auto; ring).
  rewrite (bigsum_single _ b) by (auto; try lia; intros c Hc Hn; rewrite gram_nil, (delta_neq c) by auto; ring).
  rewrite gram_nil, !delta_eq. ring.
Qed.

Lemma abs2_ent (t : nd K) : lt_ok t -> abs2 t = bigsum (ldim t) (fun a => bigsum (rdim t) (fun b => egram t t a a b b)).
Proof.
  intros Ht. unfold abs2. rewrite (lt_ok_shp t Ht). cbn [msum]. apply bigsum_ext. intros a Ha.
  rewrite msum_app. rewrite msum_swap. cbn [msum]. apply bigsum_ext. intros b Hb. unfold egram, ent. reflexivity.
Qed.

(** The square of the norm, for one-dimensional boundary bonds. *)
Definition nrm2 (x : ltens K) : K := msums (mshape x) (fun is => kconj (amp (lts x) is 0 0) * amp (lts x) is 0 0)%K.
Lemma ovl_11 (ts us : list (nd K)) : ovl 1 1 ts us = gram ts us 0 0 0 0.
Proof. unfold ovl. rewrite !bigsum_1. reflexivity. Qed.

Lemma ovl_center (p s : list (nd K)) t l r : bonds (p ++ t :: s) l r -> Forall left_iso p -> Forall right_iso s ->
  ovl l r (p ++ t :: s) (p ++ t :: s) = abs2 t.
Proof.
  intros B HL HR. apply bonds_app in B. destruct B as [m [Bp [T1 [T2 Bs]]]].
  rewrite (ovl_left p _ _ l m r HL Bp). change (t :: s) with ([t] ++ s). rewrite (ovl_right s [t] [t] m (rdim t) r); auto.
  - subst m. rewrite ovl_one by auto. symmetry. apply abs2_ent; exact T1.
  - cbn. auto.
  - cbn. auto.
Qed.

(** The centre of a true form: sites before [lcan] and after it. *)
Lemma Forall_firstn_nth (P : nd K -> Prop) (l : list (nd K)) n : n <= length l -> (forall k, k < n -> P (nth k l dummy)) -> Forall P (firstn n l).
Proof.
  intros Hn H. apply Forall_forall. intros t Ht. apply (In_nth _ _ dummy) in Ht. destruct Ht as [k [Hk <-]].
  rewrite firstn_length in Hk. rewrite nth_firstn by lia. apply H. lia.
Qed.
Lemma Forall_skipn_nth (P : nd K -> Prop) (l : list (nd K)) n : (forall k, n <= k -> k < length l -> P (nth k l dummy)) -> Forall P (skipn n l).
Proof.
  intros H. apply Forall_forall. intros t Ht. apply (In_nth _ _ dummy) in Ht. destruct Ht as [k [Hk <-]].
  rewrite skipn_length in Hk. rewrite nth_skipn. apply H; lia.
Qed.

Lemma ovl_at (x : ltens K) l r k : bonds (lts x) l r -> k < llen x -> canon_true x ->
  (Z.of_nat k <= lcan x)%Z -> (rcan x <= Z.of_nat k + 1)%Z -> ovl l r (lts x) (lts x) = abs2 (nth k (lts x) dummy).
Proof.
  intros B Hk [HL HR] H1 H2. unfold llen in *. rewrite (split_nth _ k (lts x) dummy Hk) at 1 2. apply ovl_center.
  - rewrite <- split_nth by exact Hk. exact B.
  - apply Forall_firstn_nth; [lia|]. intros j Hj. apply HL; unfold llen; lia.
  - apply Forall_skipn_nth. intros j Hj1 Hj2. apply HR; unfold llen; lia.
Qed.

(** ** norm (mparray.py 1416) *)
Variable qr : nd K -> res (nd K * nd K).
Hypothesis Hqr : qr_sound qr.

Lemma pyget_last_at (A : Type) (l : list A) d : l <> [] -> pyget l (-1) = Ok (nth (length l - 1) l d).
Proof.
  intros H. assert (0 < length l) by (destruct l; [congruence|cbn; lia]). unfold pyget, pyidx.
  destruct (Z.leb_spec 0 (-1)); [lia|]. destruct (Z.leb_spec 0 (-1 + Z.of_nat (length l))); [|lia].
  replace (Z.to_nat (-1 + Z.of_nat (length l))) with (length l - 1) by lia.
  destruct (nth_error l (length l - 1)) eqn:E; [|apply nth_error_None in E; lia]. f_equal. symmetry. apply nth_error_nth. exact E.
Qed.

Theorem norm_spec l r (x : ltens K) : chain_ok (lts x) l r -> cform_ok x -> canon_true x ->
  outc (qr_fails qr) (norm_sq qr x)
    (fun p => fst p = ovl l r (lts x) (lts x) /\ sim l r x (snd p) /\ cform_ok (snd p) /\
       (rcan (snd p) = 1 \/ lcan (snd p) = Z.of_nat (llen x) - 1)%Z).
Proof.
  intros HC HF HT. unfold norm_sq. eapply outc_bind; [apply (canonicalize_default_spec qr Hqr l r); [assumption|apply cform_ok_wk; assumption]|].
  intros z [S [_ [HF' H]]]. specialize (HF' HF). pose proof (sim_len _ _ _ _ S) as Len. unfold canonical_form.
  assert (E : ovl l r (lts x) (lts x) = ovl l r (lts z) (lts z)).
  { destruct S as [_ [E [_ [A _]]]]. unfold ovl, gram. apply bigsum_ext. intros a Ha. apply bigsum_ext. intros b Hb.
    unfold mshape in E. rewrite E. apply msums_ext. intros is His. rewrite !A by assumption. reflexivity. }
  pose proof S as S0. destruct S as [[Hne [B P]] [S2 [S3 [S4 [S5 S6]]]]]. specialize (S5 HT).
  assert (Hn : 0 < llen z) by (unfold llen; destruct (lts z); [congruence|cbn; lia]).
  destruct (Z.eqb_spec (rcan z) 1) as [E1|E1].
  - change 0%Z with (Z.of_nat 0). rewrite (pyget_in _ _ _ dummy) by exact Hn. cbn [bind]. apply outc_ok. cbn [fst snd].
    split; [|split; [exact S0|split; [exact HF'|lia]]]. rewrite E. symmetry. apply (ovl_at z l r 0); auto; destruct HF'; lia.
  - rewrite Len. destruct (lcan x <? Z.of_nat (llen x) - rcan x)%Z; [destruct HF; lia|]. destruct H as [H _].
    assert (Hlz : lcan z = (Z.of_nat (llen x) - 1)%Z) by (destruct HF; lia). rewrite Hlz, Z.eqb_refl. rewrite (pyget_last_at _ _ dummy) by exact Hne. cbn [bind]. apply outc_ok. cbn [fst snd].
    split; [|split; [exact S0|split; [exact HF'|lia]]]. rewrite E. symmetry. unfold llen in *.
    apply (ovl_at z l r (length (lts z) - 1)); auto; unfold llen; destruct HF'; unfold llen in *; lia.
Qed.
End Gram.
