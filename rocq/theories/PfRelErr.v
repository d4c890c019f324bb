(** SVD compression with relerr keeps the least number of singular values. *)
From Coq Require Import Reals Lra.
From Verif Require Export RelErr PfTrunc.
Local Open Scope R_scope.

Lemma Rleb_t x y : Rleb x y = true <-> x <= y.
Proof. unfold Rleb. destruct (Rle_dec x y); split; intros; try congruence; try lra; contradiction. Qed.
Lemma Rleb_f x y : Rleb x y = false <-> y < x.
Proof. unfold Rleb. destruct (Rle_dec x y); split; intros; try congruence; lra. Qed.

(** ** Sums *)
Definition nonneg (l : list R) : Prop := Forall (fun x => 0 <= x) l.
(** Every value is at least as large as those that follow. *)
Fixpoint descending (l : list R) : Prop := match l with [] => True | x :: r => Forall (fun y => y <= x) r /\ descending r end.
(** Sum of the chosen values and how many there are. *)
Fixpoint chosen (m : list bool) (l : list R) : R :=
  match m, l with b :: m', x :: l' => (if b then x else 0) + chosen m' l' | _, _ => 0 end.
Definition count (m : list bool) : nat := length (filter (fun b => b) m).

Lemma rsum_app a b : rsum (a ++ b) = rsum a + rsum b.
Proof. unfold rsum. induction a as [|x a IH]; cbn [app fold_right]; [lra|]. rewrite IH. lra. Qed.
Lemma rsum_nonneg l : nonneg l -> 0 <= rsum l.
Proof. unfold rsum. intros H. induction H; cbn [fold_right]; lra. Qed.
Lemma nonneg_firstn k l : nonneg l -> nonneg (firstn k l).
Proof. unfold nonneg. intros H. revert k. induction H; intros [|k]; cbn; constructor; auto. Qed.
Lemma nonneg_skipn k l : nonneg l -> nonneg (skipn k l).
Proof. unfold nonneg. intros H. revert k. induction H; intros [|k]; cbn; try constructor; auto. Qed.
Lemma rsum_split k l : rsum l = rsum (firstn k l) + rsum (skipn k l).
Proof. rewrite <- rsum_app, firstn_skipn. reflexivity. Qed.
Lemma firstn_mono j k l : nonneg l -> (j <= k)%nat -> rsum (firstn j l) <= rsum (firstn k l).
Proof.
  intros H Hj. rewrite (rsum_split j (firstn k l)), firstn_firstn, Nat.min_l by exact Hj.
  pose proof (rsum_nonneg _ (nonneg_skipn j _ (nonneg_firstn k _ H))). lra.
Qed.

Lemma searchsorted_spec a v : let k := searchsorted a v in
  (k <= length a)%nat /\ (forall j, (j < k)%nat -> nth j a 0 < v) /\ ((k < length a)%nat -> v <= nth k a 0).
Proof.
  induction a as [|x a IH]; cbn [searchsorted length]; cbv zeta in *; [repeat split; intros; lia|].
  destruct (Rleb v x) eqn:E.
  - apply Rleb_t in E. repeat split; intros; try lia. exact E.
  - apply Rleb_f in E. destruct IH as [I1 [I2 I3]]. split; [lia|]. split.
    + intros [|j] Hj; [exact E|]. cbn [nth]. apply I2. lia.
    + intros H. cbn [nth]. apply I3. lia.
Qed.
Lemma cumsum_len l : forall acc, length (cumsum acc l) = length l.
Proof. induction l as [|x l IH]; intros acc; cbn; [reflexivity|]. rewrite IH. reflexivity. Qed.
Lemma cumsum_nth l : forall acc j, (j < length l)%nat -> nth j (cumsum acc l) 0 = acc + rsum (firstn (S j) l).
Proof.
  induction l as [|x l IH]; intros acc j Hj; [cbn in Hj; lia|]. cbn [cumsum]. destruct j as [|j].
  - cbn. lra.
  - cbn [nth]. rewrite IH by (cbn in Hj; lia). cbn [firstn]. unfold rsum. cbn [fold_right]. lra.
Qed.

(** ** The least number of values *)
(** [m] of the values sum to at least (1-e) of all, and fewer, however chosen, do
    not; at least one value is always taken. *)
Definition least_number (e : R) (l : list R) (m : nat) : Prop :=
  (1 <= m <= length l)%nat /\ (1 - e) * rsum l <= rsum (firstn m l) /\
  (forall mask, length mask = length l -> (1 <= count mask < m)%nat -> chosen mask l < (1 - e) * rsum l).

Lemma firstn_le_cons c x l : descending (x :: l) -> nonneg (x :: l) -> rsum (firstn c l) <= rsum (firstn c (x :: l)).
Proof.
  intros [HF _] HN. inversion HN as [|? ? Hx HN']; subst. destruct c as [|c]; [cbn; lra|].
  assert (H : rsum (firstn (S c) l) <= rsum (firstn c l) + x).
  { clear HN HN'. revert c. induction HF as [|y l Hy HF IH]; intros c; [destruct c; cbn; lra|].
    destruct c as [|c]; [cbn; lra|]. specialize (IH c). change (y + rsum (firstn (S c) l) <= y + rsum (firstn c l) + x). lra. }
  change (rsum (firstn (S c) (x :: l))) with (x + rsum (firstn c l)). lra.
Qed.

(** Among the values in descending order the first ones have the largest sum. *)
Lemma chosen_le l : forall mask, length mask = length l -> descending l -> nonneg l -> chosen mask l <= rsum (firstn (count mask) l).
Proof.
  induction l as [|x l IH]; intros [|b mask] HL HD HN; try discriminate; [cbn; lra|]. pose proof HD as [_ HD']. pose proof HN as HN'. inversion HN' as [|? ? Hx HN'']; subst.
  specialize (IH mask ltac:(cbn in HL; lia) HD' HN''). cbn [chosen]. unfold count in *. destruct b; cbn [filter length].
  - cbn [firstn]. unfold rsum in *. cbn [fold_right]. lra.
  - pose proof (firstn_le_cons (length (filter (fun b => b) mask)) x l HD HN). lra.
Qed.

Lemma relerr_count_pos e s : (0 < relerr_count e s)%nat.
Proof. unfold relerr_count. destruct (Req_EM_T _ _); lia. Qed.

Lemma relerr_count_least e s : 0 <= e -> s <> [] -> Forall cnonneg s -> descending (map Cre s) ->
  least_number e (map Cre s) (relerr_count e s).
Proof.
  intros He Hs HN HD. set (l := map Cre s) in *.
  assert (NN : nonneg l) by (unfold nonneg, l; apply Forall_map; eapply Forall_impl; [|exact HN]; intros z [_ Hz]; exact Hz).
  assert (Ll : (0 < length l)%nat) by (unfold l; rewrite map_length; destruct s; [congruence|cbn; lia]).
  pose proof (rsum_nonneg l NN) as H0. unfold relerr_count. fold l. destruct (Req_EM_T (rsum l) 0) as [E|E].
  - split; [lia|]. split; [rewrite E; pose proof (rsum_nonneg _ (nonneg_firstn 1 l NN)); lra|]. intros mask _ Hm. lia.
  - assert (Ht : 0 < rsum l) by lra. set (a := map (fun c => c / rsum l) (cumsum 0 l)).
    assert (La : length a = length l) by (unfold a; rewrite map_length, cumsum_len; reflexivity).
    assert (Na : forall j, (j < length l)%nat -> nth j a 0 = rsum (firstn (S j) l) / rsum l).
    { intros j Hj. unfold a. rewrite (nth_indep _ 0 (0 / rsum l)) by (fold a; lia).
      change (0 / rsum l) with ((fun c => c / rsum l) 0) at 1. rewrite map_nth. rewrite cumsum_nth by exact Hj. f_equal. lra. }
    destruct (searchsorted_spec a (1 - e)) as [S1 [S2 S3]]. set (p := searchsorted a (1 - e)) in *.
    assert (Hp : (p < length l)%nat).
    { destruct (Nat.lt_ge_cases p (length l)) as [H|H]; [exact H|exfalso]. specialize (S2 (length l - 1)%nat ltac:(lia)).
      rewrite Na in S2 by lia. rewrite firstn_all2 in S2 by lia. unfold Rdiv in S2. rewrite Rinv_r in S2 by exact E. lra. }
    assert (DIV : forall y, (1 - e <= y / rsum l -> (1 - e) * rsum l <= y) /\ (y / rsum l < 1 - e -> y < (1 - e) * rsum l)).
    { intros y. assert (Ey : y = y / rsum l * rsum l) by (field; exact E). split; intros H; rewrite Ey; nra. }
    split; [lia|]. split.
    + rewrite La in S3. specialize (S3 Hp). rewrite Na in S3 by exact Hp. replace (p + 1)%nat with (S p) by lia. apply DIV, S3.
    + intros mask Lm Hm. eapply Rle_lt_trans; [apply (chosen_le l mask Lm HD NN)|].
      specialize (S2 (count mask - 1)%nat ltac:(lia)). rewrite Na in S2 by lia. replace (S (count mask - 1)) with (count mask) in S2 by lia. apply DIV, S2.
Qed.

(** What is thrown away. *)
Lemma least_rest e l m : least_number e l m -> rsum (skipn m l) <= e * rsum l.
Proof. intros [_ [H _]]. rewrite (rsum_split m l) in H |- * at 1. pose proof (rsum_split m l). lra. Qed.

(** The count for given values. *)
Lemma count_nz e (l : list R) (n : nat) : rsum l <> 0%R ->
  (forall j, (j < n)%nat -> nth j (cumsum 0 l) 0 / rsum l < 1 - e) -> (n < length l)%nat -> (1 - e <= nth n (cumsum 0 l) 0 / rsum l)%R ->
  relerr_count e (map toC l) = (n + 1)%nat.
Proof.
  intros H0 H1 H2 H3. unfold relerr_count. rewrite map_map. cbn [Cre toC fst]. rewrite map_id. destruct (Req_EM_T (rsum l) 0); [contradiction|].
  set (a := map (fun c => (c / rsum l)%R) (cumsum 0 l)). f_equal.
  assert (La : length a = length l) by (unfold a; rewrite map_length, cumsum_len; reflexivity).
  assert (Na : forall j, (j < length l)%nat -> nth j a 0%R = (nth j (cumsum 0 l) 0 / rsum l)%R).
  { intros j Hj. rewrite (nth_indep a 0%R (0 / rsum l)%R) by lia. unfold a. exact (map_nth (fun c => (c / rsum l)%R) (cumsum 0 l) 0%R j). }
  destruct (searchsorted_spec a (1 - e)) as [S1 [S2 S3]]. set (p := searchsorted a (1 - e)) in *.
  destruct (Nat.lt_trichotomy p n) as [H|[H|H]]; [exfalso|exact H|exfalso].
  - specialize (H1 p H). specialize (S3 ltac:(lia)). rewrite Na in S3 by lia. lra.
  - specialize (S2 n H). rewrite Na in S2 by lia. lra.
Qed.

(** ** The squared error *)
Lemma Cre_bigsum n (f : nat -> CS) : Cre (bigsum n f) = rsum (map (fun c => Cre (f c)) (seq 0 n)).
Proof.
  induction n as [|n IH]; [reflexivity|]. rewrite seq_S, map_app, rsum_app. cbn [bigsum Nat.add map].
  change (Cre (bigsum n f + f n)%K) with (Cre (bigsum n f) + Cre (f n)). rewrite IH. unfold rsum at 3. cbn [fold_right]. lra.
Qed.
Lemma skipn_seq (A : Type) (d : A) l : forall k, skipn k l = map (fun c => nth (k + c) l d) (seq 0 (length l - k)).
Proof.
  induction l as [|x l IH]; intros [|k]; cbn [skipn length Nat.sub]; [reflexivity|reflexivity| |].
  - cbn [seq map nth Nat.add]. f_equal. specialize (IH 0%nat). cbn [skipn] in IH. rewrite IH at 1. rewrite Nat.sub_0_r, <- seq_shift, map_map. reflexivity.
  - rewrite IH. apply map_ext. reflexivity.
Qed.
Lemma sum_sq_le l : nonneg l -> rsum (map (fun x => x * x) l) <= rsum l * rsum l.
Proof.
  intros H. induction H as [|x l Hx H IH]; [cbn; lra|]. pose proof (rsum_nonneg l H).
  change (x * x + rsum (map (fun x => x * x) l) <= (x + rsum l) * (x + rsum l)). nra.
Qed.
Lemma dweight_le (s : list CS) k : Forall cnonneg s -> Cre (dweight (s, k)) <= rsum (skipn k (map Cre s)) * rsum (skipn k (map Cre s)).
Proof.
  intros HN. assert (NN : nonneg (map Cre s)) by (unfold nonneg; apply Forall_map; eapply Forall_impl; [|exact HN]; intros z [_ Hz]; exact Hz).
  eapply Rle_trans; [|apply sum_sq_le, nonneg_skipn, NN]. unfold dweight. cbn [fst snd]. rewrite Cre_bigsum. right. f_equal.
  rewrite (skipn_seq R 0), map_length, map_map. apply map_ext_in. intros c Hc. apply in_seq in Hc.
  rewrite (nth_indep (map Cre s) 0 (Cre k0)) by (rewrite map_length; lia). rewrite map_nth.
  rewrite Forall_forall in HN. destruct (HN (nth (k + c) s k0)) as [H _]; [apply nth_In; lia|].
  revert H. generalize (nth (k + c) s (@k0 CS)). intros [a b] H. unfold Cim in H. cbn in H. subst b. unfold Cre. cbn. ring.
Qed.

Section API.
Variable qr : nd CS -> res (nd CS * nd CS).
Hypothesis Hqr : qr_sound qr.
Variable svd : nd CS -> res (nd CS * list CS * nd CS).
Variable svdfunc : nd CS -> nat -> res (nd CS * list CS * nd CS).
Hypothesis Hsvd : svd_sound svd.
Hypothesis Hts : tsvd_sound svdfunc.
(** The singular values are non-negative and sorted, as documented by numpy. *)
Definition sorted_values (s : list CS) : Prop := Forall cnonneg s /\ descending (map Cre s).
Definition svd_sorted (f : nd CS -> res (nd CS * list CS * nd CS)) : Prop :=
  forall m n a u s v, is_mat a m n -> f a = Ok (u, s, v) -> sorted_values s.
Hypothesis Hsort : svd_sorted svd.

(** The singular values of a cut and the number that is kept. *)
Definition kept_by (e : R) (rank : option nat) (y : list CS * nat) : Prop :=
  sorted_values (fst y) /\ exists m, least_number e (map Cre (fst y)) m /\ snd y = match rank with Some r => Nat.min r m | None => m end.

Lemma re_range x rank e dir canon z ov : (2 <= llen x)%nat ->
  compress_svd_re qr svd svdfunc x rank (Some e) dir canon = Ok (z, ov) ->
  0 <= e <= 1 /\ compress_svd qr svd svdfunc x rank (Some (relerr_count e)) dir canon = Ok (z, ov).
Proof.
  intros Hn E. unfold compress_svd_re in E. destruct (Rleb 0 e) eqn:E0; [destruct (Rleb e 1) eqn:E1|]; cbn [andb] in E.
  - apply Rleb_t in E0. apply Rleb_t in E1. auto.
  - exfalso. unfold compress_svd in E. destruct (Nat.eqb_spec (llen x) 1); [lia|]. unfold canonical_form, compress_svd_r, compress_svd_l in E. cbn [bind Nat.ltb Nat.leb passert] in E.
    destruct dir; [destruct (lcan x <? Z.of_nat (llen x) - rcan x)%Z|..]; try discriminate; destruct (if canon then _ else Ok x); discriminate.
  - exfalso. unfold compress_svd in E. destruct (Nat.eqb_spec (llen x) 1); [lia|]. unfold canonical_form, compress_svd_r, compress_svd_l in E. cbn [bind Nat.ltb Nat.leb passert] in E.
    destruct dir; [destruct (lcan x <? Z.of_nat (llen x) - rcan x)%Z|..]; try discriminate; destruct (if canon then _ else Ok x); discriminate.
Qed.

Theorem relerr_truncs (x z : ltens CS) rank e dir ov : mpa_pos x -> cform_wk x -> canon_true x -> (2 <= llen x)%nat -> rank_pos rank ->
  compress_svd_re qr svd svdfunc x rank (Some e) dir true = Ok (z, ov) ->
  0 <= e <= 1 /\
  exists ys, truncs (mshape x) (entry x) (if goes_left x dir then rev (seq 1 (llen x - 1)) else seq 1 (llen x - 1)) ys (entry z) /\
    map snd ys = (if goes_left x dir then rev (ranks z) else ranks z) /\ Forall (kept_by e rank) ys /\
    (rank = None -> Cre (dist2_of x z) <= e * e * rsum (map (fun y => rsum (map Cre (fst y)) * rsum (map Cre (fst y))) ys)).
Proof.
  intros Hx HF HT Hn Hr E. apply re_range in E; [|exact Hn]. destruct E as [He E]. split; [exact He|].
  destruct (compress_truncs qr Hqr svd svdfunc Hsvd Hts sorted_values Hsort (relerr_count e) (relerr_count_pos e) x rank dir z ov Hx HF HT Hn Hr E) as [ys [H1 [H2 [H3 H4]]]].
  exists ys. split; [exact H1|]. split; [exact H2|].
  assert (HK : Forall (kept_by e rank) ys).
  { eapply Forall_impl; [|exact H3]. intros [s k] [[K1 K2] [K3 K4]]. cbn [fst snd] in *. split; [split; assumption|]. exists (relerr_count e s). cbn [fst snd].
    pose proof (relerr_count_least e s (proj1 He) K3 K1 K2) as HL. split; [exact HL|]. destruct HL as [HL _]. rewrite map_length in HL. destruct rank; lia. }
  split; [exact HK|]. intros ->. rewrite H4. clear -HK. induction HK as [|[s k] ys [[K1 K2] [m [K3 K4]]] HK IH]; [cbn; lra|]. cbn [fst snd] in *. subst k.
  change (Cre (dweights ((s, m) :: ys))) with (Cre (dweight (s, m)) + Cre (dweights ys)). cbn [map fst].
  set (t := rsum (map Cre s)). change (rsum (t * t :: map (fun y : list CS * nat => rsum (map Cre (fst y)) * rsum (map Cre (fst y))) ys)) with
    (t * t + rsum (map (fun y : list CS * nat => rsum (map Cre (fst y)) * rsum (map Cre (fst y))) ys)).
  pose proof (dweight_le s m K1) as D. pose proof (least_rest e _ _ K3) as L. fold t in L.
  assert (NN : 0 <= rsum (skipn m (map Cre s))) by (apply rsum_nonneg, nonneg_skipn; unfold nonneg; apply Forall_map; eapply Forall_impl; [|exact K1]; intros w [_ Hw]; exact Hw).
  assert (rsum (skipn m (map Cre s)) * rsum (skipn m (map Cre s)) <= e * t * (e * t)) by (apply Rmult_le_compat; assumption). nra.
Qed.

Theorem relerr_range_error (x : ltens CS) rank e dir canon : mpa_pos x -> cform_wk x -> (2 <= llen x)%nat -> dir <> DOther -> ~ (0 <= e <= 1) ->
  compress_svd_re qr svd svdfunc x rank (Some e) dir canon = Err AssertionError \/
  (compress_svd_re qr svd svdfunc x rank (Some e) dir canon = Err LinAlgError /\ canon = true /\ qr_fails qr).
Proof.
  intros Hx HF Hn Hd He. pose proof (pos_chain _ Hx) as HC. unfold compress_svd_re.
  replace (andb (Rleb 0 e) (Rleb e 1)) with false
    by (symmetry; apply Bool.andb_false_iff; destruct (Rle_dec 0 e); [right; apply Rleb_f; lra|left; apply Rleb_f; lra]).
  unfold compress_svd. destruct (Nat.eqb_spec (llen x) 1); [lia|]. unfold canonical_form, compress_svd_r, compress_svd_l. cbn [bind Nat.ltb Nat.leb passert].
  destruct canon.
  - pose proof (canon_r1 qr Hqr 1 1 x HC HF Hn) as Q1. pose proof (canon_ln qr Hqr 1 1 x HC HF Hn) as Q2.
    destruct dir; [destruct (lcan x <? Z.of_nat (llen x) - rcan x)%Z|..]; try congruence;
      first [destruct Q1 as [[y [-> _]]|[-> Q]]; cbn [bind]; solve [auto]|destruct Q2 as [[y [-> _]]|[-> Q]]; cbn [bind]; solve [auto]].
  - left. cbn [bind]. destruct dir; [destruct (lcan x <? Z.of_nat (llen x) - rcan x)%Z|..]; try reflexivity; congruence.
Qed.
End API.
