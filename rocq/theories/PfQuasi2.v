(** SVD compression is quasi-optimal among the arrays of the same ranks. *)
From Coq Require Import Reals Lra Sorting.Sorted.
From Verif Require Export PfQuasi PfTrunc2.
Local Open Scope nat_scope.

Add Ring CSr3 : (k_ring CS).

(** The rank of the bond after [j] sites. *)
Definition bond (x : ltens CS) (j : nat) : nat := nth (j - 1) (ranks x) 0.

Lemma mpa_cut_rank (y : ltens CS) j : mpa_pos y -> 1 <= j < llen y -> cut_rank (mshape y) (entry y) j (bond y j).
Proof.
  intros Hy Hj. pose proof Hy as [Hok _]. pose proof Hok as [_ B]. unfold llen in Hj.
  assert (HB : exists m, bonds (firstn j (lts y)) 1 m /\ bonds (skipn j (lts y)) m 1) by (apply bonds_app; rewrite firstn_skipn; exact B).
  destruct HB as [m [B1 B2]].
  assert (Em : bond y j = m).
  { unfold bond, ranks. destruct (skipn j (lts y)) as [|t ts] eqn:Es; [apply (f_equal (@length _)) in Es; rewrite skipn_length in Es; cbn in Es; lia|].
    cbn [bonds] in B2. destruct B2 as [_ [<- _]].
    assert (E0 : nth j (lts y) dummy = t).
    { rewrite <- (firstn_skipn j (lts y)), Es, app_nth2 by (rewrite firstn_length; lia). rewrite firstn_length. replace (j - Nat.min j (length (lts y))) with 0 by lia. reflexivity. }
    destruct (lts y) as [|a l]; [cbn in Hj; lia|]. cbn [tl]. destruct j as [|j]; [lia|]. cbn [nth length] in *. replace (S j - 1) with j by lia.
    rewrite (nth_indep _ 0 (ldim (dummy : nd CS))), map_nth, E0 by (rewrite map_length; lia). reflexivity. }
  rewrite Em. exists (fun c is => amp (firstn j (lts y)) is 0 c), (fun c is => amp (skipn j (lts y)) is c 0).
  intros is1 is2 I1 I2. rewrite entry_amp; [|exact Hok|].
  - rewrite <- (firstn_skipn j (lts y)) at 1. apply (amp_app _ _ is1 is2 0 0 1 m); [|exact B1|lia].
    rewrite (Forall2_len _ _ _ _ _ I1), !firstn_length. unfold mshape. rewrite map_length. reflexivity.
  - rewrite <- (firstn_skipn j (mshape y)). apply Forall2_app; assumption.
Qed.

Lemma SSorted_seq n : forall a, StronglySorted le (seq a n).
Proof. induction n as [|n IH]; intros a; cbn; constructor; [apply IH|]. apply Forall_forall. intros b Hb. apply in_seq in Hb. lia. Qed.
Lemma SSorted_rev n : forall a, StronglySorted ge (rev (seq a n)).
Proof.
  induction n as [|n IH]; intros a; [constructor|]. rewrite seq_S, rev_app_distr. cbn [rev app]. constructor; [apply IH|].
  apply Forall_forall. intros b Hb. apply in_rev in Hb. apply in_seq in Hb. lia.
Qed.
Lemma rs_rev {X : Type} (l : list X) f : rs (rev l) f = rs l f.
Proof. induction l as [|x l IH]; [reflexivity|]. cbn [rev]. rewrite rs_app, IH, !rs_cons. change (rs [] f) with 0%R. lra. Qed.
Lemma combine_snd {A B C : Type} (f : B -> C) (l : list A) (m : list B) a b : In (a, b) (combine l m) -> In (a, f b) (combine l (map f m)).
Proof. revert m. induction l as [|x l IH]; intros [|y m] H; cbn in *; try contradiction. destruct H as [H|H]; [injection H as -> ->; auto|right; apply IH, H]. Qed.
Lemma combine_rev {A B : Type} (l : list A) : forall m : list B, length l = length m -> combine (rev l) (rev m) = rev (combine l m).
Proof.
  assert (AP : forall (l1 : list A) (m1 : list B) l2 m2, length l1 = length m1 -> combine (l1 ++ l2) (m1 ++ m2) = combine l1 m1 ++ combine l2 m2).
  { induction l1 as [|x l1 IH]; intros [|y m1] l2 m2 H; cbn in *; try discriminate; [reflexivity|]. rewrite IH by lia. reflexivity. }
  induction l as [|x l IH]; intros [|y m] H; cbn in *; try discriminate; [reflexivity|]. rewrite AP by (rewrite !rev_length; lia). rewrite IH by lia. reflexivity.
Qed.
Lemma combine_seq {B : Type} (d : B) (m : list B) : forall a j k, In (j, k) (combine (seq a (length m)) m) -> a <= j < a + length m /\ k = nth (j - a) m d.
Proof.
  induction m as [|y m IH]; intros a j k H; cbn in *; [contradiction|]. destruct H as [H|H].
  - injection H as <- <-. rewrite Nat.sub_diag. split; [lia|reflexivity].
  - destruct (IH (S a) j k H) as [H1 ->]. split; [lia|]. replace (j - a) with (S (j - S a)) by lia. reflexivity.
Qed.

Section Quasi.
Variable qr : nd CS -> res (nd CS * nd CS).
Hypothesis Hqr : qr_sound qr.
Variable svd : nd CS -> res (nd CS * list CS * nd CS).
Variable svdfunc : nd CS -> nat -> res (nd CS * list CS * nd CS).
Hypothesis Hsvd : svd_sound svd.
Hypothesis Hts : tsvd_sound svdfunc.
Hypothesis Hsort : svd_sorted svd.
Variable rk : list CS -> nat.
Hypothesis Hrk : forall s, 0 < rk s.

(** [P j s r]: what is known about the rank [r] of the array that is compared. *)
Lemma quasi_general (x z : ltens CS) rank dir ov (Y : nat -> ltens CS) : mpa_pos x -> cform_wk x -> canon_true x -> 2 <= llen x -> rank_pos rank ->
  compress_svd qr svd svdfunc x rank (Some rk) dir true = Ok (z, ov) ->
  (forall j, 1 <= j < llen x -> mpa_pos (Y j) /\ mshape (Y j) = mshape x) ->
  (forall j s, 1 <= j < llen x -> bond z j <= length s -> bond z j = Nat.min (match rank with Some r => Nat.min (length s) r | None => length s end) (rk s) ->
     Nat.min (length s) (bond (Y j) j) <= bond z j) ->
  (Cre (dist2_of x z) <= rs (seq 1 (llen x - 1)) (fun j => Cre (dist2_of x (Y j))))%R.
Proof.
  intros Hx Hc HT Hn Hr E HY HB.
  destruct (compress_truncs qr Hqr svd svdfunc Hsvd Hts sorted_values Hsort rk Hrk x rank dir z ov Hx Hc HT Hn Hr E) as [ys [TR [MS [KO DW]]]].
  assert (LZ : length (ranks z) = llen x - 1).
  { pose proof (f_equal (@length _) MS) as L. rewrite map_length in L. assert (L2 : forall js ys' (A B : list (list nat) -> CS) sh, truncs sh A js ys' B -> length js = length ys').
    { induction js as [|j js IH]; intros [|[s k] ys'] A B sh H; cbn in H; try contradiction; [reflexivity|]. destruct H as [A' [_ H]]. cbn. f_equal. exact (IH _ _ _ _ H). }
    apply L2 in TR. destruct (goes_left x dir); rewrite ?rev_length, ?seq_length in *; lia. }
  assert (Lsh : length (mshape x) = llen x) by (unfold mshape, llen; apply map_length).
  set (n := llen x - 1) in *.
  assert (IN : forall j s k, In (j, (s, k)) (combine (if goes_left x dir then rev (seq 1 n) else seq 1 n) ys) -> 1 <= j < llen x /\ k = bond z j).
  { intros j s k H. apply (combine_snd snd) in H. rewrite MS in H. cbn [snd] in H.
    assert (H' : In (j, k) (combine (seq 1 (length (ranks z))) (ranks z))).
    { rewrite LZ. destruct (goes_left x dir); [|exact H]. rewrite combine_rev in H by (rewrite seq_length; lia). apply in_rev, H. }
    destruct (combine_seq 0 (ranks z) 1 j k H') as [H1 ->]. split; [lia|reflexivity]. }
  assert (CR : Forall (cut_rel (mshape x) (fun j => entry (Y j))) (combine (if goes_left x dir then rev (seq 1 n) else seq 1 n) ys)).
  { apply Forall_forall. intros [j [s k]] H. destruct (IN j s k H) as [Hj ->]. pose proof (in_combine_r _ _ _ _ H) as Hin. rewrite Forall_forall in KO. destruct (KO _ Hin) as [K1 [K2 K3]]. cbn [fst snd] in *.
    destruct (HY j Hj) as [HY1 HY2]. unfold cut_rel.
    assert (Lk : bond z j <= length s) by (rewrite K3; destruct rank; lia).
    split; [lia|]. split; [exact K1|]. split; [exact Lk|]. exists (bond (Y j) j). split.
    - rewrite <- HY2. apply mpa_cut_rank; [exact HY1|]. assert (length (mshape (Y j)) = llen (Y j)) by (unfold mshape, llen; apply map_length). rewrite HY2 in H0. lia.
    - apply HB; assumption. }
  rewrite DW.
  assert (SW : (Cre (dweights ys) <= rs (if goes_left x dir then rev (seq 1 n) else seq 1 n) (fun j => adist (mshape x) (entry x) (entry (Y j))))%R).
  { destruct (goes_left x dir).
    - exact (sweep_quasi ge (mshape x) (or_intror eq_refl) _ ys (entry x) (entry z) (fun j => entry (Y j)) (SSorted_rev n 1) TR CR).
    - exact (sweep_quasi le (mshape x) (or_introl eq_refl) _ ys (entry x) (entry z) (fun j => entry (Y j)) (SSorted_seq n 1) TR CR). }
  eapply Rle_trans; [exact SW|]. right. transitivity (rs (seq 1 n) (fun j => adist (mshape x) (entry x) (entry (Y j)))); [destruct (goes_left x dir); [apply rs_rev|reflexivity]|].
  apply rs_ext. intros j _. rewrite adist_dist. reflexivity.
Qed.
End Quasi.

(** The numbers of kept values are the ranks of the result. *)
Section API.
Variable qr : nd CS -> res (nd CS * nd CS).
Hypothesis Hqr : qr_sound qr.
Variable svd : nd CS -> res (nd CS * list CS * nd CS).
Hypothesis Hsvd : svd_sound svd.
Hypothesis Hsort : svd_sorted svd.

Theorem quasi_relerr svdfunc rk (x z : ltens CS) rank dir ov (Y : nat -> ltens CS) : tsvd_sound svdfunc -> (forall s, 0 < rk s) ->
  mpa_pos x -> cform_wk x -> canon_true x -> 2 <= llen x -> rank_pos rank ->
  compress_svd qr svd svdfunc x rank (Some rk) dir true = Ok (z, ov) ->
  (forall j, 1 <= j < llen x -> mpa_pos (Y j) /\ mshape (Y j) = mshape x /\ bond (Y j) j <= bond z j) ->
  (Cre (dist2_of x z) <= rs (seq 1 (llen x - 1)) (fun j => Cre (dist2_of x (Y j))))%R.
Proof.
  intros Ht Hk Hx Hc HT Hn Hr E HY.
  apply (quasi_general qr Hqr svd svdfunc Hsvd Ht Hsort rk Hk x z rank dir ov Y Hx Hc HT Hn Hr E).
  - intros j Hj. destruct (HY j Hj) as [H1 [H2 _]]. auto.
  - intros j s Hj _ _. destruct (HY j Hj) as [_ [_ H3]]. lia.
Qed.
Theorem quasi_rank (x z : ltens CS) rank dir ov (Y : nat -> ltens CS) :
  mpa_pos x -> cform_wk x -> canon_true x -> 2 <= llen x -> 0 < rank ->
  compress_svd qr svd (truncated_svd svd) x (Some rank) None dir true = Ok (z, ov) ->
  (forall j, 1 <= j < llen x -> mpa_pos (Y j) /\ mshape (Y j) = mshape x /\ bond (Y j) j <= rank) ->
  (Cre (dist2_of x z) <= rs (seq 1 (llen x - 1)) (fun j => Cre (dist2_of x (Y j))))%R.
Proof.
  intros Hx Hc HT Hn Hr E HY. apply (compress_default qr Hqr svd Hsvd x z (Some rank) dir ov Hx Hc Hn Hr) in E.
  apply (quasi_general qr Hqr svd _ Hsvd (truncated_svd_sound svd Hsvd) Hsort keep_all ltac:(intros; unfold keep_all; lia) x z (Some rank) dir ov Y Hx Hc HT Hn Hr E).
  - intros j Hj. destruct (HY j Hj) as [H1 [H2 _]]. auto.
  - intros j s Hj _ H. destruct (HY j Hj) as [_ [_ H3]]. unfold keep_all in H. lia.
Qed.
End API.

Lemma ranks_bond (y : ltens CS) r j : Forall (fun k => k <= r) (ranks y) -> 1 <= j < llen y -> bond y j <= r.
Proof.
  intros H Hj. unfold bond. rewrite Forall_forall in H. apply H. apply nth_In. unfold ranks. rewrite map_length. unfold llen in Hj. destruct (lts y); cbn in *; lia.
Qed.
Lemma ranks_bond2 (y z : ltens CS) j : Forall2 le (ranks y) (ranks z) -> bond y j <= bond z j.
Proof.
  unfold bond. generalize (j - 1). intros i H. revert i. induction H; intros [|i]; cbn; auto.
Qed.
Lemma rs_same n a c : rs (seq a n) (fun _ => c) = (INR n * c)%R.
Proof. rewrite rs_const, seq_length. reflexivity. Qed.
Lemma rs_rsum {X : Type} (l : list X) f : rs l f = rsum (map f l).
Proof. induction l as [|x l IH]; [reflexivity|]. cbn [map]. rewrite rs_cons, IH. reflexivity. Qed.
Lemma llen_shape (y x : ltens CS) : mshape y = mshape x -> llen y = llen x.
Proof. intros H. apply (f_equal (@length _)) in H. unfold mshape, llen in *. rewrite !map_length in H. exact H. Qed.
