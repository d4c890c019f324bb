(** The ranks after compress(method='svd', relerr=e) are at most those of any array
    of the same value; for e = 0 they are the smallest possible. *)
From Coq Require Import Reals Lra Sorting.Sorted.
From Verif Require Export PfQuasi2 PfRelErr.
From Verif Require Import PfStates2.
Local Open Scope nat_scope.

Add Ring CSr3m : (k_ring CS).

Lemma cut_rank_ext sh A A' j r : (forall is, valid_idx is sh -> A' is = A is) -> cut_rank sh A j r -> cut_rank sh A' j r.
Proof.
  intros HA [x [y H]]. exists x, y. intros is1 is2 V1 V2. rewrite HA; [apply H; assumption|].
  rewrite <- (firstn_skipn j sh). apply Forall2_app; assumption.
Qed.

(** Singular values beyond the rank vanish. *)
Lemma tail_zero sh A A' j s k r : cut_trunc sh A A' j s k -> sorted_values s -> cut_rank sh A j r ->
  forall c, r <= c < length s -> nth c s k0 = k0.
Proof.
  intros [U [V [H1 [H2 [H3 H4]]]]] Hs HA c Hc.
  assert (D : (Cre (dweight (s, r)) <= adist sh A A)%R).
  { destruct Hs as [SN SD]. destruct HA as [x [y HY]]. rewrite dweight_rs by exact SN. cbn [Cre toC fst]. rewrite (adist_cut sh j).
    eapply Rle_trans; [apply (eckart_young (enum (firstn j sh)) (enum (skipn j sh)) (length s) (fun a b => A (a ++ b)) (fun c is => U is c) V (fun c => Cre (nth c s k0)))|].
    + intros a b Ha Hb. apply In_enum in Ha, Hb. rewrite (proj1 (H1 a b Ha Hb)), csum_seq. apply bigsum_ext. intros d Hd. rewrite <- (proj1 (real_value s d SN Hd)). reflexivity.
    + intros a b Ha Hb. unfold ip. rewrite <- (H2 a b Ha Hb), msums_enum. reflexivity.
    + intros a b Ha Hb. rewrite <- (H3 a b Ha Hb), msums_enum. reflexivity.
    + intros d Hd. apply (real_value s d SN Hd).
    + intros a b Hab. rewrite <- !map_Cre_nth. apply descending_nth; [exact SD|rewrite map_length; lia].
    + right. apply rs_ext. intros a Ha. apply rs_ext. intros b Hb. apply In_enum in Ha, Hb. f_equal. f_equal. rewrite (HY a b Ha Hb), <- csum_seq. reflexivity. }
  assert (Z : adist sh A A = 0%R).
  { unfold adist. rewrite (rs_ext _ _ (fun _ => 0%R)); [rewrite rs_const; lra|]. intros is _. replace (A is - A is)%K with (k0 : CS) by ring. unfold sq. cbn. ring. }
  destruct Hs as [SN SD]. rewrite Z, dweight_rs in D by exact SN. cbn [Cre toC fst] in D.
  assert (N : (0 <= rs (seq r (length s - r)) (fun c => Cre (nth c s k0) * Cre (nth c s k0)))%R) by (apply rs_nonneg; intros; nra).
  pose proof (rs_zero_all (seq r (length s - r)) (fun c => Cre (nth c s k0) * Cre (nth c s k0))%R ltac:(intros; nra) ltac:(lra) c ltac:(apply in_seq; lia)) as Q. cbn beta in Q.
  destruct (real_value s c SN ltac:(lia)) as [E _]. rewrite E. apply cplx_eq; cbn; [|reflexivity].
  destruct (Rmult_integral _ _ Q); assumption.
Qed.

(** Along the sweep every array is of no larger rank at the cuts that follow. *)
Lemma sweep_tail (rel : nat -> nat -> Prop) sh (R : nat -> nat) : (rel = le \/ rel = ge) ->
  forall js ys A B, StronglySorted rel js -> truncs sh A js ys B ->
  (forall j, In j js -> j <= length sh /\ cut_rank sh A j (R j)) ->
  Forall (fun y => sorted_values (fst y) /\ snd y <= length (fst y)) ys ->
  forall j s k, In (j, (s, k)) (combine js ys) -> forall c, R j <= c < length s -> nth c s k0 = k0.
Proof.
  intros Hrel. induction js as [|j0 js IH]; intros [|[s0 k1] ys] A B HS HT HA HY j s k Hin; cbn [truncs combine] in *; try contradiction.
  destruct HT as [A' [HC HT]]. inversion HS as [|? ? HS' HR]; subst. inversion HY as [|? ? [Y1 Y2] HY']; subst. cbn [fst snd] in Y1, Y2.
  destruct (HA j0 (or_introl eq_refl)) as [Hj HA0]. destruct Hin as [Hin|Hin].
  - injection Hin as <- <- <-. exact (tail_zero sh A A' j0 s0 k1 (R j0) HC Y1 HA0).
  - destruct (trunc_proj sh j0 Hj k1 A A' s0 HC Y2) as [U [V [_ [_ [PU PV]]]]].
    refine (IH ys A' B HS' HT _ HY' j s k Hin). intros j' Hj'. destruct (HA j' (or_intror Hj')) as [L1 L2]. split; [exact L1|].
    rewrite Forall_forall in HR. specialize (HR j' Hj'). destruct Hrel as [->| ->].
    + apply (cut_rank_ext sh (projl sh j0 k1 U A)); [exact PU|]. apply projl_rank; assumption.
    + apply (cut_rank_ext sh (projr sh j0 k1 V A)); [exact PV|]. apply projr_rank; assumption.
Qed.

(** The number of values kept is at most the number of values that do not vanish. *)
Lemma chosen_first (l : list R) : forall r, r <= length l -> chosen (repeat true r ++ repeat false (length l - r)) l = rsum (firstn r l).
Proof.
  induction l as [|x l IH]; intros [|r] H; cbn [length] in *; try lia; try reflexivity.
  - cbn [repeat app Nat.sub chosen firstn]. specialize (IH 0 ltac:(lia)). cbn [repeat app firstn] in IH. rewrite Nat.sub_0_r in IH. rewrite IH. unfold rsum. cbn. lra.
  - cbn [repeat app Nat.sub chosen firstn]. rewrite IH by lia. unfold rsum. cbn. lra.
Qed.
Lemma count_first r n : count (repeat true r ++ repeat false n) = r.
Proof.
  unfold count. induction r as [|r IH]; cbn [repeat app filter length]; [|f_equal; exact IH]. induction n as [|n IH]; [reflexivity|exact IH].
Qed.
Lemma rsum_zero (l : list R) : (forall c, c < length l -> nth c l 0%R = 0%R) -> rsum l = 0%R.
Proof.
  induction l as [|x l IH]; intros H; [reflexivity|]. pose proof (H 0 ltac:(cbn; lia)) as H0. cbn in H0. subst x. unfold rsum in *. cbn [fold_right]. rewrite IH; [lra|].
  intros c Hc. apply (H (S c)). cbn. lia.
Qed.
Lemma skipn_nth {T : Type} (d : T) (l : list T) : forall r c, nth c (skipn r l) d = nth (r + c) l d.
Proof. induction l as [|x l IH]; intros [|r] c; cbn [skipn Nat.add]; try reflexivity; [destruct c; reflexivity|apply IH]. Qed.
Lemma least_le_rank e (s : list CS) m r : (0 <= e)%R -> Forall cnonneg s -> least_number e (map Cre s) m -> 0 < r ->
  (forall c, r <= c < length s -> nth c s k0 = k0) -> m <= r.
Proof.
  intros He HN [[M1 M2] [_ M3]] Hr HZ. rewrite map_length in M2. destruct (le_lt_dec m r) as [L|L]; [exact L|exfalso].
  set (l := map Cre s) in *. assert (Ll : length l = length s) by apply map_length.
  assert (NN : nonneg l) by (unfold nonneg, l; apply Forall_map; eapply Forall_impl; [|exact HN]; intros z [_ Hz]; exact Hz).
  assert (T : rsum (skipn r l) = 0%R).
  { apply rsum_zero. intros c Hc. rewrite skipn_length in Hc. rewrite skipn_nth. unfold l. rewrite map_Cre_nth, HZ by lia. reflexivity. }
  pose proof (rsum_split r l) as SP. pose proof (rsum_nonneg l NN) as P.
  specialize (M3 (repeat true r ++ repeat false (length l - r))). rewrite chosen_first, count_first in M3 by lia.
  specialize (M3 ltac:(rewrite app_length, !repeat_length; lia) ltac:(lia)). nra.
Qed.

Lemma ranks_len (x : ltens CS) : length (ranks x) = llen x - 1.
Proof. unfold ranks, llen. rewrite map_length. destruct (lts x); cbn; lia. Qed.
Lemma pos_bond (y : ltens CS) j : mpa_pos y -> 1 <= j < llen y -> 0 < bond y j.
Proof.
  intros Hy Hj. pose proof (PfCompress.chain_ranks_pos y 1 1 (pos_chain _ Hy)) as P. rewrite Forall_forall in P. apply P. unfold bond. apply nth_In. rewrite ranks_len. lia.
Qed.
Lemma Forall2_bonds (x y : ltens CS) : llen x = llen y -> (forall j, 1 <= j < llen x -> bond x j <= bond y j) -> Forall2 le (ranks x) (ranks y).
Proof.
  intros L H. pose proof (ranks_len x) as Lx. pose proof (ranks_len y) as Ly.
  assert (H' : forall i, i < length (ranks x) -> nth i (ranks x) 0 <= nth i (ranks y) 0).
  { intros i Hi. specialize (H (S i) ltac:(lia)). unfold bond in H. rewrite Nat.sub_succ, Nat.sub_0_r in H. exact H. }
  assert (L2 : length (ranks x) = length (ranks y)) by lia. clear -H' L2. revert H' L2. generalize (ranks x) (ranks y).
  induction l as [|a l IH]; intros [|b m] H L; try discriminate; constructor; [exact (H 0 ltac:(cbn; lia))|]. apply IH; [|cbn in L; lia].
  intros i Hi. apply (H (S i)). cbn. lia.
Qed.

Section Min.
Variable qr : nd CS -> res (nd CS * nd CS).
Hypothesis Hqr : qr_sound qr.
Variable svd : nd CS -> res (nd CS * list CS * nd CS).
Variable svdfunc : nd CS -> nat -> res (nd CS * list CS * nd CS).
Hypothesis Hsvd : svd_sound svd.
Hypothesis Hts : tsvd_sound svdfunc.
Hypothesis Hsort : svd_sorted svd.

Theorem min_cuts (x z : ltens CS) rank e dir ov (R : nat -> nat) : mpa_pos x -> cform_wk x -> canon_true x -> 2 <= llen x -> rank_pos rank ->
  compress_svd_re qr svd svdfunc x rank (Some e) dir true = Ok (z, ov) ->
  (forall j, 1 <= j < llen x -> 0 < R j /\ cut_rank (mshape x) (entry x) j (R j)) ->
  llen z = llen x /\ forall j, 1 <= j < llen x -> bond z j <= R j.
Proof.
  intros Hx HF HT Hn Hr E HR.
  destruct (relerr_truncs qr Hqr svd svdfunc Hsvd Hts Hsort x z rank e dir ov Hx HF HT Hn Hr E) as [He [ys [TR [MS [KB _]]]]].
  assert (Lsh : length (mshape x) = llen x) by (unfold mshape, llen; apply map_length).
  set (n := llen x - 1) in *. set (js := if goes_left x dir then rev (seq 1 n) else seq 1 n) in *.
  assert (L2 : forall js ys' (A B : list (list nat) -> CS) sh, truncs sh A js ys' B -> length js = length ys').
  { induction js0 as [|j0 js0 IH]; intros [|[s k] ys'] A B sh H; cbn in H; try contradiction; [reflexivity|]. destruct H as [A' [_ H]]. cbn. f_equal. exact (IH _ _ _ _ H). }
  pose proof (L2 _ _ _ _ _ TR) as LJ. assert (Ljs : length js = n) by (unfold js; destruct (goes_left x dir); rewrite ?rev_length, seq_length; reflexivity).
  assert (LZ : length (ranks z) = n).
  { pose proof (f_equal (@length _) MS) as L. rewrite map_length in L. destruct (goes_left x dir); rewrite ?rev_length in L; lia. }
  assert (Hlz : llen z = llen x) by (pose proof (ranks_len z); lia). split; [exact Hlz|]. intros j Hj.
  assert (INJ : forall j, In j js -> 1 <= j < llen x) by (intros i Hi; unfold js in Hi; destruct (goes_left x dir); [apply in_rev in Hi|]; apply in_seq in Hi; lia).
  assert (IN : exists s, In (j, (s, bond z j)) (combine js ys)).
  { assert (H : In (j, bond z j) (combine js (map snd ys))).
    { assert (H' : In (j, bond z j) (combine (seq 1 n) (ranks z))).
      { replace (j, bond z j) with (nth (j - 1) (combine (seq 1 n) (ranks z)) (0, 0)); [apply nth_In; rewrite combine_length, seq_length; lia|].
        rewrite combine_nth by (rewrite seq_length; lia). rewrite seq_nth by lia. f_equal. lia. }
      rewrite MS. unfold js. destruct (goes_left x dir); [|exact H']. rewrite combine_rev by (rewrite seq_length; lia). apply in_rev. rewrite rev_involutive. exact H'. }
    clear -H. revert H. generalize (bond z j) as b. intros b. revert ys. induction js as [|i js IH]; intros [|[s k] ys] H; cbn in *; try contradiction.
    destruct H as [H|H]; [injection H as -> ->; exists s; auto|]. destruct (IH ys H) as [s' Hs]. exists s'. auto. }
  destruct IN as [s Hin]. pose proof (in_combine_r _ _ _ _ Hin) as Hy. rewrite Forall_forall in KB. destruct (KB _ Hy) as [[SN SD] [m [M1 M2]]]. cbn [fst snd] in *.
  assert (Z : forall c, R j <= c < length s -> nth c s k0 = k0).
  { assert (HY : Forall (fun y => sorted_values (fst y) /\ snd y <= length (fst y)) ys).
    { apply Forall_forall. intros y0 H0. destruct (KB _ H0) as [S0 [m0 [M3 M4]]]. split; [exact S0|]. destruct M3 as [M3 _]. rewrite map_length in M3. rewrite M4. destruct rank; lia. }
    assert (HC : forall j0, In j0 js -> j0 <= length (mshape x) /\ cut_rank (mshape x) (entry x) j0 (R j0)).
    { intros i Hi. apply INJ in Hi. split; [lia|]. apply HR. exact Hi. }
    unfold js in *. destruct (goes_left x dir).
    - exact (sweep_tail ge (mshape x) R (or_intror eq_refl) _ ys (entry x) (entry z) (SSorted_rev n 1) TR HC HY j s (bond z j) Hin).
    - exact (sweep_tail le (mshape x) R (or_introl eq_refl) _ ys (entry x) (entry z) (SSorted_seq n 1) TR HC HY j s (bond z j) Hin). }
  pose proof (least_le_rank e s m (R j) (proj1 He) SN M1 (proj1 (HR j Hj)) Z). rewrite M2. destruct rank; lia.
Qed.

Lemma same_entry (x y : ltens CS) : mpa_ok x -> mpa_ok y -> mshape y = mshape x -> to_array y = to_array x -> forall is, entry y is = entry x is.
Proof. intros _ _ M E is. unfold entry. rewrite E. reflexivity. Qed.

Theorem min_ranks (x y z : ltens CS) rank e dir ov : mpa_pos x -> cform_wk x -> canon_true x -> 2 <= llen x -> rank_pos rank ->
  compress_svd_re qr svd svdfunc x rank (Some e) dir true = Ok (z, ov) ->
  mpa_pos y -> mshape y = mshape x -> to_array y = to_array x -> Forall2 le (ranks z) (ranks y).
Proof.
  intros Hx HF HT Hn Hr E Hy My Ey. pose proof (llen_shape y x My) as Ly.
  destruct (min_cuts x z rank e dir ov (bond y) Hx HF HT Hn Hr E) as [Lz H].
  - intros j Hj. split; [apply pos_bond; [exact Hy|lia]|]. apply (cut_rank_ext (mshape x) (entry y)).
    + intros is _. symmetry. apply same_entry; [apply Hx|apply Hy|exact My|exact Ey].
    + rewrite <- My. apply mpa_cut_rank; [exact Hy|lia].
  - apply Forall2_bonds; [lia|]. rewrite Lz. exact H.
Qed.

(** Nothing is lost for [e = 0]. *)
Theorem zero_exact (x z : ltens CS) dir ov : mpa_pos x -> cform_wk x -> canon_true x -> 2 <= llen x ->
  compress_svd_re qr svd svdfunc x None (Some 0%R) dir true = Ok (z, ov) -> mpa_pos z -> mshape z = mshape x -> to_array z = to_array x.
Proof.
  intros Hx HF HT Hn E Hz Mz.
  destruct (relerr_truncs qr Hqr svd svdfunc Hsvd Hts Hsort x z None 0%R dir ov Hx HF HT Hn Logic.I E) as [_ [ys [_ [_ [_ D]]]]].
  specialize (D eq_refl). rewrite adist_dist in D. cbn [Cre toC fst] in D. pose proof (adist_nonneg (mshape x) (entry x) (entry z)) as P.
  assert (Z : adist (mshape x) (entry x) (entry z) = 0%R) by lra.
  symmetry. apply entry_ext; [apply Hx|apply Hz|symmetry; exact Mz|]. intros is Hi.
  pose proof (rs_zero_all (enum (mshape x)) (fun is => sq (entry x is - entry z is)%K) ltac:(intros; apply sq_nonneg) Z is ltac:(apply In_enum; exact Hi)) as Q. cbn beta in Q.
  apply sq_0 in Q. set (d := (entry x is - entry z is)%K) in Q. assert (Hd : d = k0) by exact Q.
  transitivity (d + entry z is)%K; [unfold d; ring|rewrite Hd; ring].
Qed.

(** The values of singularvals. *)
Lemma cut_svd_tail (x : ltens CS) j s r : cut_svd x j s -> sorted_values s -> cut_rank (mshape x) (entry x) j r -> forall c, r <= c < length s -> nth c s k0 = k0.
Proof.
  intros [U [V [H1 [H2 [H3 H4]]]]] Hs HR. apply (tail_zero (mshape x) (entry x) (entry x) j s (length s) r); [|exact Hs|exact HR].
  exists U, V. split; [intros is1 is2 V1 V2; split; apply H1; assumption|auto].
Qed.
Lemma cut_svd_rank (x : ltens CS) j s r : cut_svd x j s -> r <= length s -> (forall c, r <= c < length s -> nth c s k0 = k0) -> cut_rank (mshape x) (entry x) j r.
Proof.
  intros [U [V [H1 _]]] Hr HZ. exists (fun c is => U is c * nth c s k0)%K, V. intros is1 is2 V1 V2. rewrite (H1 is1 is2 V1 V2).
  replace (length s) with (r + (length s - r)) by lia. rewrite bigsum_split.
  match goal with |- (?a + ?b)%K = _ => replace b with (k0 : CS) end; [ring|]. symmetry. apply bigsum_zero. intros c Hc. rewrite HZ by lia. ring.
Qed.
End Min.

Lemma sorted_firstn k (s : list CS) : sorted_values s -> sorted_values (firstn k s).
Proof.
  intros [H1 H2]. split.
  - clear H2. revert k. induction H1; intros [|k]; cbn; constructor; auto.
  - rewrite <- firstn_map. revert k. generalize dependent (map Cre s). clear. induction l as [|x l IH]; intros H [|k]; cbn; auto. destruct H as [H1 H2]. split; [|apply IH; exact H2].
    rewrite Forall_forall in *. intros y Hy. apply H1. rewrite <- (firstn_skipn k l). apply in_or_app. left. exact Hy.
Qed.
Lemma sorted_zero (s : list CS) c d : sorted_values s -> nth c s k0 = k0 -> c <= d < length s -> nth d s k0 = k0.
Proof.
  intros [SN SD] N Hd. pose proof (descending_nth (map Cre s) SD c d ltac:(rewrite map_length; lia)) as H. rewrite !map_Cre_nth, N in H. cbn in H.
  destruct (real_value s d SN ltac:(lia)) as [E P]. rewrite E. apply cplx_eq; cbn in *; [lra|reflexivity].
Qed.
