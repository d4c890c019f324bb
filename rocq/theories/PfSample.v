(** Conditional and direct sampling draw from the outcome probabilities. *)
From Coq Require Import Reals Lra.
From Verif Require Export PfDist PfMarg.
Open Scope nat_scope.
Add Ring Cr : (k_ring CS).

Lemma toC_rmsum ds f : msum (K:=CS) ds (fun i => toC (f i)) = toC (rmsum ds f).
Proof.
  rewrite msum_flat, rmsum_flat. unfold rbig. generalize (size ds). induction n as [|n IH]; [reflexivity|]. cbn [bigsum]. rewrite IH, <- toC_add. reflexivity.
Qed.
Lemma toC_inj x y : toC x = toC y -> x = y.
Proof. intros H. injection H. auto. Qed.

(** [project_pmf] of non-negative values whose sum is close to one *)
Lemma project_pmf_sum (a : nd CS) ie re : (0 <= ie)%R -> (0 <= re)%R -> shp a <> [] -> (forall z, In z (dat a) -> cnonneg z) ->
  (Rabs (rsum (map Cre (dat a)) - 1) <= re)%R ->
  project_pmf (VCplx a) ie re 0 = Ok (mkNd (K:=RS) (shp a) (map (fun x => x / rsum (map Cre (dat a)))%R (map Cre (dat a))), VCplx a).
Proof.
  intros Hie Hre Hs P S.
  assert (C : cut (VCplx a) 0 = map Cre (dat a)).
  { unfold cut. cbn [reals]. rewrite map_map. apply map_ext_in. intros z Hz. destruct (P z Hz) as [_ Hz']. unfold trunc.
    destruct (Rle_dec (Cre z) 0) as [H|H]; [rewrite Rleb_true by exact H; lra|rewrite Rleb_false by lra; reflexivity]. }
  rewrite pmf_unfold.
  - unfold normed. rewrite C. rewrite Rleb_true by exact S. reflexivity.
  - exact Hie.
  - intros y Hy. cbn in Hy. apply in_map_iff in Hy. destruct Hy as (z & <- & Hz). destruct (P z Hz) as [-> _]. rewrite Rabs_R0. exact Hie.
  - intros y Hy. cbn in Hy. apply in_map_iff in Hy. destruct Hy as (z & <- & Hz). destruct (P z Hz) as [_ Hz']. lra.
  - intros [E _]. exact (Hs E).
Qed.

Lemma pyrange_step a b s : (0 < s)%Z -> (a < b)%Z -> pyrange a b s = a :: pyrange (a + s) b s.
Proof.
  intros Hs Hab. unfold pyrange, range_len. destruct (Z.ltb_spec 0 s); [|lia].
  assert (E : ((b - a + s - 1) / s = (b - (a + s) + s - 1) / s + 1)%Z) by (rewrite <- Z.div_add by lia; f_equal; lia).
  assert (N : (0 <= (b - (a + s) + s - 1) / s)%Z) by (apply Z.div_pos; lia).
  rewrite E, Z2Nat.inj_add by lia. rewrite Nat.add_1_r. cbn [seq map]. f_equal; [lia|]. rewrite <- seq_shift, map_map. apply map_ext. intros k. lia.
Qed.
Lemma pyrange_done a b s : (0 < s)%Z -> (b <= a)%Z -> pyrange a b s = [].
Proof.
  intros Hs Hab. unfold pyrange, range_len. destruct (Z.ltb_spec 0 s); [|lia].
  assert (E : ((b - a + s - 1) / s <= 0)%Z). { destruct (Z_lt_le_dec (b - a + s - 1) 0). { assert ((b - a + s - 1) / s < 0)%Z by (apply Z.div_lt_upper_bound; lia). lia. } rewrite Z.div_small by lia. lia. }
  replace (Z.to_nat ((b - a + s - 1) / s)) with 0 by lia. reflexivity.
Qed.
Lemma pyrange_neg a b s : (s < 0)%Z -> (a <= b)%Z -> pyrange a b s = [].
Proof.
  intros Hs Hab. unfold pyrange, range_len. destruct (Z.ltb_spec 0 s); [lia|].
  assert (E : ((a - b - s - 1) / - s <= 0)%Z). { destruct (Z_lt_le_dec (a - b - s - 1) 0). { assert ((a - b - s - 1) / - s < 0)%Z by (apply Z.div_lt_upper_bound; lia). lia. } rewrite Z.div_small by lia. lia. }
  replace (Z.to_nat ((a - b - s - 1) / - s)) with 0 by lia. reflexivity.
Qed.

Section Cond.
Variables (z : ltens CS) (ds : list nat) (q : list nat -> R) (ms : list (ltens CS)) (g : nat) (eps : R).
Hypothesis Hz : mpa_ok z.
Hypothesis Sz : mshape z = singles ds.
Hypothesis Qz : forall is, inr is ds -> entry z (singles is) = toC (q is).
Hypothesis Qpos : forall is, inr is ds -> (0 <= q is)%R.
Hypothesis Lm : length ms = length ds.
Hypothesis Hm : forall k, k < length ds -> is_marg z ds (S k) (nth k ms (mkLt [] 0 0)).
Hypothesis Hg : 0 < g.
Hypothesis Hn : 0 < length ds.
Hypothesis He : (0 <= eps < 1)%R.
Let s : R := rmsum ds q.
Hypothesis Hs : (Rabs (s - 1) <= eps)%R.
Notation n := (length ds).
Definition mg (k : nat) (o : list nat) : R := rmsum (skipn k ds) (fun r => q (o ++ r)).

Lemma s_pos : (0 < s)%R.
Proof. unfold Rabs in Hs. destruct (Rcase_abs (s - 1)); lra. Qed.

Lemma inr_split i o r : inr o (firstn i ds) -> inr r (skipn i ds) -> inr (o ++ r) ds.
Proof. intros A B. rewrite <- (firstn_skipn i ds). apply inr_app; assumption. Qed.
Lemma firstn_min i j : firstn (Nat.min n (i + j)) ds = firstn i ds ++ firstn j (skipn i ds).
Proof.
  rewrite <- (firstn_skipn i ds) at 2. rewrite firstn_skipn.
  rewrite <- (firstn_skipn i (firstn (Nat.min n (i + j)) ds)). rewrite firstn_firstn, skipn_firstn_comm.
  destruct (Nat.le_gt_cases (i + j) n).
  - replace (Nat.min i (Nat.min n (i + j))) with i by lia. replace (Nat.min n (i + j) - i) with j by lia. reflexivity.
  - destruct (Nat.le_gt_cases i n).
    + replace (Nat.min i (Nat.min n (i + j))) with i by lia. f_equal. rewrite !firstn_all2; [reflexivity| |]; rewrite skipn_length; lia.
    + replace (Nat.min i (Nat.min n (i + j))) with n by lia. rewrite !firstn_all2 with (l:=ds) by lia. f_equal. rewrite skipn_all2 by lia. rewrite !firstn_nil. reflexivity.
Qed.
Lemma skipn_min i : skipn (Nat.min n i) ds = skipn i ds.
Proof. destruct (Nat.le_gt_cases i n). { rewrite Nat.min_r by lia. reflexivity. } rewrite !skipn_all2; [reflexivity|lia|lia]. Qed.
Lemma mg_nonneg i o : inr o (firstn i ds) -> (0 <= mg i o)%R.
Proof. intros Ho. apply rmsum_nonneg. intros r Hr. apply Qpos. eapply inr_split; eassumption. Qed.
Lemma mg_split i o : inr o (firstn i ds) -> mg i o = rmsum (firstn g (skipn i ds)) (fun j => mg (i + g) (o ++ j)).
Proof.
  intros Ho. unfold mg. rewrite <- (firstn_skipn g (skipn i ds)) at 1. rewrite rmsum_app. apply rmsum_ext. intros j Hj.
  rewrite skipn_add. replace (g + i) with (i + g) by lia. apply rmsum_ext. intros r Hr. rewrite app_assoc. reflexivity.
Qed.

Lemma step_mean i o rest : i < n -> inr o (firstn i ds) -> length rest = n - i -> mg i o <> 0%R ->
  forall f, expct (cond_step ms (Z.of_nat n) (Z.of_nat g) eps (o ++ rest, (mg i o / s)%R) (Z.of_nat i)) f =
    rmsum (firstn g (skipn i ds)) (fun j => mg (i + g) (o ++ j) / mg i o * f (Ok (o ++ j ++ skipn g rest, mg (i + g) (o ++ j) / s)))%R.
Proof.
  intros Hi Ho Lr Hmg f. assert (Lo : length o = i) by (rewrite (inr_length _ _ Ho), firstn_length; lia).
  set (D := firstn g (skipn i ds)). assert (LD : length D = Nat.min g (n - i)) by (unfold D; rewrite firstn_length, skipn_length; reflexivity).
  pose proof s_pos as Sp.
  set (m := Nat.min n (i + g)). destruct (Hm (m - 1) ltac:(lia)) as (M1 & M2 & M3). replace (S (m - 1)) with m in M2, M3 by lia.
  unfold m in M2, M3. rewrite firstn_min in M2, M3. rewrite skipn_min in M3. fold D in M2, M3. fold m in M1, M2, M3.
  set (p := nth (m - 1) ms (mkLt [] 0 0)) in *.
  destruct (fixed_array p (firstn i ds) D o M1 M2 Ho) as (u & u' & Eu & Eu' & Wu & Su & Gu).
  assert (Lp : llen p - i = length D). { assert (L := f_equal (@length _) M2). rewrite mshape_length, singles_length, app_length, firstn_length in L. lia. }
  assert (Op : (mg i o / s)%R <> 0%R). { intros E. apply Hmg. replace (mg i o) with ((mg i o / s) * s)%R by (field; lra). rewrite E. lra. }
  set (a := nscale (toC (/ (mg i o / s))) (to_array u')).
  assert (Sa : shp a = D) by exact Su.
  assert (Wa : ndwf a) by (unfold a, ndwf, nscale; cbn [shp dat]; rewrite map_length; exact Wu).
  assert (Ga : forall j, inr j D -> get a j = toC (mg (i + g) (o ++ j) * s / mg i o)).
  { intros j Hj. unfold a. rewrite get_nscale by (try exact Wu; rewrite ?Su; exact Hj). rewrite Gu by exact Hj. rewrite M3 by (apply inr_app; assumption).
    rewrite (msum_ext _ _ (fun r => toC (q ((o ++ j) ++ r)))).
    2:{ intros r Hr. apply Qz. apply inr_split with (i := m); [|unfold m; rewrite skipn_min; exact Hr]. unfold m. rewrite firstn_min. apply inr_app; assumption. }
    rewrite toC_rmsum. fold (mg (i + g) (o ++ j)). rewrite <- toC_mul. f_equal. field. split; [exact Hmg|lra]. }
  assert (Da : forall k, k < size D -> nth k (map Cre (dat a)) 0%R = (mg (i + g) (o ++ unravel D k) * s / mg i o)%R).
  { intros k Hk. change 0%R with (Cre (@k0 CS)). rewrite map_nth. assert (Hu := unravel_inr _ _ Hk). specialize (Ga _ Hu). unfold get in Ga. rewrite Sa, ravel_unravel in Ga by exact Hk. rewrite Ga. reflexivity. }
  assert (Ld : length (dat a) = size D) by (rewrite <- Sa; exact Wa).
  assert (IO : forall k, k < size D -> inr (o ++ unravel D k) (firstn (i + g) ds)).
  { intros k Hk. assert (E : firstn (i + g) ds = firstn i ds ++ D) by (unfold D; rewrite <- firstn_min; destruct (Nat.le_gt_cases (i + g) n); [rewrite Nat.min_r by lia; reflexivity|rewrite !firstn_all2 by lia; reflexivity]). rewrite E. apply inr_app; [exact Ho|apply unravel_inr; exact Hk]. }
  assert (Mi : (0 < mg i o)%R) by (pose proof (mg_nonneg i o Ho); lra).
  assert (NN : forall k, k < size D -> (0 <= mg (i + g) (o ++ unravel D k) / mg i o)%R).
  { intros k Hk. apply Rmult_le_pos; [apply mg_nonneg; apply IO; exact Hk|left; apply Rinv_0_lt_compat; exact Mi]. }
  assert (SumD : rsum (map Cre (dat a)) = s).
  { assert (E : map Cre (dat a) = map (fun k => nth k (map Cre (dat a)) 0%R) (seq 0 (size D))).
    { apply (nth_ext _ _ 0%R 0%R); [rewrite !map_length, seq_length; exact Ld|]. intros k Hk. rewrite map_length, Ld in Hk.
      rewrite (nth_indep (map (fun k => nth k (map Cre (dat a)) 0%R) (seq 0 (size D))) 0%R (nth 0 (map Cre (dat a)) 0%R)) by (rewrite map_length, seq_length; exact Hk).
      rewrite (map_nth (fun k => nth k (map Cre (dat a)) 0%R)), seq_nth by exact Hk. reflexivity. }
    rewrite E. rewrite (map_ext_in _ (fun k => (s / mg i o) * mg (i + g) (o ++ unravel D k))%R).
    2:{ intros k Hk. apply in_seq in Hk. rewrite Da by lia. field. lra. }
    rewrite <- rbig_rsum. rewrite <- (rmsum_flat D (fun j => (s / mg i o) * mg (i + g) (o ++ j))%R). rewrite rmsum_scale. unfold D. rewrite <- mg_split by exact Ho. field. lra. }
  assert (Hproj : project_pmf (VCplx a) eps eps 0 = Ok (mkNd (K:=RS) (shp a) (map (fun x => x / s)%R (map Cre (dat a))), VCplx a)).
  { rewrite <- SumD. apply project_pmf_sum; try lra.
    - rewrite Sa. intros E. rewrite E in LD. cbn in LD. lia.
    - intros w Hw. destruct (In_nth _ _ k0 Hw) as (k & Hk & <-). rewrite Ld in Hk. specialize (Ga _ (unravel_inr _ _ Hk)). unfold get in Ga. rewrite Sa, ravel_unravel in Ga by exact Hk. rewrite Ga.
      apply cnonneg_toC. specialize (NN k Hk). replace (mg (i + g) (o ++ unravel D k) * s / mg i o)%R with ((mg (i + g) (o ++ unravel D k) / mg i o) * s)%R by (field; lra). apply Rmult_le_pos; lra.
    - rewrite SumD. exact Hs. }
  set (P := mkNd (K:=RS) (shp a) (map (fun x => x / s)%R (map Cre (dat a)))) in *.
  assert (DP : forall k, k < size D -> (nth k (dat P) 0%R : R) = (mg (i + g) (o ++ unravel D k) / mg i o)%R :> R).
  { intros k Hk. unfold P. cbn [dat]. replace 0%R with ((fun x => x / s)%R 0%R) by (cbn beta; field; lra). rewrite (map_nth (fun x => x / s)%R). cbn beta. rewrite Da by exact Hk. field. split; lra. }
  assert (LP : length (dat P) = size D) by (unfold P; cbn [dat]; rewrite !map_length; exact Ld).
  unfold cond_step. rewrite !Nat2Z.id, <- Nat2Z.inj_add, <- Nat2Z.inj_min. fold m.
  replace (Z.of_nat m - 1)%Z with (Z.of_nat (m - 1)) by lia. rewrite (pyget_in _ ms (m - 1) (mkLt [] 0 0)) by lia. fold p. cbn [bind].
  rewrite firstn_app, Lo, Nat.sub_diag, firstn_all2 by lia. change (firstn 0 rest) with (@nil nat). rewrite app_nil_r, Lp, Eu. cbn [bind]. rewrite Eu'. cbn [bind].
  destruct (Req_EM_T (mg i o / s) 0); [contradiction|]. cbn [negb passert]. fold a. rewrite Hproj. cbn [bind fst].
  change (shp P) with (shp a). rewrite Sa. rewrite expct_rdbind, choice_mean.
  - rewrite (rmsum_flat D). unfold rbig. apply (bigsum_ext (K:=RS)). intros k Hk. rewrite DP by exact Hk. f_equal. rewrite expct_ret.
    assert (Lu := inr_length _ _ (unravel_inr _ _ Hk)).
    rewrite skipn_app, skipn_all2, Lo, Nat.sub_diag by lia. change (skipn 0 rest) with rest. rewrite app_nil_l.
    replace (Nat.eqb (length (unravel D k)) (length (firstn g rest))) with true by (symmetry; apply Nat.eqb_eq; rewrite Lu, LD, firstn_length; lia).
    cbn [praise_unless]. rewrite Nat2Z.id, skipn_app, Lo, skipn_all2 by lia. rewrite app_nil_l. replace (i + g - i) with g by lia. do 3 f_equal. etransitivity; [exact (f_equal (fun x => mg i o / s * x)%R (DP k Hk))|]. field. split; lra.
  - exact LP.
  - intros x Hx. destruct (In_nth _ _ 0%R Hx) as (k & Hk & <-). assert (Hk2 : k < size D) by (rewrite <- LP; exact Hk). refine (eq_rect_r (fun v => (0 <= v)%R) _ (DP k Hk2)). apply NN. exact Hk2.
  - unfold P. cbn [dat]. rewrite rsum_div, SumD. field. lra.
Qed.

Lemma loop_mean : forall k i o rest, n - i <= k -> inr o (firstn i ds) -> length rest = n - i -> mg i o <> 0%R ->
  forall f, expct (foldD (cond_step ms (Z.of_nat n) (Z.of_nat g) eps) (pyrange (Z.of_nat i) (Z.of_nat n) (Z.of_nat g)) (o ++ rest, (mg i o / s)%R)) f =
    rmsum (skipn i ds) (fun r => q (o ++ r) / mg i o * f (Ok (o ++ r, q (o ++ r) / s)))%R.
Proof.
  induction k as [|k IH]; intros i o rest Hk Ho Lr Hmg f.
  - rewrite pyrange_done by lia. cbn [foldD]. rewrite expct_ret. destruct rest; [|cbn in Lr; lia]. assert (E : mg i o = q o) by (unfold mg; rewrite skipn_all2 by lia; unfold rmsum; cbn [msum]; rewrite app_nil_r; reflexivity).
    rewrite skipn_all2 by lia. unfold rmsum. cbn [msum]. rewrite app_nil_r, E. rewrite E in Hmg. field_simplify; [|exact Hmg]. reflexivity.
  - destruct (Nat.le_gt_cases n i) as [H|H].
    + apply IH; try assumption; lia.
    + rewrite pyrange_step by lia. cbn [foldD]. rewrite expct_rdbind, step_mean by assumption.
      transitivity (rmsum (firstn g (skipn i ds) ++ skipn (i + g) ds) (fun r => q (o ++ r) / mg i o * f (Ok (o ++ r, q (o ++ r) / s)))%R).
      2:{ f_equal. rewrite <- (firstn_skipn g (skipn i ds)) at 2. rewrite skipn_add. reflexivity. }
      rewrite rmsum_app. apply rmsum_ext. intros j Hj.
      assert (HO : inr (o ++ j) (firstn (i + g) ds)).
      { assert (E : firstn (i + g) ds = firstn i ds ++ firstn g (skipn i ds)) by (rewrite <- firstn_min; destruct (Nat.le_gt_cases (i + g) n); [rewrite Nat.min_r by lia; reflexivity|rewrite !firstn_all2 by lia; reflexivity]). rewrite E. apply inr_app; assumption. }
      destruct (Req_EM_T (mg (i + g) (o ++ j)) 0) as [E0|E0].
      * rewrite E0. symmetry. rewrite (rmsum_ext _ _ (fun r => 0 * 0)%R). { rewrite rmsum_scale. unfold Rdiv. lra. }
        intros r Hr. assert (Z0 := rmsum_zero _ _ (fun r Hr => Qpos _ (inr_split (i + g) (o ++ j) r HO Hr)) E0 r Hr). cbn beta in Z0.
        rewrite app_assoc, Z0. unfold Rdiv. lra.
      * rewrite <- Nat2Z.inj_add. rewrite (app_assoc o j). rewrite IH.
        -- rewrite <- rmsum_scale. apply rmsum_ext. intros r Hr. rewrite <- !app_assoc. field. split; assumption.
        -- lia.
        -- exact HO.
        -- rewrite skipn_length. lia.
        -- exact E0.
Qed.

Theorem cond_follows rest : length rest = n -> List.last ms (mkLt [] 0 0) = z -> follows (sample_cond_single ms (Z.of_nat g) rest eps) ds (fun x => q x / s)%R.
Proof.
  intros Lr El f. pose proof s_pos as Sp. unfold sample_cond_single. rewrite El.
  assert (Ll : llen z = n) by (rewrite <- mshape_length, Sz, singles_length; reflexivity). rewrite Ll.
  destruct (Z.eqb_spec (Z.of_nat g) 0) as [Hg0|Hg0]; [lia|].
  assert (E0 : mg 0 [] = s) by reflexivity.
  rewrite expct_rdbind. replace (rest, 1%R) with ([] ++ rest, (mg 0 [] / s)%R) by (cbn [app]; f_equal; rewrite E0; field; lra).
  change 0%Z with (Z.of_nat 0). rewrite (loop_mean (length ds) 0 [] rest) by (try (constructor; fail); try rewrite E0; try lia; try lra).
  change (skipn 0 ds) with ds. apply rmsum_ext. intros x Hx. cbn [app fst snd]. rewrite E0. f_equal. rewrite expct_ret. f_equal.
  destruct (mget_spec z (map Z.of_nat x) Hz) as (w & Ew & Hw & Sw & _ & Aw).
  { rewrite Sz. clear -Hx. induction Hx as [|i d is ds' Hi _ IH]; [constructor|]. cbn. constructor; [lia|exact IH]. }
  rewrite Ew. cbn [bind].
  assert (Gw : get (to_array w) [] = toC (q x)).
  { assert (Sw' : mshape w = map (fun _ => []) ds) by (rewrite Sw, Sz; unfold singles; rewrite map_map; reflexivity).
    replace (get (to_array w) []) with (entry w (map (fun _ => []) ds)). 2:{ unfold entry. f_equal. clear. induction ds; [reflexivity|assumption]. }
    assert (V : Forall2 inr (map (fun _ => []) ds) (mshape w)) by (rewrite Sw'; apply nils_valid; reflexivity).
    rewrite entry_mp, Aw by assumption. rewrite <- Qz by exact Hx. rewrite entry_mp by (try exact Hz; rewrite Sz; apply singles_valid; exact Hx). f_equal.
    rewrite Sz. clear -Hx. induction Hx as [|i d is ds' Hi _ IH]; [reflexivity|]. cbn [map zip3 hd]. change (singles (i :: is)) with ([i] :: singles is). change (singles (d :: ds')) with ([d] :: singles ds'). cbn [zip3 hd]. f_equal; [|exact IH]. unfold norm_idx. rewrite pyidx_in by exact Hi. reflexivity. }
  rewrite Gw. 
  assert (B : (Rabs (q x - q x / s) <= eps)%R).
  { assert (Q1 := Qpos x Hx). assert (Q2 : (q x <= s)%R).
    { set (h := fun y => if list_eq_dec Nat.eq_dec y x then q x else 0%R).
      assert (Eh : rmsum ds h = q x).
      { rewrite (rmsum_single ds x h Hx); unfold h; [destruct (list_eq_dec Nat.eq_dec x x); [reflexivity|contradiction]|].
        intros i _ Hne. destruct (list_eq_dec Nat.eq_dec i x); [contradiction|reflexivity]. }
      rewrite <- Eh. unfold s. apply rmsum_le. intros i Hi. unfold h. destruct (list_eq_dec Nat.eq_dec i x) as [->|]; [lra|apply Qpos; exact Hi]. }
    replace (q x - q x / s)%R with ((q x / s) * (s - 1))%R by (field; lra). rewrite Rabs_mult. rewrite (Rabs_right (q x / s)) by (apply Rle_ge; apply Rmult_le_pos; [exact Q1|left; apply Rinv_0_lt_compat; exact Sp]).
    assert (Q3 : (q x / s <= 1)%R) by (apply Rmult_le_reg_r with s; [exact Sp|]; unfold Rdiv; rewrite Rmult_assoc, Rinv_l by lra; lra).
    assert (Q4 : (0 <= q x / s)%R) by (apply Rmult_le_pos; [exact Q1|left; apply Rinv_0_lt_compat; exact Sp]).
    pose proof (Rabs_pos (s - 1)). nra. }
  assert (C : Cmod (toC (q x) - toC (q x / s))%K = Rabs (q x - q x / s)).
  { unfold Cmod. cbn. rewrite Rminus_0_r || idtac. unfold Cre, Cim. cbn. replace (0 - 0)%R with 0%R by lra. rewrite Rmult_0_l, Rplus_0_r. apply sqrt_Rsqr_abs. }
  rewrite C, Rleb_true by exact B. reflexivity.
Qed.
End Cond.

(** ** [sample] *)
Section Sample.
Variable qr : nd CS -> res (nd CS * nd CS).
Hypothesis Hqr : qr_sound qr.

Lemma pmf_exp (x st : ltens CS) ns hs m rho : povm_ok x ns hs -> accepts hs st m IAuto rho ->
  outc (qr_fails qr) (pmf qr x st m) (fun r => is_exp x hs rho 0 (fst r) /\ kept st (snd r)).
Proof.
  intros Hp H. remember IAuto as i eqn:Ei.
  destruct H as [i R Hi|m i R Hi|m i (A1 & A2 & A3) Hm Hi|m i (A1 & A2 & A3) Hm Hi].
  - destruct R as (A1 & A2 & A3 & A4 & A5). destruct (whole x st ns hs Hp) as [L L1]; [rewrite <- A5; unfold leg1; rewrite map_length; reflexivity|].
    unfold pmf. rewrite L, Nat.eqb_refl. cbn [passert]. eapply outc_bind; [apply (exp_pmps_1 qr Hqr x st ns hs); assumption|].
    intros [zs s] (z & Ez & Hz & S). cbn [fst snd] in *. subst zs. apply outc_ok. cbn [fst snd]. split; [exact Hz|right; exact S].
  - subst i. destruct Hi; discriminate.
  - destruct (whole x st ns hs Hp) as [L L1]; [rewrite <- A3; unfold leg1; rewrite map_length; reflexivity|].
    unfold pmf. rewrite L, Nat.eqb_refl. cbn [passert]. eapply outc_bind; [apply (exp_mps_1 qr Hqr x st ns hs m); assumption|].
    intros r (z & -> & Hz). apply outc_ok. cbn [fst snd]. split; [exact Hz|left; reflexivity].
  - destruct (whole x st ns hs Hp) as [L _]; [rewrite A3; unfold squares; apply map_length|].
    destruct (exp_mpdo_1 qr x st ns hs m Hp A1 A2 A3 Hm) as (z & Ez & Hz). unfold pmf. rewrite L, Nat.eqb_refl. cbn [passert]. rewrite Ez. cbn [bind fst snd]. apply outc_ok. split; [exact Hz|left; reflexivity].
Qed.
Lemma exp_pruned (x : ltens CS) ns hs rho z : povm_ok x ns hs -> is_exp x hs rho 0 z -> nsoutdims x <> [] ->
  exists y, prune z true = Ok y /\ mpa_ok y /\ mshape y = singles (nsoutdims x) /\ is_pmf_arr x rho (to_array y).
Proof.
  intros Hp He Hn. destruct (exp_arr x ns hs rho z Hp He) as (y & Ey & Ay). exists y. split; [exact Ey|].
  destruct (exp_pmf _ _ _ _ _ Hp He) as (Hz & Sz & Az). destruct (povm_dims _ _ _ Hp) as (D1 & D2 & D3). destruct (povm_pos _ _ _ Hp) as [P1 _].
  destruct He as (_ & _ & _ & Fz & _). destruct (prune_single_spec z Hz) as (y' & Ey' & Hy & Sy & _).
  { unfold cform_ok. unfold canonical_form in Fz. injection Fz as -> ->. rewrite <- (mshape_length z), Sz, D1. unfold singles. rewrite map_length, D3. unfold cf_ok. pose proof (PfMpPovm.povm_len _ _ _ Hp). destruct Hp as (_ & _ & L & _). lia. }
  rewrite Ey in Ey'. injection Ey' as <-. split; [exact Hy|]. split; [|exact Ay]. rewrite Sy, Sz.
  assert (E : filter has_legs (map drop1 (singles (outdims x))) = singles (nsoutdims x)).
  { unfold nsoutdims. rewrite D1. clear - P1. induction P1 as [|n ns Hn P1 IH]; [reflexivity|]. change (map drop1 (singles (n :: ns))) with (drop1 [n] :: map drop1 (singles ns)). cbn [filter].
    assert (E : drop1 [n] = if Nat.eqb n 1 then [] else [n]) by (unfold drop1; rewrite size_single; reflexivity). rewrite E.
    destruct (Nat.eqb_spec n 1) as [->|N]; cbn [has_legs]; [exact IH|]. rewrite (proj2 (Nat.ltb_lt 1 n)) by lia. change (has_legs [n]) with true. cbv iota. cbn [singles map]. f_equal. exact IH. }
  unfold pruned. rewrite E. destruct (nsoutdims x); [congruence|reflexivity].
Qed.

(** [P] lists the (real) Born probabilities of the outcomes of sites with more than one outcome. *)
Definition born_prob (x : ltens CS) (rho : list nat -> list nat -> CS) (P : list nat -> R) : Prop :=
  forall ks, inr ks (outdims x) -> mborn x rho ks = toC (P (bigi (outdims x) ks)).
Definition rtrace (hs : list nat) (rho : list nat -> list nat -> CS) : R := Cre (msum hs (fun is => rho is is)).

Lemma arr_prob (x : ltens CS) ns hs rho P a : povm_ok x ns hs -> is_pmf_arr x rho a -> born_prob x rho P ->
  forall js, inr js (nsoutdims x) -> get a js = toC (P js).
Proof.
  intros Hp (_ & _ & A) HP js Hj. destruct (povm_dims _ _ _ Hp) as (D1 & _). destruct (povm_pos _ _ _ Hp) as [P1 _].
  destruct (bigi_onto (outdims x) ltac:(rewrite D1; exact P1) js Hj) as (ks & Hk & <-). rewrite A by exact Hk. apply HP. exact Hk.
Qed.
Lemma prob_total (x : ltens CS) ns hs rho P : povm_ok x ns hs -> sums_to_id x -> born_prob x rho P -> rmsum (nsoutdims x) P = rtrace hs rho.
Proof.
  intros Hp Cx HP. destruct (povm_dims _ _ _ Hp) as (D1 & D2 & _). destruct (povm_pos _ _ _ Hp) as [P1 _].
  assert (E := total_probability x rho Cx). rewrite (msum_ext _ _ (fun ks => toC (P (bigi (outdims x) ks)))) in E by exact HP.
  rewrite (msum_big (K:=CS) (outdims x) (fun js => toC (P js))) in E by (intros d Hd; rewrite D1 in Hd; exact (proj1 (Forall_forall _ _) P1 d Hd)).
  rewrite toC_rmsum, D2 in E. unfold rtrace. rewrite <- E. reflexivity.
Qed.
Lemma prob_nonneg (x : ltens CS) ns hs rho P : povm_ok x ns hs -> psd_elems x -> gram_rho hs rho -> born_prob x rho P -> forall js, inr js (nsoutdims x) -> (0 <= P js)%R.
Proof.
  intros Hp Px Gr HP js Hj. destruct (povm_dims _ _ _ Hp) as (D1 & D2 & _). destruct (povm_pos _ _ _ Hp) as [P1 _].
  destruct (bigi_onto (outdims x) ltac:(rewrite D1; exact P1) js Hj) as (ks & Hk & <-).
  destruct (born_nonneg x rho ks Px ltac:(rewrite D2; exact Gr) Hk) as [_ N]. rewrite HP in N by exact Hk. exact N.
Qed.

Lemma repeatD_map {A} (u : nat -> A) (c : rd nat) n : forall f, expct (rdbind (repeatD n c) (fun cs => dret (Ok (map u cs)))) f = expct (repeatD n (rdbind c (fun k => dret (Ok (u k))))) f.
Proof.
  induction n as [|n IH]; intros f.
  - cbn [repeatD]. rewrite expct_rdbind, !expct_ret. reflexivity.
  - cbn [repeatD]. rewrite expct_rdbind, !expct_rdbind. apply expct_ext. intros [k|e]; [|reflexivity].
    rewrite expct_rdbind, expct_ret, expct_rdbind.
    specialize (IH (fun r => match r with Ok l => f (Ok (u k :: l)) | Err e => f (Err e) end)). rewrite expct_rdbind in IH.
    etransitivity; [|etransitivity; [exact IH|]].
    + apply expct_ext. intros [l|e]; [rewrite !expct_ret; reflexivity|reflexivity].
    + apply expct_ext. intros [l|e]; [rewrite !expct_ret; reflexivity|reflexivity].
Qed.

Definition meth_ok (meth : smethod) (g : Z) : Prop := match meth with SCond => (0 < g)%Z | SDirect => True | SUnknown => False end.
Lemma choice_follows (a : nd RS) ds P s : ndwf a -> shp a = ds -> is_pmf a -> (forall js, inr js ds -> get a js = (P js / s)%R) ->
  follows (rdbind (rng_choice (size (shp a)) (dat a)) (fun k => dret (Ok (unravel (shp a) k)))) ds (fun js => P js / s)%R.
Proof.
  intros W S [N T] G f. rewrite expct_rdbind, choice_mean by assumption. rewrite rmsum_flat, S. unfold rbig. apply (bigsum_ext (K:=RS)). intros k Hk.
  rewrite expct_ret. assert (E := G _ (unravel_inr _ _ Hk)). unfold get in E. rewrite S, ravel_unravel in E by exact Hk. f_equal. exact E.
Qed.

Lemma cond_setup (x st : ltens CS) ns hs m rho P n g eps : povm_ok x ns hs -> accepts hs st m IAuto rho ->
  sums_to_id x -> (0 <= eps < 1)%R -> (Rabs (rtrace hs rho - 1) <= eps)%R -> nsoutdims x <> [] -> born_prob x rho P ->
  outc (qr_fails qr) (sample_cond qr x st m n g eps) (fun r => kept st (snd r) /\ exists y ms,
    fst r = repeatD n (sample_cond_single ms g (repeat 255 (length (nsoutdims x))) eps) /\
    mpa_ok y /\ mshape y = singles (nsoutdims x) /\ (forall js, inr js (nsoutdims x) -> entry y (singles js) = toC (P js)) /\
    length ms = length (nsoutdims x) /\ List.last ms (mkLt [] 0 0) = y /\ (forall k, k < length (nsoutdims x) -> is_marg y (nsoutdims x) (S k) (nth k ms (mkLt [] 0 0)))).
Proof.
  intros Hp Ha Cx He Tr Hn HP.
  assert (ST : rmsum (nsoutdims x) P = rtrace hs rho) by (apply (prob_total x ns hs); assumption).
  set (s := rtrace hs rho) in *.
  unfold sample_cond. eapply outc_bind; [apply (pmf_exp x st ns hs m rho Hp Ha)|]. intros [z st'] [Hz Ks]. cbn [fst snd] in *.
  destruct (exp_pruned x ns hs rho z Hp Hz Hn) as (y & Ey & Hy & Sy & Ay). rewrite Ey. cbn [bind].
  assert (Ge : forall js, inr js (nsoutdims x) -> entry y (singles js) = toC (P js)).
  { intros js Hj. unfold entry. rewrite concat_singles. apply (arr_prob x ns hs rho P (to_array y) Hp Ay HP js Hj). }
  destruct (sum_all y _ Hy Sy) as (a & Ea & Ga). rewrite Ea. cbn [bind].
  assert (Gs : msum (nsoutdims x) (fun is => entry y (singles is)) = toC s) by (rewrite (msum_ext _ _ (fun is => toC (P is))) by exact Ge; rewrite toC_rmsum, ST; reflexivity).
  rewrite Ga, Gs. change (Cim (toC s)) with 0%R. change (Cre (toC s)) with s. rewrite Rabs_R0, Rleb_true by lra. rewrite Rabs_minus_sym, Rleb_true by exact Tr. cbn [passert].
  assert (Ly : llen y = length (nsoutdims x)) by (rewrite <- mshape_length, Sy; apply singles_length).
  assert (Hpos : 0 < length (nsoutdims x)) by (destruct (nsoutdims x); [congruence|cbn; lia]).
  destruct (marginals_spec (llen y) y (nsoutdims x) Hy Sy (eq_sym Ly) ltac:(lia)) as (ms & b & Em & Lms & Lst & Hms & Gb). rewrite Em. cbn [bind fst snd].
  rewrite Gb, Gs.
  assert (C : Cmod (toC s - k1)%K = Rabs (s - 1)).
  { unfold Cmod. cbn. unfold Cre, Cim. cbn. replace (0 - 0)%R with 0%R by lra. rewrite Rmult_0_l, Rplus_0_r. apply sqrt_Rsqr_abs. }
  rewrite C, Rleb_true by exact Tr. cbn [passert]. apply outc_ok. cbn [fst snd]. split; [exact Ks|]. exists y, ms.
  split; [reflexivity|]. split; [exact Hy|]. split; [exact Sy|]. split; [exact Ge|]. split; [lia|]. split; [exact Lst|]. intros k Hk. apply Hms. lia.
Qed.
Lemma sample_len (x st : ltens CS) ns hs m i rho : povm_ok x ns hs -> accepts hs st m i rho -> llen x = llen st.
Proof.
  intros Hp Ha. destruct (whole x st ns hs Hp) as [L _]; [|exact L]. destruct Ha as [i R Hi|m i R Hi|m i (A1 & A2 & A3) _ _|m i (A1 & A2 & A3) _ _].
  - destruct R as (_ & _ & _ & _ & <-). unfold leg1. rewrite map_length. reflexivity.
  - destruct R as (_ & _ & _ & _ & <-). unfold leg1. rewrite map_length. reflexivity.
  - rewrite <- A3. unfold leg1. rewrite map_length. reflexivity.
  - rewrite A3. unfold squares. apply map_length.
Qed.
Lemma out_255 (x : ltens CS) ns hs : povm_ok x ns hs -> forallb (fun d => Nat.leb d 255) (outdims x) = true.
Proof.
  intros Hp. destruct (povm_dims _ _ _ Hp) as (D1 & _). apply forallb_forall. intros d Hd. apply Nat.leb_le. rewrite D1 in Hd. destruct Hp as (_ & _ & _ & _ & B). exact (proj1 (Forall_forall _ _) B d Hd).
Qed.

Theorem sample_spec (x st : ltens CS) ns hs m rho P n meth g eps : povm_ok x ns hs -> accepts hs st m IAuto rho ->
  psd_elems x -> sums_to_id x -> gram_rho hs rho -> (0 <= eps < 1)%R -> (Rabs (rtrace hs rho - 1) <= eps)%R -> nsoutdims x <> [] ->
  born_prob x rho P -> meth_ok meth g ->
  outc (qr_fails qr) (sample qr x st n meth g m eps) (fun r => kept st (snd r) /\
    forall f, expct (fst r) f = iid (nsoutdims x) (fun js => P js / rtrace hs rho)%R n (fun rows => f (Ok rows))).
Proof.
  intros Hp Ha Px Cx Gr He Tr Hn HP Hm. destruct (povm_dims _ _ _ Hp) as (D1 & D2 & D3).
  pose proof (sample_len x st ns hs m IAuto rho Hp Ha) as Ls. pose proof (out_255 x ns hs Hp) as L255.
  assert (ST : rmsum (nsoutdims x) P = rtrace hs rho) by (apply (prob_total x ns hs); assumption).
  assert (NN : forall js, inr js (nsoutdims x) -> (0 <= P js)%R) by (apply (prob_nonneg x ns hs rho); assumption).
  set (s := rtrace hs rho) in *.
  assert (Spos : (0 < s)%R) by (unfold Rabs in Tr; destruct (Rcase_abs (s - 1)); lra).
  unfold sample. rewrite Ls, Nat.eqb_refl, L255. cbn [passert].
  apply (outc_bind _ _ _ (fun r => kept st (snd r) /\ forall f, expct (fst r) f = iid (nsoutdims x) (fun js => P js / s)%R n (fun rows => f (Ok rows)))).
  2:{ intros r Hr. apply outc_ok. cbn [fst snd]. destruct Hr as [Kr Er]. split; [exact Kr|]. intros f. rewrite expct_rdbind.
      etransitivity; [apply (Er (fun v => match v with Ok a => expct (dret (passert (forallb (fun row => forallb (fun p => Nat.ltb (fst p) (snd p)) (combine row (nsoutdims x))) a) (Ok a))) f | Err e => f (Err e) end))|].
      apply iid_ext. intros rows Lr Vr. cbn beta iota. rewrite expct_ret. f_equal.
      replace (forallb _ rows) with true; [reflexivity|]. symmetry. apply forallb_forall. intros row Hrow.
      assert (V := proj1 (Forall_forall _ _) Vr row Hrow). clear -V. revert V. generalize (nsoutdims x). intros ds0 V. induction V as [|i d is ds Hi V IH]; [reflexivity|]. cbn [combine forallb fst snd]. rewrite IH, andb_true_r. apply Nat.ltb_lt. exact Hi. }
  destruct meth; cbn in Hm; [|clear Hm|contradiction].
  - eapply outc_weaken; [apply (cond_setup x st ns hs m rho P n g eps); try assumption|exact (fun F => F)|].
    intros r (Ks & y & ms & Er & Hy & Sy & Ge & Lms & Lst & Hms). split; [exact Ks|]. intros f. etransitivity; [exact (f_equal (fun m => expct m f) Er)|].
    assert (Hpos : 0 < length (nsoutdims x)) by (destruct (nsoutdims x); [congruence|cbn; lia]).
    apply repeatD_mean. rewrite <- (Z2Nat.id g) by lia. rewrite <- ST.
    apply (cond_follows y (nsoutdims x) P ms (Z.to_nat g) eps Hy Sy Ge NN); try assumption; try lia.
    + rewrite ST. exact Tr.
    + apply repeat_length.
  - unfold sample_direct, pmf_as_array. eapply outc_bind.
    { eapply outc_bind; [apply (pmf_raw_spec qr x st ns hs m IAuto rho Hqr Hp Ha)|]. intros [a st'] [Aa Ks]. cbn [fst snd] in *.
      pose proof Aa as (Wa & Sa & _). pose proof (arr_prob x ns hs rho P a Hp Aa HP) as Ga.
      assert (Nz : forall v, In v (dat a) -> cnonneg v).
      { intros v Hv. destruct (In_nth _ _ k0 Hv) as (k & Hk & <-). assert (Hk' : k < size (nsoutdims x)) by (rewrite <- Sa, <- Wa; exact Hk).
        assert (E := Ga _ (unravel_inr _ _ Hk')). unfold get in E. rewrite Sa, ravel_unravel in E by exact Hk'. rewrite E. apply cnonneg_toC. apply NN. apply unravel_inr. exact Hk'. }
      assert (Es : rsum (map Cre (dat a)) = s).
      { rewrite rsum_bigsum. rewrite Wa. rewrite (bigsum_dat a Wa). rewrite Sa. rewrite (msum_ext _ _ (fun is => toC (P is))) by exact Ga. rewrite toC_rmsum, ST. reflexivity. }
      rewrite project_pmf_sum; try assumption; try lra; [|rewrite Sa; exact Hn|rewrite Es; exact Tr]. cbn [bind fst snd]. rewrite Es.
      apply outc_ok. instantiate (1 := fun r => kept st (snd r) /\ ndwf (fst r) /\ shp (fst r) = nsoutdims x /\ is_pmf (fst r) /\ forall js, inr js (nsoutdims x) -> get (fst r) js = (P js / s)%R).
      cbn [fst snd]. split; [exact Ks|]. split; [unfold ndwf; cbn [shp dat]; rewrite !map_length; exact Wa|]. split; [exact Sa|]. split.
      - split; cbn [dat].
        + intros v Hv. apply in_map_iff in Hv. destruct Hv as (w & <- & Hw). apply in_map_iff in Hw. destruct Hw as (c & <- & Hc). destruct (Nz c Hc) as [_ H]. apply Rmult_le_pos; [exact H|left; apply Rinv_0_lt_compat; exact Spos].
        + rewrite rsum_div, Es. field. lra.
      - intros js Hj. specialize (Ga js Hj). unfold get in *. cbn [shp dat].
        assert (Hk : ravel (shp a) js < length (dat a)) by (rewrite Wa; apply ravel_lt; rewrite Sa; exact Hj).
        rewrite map_map. rewrite (nth_indep _ _ ((fun v => (Cre v / s)%R) k0)) by (rewrite map_length; exact Hk). rewrite (map_nth (fun v => (Cre v / s)%R)). rewrite Ga. reflexivity. }
    intros [a st'] (Ks & Wa & Sa & Ia & Ga). cbn [fst snd] in *. apply outc_ok. cbn [fst snd]. split; [exact Ks|]. intros f.
    rewrite repeatD_map. apply repeatD_mean. apply choice_follows; assumption.
Qed.
(** Conditional sampling with a group size that is not positive *)
Lemma repeatD_err {A} (c : rd A) e n : (forall f, expct c f = f (Err e)) -> 0 < n -> forall f, expct (repeatD n c) f = f (Err e).
Proof. intros H Hn f. destruct n as [|n]; [lia|]. cbn [repeatD]. rewrite expct_rdbind, H. reflexivity. Qed.
Lemma check_err {A B} (m : rd A) (k : A -> rd B) e : (forall f, expct m f = f (Err e)) -> forall f, expct (rdbind m k) f = f (Err e) :> R.
Proof. intros H f. rewrite expct_rdbind, H. reflexivity. Qed.
Theorem sample_group_err (x st : ltens CS) ns hs m rho P n g eps : povm_ok x ns hs -> accepts hs st m IAuto rho ->
  sums_to_id x -> (0 <= eps < 1)%R -> (Rabs (rtrace hs rho - 1) <= eps)%R -> nsoutdims x <> [] -> born_prob x rho P -> (g <= 0)%Z -> 0 < n ->
  outc (qr_fails qr) (sample qr x st n SCond g m eps) (fun r => forall f, expct (fst r) f = f (Err (if (g =? 0)%Z then ValueError else IndexError))).
Proof.
  intros Hp Ha Cx He Tr Hn HP Hg Hn0. unfold sample. rewrite (sample_len x st ns hs m IAuto rho Hp Ha), Nat.eqb_refl, (out_255 x ns hs Hp). cbn [passert].
  eapply outc_bind; [apply (cond_setup x st ns hs m rho P n g eps); try assumption|].
  intros r (Ks & y & ms & Er & Hy & Sy & Ge & Lms & Lst & Hms). apply outc_ok. cbn [fst]. apply check_err. intros f0. etransitivity; [exact (f_equal (fun m => expct m f0) Er)|]. revert f0. apply repeatD_err; [|exact Hn0]. intros f.
  unfold sample_cond_single. destruct (Z.eqb_spec g 0) as [->|G0]; [apply expct_ret|]. rewrite Lst, pyrange_neg by lia. cbn [foldD]. rewrite expct_rdbind, !expct_ret.
  f_equal. cbn [fst snd]. unfold mget.
  assert (Ly : llen y = length (nsoutdims x)) by (rewrite <- mshape_length, Sy; apply singles_length).
  rewrite map_length, repeat_length, Ly, Nat.eqb_refl. cbn [passert].
  destruct Hy as [Hy0 Hb]. unfold llen in Ly. destruct (lts y) as [|t ts] eqn:El; [congruence|]. 
  destruct (nsoutdims x) as [|d ds] eqn:Ed; [congruence|]. cbn [length repeat map combine mapM fst snd].
  assert (Hd : pdims t = [d]) by (unfold mshape in Sy; rewrite El in Sy; cbn in Sy; injection Sy; auto).
  assert (Ok_t : lt_ok t) by (eapply bonds_in; [exact Hb|left; reflexivity]).
  assert (Hd255 : d <= 255).
  { assert (In d (nsoutdims x)) by (rewrite Ed; left; reflexivity). unfold nsoutdims in H. apply filter_In in H. destruct H as [H _]. pose proof (out_255 x ns hs Hp) as L. rewrite forallb_forall in L. apply Nat.leb_le. apply L. exact H. }
  replace (local_get t (Z.of_nat 255)) with (@Err (nd CS) IndexError); [reflexivity|].
  unfold local_get, ndim. rewrite (lt_ok_shp t Ok_t), Hd. cbn [length app nth Nat.ltb Nat.leb]. unfold pyidx. destruct (Z.leb_spec 0 (Z.of_nat 255)); [|lia]. destruct (Z.ltb_spec (Z.of_nat 255) (Z.of_nat d)); [lia|reflexivity].
Qed.
(** A state whose trace is not within [eps] of one is refused by both methods. *)
Theorem sample_unnormalised (x st : ltens CS) ns hs m rho P n meth g eps : povm_ok x ns hs -> accepts hs st m IAuto rho ->
  psd_elems x -> sums_to_id x -> gram_rho hs rho -> (0 <= eps)%R -> (eps < Rabs (rtrace hs rho - 1))%R -> nsoutdims x <> [] -> born_prob x rho P -> meth <> SUnknown ->
  sample qr x st n meth g m eps = Err AssertionError \/ (sample qr x st n meth g m eps = Err LinAlgError /\ qr_fails qr).
Proof.
  intros Hp Ha Px Cx Gr He Tr Hn HP Hm. unfold sample. rewrite (sample_len x st ns hs m IAuto rho Hp Ha), Nat.eqb_refl, (out_255 x ns hs Hp). cbn [passert].
  assert (ST : rmsum (nsoutdims x) P = rtrace hs rho) by (apply (prob_total x ns hs); assumption).
  destruct meth; [| |congruence].
  - unfold sample_cond. destruct (pmf_exp x st ns hs m rho Hp Ha) as [([z st'] & E & Hz & Ks)|[E F]]; rewrite E; [|right; split; [reflexivity|exact F]]. cbn [bind fst snd] in *. left.
    destruct (exp_pruned x ns hs rho z Hp Hz Hn) as (y & Ey & Hy & Sy & Ay). rewrite Ey. cbn [bind].
    assert (Ge : forall js, inr js (nsoutdims x) -> entry y (singles js) = toC (P js)).
    { intros js Hj. unfold entry. rewrite concat_singles. apply (arr_prob x ns hs rho P (to_array y) Hp Ay HP js Hj). }
    destruct (sum_all y _ Hy Sy) as (a & Ea & Ga). rewrite Ea. cbn [bind].
    assert (Gs : msum (nsoutdims x) (fun is => entry y (singles is)) = toC (rtrace hs rho)) by (rewrite (msum_ext _ _ (fun is => toC (P is))) by exact Ge; rewrite toC_rmsum, ST; reflexivity).
    rewrite Ga, Gs. change (Cim (toC (rtrace hs rho))) with 0%R. change (Cre (toC (rtrace hs rho))) with (rtrace hs rho). rewrite Rabs_R0, Rleb_true by lra. rewrite Rabs_minus_sym, Rleb_false by exact Tr. reflexivity.
  - unfold sample_direct. destruct (pmf_as_array_unnormalised qr x st ns hs m IAuto rho eps) as [E|[E F]]; try assumption.
    + intros E. apply Hn. unfold nsoutdims. rewrite E. clear. induction (outdims x); [reflexivity|exact IHl].
    + left. rewrite E. reflexivity.
    + right. rewrite E. split; [reflexivity|exact F].
Qed.
End Sample.

(** There are such probabilities. *)
Fixpoint unbig (ds js : list nat) : list nat :=
  match ds with
  | [] => []
  | d :: ds' => if Nat.ltb 1 d then hd 0 js :: unbig ds' (tl js) else 0 :: unbig ds' js
  end.
Lemma unbig_bigi ds : forall ks, inr ks ds -> unbig ds (bigi ds ks) = ks.
Proof.
  induction ds as [|d ds IH]; intros ks Hk; [inversion Hk; reflexivity|]. apply inr_cons_inv in Hk. destruct Hk as (k & ks' & -> & Hk & Hks).
  unfold bigi. cbn [combine filter map fst unbig]. destruct (Nat.ltb_spec 1 d) as [H|H]; cbn [map snd hd tl].
  - f_equal. apply IH. exact Hks.
  - assert (k = 0) by lia. subst k. f_equal. apply IH. exact Hks.
Qed.
Lemma born_prob_exists (x : ltens CS) rho : psd_elems x -> gram_rho (hdims x) rho -> exists P, born_prob x rho P.
Proof.
  intros Px Gr. exists (fun js => Cre (mborn x rho (unbig (outdims x) js))). intros ks Hk. rewrite unbig_bigi by exact Hk.
  destruct (born_nonneg x rho ks Px Gr Hk) as [I _]. apply cplx_eq; [reflexivity|exact I].
Qed.
Lemma bigd_ne ds js : bigd ds <> [] -> bigd ds = js -> js <> [].
Proof. intros H <-. exact H. Qed.
