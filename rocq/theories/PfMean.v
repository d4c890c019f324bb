(** Exact values of linear functions ([lfun]) and means of the estimates over all data sets. *)
From Coq Require Import Reals Lra.
From Verif Require Export PfLfun.
Open Scope nat_scope.

(** Mean and covariance of functions of outcomes with probabilities [P] *)
Definition mean (ds : list nat) (P : list nat -> R) (f : ofun) : R := rmsum ds (fun js => P js * f (rowZ js))%R.
Definition cv (ds : list nat) (P : list nat -> R) (f g : ofun) : R := (mean ds P (fun r => f r * g r) - mean ds P f * mean ds P g)%R.
Lemma mean_linear ds P : linear (mean ds P).
Proof.
  split.
  - intros f g H. apply rmsum_ext. intros js _. rewrite H. reflexivity.
  - intros a f g. unfold mean. rewrite <- rmsum_scale, <- rmsum_add. apply rmsum_ext. intros js _. ring.
Qed.
Lemma cv_covS ds P f g : cv ds P f g = covS (mean ds P) 1 f g.
Proof. unfold cv, covS. field. Qed.
Lemma cv_nonneg ds P f : (forall js, inr js ds -> (0 <= P js)%R) -> rmsum ds P = 1%R -> (0 <= cv ds P f f)%R.
Proof.
  intros Hp H1. rewrite cv_covS, covS_square; [|apply mean_linear| |lra].
  - apply Rmult_le_pos; [|lra]. apply rmsum_nonneg. intros js Hj. apply Rmult_le_pos; [apply Hp; exact Hj|apply Rle_0_sqr].
  - transitivity (rmsum ds P); [|exact H1]. apply rmsum_ext. intros js _. ring.
Qed.
Lemma sum_mean ds (q : nd RS) P h : ndwf q -> shp q = ds -> (forall js, inr js ds -> get q js = P js) ->
  rsum (map (fun p => h (snd p) * fst p)%R (combine (dat q) (map (zrow ds) (seq 0 (size ds))))) = mean ds P h.
Proof.
  intros W Sq G. unfold mean. rewrite rmsum_flat, rbig_rsum. f_equal.
  assert (E : forall (l : list R) n, length l = n -> combine l (map (zrow ds) (seq 0 n)) = map (fun k => (nth k l 0%R, zrow ds k)) (seq 0 n)).
  { intros l n <-. clear. assert (E : l = map (fun k => nth k l 0%R) (seq 0 (length l))) by (apply (nth_ext _ _ 0%R 0%R); [rewrite map_length, seq_length; reflexivity|]; intros n Hn; rewrite (nth_indep (map _ _) 0%R (nth 0 l 0%R)) by (rewrite map_length, seq_length; exact Hn); rewrite (map_nth (fun k => nth k l 0%R)), seq_nth by exact Hn; reflexivity).
    rewrite E at 1. generalize (seq 0 (length l)). induction l0 as [|a l0 IH]; [reflexivity|]. cbn. rewrite IH. reflexivity. }
  etransitivity; [refine (f_equal (map _) (E (dat q) (size ds) _)); rewrite <- Sq; exact W|]. rewrite map_map. apply map_ext_in. intros k Hk. apply in_seq in Hk. cbn [fst snd].
  assert (Hk' : k < size ds) by lia. specialize (G _ (unravel_inr _ _ Hk')). unfold get in G. rewrite Sq, ravel_unravel in G by exact Hk'. change (@nth (car RS) k (dat q) k0) with (@nth R k (dat q) 0%R) in G.
  rewrite <- G. unfold zrow. fold (rowZ (unravel ds k)). apply Rmult_comm.
Qed.

Definition mean_res (ds : list nat) (P : list nat -> R) (fs : list ofun) (coeff : option (list R)) : lres :=
  match coeff with
  | None => LArr (map (fun f => Fin (mean ds P f)) fs) (map (fun f => map (fun g => Fin (cv ds P f g)) fs) fs)
  | Some c => LVal (Fin (mean ds P (lin c fs))) (Fin (cv ds P (lin c fs) (lin c fs)))
  end.
Definition nonempty_args (coeff : option (list R)) (funs : option (list ofun)) : Prop := coeff <> Some [] /\ funs <> Some [].
Section Lfun.
Variable qr : nd CS -> res (nd CS * nd CS).
Hypothesis Hqr : qr_sound qr.
Theorem lfun_spec (x st : ltens CS) ns hs m rho P coeff funs eps : povm_ok x ns hs -> accepts hs st m IAuto rho ->
  psd_elems x -> sums_to_id x -> gram_rho hs rho -> unit_trace hs rho -> (0 <= eps)%R -> nsoutdims x <> [] -> born_prob x rho P ->
  nonempty_args coeff funs -> coeff_ok coeff (funs_of (nsoutdims x) funs) ->
  outc (qr_fails qr) (lfun qr x coeff funs st m eps) (fun r => kept st (snd r) /\ fst r = mean_res (nsoutdims x) P (funs_of (nsoutdims x) funs) coeff).
Proof.
  intros Hp Ha Px Cx Gr Tr He Hn HP [N1 N2] Hc. set (ds := nsoutdims x) in *.
  unfold lfun. replace ((match coeff with Some [] => true | _ => false end) || (match funs with Some [] => true | _ => false end)) with false by (destruct coeff as [[|]|], funs as [[|]|]; congruence || reflexivity).
  eapply outc_bind; [apply (pmf_as_array_spec qr x st ns hs m IAuto rho eps); assumption|]. intros [q st'] [(W & Sq & Iq & G) Ks]. cbn [fst snd] in *. fold ds.
  replace (match ds with [] => false | _ => true end) with true by (destruct ds; congruence). cbn [praise_unless]. fold (funs_of ds funs). set (fs := funs_of ds funs) in *. clearbody fs.
  replace (match coeff with None => true | Some c => Nat.eqb (length c) (length fs) end) with true by (destruct coeff; [cbn in Hc; rewrite Hc, Nat.eqb_refl|]; reflexivity). cbn [passert]. cbv zeta.
  destruct (povm_dims _ _ _ Hp) as (D1 & D2 & _). destruct (povm_pos _ _ _ Hp) as [P1 _].
  assert (GP : forall js, inr js ds -> get q js = P js).
  { intros js Hj. destruct (bigi_onto (outdims x) ltac:(rewrite D1; exact P1) js Hj) as (ks & Hk & <-). apply toC_inj. rewrite G by exact Hk. apply HP. exact Hk. }
  assert (NN : forall js, inr js ds -> (0 <= P js)%R) by (apply (prob_nonneg x ns hs rho); assumption).
  assert (S1 : rmsum ds P = 1%R).
  { unfold ds. rewrite (prob_total x ns hs rho P Hp Cx HP). unfold rtrace. unfold unit_trace in Tr. rewrite Tr. reflexivity. }
  set (l := combine (dat q) (map (zrow ds) (seq 0 (size ds)))).
  assert (SM : forall h : ofun, rsum (map (fun p => h (snd p) * fst p)%R l) = mean ds P h) by (intros h; apply sum_mean; assumption).
  rewrite (map_ext (fun f : ofun => rsum (map (fun q0 => f (snd q0) * fst q0)%R l)) (mean ds P)) by exact SM.
  rewrite (combine_map_r (mean ds P)), map_map.
  rewrite (map_ext _ (fun f => map (cv ds P f) fs)).
  2:{ intros f. rewrite map_map. apply map_ext. intros g. cbn [fst snd]. unfold cv. f_equal. rewrite <- SM. f_equal. apply map_ext. intros p. ring. }
  destruct coeff as [c|].
  - change (rsum (map (fun p => fst p * snd p)%R (combine c (map (mean ds P) fs)))) with (comb c (map (mean ds P) fs)). rewrite comb_linear by apply mean_linear.
    assert (EV : rsum (map (fun p => fst p * rsum (map (fun q0 => snd q0 * fst q0)%R (combine c (snd p))))%R (combine c (map (fun f => map (cv ds P f) fs) fs))) = cv ds P (lin c fs) (lin c fs)).
    { rewrite cv_covS. replace (covS (mean ds P) 1 (lin c fs) (lin c fs)) with (covS (mean ds P) 1 (lin c fs) (lin c fs) * 1)%R by ring. rewrite <- comb_cov by apply mean_linear. unfold comb at 1. rewrite !combine_map_id, !map_map. f_equal. apply map_ext.
      intros [a f]. cbn [fst snd]. f_equal. unfold comb. rewrite (map_ext (cv ds P f) (fun g => covS (mean ds P) 1 f g * 1)%R) by (intros g; rewrite cv_covS; ring). f_equal. apply map_ext. intros p. ring. }
    rewrite EV. pose proof (cv_nonneg ds P (lin c fs) NN S1) as V. rewrite (Rleb_true (- eps)) by lra. rewrite Rleb_true by exact V. cbn [passert]. apply outc_ok. cbn [fst snd]. split; [exact Ks|reflexivity].
  - apply outc_ok. cbn [fst snd]. split; [exact Ks|]. unfold mean_res. f_equal; rewrite map_map; [reflexivity|]. apply map_ext. intros f. rewrite map_map. reflexivity.
Qed.
Theorem lfun_empty (x st : ltens CS) coeff funs m eps : ~ nonempty_args coeff funs -> lfun qr x coeff funs st m eps = Ok (LVal (Fin 0) (Fin 0), st).
Proof.
  intros H. unfold lfun, nonempty_args in *. destruct coeff as [[|]|], funs as [[|]|]; cbn [orb]; try reflexivity; exfalso; apply H; split; discriminate.
Qed.
End Lfun.

(** ** Means over data sets of [n] independent samples *)
Section Mean.
Variables (ds : list nat) (P : list nat -> R).
Hypothesis P1 : rmsum ds P = 1%R.
Lemma iid_scale n c : forall f, iid ds P n (fun xs => c * f xs)%R = (c * iid ds P n f)%R.
Proof. induction n as [|n IH]; intros f; [reflexivity|]. cbn [iid]. rewrite <- rmsum_scale. apply rmsum_ext. intros x _. rewrite (IH (fun xs => f (x :: xs))). ring. Qed.
Lemma iid_add n : forall f g, iid ds P n (fun xs => f xs + g xs)%R = (iid ds P n f + iid ds P n g)%R.
Proof. induction n as [|n IH]; intros f g; [reflexivity|]. cbn [iid]. rewrite <- rmsum_add. apply rmsum_ext. intros x _. rewrite (IH (fun xs => f (x :: xs)) (fun xs => g (x :: xs))). ring. Qed.
Definition tot (h : ofun) (rows : list (list nat)) : R := rsum (map (fun js => h (rowZ js)) rows).
Lemma tot_cons h x xs : tot h (x :: xs) = (h (rowZ x) + tot h xs)%R. Proof. reflexivity. Qed.
Lemma iid_tot h n : iid ds P n (tot h) = (INR n * mean ds P h)%R.
Proof.
  induction n as [|n IH]; [cbn; ring|]. cbn [iid]. rewrite (rmsum_ext _ _ (fun x => P x * h (rowZ x) + (INR n * mean ds P h) * P x)%R).
  - rewrite rmsum_add, rmsum_scale, P1, S_INR. unfold mean. ring.
  - intros x _. rewrite (iid_ext ds P n _ (fun xs => h (rowZ x) + tot h xs)%R) by (intros; apply tot_cons). rewrite (iid_add n (fun _ => h (rowZ x)) (tot h)), iid_const, IH by exact P1. ring.
Qed.
Lemma iid_tot2 h n : iid ds P n (fun xs => tot h xs * tot h xs)%R = (INR n * mean ds P (fun r => h r * h r) + INR n * (INR n - 1) * (mean ds P h * mean ds P h))%R.
Proof.
  induction n as [|n IH]; [cbn; ring|]. cbn [iid]. rewrite (rmsum_ext _ _ (fun x => P x * (h (rowZ x) * h (rowZ x)) + (2 * (INR n * mean ds P h) * (P x * h (rowZ x)) + (iid ds P n (fun xs => tot h xs * tot h xs)) * P x))%R).
  - rewrite !rmsum_add, !rmsum_scale, P1, IH, S_INR. unfold mean. ring.
  - intros x _. rewrite (iid_ext ds P n _ (fun xs => (h (rowZ x) * h (rowZ x) + (2 * h (rowZ x)) * tot h xs) + tot h xs * tot h xs)%R) by (intros; rewrite tot_cons; ring).
    rewrite (iid_add n (fun xs => h (rowZ x) * h (rowZ x) + (2 * h (rowZ x)) * tot h xs)%R (fun xs => tot h xs * tot h xs)%R), (iid_add n (fun _ => h (rowZ x) * h (rowZ x))%R (fun xs => 2 * h (rowZ x) * tot h xs)%R), iid_const, (iid_scale n (2 * h (rowZ x)) (tot h)), iid_tot by exact P1. ring.
Qed.
(** Sample mean and its estimated variance *)
Definition smean (h : ofun) (rows : list (list nat)) : R := (tot h rows / INR (length rows))%R.
Definition svar (h : ofun) (rows : list (list nat)) : R := ((tot (fun r => h r * h r) rows / INR (length rows) - smean h rows * smean h rows) / (INR (length rows) - 1))%R.
Theorem smean_unbiased h n : 0 < n -> iid ds P n (smean h) = mean ds P h.
Proof.
  intros Hn. assert (N : INR n <> 0%R) by (apply not_0_INR; lia). rewrite (iid_ext _ _ _ _ (fun xs => / INR n * tot h xs)%R) by (intros xs L _; unfold smean; rewrite L; unfold Rdiv; ring).
  rewrite iid_scale, iid_tot. field. exact N.
Qed.
Theorem smean_variance h n : 0 < n -> iid ds P n (fun xs => (smean h xs - mean ds P h) * (smean h xs - mean ds P h))%R = (cv ds P h h / INR n)%R.
Proof.
  intros Hn. assert (N : INR n <> 0%R) by (apply not_0_INR; lia). set (m := mean ds P h).
  rewrite (iid_ext _ _ _ _ (fun xs => (/ (INR n * INR n)) * (tot h xs * tot h xs) + (- (2 * m / INR n) * tot h xs + m * m))%R) by (intros xs L _; unfold smean; rewrite L; field; exact N).
  rewrite (iid_add n (fun xs => (/ (INR n * INR n)) * (tot h xs * tot h xs))%R (fun xs => - (2 * m / INR n) * tot h xs + m * m)%R), (iid_add n (fun xs => - (2 * m / INR n) * tot h xs)%R (fun _ => m * m)%R).
  rewrite (iid_scale n (/ (INR n * INR n)) (fun xs => tot h xs * tot h xs)%R), (iid_scale n (- (2 * m / INR n)) (tot h)), iid_const, iid_tot, iid_tot2 by exact P1. fold m. unfold cv. fold m. field. exact N.
Qed.
Theorem svar_unbiased h n : 1 < n -> iid ds P n (svar h) = (cv ds P h h / INR n)%R.
Proof.
  intros Hn. assert (N : INR n <> 0%R) by (apply not_0_INR; lia). assert (N1 : (INR n - 1 <> 0)%R) by (apply lt_INR in Hn; change (INR 1) with 1%R in Hn; lra).
  rewrite (iid_ext _ _ _ _ (fun xs => (/ INR n / (INR n - 1)) * tot (fun r => h r * h r)%R xs + (- (/ (INR n * INR n) / (INR n - 1))) * (tot h xs * tot h xs))%R) by (intros xs L _; unfold svar, smean; rewrite L; field; split; assumption).
  rewrite (iid_add n (fun xs => (/ INR n / (INR n - 1)) * tot (fun r => h r * h r)%R xs)%R (fun xs => (- (/ (INR n * INR n) / (INR n - 1))) * (tot h xs * tot h xs))%R).
  rewrite (iid_scale n _ (tot (fun r => h r * h r)%R)), (iid_scale n _ (fun xs => tot h xs * tot h xs)%R), iid_tot, iid_tot2. unfold cv. field. split; assumption.
Qed.
End Mean.

(** [est_lfun] without weights returns sample mean and estimated variance. *)
Lemma SW_tot h rows : SW (map (fun _ => 1%R) (map rowZ rows)) (map rowZ rows) h = tot h rows.
Proof.
  unfold SW, tot. induction rows as [|r rows IH]; [reflexivity|]. cbn [map combine rsum fold_right fst snd]. fold (rsum (map (fun p => (h (snd p) * fst p)%R) (combine (map (fun _ => 1%R) (map rowZ rows)) (map rowZ rows)))). rewrite IH. unfold rsum. ring.
Qed.
Theorem est_lfun_plain {K : StarRing} (x : ltens K) c funs rows eps : nsoutdims x <> [] \/ funs <> None -> length c = length (funs_of (nsoutdims x) funs) -> (0 <= eps)%R -> 1 < length rows ->
  let F := lin c (funs_of (nsoutdims x) funs) in
  est_lfun x (Some c) funs (S2n (nsoutdims x) rows) None eps = Ok (LVal (Fin (smean F rows)) (Fin (svar F rows))) /\ (0 <= svar F rows)%R.
Proof.
  intros N Hc He Hn F. unfold S2n. destruct (est_lfun_spec x (Some c) funs (map rowZ rows) None eps N Hc I He) as (E & _ & V); [rewrite map_length; exact Hn|]. cbn [wts] in *.
  rewrite E. specialize (V F). fold F. unfold covS in *. rewrite !SW_tot, !rsum_ones, !map_length in *. split; [reflexivity|exact V].
Qed.

(** The mean of the relative frequency of an outcome is its probability. *)
Theorem freq_unbiased ds P js n : rmsum ds P = 1%R -> inr js ds -> 0 < n ->
  iid ds P n (fun rows => INR (count_occ row_dec rows js) / INR (length rows))%R = P js.
Proof.
  intros H1 Hj Hn. set (h := (fun r : list Z => if list_eq_dec Z.eq_dec r (rowZ js) then 1%R else 0%R) : ofun).
  rewrite (iid_ext _ _ _ _ (smean h)).
  - rewrite smean_unbiased by assumption. unfold mean. rewrite (rmsum_single _ js); [|exact Hj|].
    + unfold h. destruct (list_eq_dec Z.eq_dec (rowZ js) (rowZ js)); [ring|congruence].
    + intros i _ N. unfold h. destruct (list_eq_dec Z.eq_dec (rowZ i) (rowZ js)) as [E|_]; [|ring]. apply rowZ_inj in E. congruence.
  - intros rows _ _. unfold smean. f_equal. unfold tot. induction rows as [|r rows IH]; [reflexivity|]. cbn [count_occ map rsum fold_right]. fold (rsum (map (fun js => h (rowZ js)) rows)). rewrite <- IH. unfold h.
    destruct (row_dec r js) as [Q|N], (list_eq_dec Z.eq_dec (rowZ r) (rowZ js)) as [E|E'].
    + rewrite S_INR. ring.
    + subst r. congruence.
    + apply rowZ_inj in E. congruence.
    + ring.
Qed.
(** Lists of MP-POVMs: values and variances are added. *)
Lemma lres_sum_vals l : l <> [] -> lres_sum (map (fun p => LVal (Fin (fst p)) (Fin (snd p))) l) = Ok (LVal (Fin (rsum (map fst l))) (Fin (rsum (map snd l)))).
Proof.
  intros N. unfold lres_sum.
  assert (E : mapM (fun r => match r with LVal e v => Ok (e, v) | LArr _ _ => Err TypeError end) (map (fun p => LVal (Fin (fst p)) (Fin (snd p))) l) = Ok (map (fun p => (Fin (fst p), Fin (snd p))) l)).
  { clear N. induction l as [|a l IH]; [reflexivity|]. cbn [map mapM bind]. rewrite IH. reflexivity. }
  destruct l as [|a l]; [congruence|]. set (l0 := a :: l) in *. cbn [map]. change (LVal (Fin (fst a)) (Fin (snd a)) :: map (fun p => LVal (Fin (fst p)) (Fin (snd p))) l) with (map (fun p => LVal (Fin (fst p)) (Fin (snd p))) l0).
  rewrite E. cbn [bind]. rewrite !map_map. cbn [fst snd]. rewrite <- (map_map fst Fin), <- (map_map snd Fin), !fsum_fin. reflexivity.
Qed.
Theorem mppl_est_lfun_sum {K : StarRing} (xs : list (ltens K)) coeff funs samples vals weights eps :
  let fs := match funs with None => map (fun _ => None) xs | Some fs => fs end in
  xs <> [] -> length coeff = length xs -> length fs = length xs -> length samples = length xs ->
  Forall2 (fun q v => est_lfun (fst q) (Some (fst (snd q))) (fst (snd (snd q))) (snd (snd (snd q))) None (1 / 10 ^ 10) = Ok (LVal (Fin (fst v)) (Fin (snd v)))) (combine xs (combine coeff (combine fs samples))) vals ->
  mppl_est_lfun xs coeff funs samples weights eps = Ok (LVal (Fin (rsum (map fst vals))) (Fin (rsum (map snd vals)))).
Proof.
  intros fs N L1 L2 L3 H. unfold mppl_est_lfun. fold fs. rewrite L1, L2, L3, Nat.eqb_refl. cbn [passert].
  assert (E : mapM (fun q => est_lfun (fst q) (Some (fst (snd q))) (fst (snd (snd q))) (snd (snd (snd q))) None (1 / 10 ^ 10)) (combine xs (combine coeff (combine fs samples))) = Ok (map (fun p => LVal (Fin (fst p)) (Fin (snd p))) vals)).
  { clear -H. induction H as [|q v l l' Hq H IH]; [reflexivity|]. cbn [mapM map]. rewrite Hq. cbn [bind]. rewrite IH. reflexivity. }
  rewrite E. cbn [bind]. apply lres_sum_vals. intros ->. apply Forall2_len in H. rewrite !combine_length, L1, L2, L3, !Nat.min_id in H. apply N. apply length_zero_iff_nil. exact H.
Qed.
