(** [MPPovmList.est_lfun_from]: value and statistics of the estimate. *)
From Coq Require Import Reals Lra.
From Verif Require Export PfLfunVal.
Open Scope nat_scope.
Add Ring Cr : (k_ring CS).

(** Mean over samples, and estimated variance of this mean *)
Definition avg (f : list nat -> R) (lss : list (list nat)) : R := (rsum (map f lss) / INR (length lss))%R.
Definition avar (f : list nat -> R) (lss : list (list nat)) : R := ((avg (fun l => f l * f l) lss - avg f lss * avg f lss) / (INR (length lss) - 1))%R.
Definition toh (f : list nat -> R) : ofun := fun z => f (map Z.to_nat z).
Lemma avg_smean f lss : avg f lss = smean (toh f) lss.
Proof. unfold avg, smean, tot, toh. do 2 f_equal. apply map_ext. intros l. rewrite rowZ_to. reflexivity. Qed.
Lemma avar_svar f lss : avar f lss = svar (toh f) lss.
Proof.
  unfold avar, svar. rewrite (avg_smean f). unfold avg. f_equal. f_equal. f_equal. unfold tot, toh. f_equal. apply map_ext. intros l. rewrite rowZ_to. reflexivity.
Qed.
(** ** Data sets for several measurements *)
Definition oprob (b : meas) (l : list nat) : R := me_p b (bigi (me_n b) l).
Fixpoint datasets (O : list (meas * nat)) (f : list (list (list nat)) -> R) : R :=
  match O with
  | [] => f []
  | q :: O' => iid (me_n (fst q)) (oprob (fst q)) (snd q) (fun lss => datasets O' (fun D => f (lss :: D)))
  end.
Definition data_ok (O : list (meas * nat)) (D : list (list (list nat))) : Prop := Forall2 (fun q lss => length lss = snd q /\ Forall (fun l => inr l (me_n (fst q))) lss) O D.
Lemma datasets_ext O : forall f g, (forall D, data_ok O D -> f D = g D) -> datasets O f = datasets O g.
Proof.
  induction O as [|q O IH]; intros f g H; cbn [datasets]; [apply H; constructor|]. apply iid_ext. intros lss Hl Hv. apply IH. intros D HD. apply H. constructor; [split; assumption|exact HD].
Qed.
Lemma datasets_scale O c : forall f, datasets O (fun D => c * f D)%R = (c * datasets O f)%R.
Proof. induction O as [|q O IH]; intros f; [reflexivity|]. cbn [datasets]. rewrite <- iid_scale. apply iid_ext. intros lss _ _. apply (IH (fun D => f (lss :: D))). Qed.
Lemma datasets_add O : forall f g, datasets O (fun D => f D + g D)%R = (datasets O f + datasets O g)%R.
Proof. induction O as [|q O IH]; intros f g; [reflexivity|]. cbn [datasets]. rewrite <- iid_add. apply iid_ext. intros lss _ _. apply (IH (fun D => f (lss :: D)) (fun D => g (lss :: D))). Qed.
Definition normal (O : list (meas * nat)) : Prop := Forall (fun q => rmsum (me_n (fst q)) (oprob (fst q)) = 1%R) O.
Lemma datasets_const O c : normal O -> datasets O (fun _ => c) = c.
Proof. induction 1 as [|q O Hq H IH]; [reflexivity|]. cbn [datasets]. rewrite IH. apply iid_const. exact Hq. Qed.
(** A sum with one term per measurement *)
Definition dsum (h : meas * nat -> list (list nat) -> R) (O : list (meas * nat)) (D : list (list (list nat))) : R := rsum (zip2 h O D).
Theorem dsum_mean h O : normal O -> datasets O (dsum h O) = rsum (map (fun q => iid (me_n (fst q)) (oprob (fst q)) (snd q) (h q)) O).
Proof.
  intros H. induction H as [|q O Hq H IH]; [reflexivity|]. cbn [datasets map]. rewrite rsum_cons, <- IH. unfold dsum. cbn [zip2].
  rewrite (iid_ext _ _ _ _ (fun lss => h q lss + datasets O (dsum h O))%R).
  - rewrite iid_add, iid_const by exact Hq. reflexivity.
  - intros lss _ _. transitivity (datasets O (fun D => h q lss + dsum h O D)%R); [apply datasets_ext; intros D _; reflexivity|]. rewrite datasets_add, datasets_const by exact H. reflexivity.
Qed.
(** Independence: variances are added. *)
Theorem dsum_variance h (mu : meas * nat -> R) O : normal O -> (forall q, In q O -> iid (me_n (fst q)) (oprob (fst q)) (snd q) (h q) = mu q) ->
  let m := rsum (map mu O) in
  datasets O (fun D => (dsum h O D - m) * (dsum h O D - m))%R = rsum (map (fun q => iid (me_n (fst q)) (oprob (fst q)) (snd q) (fun lss => (h q lss - mu q) * (h q lss - mu q))%R) O).
Proof.
  intros H. induction H as [|q O Hq H IH]; intros HM; cbv zeta.
  - cbn [datasets map]. unfold dsum, rsum. cbn. ring.
  - cbv zeta in IH. cbn [datasets map]. rewrite !rsum_cons. rewrite <- IH by (intros; apply HM; right; assumption). set (m := rsum (map mu O)).
    assert (Z : datasets O (fun D => dsum h O D - m)%R = 0%R).
    { rewrite (datasets_ext O _ (fun D => dsum h O D + -1 * m)%R) by (intros; ring). rewrite datasets_add, datasets_const by exact H. rewrite dsum_mean by exact H. unfold m. rewrite (map_ext_in _ mu) by (intros a Ha; apply HM; right; exact Ha). ring. }
    rewrite (iid_ext _ _ _ _ (fun lss => (h q lss - mu q) * (h q lss - mu q) + datasets O (fun D => (dsum h O D - m) * (dsum h O D - m)))%R).
    + rewrite iid_add, iid_const by exact Hq. reflexivity.
    + intros lss _ _. rewrite (datasets_ext O _ (fun D => (h q lss - mu q) * (h q lss - mu q) + (2 * (h q lss - mu q) * (dsum h O D - m) + (dsum h O D - m) * (dsum h O D - m)))%R).
      * rewrite datasets_add, datasets_const by exact H. rewrite datasets_add. rewrite (datasets_scale O (2 * (h q lss - mu q)) (fun D => dsum h O D - m)%R), Z. ring.
      * intros D _. unfold dsum. cbn [zip2]. rewrite rsum_cons. ring.
Qed.

(** ** The estimate *)
Lemma mapM_data O D (G : meas * nat -> list (flt * ofun)) (V : meas * nat -> list (list nat) -> lres) eps : data_ok O D ->
  (forall q lss, In q O -> length lss = snd q -> Forall (fun l => inr l (me_n (fst q))) lss -> est_lfun_c (me_x (fst q)) (G q) (S2n (bigd (me_n (fst q))) (map (bigi (me_n (fst q))) lss)) eps = Ok (V q lss)) ->
  mapM (fun a : list (flt * ofun) * (ltens CS * smp) => est_lfun_c (fst (snd a)) (fst a) (snd (snd a)) eps)
    (combine (map G O) (combine (map (fun q => me_x (fst q)) O) (zip2 (fun q lss => S2n (bigd (me_n (fst q))) (map (bigi (me_n (fst q))) lss)) O D))) = Ok (zip2 V O D).
Proof.
  unfold data_ok. induction 1 as [|q lss O' D' [Hl Hv] HD IH]; intros K; [reflexivity|]. cbn [map zip2 combine mapM fst snd]. rewrite K by (auto; left; reflexivity). cbn [bind]. rewrite IH by (intros; apply K; auto; right; assumption). reflexivity.
Qed.
Section Est.
Variables (hs : list nat) (rho : mat CS) (eps : R) (X : list (meas * (list nat -> R))) (O : list (meas * nat)).
Definition weighted : list (meas * R) := map (fun q => (fst q, INR (snd q))) O.
Hypothesis HS : setting hs rho eps X weighted.
Hypothesis HN : forall q, In q O -> 1 < snd q.
Hypothesis HV : available hs eps X weighted.
Hypothesis He : (0 <= eps)%R.
(** The function of the outcomes of one member of [other] *)
Definition est_of (q : meas * nat) : list nat -> R := est_fun hs eps X weighted (fst q, INR (snd q)).
Definition est_value : list (list (list nat)) -> R := dsum (fun q lss => avg (est_of q) lss) O.
Definition est_variance : list (list (list nat)) -> R := dsum (fun q lss => avar (est_of q) lss) O.
Definition sample_arrays (D : list (list (list nat))) : list smp := zip2 (fun q lss => S2n (bigd (me_n (fst q))) (map (bigi (me_n (fst q))) lss)) O D.
Lemma weighted_ok : (forall q, In q weighted -> exists n : Z, snd q = IZR n) /\ (forall q, In q weighted -> (0 < snd q)%R).
Proof.
  split; intros q Hq; apply in_map_iff in Hq; destruct Hq as ([b n] & <- & Hq); cbn [fst snd].
  - exists (Z.of_nat n). apply INR_IZR_INZ.
  - apply lt_0_INR. specialize (HN _ Hq). cbn [snd] in HN. lia.
Qed.
Lemma member_est (q : meas * nat) lss : In q O -> length lss = snd q -> Forall (fun l => inr l (me_n (fst q))) lss ->
  est_lfun_c (me_x (fst q)) (map (fun e => (Fin (fst e), snd e)) (all_ents hs eps X weighted (fst q, INR (snd q)))) (S2n (bigd (me_n (fst q))) (map (bigi (me_n (fst q))) lss)) eps = Ok (LVal (Fin (avg (est_of q) lss)) (Fin (avar (est_of q) lss))).
Proof.
  intros Hq Hl Hv. unfold est_lfun_c. rewrite reals_fin, map_map. cbn [snd]. set (es := all_ents hs eps X weighted (fst q, INR (snd q))).
  assert (Hw : In (fst q, INR (snd q)) weighted) by (apply (in_map (fun q => (fst q, INR (snd q)))); exact Hq).
  pose proof HS as (H1 & H2 & H3). destruct (H2 _ Hw) as [Mq Nq]. cbn [fst] in Mq, Nq. destruct (povm_dims _ _ _ (proj1 Mq)) as (D & _). assert (Nx : nsoutdims (me_x (fst q)) = bigd (me_n (fst q))) by (unfold nsoutdims; rewrite D; reflexivity).
  pose proof (est_lfun_plain (me_x (fst q)) (map fst es) (Some (map snd es)) (map (bigi (me_n (fst q))) lss) eps) as P. cbn [funs_of] in P. rewrite Nx in P.
  destruct P as [P _]; [right; discriminate|rewrite !map_length; reflexivity|exact He|rewrite map_length, Hl; apply HN; exact Hq|]. etransitivity; [exact P|]. f_equal. f_equal; f_equal.
  - unfold smean, avg, tot. rewrite map_length, map_map. do 2 f_equal. apply map_ext_in. intros l Hin. rewrite Forall_forall in Hv. apply (est_fun_eq hs eps X weighted (fst q, INR (snd q)) l (setting_ready hs rho eps X weighted HS) Hw (Hv _ Hin)).
  - assert (E : forall l, In l lss -> lin (map fst es) (map snd es) (rowZ (bigi (me_n (fst q)) l)) = est_of q l) by (intros l Hin; rewrite Forall_forall in Hv; apply (est_fun_eq hs eps X weighted (fst q, INR (snd q)) l (setting_ready hs rho eps X weighted HS) Hw (Hv _ Hin))).
    unfold svar, avar, smean, avg, tot. rewrite map_length, !map_map. f_equal. rewrite (map_ext_in _ (est_of q) lss E). rewrite (map_ext_in _ (fun l => est_of q l * est_of q l)%R lss); [reflexivity|]. intros l Hin. rewrite (E l Hin). reflexivity.
Qed.
Lemma nsamples_data D : data_ok O D -> map (fun s => INR (nsamples s)) (sample_arrays D) = map snd weighted.
Proof.
  unfold sample_arrays, weighted, data_ok. intros H. rewrite map_map. cbn [snd]. clear -H. induction H as [|q lss O' D' [Hl _] H IH]; [reflexivity|]. cbn [zip2 map]. f_equal; [|exact IH]. unfold S2n. cbn [nsamples]. rewrite !map_length, Hl. reflexivity.
Qed.
Theorem est_lfun_from_value D : O <> [] -> data_ok O D ->
  est_lfun_from (selfs X) (others weighted) (coeffs X) (sample_arrays D) eps = Ok (LVal (Fin (est_value D)) (Fin (est_variance D))).
Proof.
  intros NO HD. destruct weighted_ok as [WI WP]. destruct (whole_ok hs eps X weighted WI WP HV) as [HA NL]. pose proof (setting_ready hs rho eps X weighted HS) as HR.
  unfold est_lfun_from. rewrite (nsamples_data D HD). rewrite (estimator_eq hs eps X weighted HR He). cbn [bind fst snd].
  destruct (cannot _ _) eqn:C; [exfalso; apply NL; apply (cannot_spec hs eps X weighted HR); exact C|].
  assert (E1 : map (fun q => flat_map (fun t => entsf hs eps weighted (fst t) (snd t) q) X) weighted = map (fun q => map (fun e => (Fin (fst e), snd e)) (all_ents hs eps X weighted (fst q, INR (snd q)))) O).
  { rewrite (map_ext_in _ (fun q => map (fun e => (Fin (fst e), snd e)) (all_ents hs eps X weighted q)) weighted) by (intros q Hq; apply all_fin; assumption). unfold weighted at 2. rewrite map_map. reflexivity. }
  rewrite E1.
  set (G := fun q => map (fun e => (Fin (fst e), snd e)) (all_ents hs eps X weighted (fst q, INR (snd q)))) in *.
  assert (M : mapM (fun a : list (flt * ofun) * (ltens CS * smp) => est_lfun_c (fst (snd a)) (fst a) (snd (snd a)) eps) (combine (map G O) (combine (others weighted) (sample_arrays D))) =
     Ok (zip2 (fun q lss => LVal (Fin (avg (est_of q) lss)) (Fin (avar (est_of q) lss))) O D)).
  { assert (Ow : others weighted = map (fun q => me_x (fst q)) O) by (unfold others, weighted; rewrite map_map; reflexivity). rewrite Ow. unfold sample_arrays.
    apply (mapM_data O D G (fun q lss => LVal (Fin (avg (est_of q) lss)) (Fin (avar (est_of q) lss))) eps HD). intros; apply member_est; assumption. }
  rewrite M. cbn [bind].
  assert (Z : zip2 (fun q lss => LVal (Fin (avg (est_of q) lss)) (Fin (avar (est_of q) lss))) O D = map (fun p => LVal (Fin (fst p)) (Fin (snd p))) (zip2 (fun q lss => (avg (est_of q) lss, avar (est_of q) lss)) O D)).
  { generalize est_of. intros e. generalize O D. intros O'. induction O' as [|q O' IH]; intros [|d D']; try reflexivity. cbn [zip2 map fst snd]. f_equal. apply IH. }
  rewrite Z, lres_sum_vals.
  - unfold est_value, est_variance, dsum. generalize est_of; intros e; f_equal; f_equal; f_equal; f_equal; generalize O D; intros O'; induction O' as [|q O' IH]; intros [|d D']; try reflexivity; cbn [zip2 map fst snd]; f_equal; apply IH.
  - unfold data_ok in HD. destruct HD; [congruence|]. discriminate.
Qed.
Lemma weighted_normal : unit_trace hs rho -> normal O.
Proof.
  intros Tr. apply Forall_forall. intros q Hq. assert (Hw : In (fst q, INR (snd q)) weighted) by (apply (in_map (fun q => (fst q, INR (snd q)))); exact Hq).
  pose proof HS as (_ & H2 & _). destruct (H2 _ Hw) as [(Ho & _ & So & BQ) _]. cbn [fst] in *. unfold oprob.
  apply PfHS.toC_inj. rewrite <- toC_rmsum. destruct (povm_dims _ _ _ Ho) as (D1 & D2 & _). unfold born_prob in BQ. rewrite D1 in BQ.
  rewrite (msum_ext (me_n (fst q)) _ (fun l => trw hs (elem_of (me_x (fst q)) l) rho)) by (intros l Hl; rewrite <- (mborn_trw _ _ hs rho l Ho); symmetry; apply BQ; exact Hl).
  rewrite <- trw_msum. unfold sums_to_id in So. rewrite D1, D2 in So. rewrite (trw_ext hs _ (fun is js => list_delta is js) rho) by exact So. unfold trw. rewrite toC_1, <- Tr. apply msum_ext. intros is Hi. apply (msum_list_delta hs is (fun js => rho js is)). exact Hi.
Qed.
Lemma toh_mean b f : mean (me_n b) (oprob b) (toh f) = omean b f.
Proof. unfold mean, omean, toh, oprob. apply rmsum_ext. intros l _. rewrite rowZ_to. reflexivity. Qed.
Lemma toh_cv b f : cv (me_n b) (oprob b) (toh f) (toh f) = ovar b f.
Proof. unfold cv, ovar. rewrite toh_mean. f_equal. rewrite <- toh_mean. reflexivity. Qed.
(** The estimate is unbiased; its variance, and the mean of the estimated variance *)
Theorem est_lfun_from_mean : unit_trace hs rho ->
  let target := rsum (map (fun t => rmsum (bigd (me_n (fst t))) (fun js => snd t js * me_p (fst t) js))%R X) in
  let v := rsum (map (fun q => ovar (fst q) (est_of q) / INR (snd q))%R O) in
  datasets O est_value = target /\ datasets O (fun D => (est_value D - target) * (est_value D - target))%R = v /\ datasets O est_variance = v.
Proof.
  intros Tr target v. destruct weighted_ok as [WI WP]. pose proof (weighted_normal Tr) as N. pose proof N as N'. unfold normal in N'. rewrite Forall_forall in N'.
  assert (M : forall q, In q O -> iid (me_n (fst q)) (oprob (fst q)) (snd q) (avg (est_of q)) = omean (fst q) (est_of q)).
  { intros q Hq. rewrite (iid_ext _ _ _ _ (smean (toh (est_of q)))) by (intros; apply avg_smean). rewrite smean_unbiased by (first [exact (N' q Hq)|specialize (HN q Hq); lia]). apply toh_mean. }
  assert (T : rsum (map (fun q => omean (fst q) (est_of q)) O) = target).
  { unfold target. rewrite <- (whole_total hs rho eps X weighted HS WI WP HV). rewrite <- (est_fun_total hs rho eps X weighted HS). unfold weighted at 2. rewrite map_map. reflexivity. }
  split; [|split].
  - unfold est_value. rewrite dsum_mean by exact N. rewrite <- T. f_equal. apply map_ext_in. exact M.
  - rewrite <- T. unfold est_value. rewrite (dsum_variance (fun q lss => avg (est_of q) lss) (fun q => omean (fst q) (est_of q)) O N M). unfold v. f_equal. apply map_ext_in. intros q Hq.
    rewrite (iid_ext _ _ _ _ (fun lss => (smean (toh (est_of q)) lss - mean (me_n (fst q)) (oprob (fst q)) (toh (est_of q))) * (smean (toh (est_of q)) lss - mean (me_n (fst q)) (oprob (fst q)) (toh (est_of q))))%R) by (intros; rewrite avg_smean, toh_mean; reflexivity).
    rewrite smean_variance by (first [exact (N' q Hq)|specialize (HN q Hq); lia]). rewrite toh_cv. reflexivity.
  - unfold est_variance. rewrite dsum_mean by exact N. unfold v. f_equal. apply map_ext_in. intros q Hq. rewrite (iid_ext _ _ _ _ (svar (toh (est_of q)))) by (intros; apply avar_svar).
    rewrite svar_unbiased by (first [exact (N' q Hq)|exact (HN q Hq)]). rewrite toh_cv. reflexivity.
Qed.
End Est.
