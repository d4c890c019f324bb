(** Properties: linear functions evaluated and estimated from other POVMs. *)
From Coq Require Import Reals Lra.
From Verif Require Import PfLfunEx PfMpplLfun.
Open Scope nat_scope.
Add Ring Cr : (k_ring CS).

(** A measurement [m : meas] ([PfLfunFrom]) is an MP-POVM [me_x m] with [me_n m] outcomes per site
    and the probabilities [me_p m].  [X] lists the members of [self] with their coefficients, [OW]
    the members of [other] with their weights.  [setting hs rho eps X OW] ([PfLfunVal]): all are
    POVMs on the sites [hs], their elements are nonzero, the probabilities are those of [rho], and
    elements that [match_elems] reports as matching with tolerance [eps] are proportional.
    [available]: every outcome with a coefficient [<> 0] matches an element of some member of
    [other].  [nme]: number of matching elements; [total_w]: the weights of all matching elements;
    [acc_w]: the accumulator of [_mppl_lfun_estimator]. *)

(** ** C65: [lfun_from] *)
(** The weighted average for positive whole numbers as weights: the value is the value of the
    linear function. *)
Theorem C65_whole_weights_partial qr hs rho eps X OW st m : qr_sound qr -> setting hs rho eps X OW -> OW <> [] ->
  (forall q, In q OW -> exists n : Z, snd q = IZR n) -> (forall q, In q OW -> (0 < snd q)%R) -> available hs eps X OW ->
  accepts hs st m IAuto rho -> mpsd hs rho -> unit_trace hs rho -> (0 <= eps)%R ->
  outc (qr_fails qr) (lfun_from qr (map (fun t => me_x (fst t)) X) (map (fun q => me_x (fst q)) OW) (coeffs X) st m (Some (map snd OW)) eps) (fun z => exists v,
    fst z = LVal (Fin (rsum (map (fun t => rmsum (bigd (me_n (fst t))) (fun js => snd t js * me_p (fst t) js))%R X))) (Fin v) /\ snd z = st).
Proof.
  intros Hq HS NO HI HP HV Acc Ps Tr He. apply (outc_weaken _ _ _ _ _ (lfun_from_whole qr Hq hs rho eps X OW HS HI HP HV st m NO Acc (mpsd_gram _ _ Ps) Tr He) (fun f => f)).
  intros z [E S]. eexists. split; [exact E|exact S].
Qed.
Print Assumptions C65_whole_weights_partial.
(** Without weights, all members count alike. *)
Theorem C65_no_weights qr hs rho eps X (O : list meas) st m : qr_sound qr -> let OW := map (fun b => (b, 1%R)) O in setting hs rho eps X OW -> O <> [] -> available hs eps X OW ->
  accepts hs st m IAuto rho -> mpsd hs rho -> unit_trace hs rho -> (0 <= eps)%R ->
  outc (qr_fails qr) (lfun_from qr (map (fun t => me_x (fst t)) X) (map me_x O) (coeffs X) st m None eps) (fun z => exists v,
    fst z = LVal (Fin (rsum (map (fun t => rmsum (bigd (me_n (fst t))) (fun js => snd t js * me_p (fst t) js))%R X))) (Fin v) /\ snd z = st).
Proof.
  intros Hq OW HS NO HV Acc Ps Tr He. rewrite lfun_from_none.
  assert (E1 : map me_x O = map (fun q => me_x (fst q)) OW) by (unfold OW; rewrite map_map; reflexivity). assert (E2 : map (fun _ : ltens CS => 1%R) (map me_x O) = map snd OW) by (unfold OW; rewrite !map_map; reflexivity).
  rewrite E2, E1. apply (C65_whole_weights_partial qr hs rho eps X OW st m); try assumption.
  - unfold OW. destruct O; [congruence|discriminate].
  - intros q Hin. apply in_map_iff in Hin. destruct Hin as (b & <- & _). exists 1%Z. reflexivity.
  - intros q Hin. apply in_map_iff in Hin. destruct Hin as (b & <- & _). cbn [snd]. lra.
Qed.
Print Assumptions C65_no_weights.
(** All real weights: the accumulators stand in for the total weights.  The variance is the sum of
    the variances of the functions [est_fun] of the outcomes of the members. *)
Theorem C65_any_weights qr hs rho eps X OW st m : qr_sound qr -> setting hs rho eps X OW -> OW <> [] -> acc_pos hs eps X OW -> ~ lacking hs eps X OW ->
  accepts hs st m IAuto rho -> mpsd hs rho -> unit_trace hs rho -> (0 <= eps)%R ->
  outc (qr_fails qr) (lfun_from qr (map (fun t => me_x (fst t)) X) (map (fun q => me_x (fst q)) OW) (coeffs X) st m (Some (map snd OW)) eps) (fun z =>
    fst z = LVal (Fin (rsum (map (fun t => let ns := me_n (fst t) in rmsum ns (fun ks => snd t (bigi ns ks) * me_p (fst t) (bigi ns ks) * (total_w hs eps OW (fst t) ks / IZR (acc_w hs eps OW (fst t) ks))))%R X)))
                 (Fin (rsum (map (fun q => ovar (fst q) (est_fun hs eps X OW q)) OW))) /\ snd z = st).
Proof. intros Hq HS NO HA NL Acc Ps Tr He. exact (lfun_from_value qr hs rho eps X OW HS Hq st m NO Acc (mpsd_gram _ _ Ps) Tr He HA NL). Qed.
Print Assumptions C65_any_weights.
(** An outcome with a coefficient [<> 0] whose accumulator vanishes: the result is (nan, nan). *)
Theorem C65_lacking qr hs rho eps X OW st m : setting hs rho eps X OW -> (0 <= eps)%R -> lacking hs eps X OW ->
  lfun_from qr (map (fun t => me_x (fst t)) X) (map (fun q => me_x (fst q)) OW) (coeffs X) st m (Some (map snd OW)) eps = Ok (LVal NaN NaN, st).
Proof. intros HS He HL. exact (lfun_from_lacking qr hs rho eps X OW HS st m He HL). Qed.
Print Assumptions C65_lacking.

(** *** [est_lfun_from]: [O] lists the members of [other] with the numbers of their samples,
    [D] the data.  [avg]: mean over the samples; [avar]: estimated variance of this mean. *)
Theorem C65_est_value hs rho eps X O D : setting hs rho eps X (weighted O) -> (forall q, In q O -> 1 < snd q) -> available hs eps X (weighted O) -> (0 <= eps)%R -> O <> [] -> data_ok O D ->
  est_lfun_from (map (fun t => me_x (fst t)) X) (map (fun q => me_x (fst q)) O) (coeffs X) (sample_arrays O D) eps =
    Ok (LVal (Fin (rsum (zip2 (fun q lss => avg (est_of hs eps X O q) lss) O D))) (Fin (rsum (zip2 (fun q lss => avar (est_of hs eps X O q) lss) O D)))).
Proof.
  intros HS HN HV He NO HD. pose proof (est_lfun_from_value hs rho eps X O HS HN HV He D NO HD) as E. unfold others, weighted in E. rewrite map_map in E. exact E.
Qed.
Print Assumptions C65_est_value.
(** Mean over all data sets, with independent samples: the estimate is unbiased, and the
    estimated variance has the variance of the estimate as its mean. *)
Theorem C65_est_unbiased hs rho eps X O : setting hs rho eps X (weighted O) -> (forall q, In q O -> 1 < snd q) -> available hs eps X (weighted O) -> unit_trace hs rho ->
  let value D := rsum (zip2 (fun q lss => avg (est_of hs eps X O q) lss) O D) in
  let variance D := rsum (zip2 (fun q lss => avar (est_of hs eps X O q) lss) O D) in
  let target := rsum (map (fun t => rmsum (bigd (me_n (fst t))) (fun js => snd t js * me_p (fst t) js))%R X) in
  datasets O value = target /\ datasets O variance = datasets O (fun D => (value D - target) * (value D - target))%R.
Proof. intros HS HN HV Tr value variance target. destruct (est_lfun_from_mean hs rho eps X O HS HN HV Tr) as (A & B & C). split; [exact A|]. etransitivity; [exact C|symmetry; exact B]. Qed.
Print Assumptions C65_est_unbiased.
(** The function estimated from one member: matching outcomes contribute their coefficient times
    the number of samples divided by the total number of matching samples, times the factor
    between the elements. *)
Theorem C65_est_weights hs eps X (O : list (meas * nat)) q l : est_of hs eps X O q l =
  rsum (map (fun t => let ns := me_n (fst t) in rmsum ns (fun ks => snd t (bigi ns ks) * INR (snd q) / rsum (map (fun p => INR (snd p) * INR (nme hs eps (fst t) (fst p) ks)) O) * she hs eps (fst t) (fst q) ks l))%R X).
Proof.
  unfold est_of, est_fun. cbn [fst snd]. f_equal. apply map_ext. intros t. cbv zeta. apply rmsum_ext. intros ks _. rewrite acc_whole.
  - unfold total_w, weighted. rewrite map_map. reflexivity.
  - intros p Hp. apply in_map_iff in Hp. destruct Hp as (p' & <- & _). exists (Z.of_nat (snd p')). apply INR_IZR_INZ.
Qed.
Print Assumptions C65_est_weights.

(** *** Fractional weights.  One measurement [z] with two outcomes used for itself. *)
Definition ex_up : nd CS := mkNd (K:=CS) [2] [(1, 0)%R; (0, 0)%R].
Lemma ex_up_state : exists st, accepts [2] st EMps IAuto (pure st) /\ mpsd [2] (pure st) /\ unit_trace [2] (pure st).
Proof.
  destruct (from_kron_spec (K:=CS) [ex_up]) as (st & _ & Hst & Sst & Rst & _ & Ast); [discriminate|repeat constructor|]. exists st. split.
  { apply acc_mps; auto. split; [|split; [rewrite Sst; repeat constructor|rewrite Sst; reflexivity]]. apply mpa_pos_parts; [exact Hst|eapply Forall_impl; [|exact Rst]; cbn; lia|rewrite Sst; repeat constructor]. }
  split; [apply gram_mpsd, gram_pure|].
  assert (V : forall i, i < 2 -> entry st [[i]] = (get ex_up [i] * k1)%K).
  { intros i Hi. assert (Q : Forall2 inr [[i]] (map shp [ex_up])) by (cbn [map shp ex_up]; apply Forall2_cons; [|apply Forall2_nil]; (apply Forall2_cons; [assumption|apply Forall2_nil])). rewrite entry_amp by (auto; unfold valid_idx; rewrite Sst; exact Q). rewrite Ast by exact Q. reflexivity. }
  assert (Z0 : get ex_up [0] = (1, 0)%R) by (unfold get; cbn [ravel shp ex_up]; rewrite size_nil; reflexivity). assert (Z1 : get ex_up [1] = (0, 0)%R) by (unfold get; cbn [ravel shp ex_up]; rewrite size_nil; reflexivity).
  unfold unit_trace, pure, singles. cbn [msum bigsum map]. rewrite !V by lia. rewrite !Z0, !Z1. apply cplx_eq; cbn; lra.
Qed.
(** With weights 3/2 and 3/2, the function with all coefficients 1 gets the value 3/2; with equal
    weights 1 and 1 it is 1.  With the single weight 1/2 the result is (nan, nan).  With the single
    weight 0 and coefficients 0 the call raises. *)
Theorem C65_fractional_weights_refuted qr eps : qr_sound qr -> (0 <= eps < 1)%R -> exists z st rho m, povm_ok z [2] [2] /\ psd_elems z /\ sums_to_id z /\ accepts [2] st m IAuto rho /\ mpsd [2] rho /\ unit_trace [2] rho /\
  outc (qr_fails qr) (lfun_from qr [z] [z; z] [([2], [1; 1]%R)] st m (Some [3 / 2; 3 / 2]%R) eps) (fun r => exists v, fst r = LVal (Fin (3 / 2)%R) (Fin v)) /\
  outc (qr_fails qr) (lfun_from qr [z] [z; z] [([2], [1; 1]%R)] st m None eps) (fun r => exists v, fst r = LVal (Fin 1%R) (Fin v)).
Proof.
  intros Hq He. destruct (fractional qr eps Hq He) as (z & A & B & C & F). destruct ex_up_state as (st & Acc & Ps & Tr). destruct (F _ _ _ Acc (mpsd_gram _ _ Ps) Tr) as (F1 & F2 & _). exists z, st, (pure st), EMps. auto 10.
Qed.
Print Assumptions C65_fractional_weights_refuted.
Theorem C65_small_weights_refuted qr eps : qr_sound qr -> (0 <= eps < 1)%R -> exists z st rho m, povm_ok z [2] [2] /\ psd_elems z /\ sums_to_id z /\ accepts [2] st m IAuto rho /\ mpsd [2] rho /\ unit_trace [2] rho /\
  lfun_from qr [z] [z] [([2], [1; 1]%R)] st m (Some [1 / 2]%R) eps = Ok (LVal NaN NaN, st) /\
  (lfun_from qr [z] [z] [([2], [0; 0]%R)] st m (Some [0]%R) eps = Err AssertionError \/ (lfun_from qr [z] [z] [([2], [0; 0]%R)] st m (Some [0]%R) eps = Err LinAlgError /\ qr_fails qr)).
Proof.
  intros Hq He. destruct (fractional qr eps Hq He) as (z & A & B & C & F). destruct ex_up_state as (st & Acc & Ps & Tr). destruct (F _ _ _ Acc (mpsd_gram _ _ Ps) Tr) as (_ & _ & F1 & F2). exists z, st, (pure st), EMps. auto 10.
Qed.
Print Assumptions C65_small_weights_refuted.
(** The hypotheses of the theorems above are met. *)
Example C65_ex c eps : (0 <= eps < 1)%R -> exists b rho st m, let X := [(b, c)] in let O := [(b, 3); (b, 2)] in
  setting [2] rho eps X (weighted O) /\ available [2] eps X (weighted O) /\ (forall q, In q O -> 1 < snd q) /\ data_ok O [[[0]; [1]; [0]]; [[1]; [1]]] /\
  acc_pos [2] eps X (weighted O) /\ ~ lacking [2] eps X (weighted O) /\ accepts [2] st m IAuto rho /\ mpsd [2] rho /\ unit_trace [2] rho.
Proof.
  intros He. destruct (one_povm s_z z_ok) as (z & Hz & Pz & Sz & Ez). change [dn s_z] with [2] in *. change [dh s_z] with [2] in *. destruct ex_up_state as (st & Acc & Ps & Tr).
  destruct (povm_dims _ _ _ Hz) as (D1 & D2 & _). destruct (born_prob_exists z (pure st) Pz) as [P B]; [rewrite D2; exact (mpsd_gram _ _ Ps)|].
  exists (mkMeas z [2] P), (pure st), st, EMps. cbv zeta.
  assert (W : weighted [(mkMeas z [2] P, 3); (mkMeas z [2] P, 2)] = map (pair (mkMeas z [2] P)) [INR 3; INR 2]) by reflexivity.
  assert (V : available [2] eps [(mkMeas z [2] P, c)] (map (pair (mkMeas z [2] P)) [INR 3; INR 2])) by (apply z_available; try assumption; discriminate).
  rewrite W. split; [apply z_setting; assumption|]. split; [exact V|]. split; [intros q [<-|[<-|[]]]; cbn; lia|].
  split. { assert (I : forall k, k < 2 -> inr [k] [2]) by (intros k Hk; apply inr_cons; [exact Hk|constructor]). unfold data_ok. cbn [fst snd]. constructor; [|constructor; [|constructor]]; (split; [reflexivity|]); repeat (apply Forall_cons; [apply I; lia|]); apply Forall_nil. }
  destruct (whole_ok [2] eps [(mkMeas z [2] P, c)] (map (pair (mkMeas z [2] P)) [INR 3; INR 2])) as [A N]; [| |exact V|split; [exact A|split; [exact N|auto]]].
  - intros q Hq. apply in_map_iff in Hq. destruct Hq as (w & <- & [<-|[<-|[]]]); eexists; apply INR_IZR_INZ.
  - intros q Hq. apply in_map_iff in Hq. destruct Hq as (w & <- & [<-|[<-|[]]]); cbn [snd]; apply lt_0_INR; lia.
Qed.

(** ** C55: [MPPovmList.lfun].  Values and variances of the members are added; the state is not
    changed. An entry is a member with its coefficients and its functions. *)
Theorem C55_lfun_list qr hs rho eps st m (A : list entryT) funs : qr_sound qr -> accepts hs st m IAuto rho -> mpsd hs rho -> unit_trace hs rho -> (0 <= eps)%R -> A <> [] ->
  Forall (fun a => meas_ok hs rho (fst a) /\ bigd (me_n (fst a)) <> [] /\ (fst (snd a) <> [] /\ snd (snd a) <> Some []) /\ length (fst (snd a)) = length (funs_of (bigd (me_n (fst a))) (snd (snd a)))) A ->
  funs = Some (map (fun a => snd (snd a)) A) \/ (funs = None /\ forall a, In a A -> snd (snd a) = None) ->
  outc (qr_fails qr) (mppl_lfun qr (map (fun a => me_x (fst a)) A) (map (fun a => fst (snd a)) A) funs st m eps) (fun z =>
    let f a := lin (fst (snd a)) (funs_of (bigd (me_n (fst a))) (snd (snd a))) in
    fst z = LVal (Fin (rsum (map (fun a => mean (bigd (me_n (fst a))) (me_p (fst a)) (f a)) A))) (Fin (rsum (map (fun a => cv (bigd (me_n (fst a))) (me_p (fst a)) (f a) (f a)) A))) /\ snd z = st).
Proof.
  intros Hq Acc Ps Tr He NA HA HF. apply (mppl_lfun_value qr Hq hs rho eps st m Acc (mpsd_gram _ _ Ps) Tr He A funs NA); [|exact HF].
  apply (Forall_impl _ (fun a H => H)). apply Forall_forall. intros a Ha. rewrite Forall_forall in HA. destruct (HA a Ha) as (H1 & H2 & (H3 & H4) & H5). split; [exact H1|]. split; [exact H2|]. split; [split; [congruence|exact H4]|exact H5].
Qed.
Print Assumptions C55_lfun_list.
Theorem C55_lfun_list_errors qr xs coeff funs st m eps :
  (length xs <> length coeff -> mppl_lfun qr xs coeff funs st m eps = Err AssertionError) /\
  (forall fs, funs = Some fs -> length xs = length coeff -> length xs <> length fs -> mppl_lfun qr xs coeff funs st m eps = Err AssertionError) /\
  (xs = [] -> coeff = [] -> funs = None \/ funs = Some [] -> mppl_lfun qr xs coeff funs st m eps = Err ValueError).
Proof. exact (mppl_lfun_errors qr xs coeff funs st m eps). Qed.
Print Assumptions C55_lfun_list_errors.
(** Two members, the second one with the function that is 5 on all outcomes *)
Example C55_list_ex : exists b rho st m, let A := [(b, ([1; -1]%R, None)); (b, ([2]%R, Some [fun _ => 5%R]))] in
  accepts [2] st m IAuto rho /\ mpsd [2] rho /\ unit_trace [2] rho /\
  Forall (fun a : entryT => meas_ok [2] rho (fst a) /\ bigd (me_n (fst a)) <> [] /\ (fst (snd a) <> [] /\ snd (snd a) <> Some []) /\ length (fst (snd a)) = length (funs_of (bigd (me_n (fst a))) (snd (snd a)))) A.
Proof.
  destruct (one_povm s_z z_ok) as (z & Hz & Pz & Sz & Ez). change [dn s_z] with [2] in *. change [dh s_z] with [2] in *. destruct ex_up_state as (st & Acc & Ps & Tr).
  destruct (povm_dims _ _ _ Hz) as (D1 & D2 & _). destruct (born_prob_exists z (pure st) Pz) as [P B]; [rewrite D2; exact (mpsd_gram _ _ Ps)|].
  exists (mkMeas z [2] P), (pure st), st, EMps. cbv zeta. split; [exact Acc|]. split; [exact Ps|]. split; [exact Tr|].
  assert (MO : meas_ok [2] (pure st) (mkMeas z [2] P)) by (split; [exact Hz|]; split; [exact Pz|]; split; [exact Sz|exact B]).
  apply Forall_cons; [|apply Forall_cons; [|apply Forall_nil]]; (split; [exact MO|]); (split; [discriminate|]); (split; [split; discriminate|reflexivity]).
Qed.
