(** Properties: packing of samples, empirical probabilities, linear functions of outcomes. *)
From Coq Require Import Reals Lra Permutation.
From Verif Require Import PfMean PfKronPovm PfLfunNan Props_MpPovm.
Open Scope nat_scope.

(** [rowZ js]: the row of integers [js].  [S2n ds rows], [S1n ks]: the sample arrays with these
    rows, or with these numbers, one per sample.  [fits63 ds]: there is an outcome dimension above
    one and the number of outcomes fits a 64 bit integer. *)

(** ** C52: packing *)
Theorem C52_unpack_pack (K : StarRing) (x : ltens K) rows dt : fits63 (nsoutdims x) -> Forall (fun d => d <= 255) (outdims x) -> rows_ok (nsoutdims x) rows ->
  match dt with None => True | Some (lo, hi) => rows <> [] /\ Forall (fun js => (lo <= Z.of_nat (ravel (nsoutdims x) js) <= hi)%Z) rows end ->
  exists ks, pack_samples x (S2n (nsoutdims x) rows) dt = Ok ks /\ unpack_samples x (S1 ks) = Ok (S2n (nsoutdims x) rows) /\ Forall (fun k => (0 <= k < Z.of_nat (size (nsoutdims x)))%Z) ks.
Proof. exact (unpack_pack x rows dt). Qed.
Print Assumptions C52_unpack_pack.
Theorem C52_pack_unpack (K : StarRing) (x : ltens K) ks : fits63 (nsoutdims x) -> Forall (fun d => d <= 255) (outdims x) -> Forall (fun k => k < size (nsoutdims x)) ks ->
  exists rows, unpack_samples x (S1n ks) = Ok (S2n (nsoutdims x) rows) /\ rows_ok (nsoutdims x) rows /\ pack_samples x (S2n (nsoutdims x) rows) None = Ok (map Z.of_nat ks).
Proof. exact (pack_unpack x ks). Qed.
Print Assumptions C52_pack_unpack.
(** The packed number of the row [js ++ [j]] is [d] times that of [js] plus [j]. *)
Theorem C52_mixed_radix ds d js j : inr js ds -> ravel (ds ++ [d]) (js ++ [j]) = ravel ds js * d + j.
Proof. intros H. rewrite ravel_app by exact H. cbn [ravel]. rewrite size_single. rewrite size_nil. lia. Qed.
Print Assumptions C52_mixed_radix.
Theorem C52_errors (K : StarRing) (x : ltens K) :
  (forall s dt, (forall ncol rows, s = S2 ncol rows -> ncol <> length (nsoutdims x)) -> pack_samples x s dt = Err AssertionError) /\
  (forall rows dt, fits63 (nsoutdims x) -> Exists (fun row => ~ exists js, row = rowZ js /\ inr js (nsoutdims x)) rows -> pack_samples x (S2 (length (nsoutdims x)) rows) dt = Err ValueError) /\
  (forall rows lo hi, fits63 (nsoutdims x) -> rows_ok (nsoutdims x) rows -> Exists (fun js => ~ (lo <= Z.of_nat (ravel (nsoutdims x) js) <= hi)%Z) rows -> pack_samples x (S2n (nsoutdims x) rows) (Some (lo, hi)) = Err AssertionError) /\
  (forall zs, fits63 (nsoutdims x) -> Forall (fun d => d <= 255) (outdims x) -> Exists (fun z => ~ exists k, z = Z.of_nat k /\ k < size (nsoutdims x)) zs -> unpack_samples x (S1 zs) = Err ValueError) /\
  (forall ncol rows, unpack_samples x (S2 ncol rows) = Err AssertionError) /\
  (forall zs, Exists (fun d => 255 < d) (outdims x) -> unpack_samples x (S1 zs) = Err AssertionError).
Proof.
  split; [intros; apply pack_shape_err; assumption|]. split; [intros; apply pack_err; auto|]. split; [intros; apply pack_dtype_err; assumption|]. split; [intros; apply unpack_err; assumption|]. split; [reflexivity|].
  intros zs Ex. unfold unpack_samples. destruct (forallb _ _) eqn:F; [|reflexivity]. exfalso. apply Exists_exists in Ex. destruct Ex as (d & Hd & H). rewrite forallb_forall in F. specialize (F d Hd). apply Nat.leb_le in F. lia.
Qed.
Print Assumptions C52_errors.
(** [ex_pv] (of [Props_MpPovm]) has outcome dimensions 3 and 2. *)
Example C52_ex : fits63 (nsoutdims ex_pv) /\ rows_ok (nsoutdims ex_pv) [[2; 1]; [0; 1]; [1; 0]] /\
  pack_samples ex_pv (S2n [3; 2] [[2; 1]; [0; 1]; [1; 0]]) (Some (0, 255)%Z) = Ok [5; 1; 2]%Z /\ unpack_samples ex_pv (S1 [5; 1; 2]%Z) = Ok (S2n [3; 2] [[2; 1]; [0; 1]; [1; 0]]).
Proof.
  split; [split; [discriminate|vm_compute; discriminate]|]. split; [|split; vm_compute; reflexivity].
  repeat apply Forall_cons; try apply Forall_nil; repeat (apply Forall2_cons; [vm_compute; lia|]); apply Forall2_nil.
Qed.

(** ** C53: [est_pmf].  [freq n c] is [c / n], or nan for [n = 0]. *)
Theorem C53_est_pmf (K : StarRing) (x : ltens K) rows b : fits63 (nsoutdims x) -> rows_ok (nsoutdims x) rows ->
  exists a, est_pmf x (S2n (nsoutdims x) rows) b = Ok a /\ fst a = nsoutdims x /\ length (snd a) = size (nsoutdims x) /\
    forall js, inr js (nsoutdims x) -> fentry a js = let c := count_occ row_dec rows js in
      if b then (if Nat.eqb (length rows) 0 then NaN else Fin (INR c / INR (length rows))) else Fin (INR c).
Proof. exact (est_pmf_spec x rows b). Qed.
Print Assumptions C53_est_pmf.
Theorem C53_distribution (K : StarRing) (x : ltens K) rows : fits63 (nsoutdims x) -> rows_ok (nsoutdims x) rows -> rows <> [] ->
  exists q, est_pmf x (S2n (nsoutdims x) rows) true = Ok (nsoutdims x, map Fin q) /\ length q = size (nsoutdims x) /\ Forall (fun v => (0 <= v)%R) q /\ rsum q = 1%R.
Proof. exact (est_pmf_dist x rows). Qed.
Print Assumptions C53_distribution.
Theorem C53_order (K : StarRing) (x : ltens K) rows rows' b : fits63 (nsoutdims x) -> rows_ok (nsoutdims x) rows -> Permutation rows rows' ->
  est_pmf x (S2n (nsoutdims x) rows) b = est_pmf x (S2n (nsoutdims x) rows') b.
Proof. exact (est_pmf_perm x rows rows' b). Qed.
Print Assumptions C53_order.
(** Packed samples give the same result. *)
Theorem C53_packed (K : StarRing) (x : ltens K) rows b : fits63 (nsoutdims x) -> rows_ok (nsoutdims x) rows ->
  exists ks, pack_samples x (S2n (nsoutdims x) rows) None = Ok ks /\ est_pmf x (S1 ks) b = est_pmf x (S2n (nsoutdims x) rows) b.
Proof. intros F H. rewrite (pack_spec x rows None F H I). eexists. split; [reflexivity|]. rewrite est_pmf_rows by assumption. unfold S1n. rewrite map_map. reflexivity. Qed.
Print Assumptions C53_packed.
(** The mean over all data sets of [n] independent samples is the probability. *)
Theorem C53_unbiased ds P js n : rmsum ds P = 1%R -> inr js ds -> 0 < n -> iid ds P n (fun rows => INR (count_occ row_dec rows js) / INR (length rows))%R = P js.
Proof. exact (freq_unbiased ds P js n). Qed.
Print Assumptions C53_unbiased.
Theorem C53_errors (K : StarRing) (x : ltens K) b :
  (forall zs, nsoutdims x <> [] -> Exists (fun z => ~ exists k, z = Z.of_nat k /\ k < size (nsoutdims x)) zs -> est_pmf x (S1 zs) b = Err (if forallb (fun z => 0 <=? z)%Z zs then AssertionError else ValueError)) /\
  (forall rows, fits63 (nsoutdims x) -> Exists (fun row => ~ exists js, row = rowZ js /\ inr js (nsoutdims x)) rows -> est_pmf x (S2 (length (nsoutdims x)) rows) b = Err ValueError) /\
  (forall zs, nsoutdims x = [] -> est_pmf x (S1 zs) b = Err TypeError).
Proof. split; [intros; apply est_pmf_err_range; assumption|]. split; [intros; apply est_pmf_err_rows; auto|intros; apply est_pmf_no_out; assumption]. Qed.
Print Assumptions C53_errors.
Example C53_ex : exists a, est_pmf ex_pv (S2n [3; 2] [[2; 1]; [0; 1]; [2; 1]]) true = Ok a /\ fentry a [2; 1] = Fin (2 / 3) /\ fentry a [0; 1] = Fin (1 / 3) /\ fentry a [1; 1] = Fin (0 / 3).
Proof.
  assert (F : fits63 (nsoutdims ex_pv)) by apply C52_ex.
  assert (V : forall js, In js [[2; 1]; [0; 1]; [1; 1]] -> inr js [3; 2]) by (intros js [<-|[<-|[<-|[]]]]; repeat (apply Forall2_cons; [lia|]); apply Forall2_nil).
  assert (H : rows_ok (nsoutdims ex_pv) [[2; 1]; [0; 1]; [2; 1]]) by (repeat apply Forall_cons; try apply Forall_nil; apply V; cbn; tauto).
  destruct (C53_est_pmf GZ ex_pv _ true F H) as (a & E & _ & _ & G). exists a. split; [exact E|].
  assert (E3 : INR 3 = 3%R) by (cbn; lra). assert (E2 : INR 2 = 2%R) by (cbn; lra).
  rewrite !G by (apply V; cbn; tauto). cbn [length Nat.eqb]. rewrite E3. repeat split; cbn -[INR Rdiv Rmult]; try rewrite E2; reflexivity.
Qed.

(** ** C55: linear functions of outcomes.  [lin c fs]: the function [sum_k c_k f_k]; [mean ds P f],
    [cv ds P f g]: mean and covariance of functions of outcomes with probabilities [P]; [funs_of]:
    the functions given, or the indicator functions of all outcomes. *)
Theorem C55_lfun qr (x st : ltens CS) ns hs m rho P coeff funs eps : qr_sound qr -> povm_ok x ns hs -> accepts hs st m IAuto rho ->
  psd_elems x -> sums_to_id x -> mpsd hs rho -> unit_trace hs rho -> (0 <= eps)%R -> nsoutdims x <> [] -> born_prob x rho P ->
  coeff <> Some [] /\ funs <> Some [] -> coeff_ok coeff (funs_of (nsoutdims x) funs) ->
  outc (qr_fails qr) (lfun qr x coeff funs st m eps) (fun r => kept st (snd r) /\
    fst r = let ds := nsoutdims x in let fs := funs_of ds funs in match coeff with
      | None => LArr (map (fun f => Fin (mean ds P f)) fs) (map (fun f => map (fun g => Fin (cv ds P f g)) fs) fs)
      | Some c => LVal (Fin (mean ds P (lin c fs))) (Fin (cv ds P (lin c fs) (lin c fs)))
      end).
Proof. intros Hqr Hp Ha Px Cx Gr. exact (lfun_spec qr Hqr x st ns hs m rho P coeff funs eps Hp Ha Px Cx (mpsd_gram _ _ Gr)). Qed.
Print Assumptions C55_lfun.
Theorem C55_lfun_variance (x : ltens CS) ns hs rho P f : povm_ok x ns hs -> psd_elems x -> sums_to_id x -> mpsd hs rho -> unit_trace hs rho -> born_prob x rho P -> (0 <= cv (nsoutdims x) P f f)%R.
Proof.
  intros Hp Px Cx Gr Tr HP. apply cv_nonneg; [apply (prob_nonneg x ns hs rho); auto; apply mpsd_gram; exact Gr|].
  rewrite (prob_total x ns hs rho P Hp Cx HP). unfold rtrace. unfold unit_trace in Tr. rewrite Tr. reflexivity.
Qed.
Print Assumptions C55_lfun_variance.
Theorem C55_lfun_empty qr (x st : ltens CS) coeff funs m eps : coeff = Some [] \/ funs = Some [] -> lfun qr x coeff funs st m eps = Ok (LVal (Fin 0) (Fin 0), st).
Proof. intros H. apply lfun_empty. intros [A B]. destruct H; contradiction. Qed.
Print Assumptions C55_lfun_empty.
(** [est_lfun]: weighted mean and weighted variance over [W - 1], where [SW w rows f] is the sum
    of [w_i f(row_i)], [W] the total weight and [covS S W f g = S (f g) / W - (S f / W) (S g / W)]. *)
Theorem C55_est_lfun (K : StarRing) (x : ltens K) coeff funs rows weights eps : nsoutdims x <> [] \/ funs <> None -> coeff_ok coeff (funs_of (nsoutdims x) funs) -> weights_ok weights rows -> (0 <= eps)%R ->
  match weights with None => 1 < length rows | Some w => (1 < rsum w)%R end ->
  let W := rsum (wts weights rows) in let S := SW (wts weights rows) rows in let fs := funs_of (nsoutdims x) funs in
  est_lfun x coeff funs (S2 (length (nsoutdims x)) rows) weights eps =
    Ok (match coeff with
        | None => LArr (map (fun f => Fin (S f / W)) fs) (map (fun f => map (fun g => Fin (covS S W f g * / (W - 1))) fs) fs)
        | Some c => LVal (Fin (S (lin c fs) / W)) (Fin (covS S W (lin c fs) (lin c fs) / (W - 1)))
        end) /\
  (1 < W)%R /\ forall f, (0 <= covS S W f f / (W - 1))%R.
Proof. exact (est_lfun_spec x coeff funs rows weights eps). Qed.
Print Assumptions C55_est_lfun.
Theorem C55_ones (K : StarRing) (x : ltens K) coeff funs rows eps : nsoutdims x <> [] \/ funs <> None -> coeff_ok coeff (funs_of (nsoutdims x) funs) -> 1 < length rows ->
  est_lfun x coeff funs (S2 (length (nsoutdims x)) rows) (Some (repeat 1%R (length rows))) eps = est_lfun x coeff funs (S2 (length (nsoutdims x)) rows) None eps.
Proof. exact (est_lfun_ones x coeff funs rows eps). Qed.
Print Assumptions C55_ones.
(** [repeated ms rows] repeats the [i]-th row [ms_i] times. *)
Theorem C55_counts (K : StarRing) (x : ltens K) coeff funs ms rows eps : nsoutdims x <> [] \/ funs <> None -> coeff_ok coeff (funs_of (nsoutdims x) funs) -> length ms = length rows -> 1 < list_sum ms ->
  est_lfun x coeff funs (S2 (length (nsoutdims x)) rows) (Some (map INR ms)) eps = est_lfun x coeff funs (S2 (length (nsoutdims x)) (repeated ms rows)) None eps.
Proof. exact (est_lfun_repeat x coeff funs ms rows eps). Qed.
Print Assumptions C55_counts.
(** Without weights; the estimate and the estimated variance have the right means over all data
    sets, and the variance of the estimate is the mean of its estimated variance. *)
Theorem C55_plain (K : StarRing) (x : ltens K) c funs rows eps : nsoutdims x <> [] \/ funs <> None -> length c = length (funs_of (nsoutdims x) funs) -> (0 <= eps)%R -> 1 < length rows ->
  let F := lin c (funs_of (nsoutdims x) funs) in
  est_lfun x (Some c) funs (S2n (nsoutdims x) rows) None eps = Ok (LVal (Fin (smean F rows)) (Fin (svar F rows))) /\ (0 <= svar F rows)%R.
Proof. exact (est_lfun_plain x c funs rows eps). Qed.
Print Assumptions C55_plain.
Theorem C55_unbiased ds P F n : rmsum ds P = 1%R -> 1 < n ->
  iid ds P n (smean F) = mean ds P F /\ iid ds P n (svar F) = (cv ds P F F / INR n)%R /\
  iid ds P n (fun rows => (smean F rows - mean ds P F) * (smean F rows - mean ds P F))%R = (cv ds P F F / INR n)%R.
Proof. intros H Hn. split; [apply smean_unbiased; [exact H|lia]|]. split; [apply svar_unbiased; assumption|apply smean_variance; [exact H|lia]]. Qed.
Print Assumptions C55_unbiased.
(** At most one sample: division by zero.  A total weight below one makes the estimated variance
    negative, which is refused or, within [eps], replaced by zero. *)
Theorem C55_few_samples (K : StarRing) (x : ltens K) coeff funs rows eps : nsoutdims x <> [] \/ funs <> None -> coeff_ok coeff (funs_of (nsoutdims x) funs) -> length rows <= 1 ->
  est_lfun x coeff funs (S2 (length (nsoutdims x)) rows) None eps = Err ZeroDivisionError.
Proof. exact (est_lfun_few x coeff funs rows eps). Qed.
Print Assumptions C55_few_samples.
Theorem C55_light_weights (K : StarRing) (x : ltens K) c funs rows w eps : nsoutdims x <> [] \/ funs <> None -> length c = length (funs_of (nsoutdims x) funs) -> length w = length rows -> Forall (fun v => (0 <= v)%R) w -> (0 < rsum w < 1)%R ->
  let S := SW w rows in let W := rsum w in let F := lin c (funs_of (nsoutdims x) funs) in let v := (covS S W F F / (1 - W))%R in
  (0 <= v)%R /\ est_lfun x (Some c) funs (S2 (length (nsoutdims x)) rows) (Some w) eps = if Rleb v eps then Ok (LVal (Fin (S F / W)) (Fin 0)) else Err AssertionError.
Proof. exact (est_lfun_light x c funs rows w eps). Qed.
Print Assumptions C55_light_weights.
(** Total weight zero: the means and covariances are nan, and the variance of a combination is refused. *)
Theorem C55_zero_weights (K : StarRing) (x : ltens K) coeff funs rows w eps : nsoutdims x <> [] \/ funs <> None -> coeff_ok coeff (funs_of (nsoutdims x) funs) -> length w = length rows -> Forall (fun v => (0 <= v)%R) w -> rsum w = 0%R ->
  est_lfun x coeff funs (S2 (length (nsoutdims x)) rows) (Some w) eps =
    match coeff with
    | None => Ok (LArr (map (fun _ => NaN) (funs_of (nsoutdims x) funs)) (map (fun _ => map (fun _ => NaN) (funs_of (nsoutdims x) funs)) (funs_of (nsoutdims x) funs)))
    | Some [] => if Rleb (- eps) 0 then Ok (LVal (Fin 0) (Fin 0)) else Err AssertionError
    | Some _ => Err AssertionError
    end.
Proof. exact (est_lfun_zero x coeff funs rows w eps). Qed.
Print Assumptions C55_zero_weights.
(** Total weight one: the mean is right, its variance infinite, or nan and refused when the samples agree. *)
Theorem C55_unit_weight (K : StarRing) (x : ltens K) c f rows w eps : length w = length rows -> Forall (fun v => (0 <= v)%R) w -> rsum w = 1%R -> c <> 0%R ->
  let S := SW w rows in let v := (S (fun r => f r * f r)%R - S f * S f)%R in
  (0 <= v)%R /\
  est_lfun x (Some [c]) (Some [f]) (S2 (length (nsoutdims x)) rows) (Some w) eps = if Req_EM_T v 0 then Err AssertionError else Ok (LVal (Fin (c * S f)) PInf).
Proof. exact (est_lfun_unit x c f rows w eps). Qed.
Print Assumptions C55_unit_weight.
(** The default functions are the indicators of the outcomes in row-major order. *)
Theorem C55_default_funs ds : length (funs_of ds None) = size ds /\
  forall k js, k < size ds -> inr js ds -> nth k (funs_of ds None) (fun _ => 0%R) (map Z.of_nat js) = if Nat.eqb (ravel ds js) k then 1%R else 0%R.
Proof. exact (default_funs ds). Qed.
Print Assumptions C55_default_funs.
(** Three samples of two outcomes and the function that is 1 for outcomes [(_, 1)] *)
Definition ex_f : ofun := fun r => match r with [_; 1%Z] => 1%R | _ => 0%R end.
Example C55_ex : est_lfun ex_pv (Some [2%R]) (Some [ex_f]) (S2n [3; 2] [[2; 1]; [0; 0]; [2; 1]]) None 0 = Ok (LVal (Fin (4 / 3)) (Fin (4 / 9))).
Proof.
  destruct (C55_plain GZ ex_pv [2%R] (Some [ex_f]) [[2; 1]; [0; 0]; [2; 1]] 0) as [E _]; [right; discriminate|reflexivity|lra|cbn; lia|].
  change (nsoutdims ex_pv) with [3; 2] in E. rewrite E. unfold svar, smean, tot, lin. cbn. do 3 f_equal; field.
Qed.

(** Weights 1/2 and 1/2: the mean is right, its variance infinite; with equal samples it is refused. *)
Example C55_unit_ex : est_lfun ex_pv (Some [2%R]) (Some [ex_f]) (S2 2 [[2; 1]; [0; 0]]%Z) (Some [1/2; 1/2]%R) 0 = Ok (LVal (Fin 1) PInf) /\
  est_lfun ex_pv (Some [2%R]) (Some [ex_f]) (S2 2 [[2; 1]; [0; 1]]%Z) (Some [1/2; 1/2]%R) 0 = Err AssertionError /\
  est_lfun ex_pv None (Some [ex_f]) (S2 2 [[2; 1]; [0; 1]]%Z) (Some [0; 0]%R) 0 = Ok (LArr [NaN] [[NaN]]).
Proof.
  assert (W : Forall (fun v => (0 <= v)%R) [1/2; 1/2]%R) by (repeat constructor; lra). assert (T : rsum [1/2; 1/2]%R = 1%R) by (cbn; lra). split; [|split].
  - assert (A : SW [1/2; 1/2]%R [[2; 1]; [0; 0]]%Z ex_f = (1/2)%R) by (unfold SW; cbn; field). assert (B : SW [1/2; 1/2]%R [[2; 1]; [0; 0]]%Z (fun r => ex_f r * ex_f r)%R = (1/2)%R) by (unfold SW; cbn; field).
    destruct (C55_unit_weight GZ ex_pv 2 ex_f [[2; 1]; [0; 0]]%Z [1/2; 1/2]%R 0 eq_refl W T ltac:(lra)) as [_ E]. cbv zeta in E. rewrite A, B in E. change (length (nsoutdims ex_pv)) with 2 in E. change (list Z -> R) with ofun in E. rewrite E. destruct (Req_EM_T _ _) as [Q|_]; [exfalso; lra|]. do 3 f_equal. field.
  - assert (A : SW [1/2; 1/2]%R [[2; 1]; [0; 1]]%Z ex_f = 1%R) by (unfold SW; cbn; field). assert (B : SW [1/2; 1/2]%R [[2; 1]; [0; 1]]%Z (fun r => ex_f r * ex_f r)%R = 1%R) by (unfold SW; cbn; field).
    destruct (C55_unit_weight GZ ex_pv 2 ex_f [[2; 1]; [0; 1]]%Z [1/2; 1/2]%R 0 eq_refl W T ltac:(lra)) as [_ E]. cbv zeta in E. rewrite A, B in E. change (length (nsoutdims ex_pv)) with 2 in E. change (list Z -> R) with ofun in E. rewrite E. destruct (Req_EM_T _ _) as [_|Q]; [reflexivity|exfalso; apply Q; lra].
  - pose proof (C55_zero_weights GZ ex_pv None (Some [ex_f]) [[2; 1]; [0; 1]]%Z [0; 0]%R 0) as E. cbv beta iota in E.
    change (length (nsoutdims ex_pv)) with 2 in E. change (list Z -> R) with ofun in E. rewrite E; clear E.
    + reflexivity.
    + right. discriminate.
    + exact I.
    + reflexivity.
    + apply Forall_cons; [lra|]. apply Forall_cons; [lra|]. apply Forall_nil.
    + unfold rsum. cbn [fold_right]. lra.
Qed.

(** ** C56: the list version.  Without weights it adds values and variances of the members; the
    weights have no effect. *)
Theorem C56_unweighted_partial (K : StarRing) (xs : list (ltens K)) coeff funs samples vals weights eps :
  let fs := match funs with None => map (fun _ => None) xs | Some fs => fs end in
  xs <> [] -> length coeff = length xs -> length fs = length xs -> length samples = length xs ->
  Forall2 (fun q v => est_lfun (fst q) (Some (fst (snd q))) (fst (snd (snd q))) (snd (snd (snd q))) None (1 / 10 ^ 10) = Ok (LVal (Fin (fst v)) (Fin (snd v)))) (combine xs (combine coeff (combine fs samples))) vals ->
  mppl_est_lfun xs coeff funs samples weights eps = Ok (LVal (Fin (rsum (map fst vals))) (Fin (rsum (map snd vals)))).
Proof. exact (mppl_est_lfun_sum xs coeff funs samples vals weights eps). Qed.
Print Assumptions C56_unweighted_partial.
(** With weights 1, 4, 1 the member's estimate is 2/3; the list returns 4/3 as without weights. *)
Theorem C56_weights_refuted : exists (x : ltens GZ) c fs s w e v e' v', est_lfun x (Some c) fs s (Some w) 0 = Ok (LVal (Fin e) (Fin v)) /\
  mppl_est_lfun [x] [c] (Some [fs]) [s] (Some [w]) 0 = Ok (LVal (Fin e') (Fin v')) /\ e <> e'.
Proof.
  exists ex_pv, [2%R], (Some [ex_f]), (S2n [3; 2] [[2; 1]; [0; 0]; [2; 1]]), [1; 4; 1]%R.
  destruct (C55_est_lfun GZ ex_pv (Some [2%R]) (Some [ex_f]) (map rowZ [[2; 1]; [0; 0]; [2; 1]]) (Some [1; 4; 1]%R) 0) as [E _]; [right; discriminate|reflexivity|split; [reflexivity|repeat apply Forall_cons; try apply Forall_nil; lra]|lra|cbn; lra|].
  destruct (C55_plain GZ ex_pv [2%R] (Some [ex_f]) [[2; 1]; [0; 0]; [2; 1]] (1 / 10 ^ 10)) as [E' _]; [right; discriminate|reflexivity|lra|cbn; lia|].
  eexists _, _, _, _. split; [exact E|]. split.
  - apply (C56_unweighted_partial GZ [ex_pv] [[2%R]] (Some [Some [ex_f]]) [S2n [3; 2] [[2; 1]; [0; 0]; [2; 1]]] [(smean (lin [2%R] [ex_f]) [[2; 1]; [0; 0]; [2; 1]], svar (lin [2%R] [ex_f]) [[2; 1]; [0; 0]; [2; 1]])]); try reflexivity; try discriminate.
    cbn [combine]. apply Forall2_cons; [exact E'|apply Forall2_nil].
  - cbn [map fst rsum fold_right]. unfold smean, tot, lin, SW. cbn. lra.
Qed.
Print Assumptions C56_weights_refuted.
