(** Properties: probabilities estimated from the samples of several POVMs. *)
From Coq Require Import Reals Lra.
From Verif Require Import ExEstMpps.
Open Scope nat_scope.
Add Ring Cr : (k_ring CS).

(** A member of [other] is [b : meas] (POVM, numbers of outcomes, probabilities); [(b, lss)] is a
    member with its samples.  [gives b ks]: some element of [b] matches the element [ks] of [x];
    [value (b, lss) ks]: sum of factor times frequency over the matching elements;
    [used (b, lss)]: the number of samples with a matching outcome.  [usable q]: nothing matches,
    or the matched elements add to [f] times the identity and the estimates add to [f].
    [wmean l]: the mean of the values weighted with the numbers of samples, nan without samples. *)

(** ** C69 *)
Theorem C69_value qr (x : ltens CS) ns hs eps M : qr_sound qr -> povm_ok x ns hs -> bigd ns <> [] -> psd_elems x -> sums_to_id x -> (0 < eps)%R -> Forall (usable x ns hs eps) M ->
  outc (qr_fails qr) (est_pmf_from_mpps qr x (map (fun q => me_x (fst q)) M) (map smpl M) eps) (fun r =>
    r = map (fun ks =>
      let given := filter (fun q => gives x ns hs (fst q) ks) M in
      let n := list_sum (map (used x ns hs) given) in
      (if Nat.eqb n 0 then NaN else Fin (rsum (map (fun q => value x ns hs q ks * INR (used x ns hs q)) given) / INR n)%R, n)) (outcomes ns)).
Proof.
  intros Hq Hx Hb Px Sx He H. apply (outc_weaken _ _ _ _ _ (mpps_value qr Hq x ns hs eps Hx Hb Px Sx He M H) (fun z => z)). intros r ->. apply map_ext. intros ks. unfold wmean, contributions. rewrite !map_map. reflexivity.
Qed.
Print Assumptions C69_value.
(** Exact frequencies give the exact probabilities; nan and 0 where no member matches. *)
Theorem C69_exact qr (x : ltens CS) ns hs eps rho P M : qr_sound qr -> povm_ok x ns hs -> bigd ns <> [] -> psd_elems x -> sums_to_id x -> (0 < eps)%R -> unit_trace hs rho -> born_prob x rho P ->
  Forall (exact_member x ns hs rho) M ->
  outc (qr_fails qr) (est_pmf_from_mpps qr x (map (fun q => me_x (fst q)) M) (map smpl M) eps) (fun r =>
    r = map (fun ks => if existsb (fun q => gives x ns hs (fst q) ks) M
                       then (Fin (P (bigi ns ks)), list_sum (map (used x ns hs) (filter (fun q => gives x ns hs (fst q) ks) M))) else (NaN, 0)) (outcomes ns)).
Proof. intros Hq Hx Hb Px Sx He Tr BP. exact (mpps_exact qr Hq x ns hs eps Hx Hb Px Sx He rho P Tr BP M). Qed.
Print Assumptions C69_exact.
(** If every outcome of a member counts with the same total factor, all data sets are accepted,
    and the estimate is unbiased. [data_ok O D]: [D] has one data set of the given size for each member
    of [O]; [datasets O]: the mean over independent data sets. *)
Theorem C69_unbiased qr (x : ltens CS) ns hs eps rho P O : qr_sound qr -> povm_ok x ns hs -> bigd ns <> [] -> psd_elems x -> sums_to_id x -> (0 < eps)%R -> unit_trace hs rho -> born_prob x rho P ->
  Forall (fun q => regular x ns hs rho (fst q) /\ 0 < snd q) O ->
  exists W : list nat -> list (list (list nat)) -> R,
    (forall D, data_ok O D -> outc (qr_fails qr) (est_pmf_from_mpps qr x (map (fun q => me_x (fst q)) (with_data O D)) (map smpl (with_data O D)) eps) (fun r =>
      r = map (fun ks => (if existsb (fun q => gives x ns hs (fst q) ks) O then Fin (W ks D) else NaN, list_sum (map (weight ns) (filter (fun q => gives x ns hs (fst q) ks) O)))) (outcomes ns))) /\
    forall ks, inr ks ns -> existsb (fun q => gives x ns hs (fst q) ks) O = true -> datasets O (W ks) = P (bigi ns ks).
Proof.
  intros Hq Hx Hb Px Sx He Tr BP H. exists (estimate x ns hs O). split.
  - intros D HD. exact (mpps_accepts qr Hq x ns hs eps Hx Hb Px Sx He rho O D H HD).
  - intros ks Hk Hg. exact (mpps_mean x ns hs Hx Px rho P O ks Tr BP H Hk Hg).
Qed.
Print Assumptions C69_unbiased.
(** [MPPovmList.est_pmf_from]: one array for each member, as above. *)
Theorem C69_list qr hs eps (X : list (ltens CS * list nat)) (M : list (meas * list (list nat))) : qr_sound qr -> (0 < eps)%R -> X <> [] -> M <> [] ->
  Forall (fun a => povm_ok (fst a) (snd a) hs /\ bigd (snd a) <> [] /\ psd_elems (fst a) /\ sums_to_id (fst a) /\ Forall (usable (fst a) (snd a) hs eps) M) X ->
  outc (qr_fails qr) (mppl_est_pmf_from qr (map fst X) (map (fun q => me_x (fst q)) M) (map smpl M) eps) (fun r =>
    r = map (fun a => map (fun ks => wmean (contributions (fst a) (snd a) hs M ks)) (outcomes (snd a))) X).
Proof. exact (mppl_value qr hs eps X M). Qed.
Print Assumptions C69_list.
(** Numbers of data sets and of members must agree; an error of a member is an error; without an
    outcome dimension above one the sum of the estimates fails. *)
Theorem C69_errors qr (x : ltens CS) os samples eps :
  (length os <> length samples -> est_pmf_from_mpps qr x os samples eps = Err AssertionError) /\
  (forall o s e, In (o, s) (combine os samples) -> length os = length samples -> est_pmf_from qr x o s eps = Err e -> exists e', est_pmf_from_mpps qr x os samples eps = Err e') /\
  (nsoutdims x = [] -> length os = length samples -> (forall o s, In (o, s) (combine os samples) -> exists v, est_pmf_from qr x o s eps = Ok v) -> est_pmf_from_mpps qr x os samples eps = Err TypeError).
Proof. exact (mpps_errors qr x os samples eps). Qed.
Print Assumptions C69_errors.
Theorem C69_list_errors qr xs os samples eps :
  (xs = [] \/ os = [] -> mppl_est_pmf_from qr xs os samples eps = Err IndexError) /\
  (forall x xr o r, xs = x :: xr -> os = o :: r -> llen x <> llen o -> mppl_est_pmf_from qr xs os samples eps = Err AssertionError) /\
  (forall x xr o r, xs = x :: xr -> os = o :: r -> llen x = llen o -> length os <> length samples -> mppl_est_pmf_from qr xs os samples eps = Err AssertionError).
Proof. exact (mppl_errors qr xs os samples eps). Qed.
Print Assumptions C69_list_errors.
(** The basis measurement twice, four and eight samples *)
Example C69_ex qr eps : qr_sound qr -> (0 < eps)%R -> exists x o rho P, povm_ok x [4; 1] [2; 2] /\ psd_elems x /\ sums_to_id x /\ unit_trace [2; 2] rho /\ born_prob x rho P /\
  let b := mkMeas o [2; 2] (fun _ => (1 / 4)%R) in
  Forall (exact_member x [4; 1] [2; 2] rho) [(b, two_rows); (b, two_rows ++ two_rows)] /\ regular x [4; 1] [2; 2] rho b /\
  outc (qr_fails qr) (est_pmf_from_mpps qr x [o; o] [S2n [2; 2] two_rows; S2n [2; 2] (two_rows ++ two_rows)] eps) (fun r => r = [(Fin (1 / 4), 12); (Fin (1 / 4), 12); (NaN, 0); (NaN, 0)]).
Proof. exact (two_members qr eps). Qed.
(** The number of samples used is wrong if no site is measured by both POVMs: all samples match,
    but 1 is reported, so that the member has the weight of a single sample. *)
Theorem C69_samples_used_refuted qr eps n : qr_sound qr -> (0 < eps)%R -> 1 < n -> exists x o, povm_ok x [2] [2] /\ povm_ok o [1] [2] /\ psd_elems x /\ sums_to_id x /\ psd_elems o /\ sums_to_id o /\ nonzero_elems [2] [2] [1] x o /\
  (forall ks ls, inr ks [2] -> inr ls [1] -> mt [2] [2] [1] x o ks ls = true) /\
  outc (qr_fails qr) (est_pmf_from qr x o (S2n [] (repeat [] n)) eps) (fun r => r = ([Fin (1 / 2); Fin (1 / 2)], 1) /\ snd r <> n).
Proof.
  intros Hq He Hn. destruct (coin_used qr eps n Hq He ltac:(lia)) as (x & o & H1 & H2 & H3 & H4 & H5 & H6 & H7 & H8 & H9). exists x, o. repeat (split; [assumption|]).
  apply (outc_weaken _ _ _ _ _ H9 (fun z => z)). intros r ->. split; [reflexivity|cbn; lia].
Qed.
Print Assumptions C69_samples_used_refuted.
