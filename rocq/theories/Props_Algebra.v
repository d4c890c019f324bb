(** Property theorems: conversion to dense arrays, linear algebra, products.
    [entry x is] is [x.to_array()] at the concatenation of the per-site leg
    indices [is]; [mpa_ok x] says that [x] is a non-empty chain of local tensors
    with matching bonds and boundary ranks 1; [mshape x] and [ranks x] are
    [x.shape] and [x.ranks]. *)
From Verif Require Import Examples.

(** C01: to_array evaluates the matrix-product formula. *)
Theorem C01_to_array_paths (K : StarRing) (x : ltens K) : mpa_ok x ->
  shp (to_array x) = concat (mshape x) /\
  (forall idx, inr idx (shp (to_array x)) -> exists is, idx = concat is /\ valid_idx is (mshape x)) /\
  forall is, valid_idx is (mshape x) ->
    entry x is = msum (ranks x) (fun bs => path_weight (lts x) is 0 (bs ++ [0])).
Proof.
  intros H. destruct (to_array_paths x H) as [H1 H2]. split; [exact H1|]. split; [|exact H2].
  intros idx. apply dense_idx. exact H.
Qed.
Print Assumptions C01_to_array_paths.
Example C01_ex : mpa_ok ex_a /\ to_array ex_a = mk [2;3] [g 0 (-1); g 0 1; g 4 0; g 0 (-4); g (-1) 3; g 9 4].
Proof. split; [apply ex_ok; cbn; auto|vmc]. Qed.

(** C04: from_kron is the tensor product of its factors. *)
Theorem C04_from_kron (K : StarRing) (fs : list (nd K)) : fs <> [] -> Forall ndwf fs ->
  exists z, from_kron fs = Ok z /\ mpa_ok z /\ mshape z = map shp fs /\ Forall (fun r => r = 1) (ranks z) /\
    canonical_form z = (0%Z, Z.of_nat (length fs)) /\
    forall is, valid_idx is (map shp fs) -> entry z is = kprod (zip2 get fs is).
Proof. intros H1 H2. pose proof (from_kron_spec fs H1 H2) as H. dense H. Qed.
Print Assumptions C04_from_kron.
Theorem C04_from_kron_empty (K : StarRing) : from_kron (K:=K) [] = Err AssertionError.
Proof. reflexivity. Qed.
Print Assumptions C04_from_kron_empty.
Example C04_ex : entry_of (from_kron [mk [2] [g 1 0; g 0 1]; mk [2;1] [g 2 0; g 0 3]; mk [] [g 1 1]]) [[1]; [1; 0]; []] = Some (g (-3) (-3)).
Proof. vm_compute. reflexivity. Qed.

(** C05: addition and subtraction act entrywise. *)
Theorem C05_add_entrywise (K : StarRing) (x y : ltens K) :
  mpa_ok x -> mpa_ok y -> mshape x = mshape y ->
  exists z, madd x y = Ok z /\ mpa_ok z /\ mshape z = mshape x /\
    ranks z = map (fun p => fst p + snd p) (combine (ranks x) (ranks y)) /\
    lcan z = 0%Z /\ rcan z = Z.of_nat (llen x) /\
    forall is, valid_idx is (mshape x) -> entry z is = (entry x is + entry y is)%K.
Proof. intros Hx Hy Es. pose proof (madd_spec x y Hx Hy Es) as H. dense H. Qed.
Print Assumptions C05_add_entrywise.
Theorem C05_sub_entrywise (K : StarRing) (x y : ltens K) :
  mpa_ok x -> mpa_ok y -> cform_ok y -> mshape x = mshape y ->
  exists z, msub x y = Ok z /\ mpa_ok z /\ mshape z = mshape x /\
    ranks z = map (fun p => fst p + snd p) (combine (ranks x) (ranks y)) /\
    forall is, valid_idx is (mshape x) -> entry z is = (entry x is - entry y is)%K.
Proof. intros Hx Hy Hc Es. pose proof (msub_spec x y Hx Hy Hc Es) as H. dense H. Qed.
Print Assumptions C05_sub_entrywise.
Theorem C05_add_length_error (K : StarRing) (x y : ltens K) : llen x <> llen y -> madd x y = Err AssertionError.
Proof. exact (madd_length_error x y). Qed.
Print Assumptions C05_add_length_error.
Example C05_ex : mpa_ok ex_a /\ mpa_ok ex_b /\ mshape ex_a = mshape ex_b /\
  ranks_of (madd ex_a ex_b) = Some [5] /\ entry_of (madd ex_a ex_b) [[1];[2]] = Some (g 32 27) /\
  entry_of (msub ex_a ex_b) [[1];[2]] = Some (g (-14) (-19)).
Proof. split; [apply ex_ok; cbn; auto|]. split; [apply ex_ok; cbn; auto|]. vms. Qed.

(** C06: scalar multiplication.  [cform_lt]: the recorded left and right regions do
    not overlap, see [C06_mul_overlap_refuted] for the other case. *)
Theorem C06_mul_entrywise (K : StarRing) (x : ltens K) f :
  mpa_ok x -> cform_ok x ->
  exists z, mmul x f = Ok z /\ mpa_ok z /\ mshape z = mshape x /\ ranks z = ranks x /\
    canonical_form z = canonical_form x /\
    (canon_true x -> cform_lt x -> canon_true z) /\
    forall is, valid_idx is (mshape x) -> entry z is = (f * entry x is)%K.
Proof. intros Hx Hc. pose proof (mmul_spec x f Hx Hc) as H. dense H. Qed.
Print Assumptions C06_mul_entrywise.
Theorem C06_imul_entrywise (K : StarRing) (x : ltens K) f :
  mpa_ok x -> cform_ok x ->
  exists z, mimul x f = Ok z /\ mpa_ok z /\ mshape z = mshape x /\ ranks z = ranks x /\ cform_ok z /\ cform_lt z /\
    (canon_true x -> canon_true z) /\ (cform_lt x -> canonical_form z = canonical_form x) /\
    forall is, valid_idx is (mshape x) -> entry z is = (f * entry x is)%K.
Proof. intros Hx Hc. pose proof (mimul_spec x f Hx Hc) as H. dense H. Qed.
Print Assumptions C06_imul_entrywise.
Theorem C06_neg_entrywise (K : StarRing) (x : ltens K) :
  mpa_ok x -> cform_ok x ->
  exists z, mneg x = Ok z /\ mpa_ok z /\ mshape z = mshape x /\ ranks z = ranks x /\
    canonical_form z = canonical_form x /\
    (canon_true x -> cform_lt x -> canon_true z) /\
    forall is, valid_idx is (mshape x) -> entry z is = (- entry x is)%K.
Proof. intros Hx Hc. pose proof (mneg_spec x Hx Hc) as H. dense H. Qed.
Print Assumptions C06_neg_entrywise.
(** [dinv] stands for [1 / d]. *)
Theorem C06_div_entrywise (K : StarRing) (x : ltens K) d dinv :
  mpa_ok x -> cform_ok x -> (d * dinv)%K = k1 ->
  exists z, mtruediv x dinv = Ok z /\ mpa_ok z /\ mshape z = mshape x /\
    forall is, valid_idx is (mshape x) -> (d * entry z is)%K = entry x is.
Proof.
  intros Hx Hc Hd. destruct (C06_mul_entrywise K x dinv Hx Hc) as [z [E [Hz [Es [_ [_ [_ H]]]]]]].
  exists z. split; [exact E|]. split; [exact Hz|]. split; [exact Es|]. intros is Hi. rewrite H by exact Hi.
  rewrite (Rmul_assoc (k_ring K)), Hd. apply (Rmul_1_l (k_ring K)).
Qed.
Print Assumptions C06_div_entrywise.
Example C06_ex : mpa_ok ex_c /\ cform_ok ex_c /\ cform_lt ex_c /\ canon_true ex_c /\
  entry ex_c [[1];[0];[1]] = g 0 0 /\ entry ex_c [[1];[0];[0]] = g 0 3 /\ entry_of (mmul ex_c (g 1 2)) [[1];[0];[0]] = Some (g (-6) 3) /\
  entry_of (mneg ex_c) [[1];[0];[0]] = Some (g 0 (-3)).
Proof.
  split; [apply ex_ok; cbn; auto 6|]. split; [apply ex_cform; cbn; auto 6|]. split; [unfold cform_lt; cbn; lia|].
  split; [apply ex_canon; cbn; auto 6|]. vms.
Qed.
(** A true form with overlapping regions, reached by the public [update] with an
    honest flag, becomes false under [*]: the scaled site is still recorded as
    right-canonical. *)
Theorem C06_mul_overlap_refuted :
  exists (x y z : ltens GZ) (f : GZ),
    mpa_ok x /\ canon_true x /\ cform_lt x /\
    lt_update_int x 0 (nth 0 (lts x) dummy) (Some "left"%string) = Ok y /\
    mpa_ok y /\ cform_ok y /\ canon_true y /\ mmul y f = Ok z /\ canonical_form z = canonical_form y /\ ~ canon_true z.
Proof.
  pose (t := mk [1;2;1] [g 1 0; g 0 0]). pose (t2 := mk [1;2;1] [g 2 0; g 0 0]).
  exists (mkLt [t; t] 0 1), (mkLt [t; t] 1 1), (mkLt [t; t2] 1 1), (g 2 0).
  split; [apply mpa_okb_ok; reflexivity|]. split; [apply canon_trueb_ok; vm_compute; reflexivity|].
  split; [unfold cform_lt; cbn; lia|]. split; [vm_compute; reflexivity|].
  split; [apply mpa_okb_ok; reflexivity|]. split; [apply cform_okb_ok; reflexivity|].
  split; [apply canon_trueb_ok; vm_compute; reflexivity|]. split; [vm_compute; reflexivity|]. split; [reflexivity|].
  intros [_ H]. specialize (H 1 ltac:(cbn; lia) ltac:(cbn; lia) 0 0 ltac:(cbn; lia) ltac:(cbn; lia)). vm_compute in H. discriminate.
Qed.
Print Assumptions C06_mul_overlap_refuted.

(** C07: sumup is the weighted sum. *)
Theorem C07_sumup (K : StarRing) (xs : list (ltens K)) ws n sh :
  xs <> [] -> Forall mpa_ok xs -> Forall (fun x => mshape x = sh) xs -> length sh = n ->
  (forall w, ws = Some w -> length w = length xs) ->
  exists y, msumup xs ws = Ok y /\ mpa_ok y /\ mshape y = sh /\
    ranks y = map (fun k => list_sum (map (fun x => nth k (ranks x) 0) xs)) (seq 0 (n - 1)) /\
    lcan y = 0%Z /\ rcan y = Z.of_nat n /\
    forall is, valid_idx is sh ->
      entry y is = bigsum (length xs) (fun j => match ws with None => k1 | Some w => nth j w k0 end *
                                                entry (nth j xs (mkLt [] 0 0)) is)%K.
Proof.
  intros H1 H2 H3 H4 H5. pose proof (msumup_spec xs ws n sh H1 H2 H3 H4 H5) as H. split_all H.
  intros is Hi. rewrite entry_amp by (auto; congruence). rewrite H by exact Hi. apply bigsum_ext. intros j Hj. f_equal.
  rewrite Forall_forall in H2, H3. assert (Hn := nth_In xs (mkLt [] 0 0) Hj).
  symmetry. apply entry_amp; [apply H2; exact Hn|]. unfold valid_idx. rewrite (H3 _ Hn). exact Hi.
Qed.
Print Assumptions C07_sumup.
Example C07_ex : ranks_of (msumup [ex_a; ex_b; ex_a] (Some [g 1 0; g 0 1; g 2 0])) = Some [7] /\
  entry_of (msumup [ex_a; ex_b; ex_a] (Some [g 1 0; g 0 1; g 2 0])) [[1];[2]] = Some (g 4 35).
Proof. vm_compute. auto. Qed.

(** C08: dot.  [za], [zb] are the contracted legs (Python numbering), [keep]/[pick]
    the remaining and the contracted dimensions of a site, [site_idx] the site
    index with the given remaining and contracted parts. *)
Theorem C08_dot (K : StarRing) (x y : ltens K) ax :
  let za := fst (user_axes ax) in let zb := snd (user_axes ax) in
  mpa_ok x -> mpa_ok y -> Forall2 (dot_compat za zb) (mshape x) (mshape y) ->
  exists z, mdot x y ax = Ok z /\ mpa_ok z /\
    mshape z = zip2 (fun p q => keep za p ++ keep zb q) (mshape x) (mshape y) /\
    ranks z = zip2 Nat.mul (ranks x) (ranks y) /\
    canonical_form z = (0%Z, Z.of_nat (llen x)) /\
    forall is js, valid_idx is (map (keep za) (mshape x)) -> valid_idx js (map (keep zb) (mshape y)) ->
      entry z (zip2 (@app nat) is js) =
      msums (map (pick za) (mshape x))
        (fun cs => entry x (zip3 (site_idx za) (mshape x) is cs) *
                   entry y (zip3 (site_idx zb) (mshape y) js cs))%K.
Proof.
  intros za zb Hx Hy HC. pose proof (mdot_spec x y ax Hx Hy HC) as H. split_all H. intros is js Hi Hj.
  rewrite entry_amp; [|assumption|].
  - rewrite H by assumption. apply msums_ext. intros cs Hcs.
    rewrite !entry_amp; auto; apply site_idx_valid; auto.
    + eapply dot_compat_right; exact HC.
    + rewrite <- (dot_compat_pick _ _ _ _ HC). exact Hcs.
    + eapply dot_compat_left; exact HC.
  - match goal with E : mshape z = _ |- _ => rewrite E end. rewrite <- (zip2_map_map _ _ _ _ _ (@app nat) (keep za) (keep zb)).
    apply valid_zip_app; auto. rewrite !map_length. exact (Forall2_len _ _ _ _ _ HC).
Qed.
Print Assumptions C08_dot.
Example C08_ex : Forall2 (dot_compat [(-1)%Z] [0%Z]) (mshape ex_o) (mshape ex_s) /\
  ranks_of (mdot ex_o ex_s (AInt (-1) 0)) = Some [4; 4] /\
  entry_of (mdot ex_o ex_s (AInt (-1) 0)) [[1];[0];[1]] = Some (g 105 73).
Proof.
  split; [|vm_compute; auto].
  cbn. repeat (constructor; [unfold dot_compat, legs_ok; cbn; repeat split; intuition (subst; try lia); repeat constructor; cbn; tauto|]). constructor.
Qed.

(** C09: partialdot, the shorter array on the right or on the left. *)
Theorem C09_partialdot_left (K : StarRing) (x y : ltens K) s ax s1 s2 s3 :
  let za := fst (user_axes ax) in let zb := snd (user_axes ax) in
  mpa_ok x -> mpa_ok y -> llen y <= llen x ->
  mshape x = s1 ++ s2 ++ s3 -> length s1 = s -> length s2 = llen y ->
  Forall2 (dot_compat za zb) s2 (mshape y) ->
  exists z, partialdot x y s ax = Ok z /\ mpa_ok z /\
    mshape z = s1 ++ zip2 (fun p q => keep za p ++ keep zb q) s2 (mshape y) ++ s3 /\
    canonical_form z = (0%Z, Z.of_nat (llen x)) /\
    forall i1 is js i3, valid_idx i1 s1 -> valid_idx is (map (keep za) s2) ->
      valid_idx js (map (keep zb) (mshape y)) -> valid_idx i3 s3 ->
      entry z (i1 ++ zip2 (@app nat) is js ++ i3) =
      msums (map (pick za) s2)
        (fun cs => entry x (i1 ++ zip3 (site_idx za) s2 is cs ++ i3) *
                   entry y (zip3 (site_idx zb) (mshape y) js cs))%K.
Proof.
  intros za zb Hx Hy Hl Es E1 E2 HC. unfold mshape in Es.
  apply map_eq_app in Es. destruct Es as [x1 [x' [Ex [M1 Es]]]].
  apply map_eq_app in Es. destruct Es as [x2 [x3 [Ex' [M2 M3]]]]. subst x'. subst s1 s2 s3. rewrite map_length in E1, E2.
  pose proof (partialdot_left_spec x y s ax x1 x2 x3 Hx Hy Hl Ex E1 E2 HC) as H. split_all H. intros i1 is js i3 H1' Hi Hj H3'.
  rewrite entry_amp; [|assumption|].
  - rewrite H by assumption. apply msums_ext. intros cs Hcs.
    rewrite !entry_amp; auto.
    + apply site_idx_valid; [eapply dot_compat_right; exact HC|exact Hj|]. rewrite <- (dot_compat_pick _ _ _ _ HC). exact Hcs.
    + unfold mshape. rewrite Ex, !map_app. apply Forall2_app; [exact H1'|]. apply Forall2_app; [|exact H3'].
      apply site_idx_valid; [eapply dot_compat_left; exact HC|exact Hi|exact Hcs].
  - match goal with E : mshape z = _ |- _ => rewrite E end. apply Forall2_app; [exact H1'|]. apply Forall2_app; [|exact H3'].
    rewrite <- (zip2_map_map _ _ _ _ _ (@app nat) (keep za) (keep zb)).
    apply valid_zip_app; auto. rewrite !map_length. pose proof (Forall2_len _ _ _ _ _ HC) as L. rewrite map_length in L. exact L.
Qed.
Print Assumptions C09_partialdot_left.
Theorem C09_partialdot_right (K : StarRing) (x y : ltens K) s ax s1 s2 s3 :
  let za := fst (user_axes ax) in let zb := snd (user_axes ax) in
  mpa_ok x -> mpa_ok y -> llen x < llen y ->
  mshape y = s1 ++ s2 ++ s3 -> length s1 = s -> length s2 = llen x ->
  Forall2 (dot_compat za zb) (mshape x) s2 ->
  exists z, partialdot x y s ax = Ok z /\ mpa_ok z /\
    mshape z = s1 ++ zip2 (fun p q => keep za p ++ keep zb q) (mshape x) s2 ++ s3 /\
    canonical_form z = (0%Z, Z.of_nat (llen y)) /\
    forall i1 is js i3, valid_idx i1 s1 -> valid_idx is (map (keep za) (mshape x)) ->
      valid_idx js (map (keep zb) s2) -> valid_idx i3 s3 ->
      entry z (i1 ++ zip2 (@app nat) is js ++ i3) =
      msums (map (pick za) (mshape x))
        (fun cs => entry x (zip3 (site_idx za) (mshape x) is cs) *
                   entry y (i1 ++ zip3 (site_idx zb) s2 js cs ++ i3))%K.
Proof.
  intros za zb Hx Hy Hl Es E1 E2 HC. unfold mshape in Es.
  apply map_eq_app in Es. destruct Es as [x1 [x' [Ex [M1 Es]]]].
  apply map_eq_app in Es. destruct Es as [x2 [x3 [Ex' [M2 M3]]]]. subst x'. subst s1 s2 s3. rewrite map_length in E1, E2.
  pose proof (partialdot_right_spec x y s ax x1 x2 x3 Hx Hy Hl Ex E1 E2 HC) as H. split_all H. intros i1 is js i3 H1' Hi Hj H3'.
  rewrite entry_amp; [|assumption|].
  - rewrite H by assumption. apply msums_ext. intros cs Hcs.
    rewrite !entry_amp; auto.
    + unfold mshape. rewrite Ex, !map_app. apply Forall2_app; [exact H1'|]. apply Forall2_app; [|exact H3'].
      apply site_idx_valid; [eapply dot_compat_right; exact HC|exact Hj|]. rewrite <- (dot_compat_pick _ _ _ _ HC). exact Hcs.
    + apply site_idx_valid; [eapply dot_compat_left; exact HC|exact Hi|exact Hcs].
  - match goal with E : mshape z = _ |- _ => rewrite E end. apply Forall2_app; [exact H1'|]. apply Forall2_app; [|exact H3'].
    rewrite <- (zip2_map_map _ _ _ _ _ (@app nat) (keep za) (keep zb)).
    apply valid_zip_app; auto. rewrite !map_length. pose proof (Forall2_len _ _ _ _ _ HC) as L. rewrite map_length in L. exact L.
Qed.
Print Assumptions C09_partialdot_right.
(** The clause "windows that do not fit are rejected" is false: a shorter array
    placed beyond the end is silently cut. *)
Theorem C09_window_overflow_refuted :
  exists (x y z : ltens GZ) s, mpa_ok x /\ mpa_ok y /\ llen y < llen x /\ llen x < s + llen y /\
    partialdot x y s (AInt (-1) 0) = Ok z /\ mshape z <> mshape x.
Proof.
  pose (o := mk [1;2;2;1] [g 1 0; g 0 0; g 0 0; g 1 0]). pose (v := mk [1;2;1] [g 1 0; g 0 0]).
  pose (x := mkLt [o; o; o] 0 3 : ltens GZ). pose (y := mkLt [v; v] 0 2 : ltens GZ).
  exists x, y, (from_ok (partialdot x y 2 (AInt (-1) 0)) no_mpa), 2. split; [apply mpa_okb_ok; reflexivity|]. split; [apply mpa_okb_ok; reflexivity|].
  split; [cbn; lia|]. split; [cbn; lia|]. split; [vm_compute; reflexivity|]. vm_compute. discriminate.
Qed.
Print Assumptions C09_window_overflow_refuted.

(** C10: inner is the sesquilinear inner product of the represented arrays. *)
Theorem C10_inner (K : StarRing) (x y : ltens K) :
  mpa_ok x -> mpa_ok y -> bonds_pos x -> bonds_pos y -> mshape x = mshape y ->
  exists a, minner x y = Ok a /\ shp a = [] /\ ndwf a /\
    get a [] = msums (mshape x) (fun is => kconj (entry x is) * entry y is)%K.
Proof.
  intros Hx Hy Px Py Es. pose proof (minner_spec x y Hx Hy Px Py Es) as H. split_all H. rewrite H. apply msums_ext.
  intros cs Hcs. rewrite !entry_amp by (auto; rewrite <- ?Es; exact Hcs). reflexivity.
Qed.
Print Assumptions C10_inner.
Theorem C10_inner_hermitian (K : StarRing) (x y : ltens K) a b :
  mpa_ok x -> mpa_ok y -> bonds_pos x -> bonds_pos y -> mshape x = mshape y ->
  minner x y = Ok a -> minner y x = Ok b -> kconj (get a []) = get b [].
Proof.
  intros Hx Hy Px Py Es Ea Eb. destruct (C10_inner K x y Hx Hy Px Py Es) as [a' [Ea' [_ [_ Va]]]].
  destruct (C10_inner K y x Hy Hx Py Px (eq_sym Es)) as [b' [Eb' [_ [_ Vb]]]].
  rewrite Ea in Ea'. rewrite Eb in Eb'. injection Ea' as <-. injection Eb' as <-. rewrite Va, Vb, <- Es.
  rewrite msums_conj. apply msums_ext. intros cs _. rewrite (kconj_mul K), (kconj_invol K). apply (Rmul_comm (k_ring K)).
Qed.
Print Assumptions C10_inner_hermitian.
Theorem C10_inner_linear (K : StarRing) (x y y' s : ltens K) (f : K) a b c d :
  mpa_ok x -> mpa_ok y -> mpa_ok y' -> cform_ok y -> bonds_pos x -> bonds_pos y -> bonds_pos y' -> bonds_pos s ->
  mshape x = mshape y -> mshape x = mshape y' ->
  madd y y' = Ok s -> minner x y = Ok a -> minner x y' = Ok b -> minner x s = Ok c ->
  get c [] = (get a [] + get b [])%K /\
  (forall w, mmul y f = Ok w -> bonds_pos w -> minner x w = Ok d -> get d [] = (f * get a [])%K).
Proof.
  intros Hx Hy Hy' Cy Px Py Py' Ps Es Es' E Ea Eb Ec.
  destruct (C10_inner K x y Hx Hy Px Py Es) as [a' [Ea' [_ [_ Va]]]]. rewrite Ea in Ea'. injection Ea' as <-.
  destruct (C10_inner K x y' Hx Hy' Px Py' Es') as [b' [Eb' [_ [_ Vb]]]]. rewrite Eb in Eb'. injection Eb' as <-.
  destruct (C05_add_entrywise K y y' Hy Hy' ltac:(congruence)) as [s' [E' [Hs [Ss [_ [_ [_ Vs]]]]]]]. rewrite E in E'. injection E' as <-.
  split.
  - destruct (C10_inner K x s Hx Hs Px Ps ltac:(congruence)) as [c' [Ec' [_ [_ Vc]]]]. rewrite Ec in Ec'. injection Ec' as <-.
    rewrite Va, Vb, Vc, <- msums_add. apply msums_ext. intros cs Hcs. rewrite Vs by (rewrite <- Es; exact Hcs).
    apply k_distr_l.
  - intros w Ew Pw Ed. destruct (C06_mul_entrywise K y f Hy Cy) as [w' [Ew' [Hw [Sw [_ [_ [_ Vw]]]]]]]. rewrite Ew in Ew'. injection Ew' as <-.
    destruct (C10_inner K x w Hx Hw Px Pw ltac:(congruence)) as [d' [Ed' [_ [_ Vd]]]]. rewrite Ed in Ed'. injection Ed' as <-.
    rewrite Va, Vd, <- msums_mul_l. apply msums_ext. intros cs Hcs. rewrite Vw by (rewrite <- Es; exact Hcs).
    rewrite !(Rmul_assoc (k_ring K)). f_equal. apply (Rmul_comm (k_ring K)).
Qed.
Print Assumptions C10_inner_linear.
Example C10_ex : bonds_pos ex_a /\ bonds_pos ex_b /\
  match minner ex_a ex_b with Ok a => get a [] = g 294 115 | Err _ => False end.
Proof. split; [repeat constructor; cbn; lia|]. split; [repeat constructor; cbn; lia|]. vm_compute. reflexivity. Qed.

(** C12: chain and localouter are tensor products. *)
Theorem C12_chain (K : StarRing) (xs : list (ltens K)) : xs <> [] -> Forall mpa_ok xs ->
  exists z, mchain xs = Ok z /\ mpa_ok z /\ lts z = flat_map lts xs /\ mshape z = flat_map mshape xs /\
    canonical_form z = (0%Z, Z.of_nat (llen z)) /\
    forall iss, Forall2 (fun is x => valid_idx is (mshape x)) iss xs ->
      entry z (concat iss) = kprod (zip2 entry xs iss).
Proof.
  intros H1 H2. pose proof (mchain_spec xs H1 H2) as H. split_all H. intros iss Hi.
  rewrite entry_amp; [|assumption|].
  - rewrite H by exact Hi. f_equal. clear -H2 Hi. induction Hi as [|is x iss xs H HF IH]; [reflexivity|]. inversion H2; subst. cbn [zip2].
    rewrite entry_amp by assumption. f_equal. apply IH; assumption.
  - match goal with E : mshape z = _ |- _ => rewrite E end. rewrite flat_map_concat_map. apply valid_concat.
    clear -Hi. induction Hi; cbn; constructor; auto.
Qed.
Print Assumptions C12_chain.
Theorem C12_chain_assoc (K : StarRing) (a b c ab bc : ltens K) : mpa_ok a -> mpa_ok b -> mpa_ok c ->
  mchain [a; b] = Ok ab -> mchain [b; c] = Ok bc ->
  mchain [ab; c] = mchain [a; bc].
Proof.
  intros Ha Hb Hc E1 E2.
  destruct (mchain_spec [a; b] ltac:(discriminate) ltac:(auto)) as [z1 [F1 [O1 [L1 _]]]]. rewrite E1 in F1. injection F1 as <-.
  destruct (mchain_spec [b; c] ltac:(discriminate) ltac:(auto)) as [z2 [F2 [O2 [L2 _]]]]. rewrite E2 in F2. injection F2 as <-.
  unfold mchain. cbn [flat_map] in *. rewrite L1, L2, !app_nil_r, app_assoc. reflexivity.
Qed.
Print Assumptions C12_chain_assoc.
Theorem C12_localouter (K : StarRing) (x y : ltens K) : mpa_ok x -> mpa_ok y -> llen x = llen y ->
  exists z, localouter x y = Ok z /\ mpa_ok z /\ mshape z = zip2 (@app nat) (mshape x) (mshape y) /\
    ranks z = zip2 Nat.mul (ranks x) (ranks y) /\
    forall is js, valid_idx is (mshape x) -> valid_idx js (mshape y) ->
      entry z (zip2 (@app nat) is js) = (entry x is * entry y js)%K.
Proof.
  intros Hx Hy Hl. pose proof (localouter_spec x y Hx Hy Hl) as H. split_all H. intros is js Hi Hj.
  rewrite !entry_amp; auto. match goal with E : mshape z = _ |- _ => rewrite E end. apply valid_zip_app; auto. rewrite !mshape_length. exact Hl.
Qed.
Print Assumptions C12_localouter.
Example C12_ex : entry_of (mchain [ex_a; ex_b]) [[1];[2];[0];[1]] = Some (g (-2) 53) /\
  entry_of (localouter ex_o ex_s) [[1;0;1];[0;0;1];[1;1;0]] = Some (g 6 18).
Proof. vm_compute. split; reflexivity. Qed.
