(** Examples and counterexamples for [lfun_from]: one basis measurement used for itself. *)
From Coq Require Import Reals Lra.
From Verif Require Export PfLfunEst PfMatchEx.
Open Scope nat_scope.
Add Ring Cr : (k_ring CS).

Section Z.
Variables (z : ltens CS) (P : list nat -> R) (rho : mat CS) (eps : R).
Hypothesis Hz : povm_ok z [2] [2].
Hypothesis Pz : psd_elems z.
Hypothesis Sz : sums_to_id z.
Hypothesis Ez : forall ks is js, inr ks [2] -> inr is [2] -> inr js [2] -> elem_of z ks is js = diag (dprod [s_z] ks) is js.
Hypothesis Bz : born_prob z rho P.
Hypothesis He : (0 <= eps < 1)%R.
Let m : meas := mkMeas z [2] P.
Lemma z_meas : meas_ok [2] rho m.
Proof. exact (conj Hz (conj Pz (conj Sz Bz))). Qed.
Lemma z_summed l is js : l < 2 -> inr is [2] -> inr js [2] -> summed_elem [2] [2] z [l] is js = diag (dprod [s_z] [l]) is js.
Proof.
  intros Hl Hi Hj. etransitivity; [exact (summed_diag [s_z] [s_z] eq_refl z Ez [l] is js ltac:(apply inr_cons; [exact Hl|constructor]) Hi Hj)|]. unfold diag. destruct (list_eq_dec Nat.eq_dec is js); [|reflexivity]. reflexivity.
Qed.
Lemma z_overlap k l : k < 2 -> l < 2 -> overlap [2] (elem_of z [k]) (summed_elem [2] [2] z [l]) = if Nat.eqb k l then 1%R else 0%R.
Proof.
  intros Hk Hl. rewrite (overlap_ext [2] _ (diag (dprod [s_z] [k])) _ (diag (dprod [s_z] [l]))).
  - rewrite overlap_diag. unfold rmsum. enum k; enum l; cbn; field.
  - intros. apply Ez; [apply inr_cons; [assumption|constructor]|assumption..].
  - intros. apply z_summed; assumption.
Qed.
Lemma z_mte k l : k < 2 -> l < 2 -> mte [2] eps m m [k] [l] = Nat.eqb k l.
Proof.
  intros Hk Hl. unfold mte. cbn [me_x me_n m]. rewrite z_overlap by assumption. destruct (Nat.eqb k l).
  - rewrite Rminus_diag_eq by reflexivity. rewrite Rabs_R0. apply Rleb_true. lra.
  - unfold Rleb. destruct (Rle_dec _ _) as [C|C]; [|reflexivity]. exfalso. revert C. rewrite Rabs_left by lra. lra.
Qed.
Lemma z_nme k : k < 2 -> nme [2] eps m m [k] = 1.
Proof.
  intros Hk. unfold nme. change (outcomes (msd m m)) with [[0]; [1]]. cbn [filter]. rewrite !z_mte by lia. enum k; reflexivity.
Qed.
Lemma z_nonzero : nonzero_elems [2] [2] [2] z z.
Proof.
  apply (diag_nonzero [s_z] [s_z] eq_refl z z Ez Ez); [intros ks Hk; change (inr ks [2]) in Hk; destruct (inr1_cases _ _ Hk) as (k & Hk' & ->)|intros ks Hk; change (inr ks [2]) in Hk; destruct (inr1_cases _ _ Hk) as (k & Hk' & ->)]; enum k; rcalc.
Qed.
Lemma z_sep : sep_e [2] eps m m.
Proof.
  intros ks ls Hk Hl H. change (inr ks [2]) in Hk. change (inr ls [2]) in Hl. destruct (inr1_cases _ _ Hk) as (k & Hk' & ->), (inr1_cases _ _ Hl) as (l & Hl' & ->). rewrite z_mte in H by assumption. apply Nat.eqb_eq in H. subst l.
  exists k1. intros is js Hi Hj. cbn [me_x me_n m]. rewrite z_summed, Ez by assumption. ring.
Qed.
Lemma z_setting c ws : setting [2] rho eps [(m, c)] (map (pair m) ws).
Proof.
  split; [|split].
  - intros t [<-|[]]. apply z_meas.
  - intros q Hq. apply in_map_iff in Hq. destruct Hq as (w & <- & _). split; [apply z_meas|discriminate].
  - intros t q [<-|[]] Hq. apply in_map_iff in Hq. destruct Hq as (w & <- & _). split; [apply z_nonzero|apply z_sep].
Qed.
(** The accumulator: the running sum is cut to a whole number each time. *)
Lemma z_acc k ws : k < 2 -> acc_w [2] eps (map (pair m) ws) m [k] = fold_left (fun z w => rtrunc (IZR z + w)) ws 0%Z.
Proof.
  intros Hk. unfold acc_w. generalize 0%Z. induction ws as [|w ws IH]; intros y; [reflexivity|]. cbn [map fold_left fst snd]. rewrite z_nme by exact Hk. apply IH.
Qed.
Lemma z_total k ws : k < 2 -> total_w [2] eps (map (pair m) ws) m [k] = rsum ws.
Proof. intros Hk. unfold total_w. rewrite map_map. cbn [fst snd]. rewrite z_nme by exact Hk. f_equal. rewrite <- (map_id ws) at 2. apply map_ext. intros w. cbn. ring. Qed.
Lemma z_available c ws : ws <> [] -> available [2] eps [(m, c)] (map (pair m) ws).
Proof.
  intros Hw t ks [<-|[]] Hk _. change (inr ks [2]) in Hk. destruct (inr1_cases _ _ Hk) as (k & Hk' & ->). destruct ws as [|w ws]; [congruence|]. exists (m, w). split; [left; reflexivity|]. cbn [fst]. rewrite z_nme by exact Hk'. lia.
Qed.
(** The value for arbitrary weights *)
Theorem z_value qr c ws st pm : qr_sound qr -> ws <> [] -> accepts [2] st pm IAuto rho -> gram_rho [2] rho -> unit_trace [2] rho ->
  let acc := fold_left (fun z w => rtrunc (IZR z + w)) ws 0%Z in acc <> 0%Z ->
  outc (qr_fails qr) (lfun_from qr [z] (map (fun _ => z) ws) [([2], [c [0]; c [1]])] st pm (Some ws) eps) (fun r =>
    exists v, fst r = LVal (Fin ((c [0%nat] * P [0%nat] + c [1%nat] * P [1%nat]) * (rsum ws / IZR acc))%R) (Fin v) /\ snd r = st).
Proof.
  intros Hqr Hw Acc Gr Tr acc Ha.
  assert (AK : forall ks, inr ks [2] -> acc_w [2] eps (map (pair m) ws) m ks = acc) by (intros ks Hk; destruct (inr1_cases _ _ Hk) as (k & Hk' & ->); apply z_acc; exact Hk').
  assert (NL : ~ lacking [2] eps [(m, c)] (map (pair m) ws)) by (intros (t & ks & [<-|[]] & Hk & _ & A); cbn [fst snd] in *; rewrite (AK ks Hk) in A; contradiction).
  assert (AP : acc_pos [2] eps [(m, c)] (map (pair m) ws)) by (intros t q ks [<-|[]] _ Hk _; cbn [fst]; rewrite (AK ks Hk); exact Ha).
  assert (NW : map (pair m) ws <> []) by (destruct ws; [congruence|discriminate]).
  pose proof (lfun_from_value qr [2] rho eps [(m, c)] (map (pair m) ws) (z_setting c ws) Hqr st pm NW Acc Gr Tr (proj1 He) AP NL) as R.
  assert (E1 : others (map (pair m) ws) = map (fun _ => z) ws) by (unfold others; rewrite map_map; reflexivity). assert (E2 : map snd (map (pair m) ws) = ws) by (rewrite map_map; cbn [snd]; apply map_id).
  rewrite E1, E2 in R. change (selfs [(m, c)]) with [z] in R. change (coeffs [(m, c)]) with [([2], [c [0]; c [1]])] in R.
  apply (outc_weaken _ _ _ _ _ R (fun f => f)). intros r [V S]. eexists. split; [|exact S]. rewrite V. f_equal. f_equal. cbn [map fst snd me_n m].
  unfold rmsum, rsum at 1. cbn. rewrite !(AK [_]) by (apply inr_cons; [lia|constructor]). rewrite !z_total by lia. unfold Rdiv. ring.
Qed.
Theorem z_lacking qr c ws st pm k : k < 2 -> c [k] <> 0%R -> fold_left (fun z w => rtrunc (IZR z + w)) ws 0%Z = 0%Z ->
  lfun_from qr [z] (map (fun _ => z) ws) [([2], [c [0]; c [1]])] st pm (Some ws) eps = Ok (LVal NaN NaN, st).
Proof.
  intros Hk Hc A. assert (L : lacking [2] eps [(m, c)] (map (pair m) ws)) by (exists (m, c), [k]; split; [left; reflexivity|]; split; [apply inr_cons; [exact Hk|constructor]|]; split; [exact Hc|]; rewrite z_acc by exact Hk; exact A).
  pose proof (lfun_from_lacking qr [2] rho eps [(m, c)] (map (pair m) ws) (z_setting c ws) st pm (proj1 He) L) as R.
  assert (E1 : others (map (pair m) ws) = map (fun _ => z) ws) by (unfold others; rewrite map_map; reflexivity). assert (E2 : map snd (map (pair m) ws) = ws) by (rewrite map_map; cbn [snd]; apply map_id).
  rewrite E1, E2 in R. exact R.
Qed.
(** Coefficients that vanish where the accumulator vanishes *)
Theorem z_assert qr st pm : qr_sound qr -> accepts [2] st pm IAuto rho -> gram_rho [2] rho -> unit_trace [2] rho ->
  lfun_from qr [z] [z] [([2], [0; 0]%R)] st pm (Some [0%R]) eps = Err AssertionError \/ (lfun_from qr [z] [z] [([2], [0; 0]%R)] st pm (Some [0%R]) eps = Err LinAlgError /\ qr_fails qr).
Proof.
  intros Hqr Acc Gr Tr. set (c := fun _ : list nat => 0%R). pose proof (setting_ready [2] rho eps [(m, c)] [(m, 0%R)] (z_setting c [0%R])) as HR.
  change [z] with (selfs [(m, c)]) at 1 3. change [z] with (others [(m, 0%R)]). change [([2], [0; 0]%R)] with (coeffs [(m, c)]). change [0%R] with (map snd [(m, 0%R)]). unfold lfun_from.
  rewrite (estimator_eq [2] eps [(m, c)] [(m, 0%R)] HR (proj1 He)). cbn [bind fst snd].
  destruct (cannot _ _) eqn:C.
  { exfalso. apply (cannot_spec [2] eps [(m, c)] [(m, 0%R)] HR) in C. destruct C as (t & ks & [<-|[]] & _ & B & _). apply B. reflexivity. }
  clear C. cbn [map flat_map fst snd]. rewrite app_nil_r. change (others [(m, 0%R)]) with [z]. cbn [combine thread fst snd].
  assert (E : entsf [2] eps [(m, 0%R)] m c (m, 0%R) = map (fun ij => (NaN, tst m m (snd ij))) (filter (mij [2] eps m m) (grid 2 2))).
  { unfold entsf. cbv zeta. change (size (me_n m)) with 2. change (size (msd m (fst (m, 0%R)))) with 2. apply map_ext_in. intros [i j] Hij. apply filter_In in Hij. destruct Hij as [Hij _]. apply in_grid in Hij. cbn [fst snd]. f_equal.
    assert (A : acc_w [2] eps [(m, 0%R)] m (unravel (me_n m) i) = 0%Z).
    { assert (I : inr (unravel [2] i) [2]) by (apply unravel_inr; apply Hij). destruct (inr1_cases _ _ I) as (k & Hk & E). change (me_n m) with [2]. rewrite E. etransitivity; [exact (z_acc k [0%R] Hk)|]. cbn [fold_left]. rewrite Rplus_0_r. apply rtrunc_IZR. }
    rewrite A. unfold c. rewrite !Rmult_0_l. unfold fdiv. destruct (Req_EM_T _ _) as [_|N]; [|exfalso; lra]. unfold finf. destruct (Rlt_dec 0 0); [lra|]. destruct (Rlt_dec 0 0); [lra|]. reflexivity. }
  rewrite E. clear E. set (F := filter (mij [2] eps m m) (grid 2 2)).
  assert (NF : F <> []).
  { assert (I : In (0, 0) F) by (apply filter_In; split; [apply in_grid; lia|]; unfold mij; cbn [fst snd]; change (unravel (me_n m) 0) with [0]; change (unravel (msd m m) 0) with [0]; rewrite z_mte by lia; reflexivity). intros N. rewrite N in I. destruct I. }
  unfold lfun_c. rewrite !map_map. cbn [fst snd].
  assert (RN : reals (map (fun _ : nat * nat => NaN) F) = None) by (destruct F; [congruence|reflexivity]). rewrite RN.
  set (es := map (fun ij => (0%R, tst m m (snd ij))) F).
  pose proof (lfun_member qr [2] rho eps Hqr m st pm es z_meas ltac:(discriminate) Acc Gr Tr (proj1 He)) as R. cbv zeta in R. unfold lfun_c in R. rewrite reals_fin in R. unfold es in R. rewrite !map_map in R. cbn [fst snd me_x m] in R. change (me_x m) with z in R.
  destruct R as [(r & E & _)|(E & Fl)]; cbn [me_x] in E; rewrite E; cbn [bind]; [left; reflexivity|right; split; [reflexivity|exact Fl]].
Qed.
End Z.
Lemma rtrunc_frac (n : Z) (r : R) : (0 <= n)%Z -> (0 <= r < 1)%R -> rtrunc (IZR n + r) = n.
Proof.
  intros Hn Hr. apply IZR_le in Hn. unfold rtrunc. destruct (Rle_dec 0 (IZR n + r)) as [_|C]; [|lra]. unfold Int_part. assert (E : (n + 1)%Z = up (IZR n + r)) by (apply tech_up; rewrite plus_IZR; lra). rewrite <- E. lia.
Qed.
(** Two copies of one measurement, with weights 3/2 each: the constant function 1 gets the value 3/2. *)
Theorem fractional qr eps : qr_sound qr -> (0 <= eps < 1)%R -> exists z, povm_ok z [2] [2] /\ psd_elems z /\ sums_to_id z /\ forall rho st pm, accepts [2] st pm IAuto rho -> gram_rho [2] rho -> unit_trace [2] rho ->
  outc (qr_fails qr) (lfun_from qr [z] [z; z] [([2], [1; 1]%R)] st pm (Some [3 / 2; 3 / 2]%R) eps) (fun r => exists v, fst r = LVal (Fin (3 / 2)%R) (Fin v)) /\
  outc (qr_fails qr) (lfun_from qr [z] [z; z] [([2], [1; 1]%R)] st pm None eps) (fun r => exists v, fst r = LVal (Fin 1%R) (Fin v)) /\
  lfun_from qr [z] [z] [([2], [1; 1]%R)] st pm (Some [1 / 2]%R) eps = Ok (LVal NaN NaN, st) /\
  (lfun_from qr [z] [z] [([2], [0; 0]%R)] st pm (Some [0]%R) eps = Err AssertionError \/ (lfun_from qr [z] [z] [([2], [0; 0]%R)] st pm (Some [0%R]) eps = Err LinAlgError /\ qr_fails qr)).
Proof.
  intros Hqr He. destruct (one_povm s_z z_ok) as (z & Hz & Pz & Sz & Ez). change [dn s_z] with [2] in *. change [dh s_z] with [2] in *. exists z. repeat (split; [assumption|]). intros rho st pm Acc Gr Tr.
  destruct (povm_dims _ _ _ Hz) as (D1 & D2 & _). destruct (born_prob_exists z rho Pz) as [P B]; [rewrite D2; exact Gr|].
  assert (T : (P [0%nat] + P [1%nat] = 1)%R).
  { pose proof (prob_total z [2] [2] rho P Hz Sz B) as T. unfold nsoutdims in T. rewrite D1 in T. change (filter (fun d => 1 <? d) [2]) with [2] in T. assert (T1 : rtrace [2] rho = 1%R) by (unfold rtrace; rewrite Tr; reflexivity). rewrite T1 in T. rewrite <- T. unfold rmsum. cbn. ring. }
  split; [|split; [|split]].
  - assert (F : fold_left (fun z w => rtrunc (IZR z + w)) [3 / 2; 3 / 2]%R 0%Z = 2%Z).
    { cbn [fold_left]. replace (0 + 3 / 2)%R with (IZR 1 + 1 / 2)%R by lra. rewrite (rtrunc_frac 1 (1 / 2)) by (lia || lra). replace (1 + 3 / 2)%R with (IZR 2 + 1 / 2)%R by lra. apply rtrunc_frac; lia || lra. }
    pose proof (z_value z P rho eps Hz Pz Sz Ez B He qr (fun _ => 1%R) [3 / 2; 3 / 2]%R st pm Hqr ltac:(discriminate) Acc Gr Tr) as R. cbv zeta in R. rewrite F in R.
    apply (outc_weaken _ _ _ _ _ (R ltac:(discriminate)) (fun f => f)). intros r (v & V & _). exists v. rewrite V. f_equal. f_equal. rewrite !Rmult_1_l, T. unfold rsum. cbn. lra.
  - rewrite lfun_from_none. cbn [map].
    assert (F : fold_left (fun z w => rtrunc (IZR z + w)) [1; 1]%R 0%Z = 2%Z).
    { cbn [fold_left]. rewrite <- plus_IZR, rtrunc_IZR, <- plus_IZR, rtrunc_IZR. reflexivity. }
    pose proof (z_value z P rho eps Hz Pz Sz Ez B He qr (fun _ => 1%R) [1; 1]%R st pm Hqr ltac:(discriminate) Acc Gr Tr) as R. cbv zeta in R. rewrite F in R.
    apply (outc_weaken _ _ _ _ _ (R ltac:(discriminate)) (fun f => f)). intros r (v & V & _). exists v. rewrite V. f_equal. f_equal. rewrite !Rmult_1_l, T. unfold rsum. cbn. lra.
  - apply (z_lacking z P rho eps Hz Pz Sz Ez B He qr (fun _ => 1%R) [1 / 2]%R st pm 0); [lia|lra|]. cbn [fold_left]. apply rtrunc_frac; lia || lra.
  - apply (z_assert z P rho eps Hz Pz Sz Ez B He qr st pm Hqr Acc Gr Tr).
Qed.
