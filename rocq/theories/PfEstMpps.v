(** [MPPovm.est_pmf_from_mpps] and [MPPovmList.est_pmf_from] (mppovm.py 1159-1187, 1379-1391). *)
From Coq Require Import Reals Lra.
From Verif Require Export PfLfunEst.
Open Scope nat_scope.
Add Ring Cr : (k_ring CS).

(** Weighted mean of values with numbers of samples; nan if there are no samples *)
Definition wmean (l : list (R * nat)) : flt * nat :=
  let n := list_sum (map snd l) in
  (if Nat.eqb n 0 then NaN else Fin (rsum (map (fun q => fst q * INR (snd q)) l) / INR n)%R, n).
Lemma fsum_fin (l : list R) : fsum (map Fin l) = Fin (rsum l).
Proof. induction l as [|a l IH]; [unfold fsum, rsum; cbn; reflexivity|]. cbn [map]. rewrite rsum_cons. unfold fsum in *. cbn [fold_right]. rewrite IH. reflexivity. Qed.
Lemma list_sum_zero l : list_sum l = 0 -> Forall (fun n => n = 0) l.
Proof. induction l as [|a l IH]; intros H; [constructor|]. change (a + list_sum l = 0) in H. constructor; [lia|apply IH; lia]. Qed.
Lemma wmean_code (l : list (R * nat)) :
  (fdiv (fsum (map (fun p : flt * nat => fmul (fst p) (Fin (INR (snd p)))) (map (fun q => (Fin (fst q), snd q)) l))) (Fin (INR (list_sum (map snd (map (fun q => (Fin (fst q), snd q)) l))))),
   list_sum (map snd (map (fun q : R * nat => (Fin (fst q), snd q)) l))) = wmean l.
Proof.
  unfold wmean. rewrite !map_map. cbn [fst snd].
  replace (map (fun q => fmul (Fin (fst q)) (Fin (INR (snd q)))) l) with (map Fin (map (fun q : R * nat => fst q * INR (snd q))%R l)) by (rewrite map_map; reflexivity).
  rewrite fsum_fin. change (map (fun q : R * nat => snd q) l) with (map snd l). f_equal. cbn [fdiv]. destruct (Nat.eqb_spec (list_sum (map snd l)) 0) as [E|N].
  - rewrite E. cbn [INR]. destruct (Req_EM_T 0 0); [|congruence]. assert (Z : rsum (map (fun q => fst q * INR (snd q))%R l) = 0%R).
    { apply list_sum_zero in E. apply (proj1 (Forall_map _ _ _)) in E. clear -E. induction E as [|q l Hq E IH]; [reflexivity|]. cbn [map]. rewrite rsum_cons, IH, Hq. cbn [INR]. lra. }
    rewrite Z. unfold finf. destruct (Rlt_dec 0 0); [lra|]. reflexivity.
  - destruct (Req_EM_T (INR (list_sum (map snd l))) 0) as [E|_]; [|reflexivity]. exfalso. apply N. apply INR_eq. rewrite E. reflexivity.
Qed.

Lemma born_prob_total (o : ltens CS) os hs rho Q : povm_ok o os hs -> sums_to_id o -> born_prob o rho Q -> unit_trace hs rho -> rmsum os (fun l => Q (bigi os l)) = 1%R.
Proof.
  intros Ho So BQ Tr. apply PfHS.toC_inj. rewrite <- toC_rmsum. destruct (povm_dims _ _ _ Ho) as (D1 & D2 & _). unfold born_prob in BQ. rewrite D1 in BQ.
  rewrite (msum_ext os _ (fun l => trw hs (elem_of o l) rho)) by (intros l Hl; rewrite <- (mborn_trw o os hs rho l Ho); symmetry; apply BQ; exact Hl).
  rewrite <- trw_msum. unfold sums_to_id in So. rewrite D1, D2 in So. rewrite (trw_ext hs _ (fun is js => list_delta is js) rho) by exact So. unfold trw. rewrite toC_1, <- Tr. apply msum_ext. intros is Hi. apply (msum_list_delta hs is (fun js => rho js is)). exact Hi.
Qed.
Section Mpps.
Variable qr : nd CS -> res (nd CS * nd CS).
Hypothesis Hqr : qr_sound qr.
Variables (x : ltens CS) (ns hs : list nat) (eps : R).
Hypothesis Hx : povm_ok x ns hs.
Hypothesis Hb : bigd ns <> [].
Hypothesis Px : psd_elems x.
Hypothesis Sx : sums_to_id x.
Hypothesis He : (0 < eps)%R.

(** A member of [other] with its samples *)
Definition smpl (q : meas * list (list nat)) : smp := S2n (bigd (me_n (fst q))) (map (bigi (me_n (fst q))) (snd q)).
Definition gives (b : meas) (ks : list nat) : bool := is_given hs ns (me_n b) x (me_x b) ks.
Definition value (q : meas * list (list nat)) (ks : list nat) : R := est_val hs ns (me_n (fst q)) x (me_x (fst q)) (snd q) ks.
Definition used (q : meas * list (list nat)) : nat := n_used hs ns (me_n (fst q)) x (me_x (fst q)) (snd q).
Definition no_match (b : meas) : Prop := forall ks ls, inr ks ns -> inr ls (merge_dims ns (me_n b)) -> mt hs ns (me_n b) x (me_x b) ks ls = false.
Definition usable (q : meas * list (list nat)) : Prop :=
  povm_ok (me_x (fst q)) (me_n (fst q)) hs /\ nonzero_elems hs ns (me_n (fst q)) x (me_x (fst q)) /\ Forall (fun l => inr l (me_n (fst q))) (snd q) /\ snd q <> [] /\
  (no_match (fst q) \/ exists f, covers hs ns (me_n (fst q)) x (me_x (fst q)) f /\ (0 < f)%R /\ (Rabs (rmsum ns (value q) - f) <= eps)%R).
Lemma no_match_given b ks : no_match b -> inr ks ns -> gives b ks = false.
Proof.
  intros H Hk. unfold gives. destruct (is_given _ _ _ _ _ ks) eqn:E; [|reflexivity]. apply existsb_exists in E. destruct E as (ls & Hl & M). apply (proj1 (outcomes_inr _ _)) in Hl. rewrite H in M by assumption. discriminate.
Qed.
(** What one member gives *)
Definition fine (q : meas * list (list nat)) (e : list flt * nat) : Prop :=
  forall ks, inr ks ns -> if gives (fst q) ks then nth (ravel ns ks) (fst e) NaN = Fin (value q ks) /\ snd e = used q else nth (ravel ns ks) (fst e) NaN = NaN.
Lemma nth_outcomes {A : Type} (f : list nat -> A) ks d : inr ks ns -> nth (ravel ns ks) (map f (outcomes ns)) d = f ks.
Proof.
  intros H. pose proof (ravel_lt _ _ H) as Hlt. unfold outcomes. rewrite map_map. rewrite (nth_indep _ d (f (unravel ns 0))) by (rewrite map_length, seq_length; exact Hlt).
  rewrite (map_nth (fun i => f (unravel ns i))), seq_nth by exact Hlt. cbn [plus]. rewrite unravel_ravel by exact H. reflexivity.
Qed.
Lemma member_fine q : usable q -> outc (qr_fails qr) (est_pmf_from qr x (me_x (fst q)) (smpl q) eps) (fine q).
Proof.
  intros (Ho & NZ & Hr & Hl & [N|(f & Hc & Hf & Hd)]).
  - left. eexists. split; [exact (est_pmf_from_none qr x (me_x (fst q)) ns (me_n (fst q)) hs (snd q) eps Hx Ho NZ Hb Hr Hl N)|]. intros ks Hk. rewrite (no_match_given _ _ N Hk). cbn [fst]. apply (nth_outcomes (fun _ => NaN)). exact Hk.
  - destruct (est_pmf_from_cover qr Hqr x (me_x (fst q)) ns (me_n (fst q)) hs (snd q) f eps Hx Ho NZ Hb Px Sx Hc Hf He Hr Hl) as [E|E]; [right; exact E|left].
    rewrite Rleb_true in E by exact Hd. eexists. split; [exact E|]. intros ks Hk. cbn [fst snd]. unfold est_array. rewrite (nth_outcomes (fun ks => if is_given hs ns (me_n (fst q)) x (me_x (fst q)) ks then Fin (est_val hs ns (me_n (fst q)) x (me_x (fst q)) (snd q) ks) else NaN)) by exact Hk.
    unfold gives. destruct (is_given _ _ _ _ _ ks); [split; reflexivity|reflexivity].
Qed.
Definition contributions (M : list (meas * list (list nat))) (ks : list nat) : list (R * nat) := map (fun q => (value q ks, used q)) (filter (fun q => gives (fst q) ks) M).
Lemma collect M es ks : Forall2 fine M es -> inr ks ns ->
  filter (fun p : flt * nat => match fst p with NaN => false | _ => true end) (map (fun e : list flt * nat => (nth (ravel ns ks) (fst e) NaN, snd e)) es) = map (fun q => (Fin (fst q), snd q)) (contributions M ks).
Proof.
  intros H Hk. unfold contributions. induction H as [|q e M es Hq H IH]; [reflexivity|]. cbn [map filter fst]. specialize (Hq ks Hk). destruct (gives (fst q) ks).
  - destruct Hq as [E1 E2]. rewrite E1. cbn [map fst snd]. rewrite IH, E2. reflexivity.
  - rewrite Hq. exact IH.
Qed.
Theorem mpps_value M : Forall usable M ->
  outc (qr_fails qr) (est_pmf_from_mpps qr x (map (fun q => me_x (fst q)) M) (map smpl M) eps) (fun r => r = map (fun ks => wmean (contributions M ks)) (outcomes ns)).
Proof.
  intros H. unfold est_pmf_from_mpps. rewrite !map_length, Nat.eqb_refl. cbn [passert].
  assert (E : combine (map (fun q => me_x (fst q)) M) (map smpl M) = map (fun q => (me_x (fst q), smpl q)) M) by (clear; induction M as [|q M IH]; [reflexivity|]; cbn [map combine]; rewrite IH; reflexivity).
  rewrite E. destruct (povm_pos _ _ _ Hx) as [Pn _]. destruct (povm_dims _ _ _ Hx) as (D & _ & _).
  assert (ND : nsoutdims x = bigd ns) by (unfold nsoutdims, bigd; rewrite D; reflexivity). rewrite ND.
  apply (outc_bind _ _ _ (Forall2 fine M)).
  - assert (G : outc (qr_fails qr) (mapM (fun q => est_pmf_from qr x (fst q) (snd q) eps) (map (fun q => (me_x (fst q), smpl q)) M)) (fun es => Forall2 (fun a e => fine a e) M es)); [|exact G].
    clear E. induction H as [|q M Hq H IH]; cbn [map mapM]; [apply outc_ok; constructor|]. cbn [fst snd].
    apply (outc_bind _ _ _ (fine q)); [apply member_fine; exact Hq|]. intros e Fe. apply (outc_bind _ _ _ (fun es => Forall2 (fun a e => fine a e) M es)); [exact IH|]. intros es Fes. apply outc_ok. constructor; assumption.
  - intros es Fe. unfold praise_unless. destruct (bigd ns) as [|d0 dr] eqn:Eb; [congruence|]. cbn [passert]. rewrite <- Eb. apply outc_ok. rewrite size_bigd by exact Pn. unfold outcomes. rewrite map_map. apply map_ext_in. intros k Hk. apply in_seq in Hk.
    assert (Ik : inr (unravel ns k) ns) by (apply unravel_inr; lia). cbv zeta. pose proof (collect M es (unravel ns k) Fe Ik) as C. rewrite ravel_unravel in C by lia. rewrite C. apply wmean_code.
Qed.
(** Exact frequencies *)
Lemma n_used_pos q : povm_ok (me_x (fst q)) (me_n (fst q)) hs -> Forall (fun l => inr l (me_n (fst q))) (snd q) -> (rmsum ns (value q) <> 0)%R -> 0 < used q.
Proof.
  intros Ho Hr Hf. unfold used, n_used. destruct (bigd (merge_dims ns (me_n (fst q)))) as [|d1 dr] eqn:Eb; [lia|].
  destruct (filter _ (snd q)) as [|l1 r1] eqn:Ef; [|cbn; lia]. exfalso. apply Hf.
  assert (L : length ns = length (me_n (fst q))) by (destruct Hx as (_ & _ & L1 & _), Ho as (_ & _ & L2 & _); lia).
  rewrite (rmsum_ext ns _ (fun _ => 0 * 0)%R); [rewrite (rmsum_scale _ 0%R (fun _ => 0%R)); ring|]. intros ks Hk. unfold value. rewrite est_val_mean by assumption.
  replace (rsum _) with 0%R; [unfold Rdiv; ring|]. symmetry.
  assert (Z : forall l, In l (snd q) -> share hs ns (me_n (fst q)) x (me_x (fst q)) ks l = 0%R).
  { intros l Hl. unfold share. destruct (mt hs ns (me_n (fst q)) x (me_x (fst q)) ks (proj ns l)) eqn:M; [|reflexivity]. exfalso.
    assert (I : In l (filter (fun ls => existsb (fun ks => mt hs ns (me_n (fst q)) x (me_x (fst q)) ks (proj ns ls)) (outcomes ns)) (snd q))).
    { apply filter_In. split; [exact Hl|]. apply existsb_exists. exists ks. split; [apply outcomes_inr; exact Hk|exact M]. }
    rewrite Ef in I. exact I. }
  clear -Z. revert Z. generalize (snd q). intros l0 Z. induction l0 as [|a l0 IH]; [reflexivity|]. cbn [map]. rewrite rsum_cons, Z, IH by (try (intros; apply Z; right; assumption); left; reflexivity). ring.
Qed.
Section Exact.
Variables (rho : mat CS) (P : list nat -> R).
Hypothesis Tr : unit_trace hs rho.
Hypothesis BP : born_prob x rho P.
Definition exact_member (q : meas * list (list nat)) : Prop :=
  povm_ok (me_x (fst q)) (me_n (fst q)) hs /\ nonzero_elems hs ns (me_n (fst q)) x (me_x (fst q)) /\ Forall (fun l => inr l (me_n (fst q))) (snd q) /\ snd q <> [] /\
  psd_elems (me_x (fst q)) /\ born_prob (me_x (fst q)) rho (me_p (fst q)) /\ separated hs ns (me_n (fst q)) x (me_x (fst q)) /\ single_match hs ns (me_n (fst q)) x (me_x (fst q)) /\
  exact_freqs (me_n (fst q)) (me_p (fst q)) (snd q) /\
  (no_match (fst q) \/ exists f, covers hs ns (me_n (fst q)) x (me_x (fst q)) f /\ (0 < f)%R).
Lemma exact_value q ks : exact_member q -> inr ks ns -> value q ks = if gives (fst q) ks then P (bigi ns ks) else 0%R.
Proof.
  intros (Ho & NZ & Hr & Hl & Po & BQ & Sp & Sm & Hf & _) Hk. unfold value. rewrite (est_val_exact x (me_x (fst q)) ns (me_n (fst q)) hs rho P (me_p (fst q)) Hx Ho NZ Px Po Sp BP BQ (snd q) ks Hk Hl Hr Hf).
  rewrite single_count by assumption. unfold gives. destruct (is_given _ _ _ _ _ ks); ring.
Qed.
Lemma exact_sum q f : exact_member q -> covers hs ns (me_n (fst q)) x (me_x (fst q)) f -> rmsum ns (value q) = f.
Proof.
  intros H Hc. rewrite (rmsum_ext ns _ (fun ks => if gives (fst q) ks then P (bigi ns ks) else 0%R)) by (intros; apply exact_value; assumption).
  apply (cover_prob hs ns (me_n (fst q)) x (me_x (fst q)) rho P f Hx Hc BP Tr).
Qed.
Lemma exact_usable q : exact_member q -> usable q.
Proof.
  intros H. pose proof H as (Ho & NZ & Hr & Hl & _ & _ & _ & _ & _ & C). split; [exact Ho|]. split; [exact NZ|]. split; [exact Hr|]. split; [exact Hl|]. destruct C as [N|(f & Hc & Hf)]; [left; exact N|right].
  exists f. split; [exact Hc|]. split; [exact Hf|]. rewrite (exact_sum q f H Hc), Rminus_diag_eq, Rabs_R0 by reflexivity. lra.
Qed.
Lemma exact_used q ks : exact_member q -> inr ks ns -> gives (fst q) ks = true -> 0 < used q.
Proof.
  intros H Hk G. pose proof H as (Ho & _ & Hr & _ & _ & _ & _ & _ & _ & C). destruct C as [N|(f & Hc & Hf)]; [rewrite (no_match_given _ _ N Hk) in G; discriminate|].
  apply n_used_pos; [exact Ho|exact Hr|]. rewrite (exact_sum q f H Hc). lra.
Qed.
Lemma wmean_const (l : list (R * nat)) c : Forall (fun q => fst q = c /\ 0 < snd q) l -> l <> [] -> wmean l = (Fin c, list_sum (map snd l)).
Proof.
  intros H Hn. unfold wmean. assert (Pz : 0 < list_sum (map snd l)).
  { destruct H as [|q l [_ Hq] H]; [congruence|]. cbn [map]. change (0 < snd q + list_sum (map snd l)). lia. }
  destruct (Nat.eqb_spec (list_sum (map snd l)) 0) as [E|_]; [lia|]. f_equal. f_equal.
  assert (E : rsum (map (fun q => fst q * INR (snd q))%R l) = (c * INR (list_sum (map snd l)))%R).
  { clear -H. induction H as [|q l [Hq _] H IH]; [cbn; lra|]. cbn [map]. rewrite rsum_cons, IH, Hq. change (list_sum (snd q :: map snd l)) with (snd q + list_sum (map snd l)). rewrite plus_INR. ring. }
  rewrite E. field. apply not_0_INR. lia.
Qed.
Theorem mpps_exact M : Forall exact_member M ->
  outc (qr_fails qr) (est_pmf_from_mpps qr x (map (fun q => me_x (fst q)) M) (map smpl M) eps) (fun r =>
    r = map (fun ks => if existsb (fun q => gives (fst q) ks) M then (Fin (P (bigi ns ks)), list_sum (map used (filter (fun q => gives (fst q) ks) M))) else (NaN, 0)) (outcomes ns)).
Proof.
  intros H. apply (outc_weaken _ _ _ _ _ (mpps_value M (Forall_impl _ exact_usable H)) (fun z => z)). cbv beta. intros r ->. apply map_ext_in. intros ks Hk. apply (proj1 (outcomes_inr _ _)) in Hk.
  destruct (existsb _ M) eqn:E.
  - rewrite (wmean_const _ (P (bigi ns ks))).
    + f_equal. unfold contributions. rewrite map_map. reflexivity.
    + unfold contributions. apply Forall_map. apply Forall_forall. intros q Hq. apply filter_In in Hq. destruct Hq as [Hq G]. cbn [fst snd]. rewrite Forall_forall in H. split; [rewrite (exact_value q ks (H q Hq) Hk), G; reflexivity|apply (exact_used q ks (H q Hq) Hk G)].
    + apply existsb_exists in E. destruct E as (q & Hq & G). unfold contributions. intros Z. apply map_eq_nil in Z. assert (I : In q (filter (fun q => gives (fst q) ks) M)) by (apply filter_In; split; assumption). rewrite Z in I. exact I.
  - unfold contributions. replace (filter (fun q => gives (fst q) ks) M) with (@nil (meas * list (list nat))); [reflexivity|]. symmetry. clear -E.
    induction M as [|q M IH]; [reflexivity|]. cbn [existsb] in E. apply orb_false_iff in E. destruct E as [E1 E2]. cbn [filter]. rewrite E1. apply IH. exact E2.
Qed.
End Exact.

(** ** Means over all data sets *)
(** Every outcome counts with the same total factor *)
Definition uniform (b : meas) (f : R) : Prop := forall ls, inr ls (merge_dims ns (me_n b)) ->
  rmsum ns (fun ks => if mt hs ns (me_n b) x (me_x b) ks ls then pfac hs ns (me_n b) x (me_x b) ks ls else 0%R) = f.
Definition regular (rho : mat CS) (b : meas) : Prop :=
  povm_ok (me_x b) (me_n b) hs /\ nonzero_elems hs ns (me_n b) x (me_x b) /\ psd_elems (me_x b) /\ sums_to_id (me_x b) /\ born_prob (me_x b) rho (me_p b) /\
  separated hs ns (me_n b) x (me_x b) /\ single_match hs ns (me_n b) x (me_x b) /\
  (no_match b \/ exists f, covers hs ns (me_n b) x (me_x b) f /\ (0 < f)%R /\ uniform b f).
(** The weight of a member: its number of samples, but 1 if no site is measured by both POVMs *)
Definition weight (q : meas * nat) : nat := match bigd (merge_dims ns (me_n (fst q))) with [] => 1 | _ => snd q end.
Lemma filter_all {A : Type} (p : A -> bool) l : (forall a, In a l -> p a = true) -> filter p l = l.
Proof. induction l as [|a l IH]; intros H; [reflexivity|]. cbn [filter]. rewrite H by (left; reflexivity). rewrite IH; [reflexivity|]. intros; apply H; right; assumption. Qed.
Lemma regular_used rho q lss ks : regular rho (fst q) -> length lss = snd q -> Forall (fun l => inr l (me_n (fst q))) lss -> inr ks ns -> gives (fst q) ks = true -> used (fst q, lss) = weight q.
Proof.
  intros (Ho & _ & _ & _ & _ & _ & _ & C) Hn Hr Hk G. unfold used, n_used, weight. cbn [fst snd]. destruct (bigd (merge_dims _ _)) as [|d1 dr]; [reflexivity|]. rewrite <- Hn. f_equal. apply filter_all. intros l Hl.
  destruct C as [N|(f & _ & Hf & U)]; [rewrite (no_match_given _ _ N Hk) in G; discriminate|].
  rewrite Forall_forall in Hr. assert (L : length ns = length (me_n (fst q))) by (destruct Hx as (_ & _ & L1 & _), Ho as (_ & _ & L2 & _); lia).
  specialize (U (proj ns l) (proj_inr ns (me_n (fst q)) l L (Hr l Hl))). destruct (existsb _ (outcomes ns)) eqn:E; [reflexivity|]. exfalso.
  rewrite (rmsum_ext ns _ (fun _ => 0 * 0)%R) in U; [rewrite (rmsum_scale _ 0%R (fun _ => 0%R)) in U; lra|]. intros ks' Hk'.
  destruct (mt hs ns (me_n (fst q)) x (me_x (fst q)) ks' (proj ns l)) eqn:M; [|ring]. exfalso. assert (T : existsb (fun ks => mt hs ns (me_n (fst q)) x (me_x (fst q)) ks (proj ns l)) (outcomes ns) = true); [|congruence].
  apply existsb_exists. exists ks'. split; [apply outcomes_inr; exact Hk'|exact M].
Qed.
Lemma uniform_sum b f lss : povm_ok (me_x b) (me_n b) hs -> uniform b f -> Forall (fun l => inr l (me_n b)) lss -> lss <> [] -> rmsum ns (value (b, lss)) = f.
Proof.
  intros Ho U Hr Hl. assert (L : length ns = length (me_n b)) by (destruct Hx as (_ & _ & L1 & _), Ho as (_ & _ & L2 & _); lia). unfold value. cbn [fst snd].
  rewrite (rmsum_ext ns _ (fun ks => / INR (length lss) * rsum (map (share hs ns (me_n b) x (me_x b) ks) lss))%R) by (intros ks _; rewrite est_val_mean by assumption; unfold Rdiv; ring). rewrite rmsum_scale.
  assert (W : rmsum ns (fun ks => rsum (map (share hs ns (me_n b) x (me_x b) ks) lss)) = (INR (length lss) * f)%R).
  { clear -Hr U L. induction Hr as [|a l Ha H IH].
    - cbn [map length]. rewrite (rmsum_ext _ _ (fun _ => 0 * 0)%R) by (intros; unfold rsum; cbn; lra). rewrite (rmsum_scale _ 0%R (fun _ => 0%R)). cbn [INR]. ring.
    - rewrite (rmsum_ext ns _ (fun ks => share hs ns (me_n b) x (me_x b) ks a + rsum (map (share hs ns (me_n b) x (me_x b) ks) l))%R) by (intros; cbn [map]; rewrite rsum_cons; reflexivity). rewrite rmsum_add, IH. cbn [length]. rewrite S_INR.
      replace (rmsum ns (fun ks => share hs ns (me_n b) x (me_x b) ks a)) with f; [ring|]. symmetry. apply U. apply proj_inr; assumption. }
  rewrite W. assert (INR (length lss) <> 0%R) by (apply not_0_INR; destruct lss; [congruence|discriminate]). field. assumption.
Qed.
Lemma regular_usable rho b lss : regular rho b -> Forall (fun l => inr l (me_n b)) lss -> lss <> [] -> usable (b, lss).
Proof.
  intros (Ho & NZ & _ & _ & _ & _ & _ & C) Hr Hl. split; [exact Ho|]. split; [exact NZ|]. split; [exact Hr|]. split; [exact Hl|]. destruct C as [N|(f & Hc & Hf & U)]; [left; exact N|right]. cbn [fst].
  exists f. split; [exact Hc|]. split; [exact Hf|]. rewrite (uniform_sum b f lss Ho U Hr Hl), Rminus_diag_eq, Rabs_R0 by reflexivity. lra.
Qed.
(** Members with their data sets *)
Definition with_data (O : list (meas * nat)) (D : list (list (list nat))) : list (meas * list (list nat)) := zip2 (fun q lss => (fst q, lss)) O D.
Definition nsum (O : list (meas * nat)) (ks : list nat) : nat := list_sum (map weight (filter (fun q => gives (fst q) ks) O)).
Definition estimate (O : list (meas * nat)) (ks : list nat) : list (list (list nat)) -> R :=
  dsum (fun q lss => if gives (fst q) ks then INR (weight q) / INR (nsum O ks) * value (fst q, lss) ks else 0)%R O.
Lemma weight_pos q : 0 < snd q -> 0 < weight q.
Proof. intros H. unfold weight. destruct (bigd (merge_dims _ _)); lia. Qed.
Lemma with_usable rho O D : Forall (fun q => regular rho (fst q) /\ 0 < snd q) O -> data_ok O D -> Forall usable (with_data O D).
Proof.
  intros H HD. induction HD as [|q lss O D [Hl Hv] HD IH]; [constructor|]. apply Forall_cons_iff in H. destruct H as [[Hq Hn] H]. cbn [with_data zip2]. constructor; [|apply IH; exact H].
  apply (regular_usable rho); [exact Hq|exact Hv|]. intros ->. cbn in Hl. lia.
Qed.
Lemma contributions_data rho O D ks : Forall (fun q => regular rho (fst q) /\ 0 < snd q) O -> data_ok O D -> inr ks ns ->
  map snd (contributions (with_data O D) ks) = map weight (filter (fun q => gives (fst q) ks) O) /\
  forall c, rsum (map (fun p => fst p * INR (snd p) / c)%R (contributions (with_data O D) ks)) = dsum (fun q lss => if gives (fst q) ks then INR (weight q) / c * value (fst q, lss) ks else 0)%R O D.
Proof.
  intros H HD Hk. induction HD as [|q lss O D [Hl Hv] HD IH]; [split; [reflexivity|intros c; reflexivity]|]. apply Forall_cons_iff in H. destruct H as [[Hq Hn] H]. destruct (IH H) as [I1 I2]. clear IH.
  unfold with_data, contributions, dsum in *. cbn [zip2 filter fst]. destruct (gives (fst q) ks) eqn:G; cbn [map fst snd].
  - rewrite (regular_used rho q lss ks Hq Hl Hv Hk G). split; [f_equal; exact I1|]. intros c. rewrite !rsum_cons, I2. unfold Rdiv. ring.
  - split; [exact I1|]. intros c. rewrite rsum_cons, I2. ring.
Qed.
Theorem mpps_accepts rho O D : Forall (fun q => regular rho (fst q) /\ 0 < snd q) O -> data_ok O D ->
  outc (qr_fails qr) (est_pmf_from_mpps qr x (map (fun q => me_x (fst q)) (with_data O D)) (map smpl (with_data O D)) eps) (fun r =>
    r = map (fun ks => (if existsb (fun q => gives (fst q) ks) O then Fin (estimate O ks D) else NaN, nsum O ks)) (outcomes ns)).
Proof.
  intros H HD. apply (outc_weaken _ _ _ _ _ (mpps_value _ (with_usable rho O D H HD)) (fun z => z)). intros r ->. apply map_ext_in. intros ks Hk. apply (proj1 (outcomes_inr _ _)) in Hk.
  destruct (contributions_data rho O D ks H HD Hk) as [E1 E2]. unfold wmean. rewrite E1. fold (nsum O ks). f_equal.
  assert (N : existsb (fun q => gives (fst q) ks) O = negb (Nat.eqb (nsum O ks) 0)).
  { clear -H. unfold nsum. induction O as [|q O IH]; [reflexivity|]. apply Forall_cons_iff in H. destruct H as [[_ Hn] H]. cbn [existsb filter]. destruct (gives (fst q) ks); [|apply IH; exact H]. cbn [map orb].
    symmetry. apply negb_true_iff, Nat.eqb_neq. pose proof (weight_pos q Hn). change (weight q + list_sum (map weight (filter (fun q => gives (fst q) ks) O)) <> 0). lia. }
  rewrite N. destruct (Nat.eqb_spec (nsum O ks) 0) as [E|E]; cbn [negb]; [reflexivity|]. f_equal. unfold estimate. rewrite <- E2. clear.
  generalize (contributions (with_data O D) ks). intros l. induction l as [|a l IH]; [unfold rsum; cbn; unfold Rdiv; ring|]. cbn [map]. rewrite !rsum_cons, <- IH. unfold Rdiv. ring.
Qed.
Theorem mpps_mean rho P O ks : unit_trace hs rho -> born_prob x rho P -> Forall (fun q => regular rho (fst q) /\ 0 < snd q) O -> inr ks ns -> existsb (fun q => gives (fst q) ks) O = true ->
  datasets O (estimate O ks) = P (bigi ns ks).
Proof.
  intros Tr BP H Hk Hg.
  assert (HN : normal O).
  { apply Forall_forall. intros q Hq. rewrite Forall_forall in H. destruct (H q Hq) as [(Ho & _ & _ & So & BQ & _) _]. unfold oprob. apply (born_prob_total (me_x (fst q)) (me_n (fst q)) hs rho (me_p (fst q))); assumption. }
  unfold estimate. rewrite dsum_mean by exact HN.
  rewrite (map_ext_in _ (fun q => if gives (fst q) ks then INR (weight q) / INR (nsum O ks) * P (bigi ns ks) else 0)%R).
  - assert (S : forall c, rsum (map (fun q => if gives (fst q) ks then INR (weight q) / c * P (bigi ns ks) else 0)%R O) = (INR (nsum O ks) / c * P (bigi ns ks))%R).
    { intros c. unfold nsum. clear. induction O as [|q O IH]; [unfold rsum; cbn; unfold Rdiv; ring|]. cbn [map filter]. rewrite rsum_cons, IH. destruct (gives (fst q) ks); cbn [map]; [|ring].
      change (list_sum (weight q :: map weight (filter (fun q => gives (fst q) ks) O))) with (weight q + list_sum (map weight (filter (fun q => gives (fst q) ks) O))). rewrite plus_INR. unfold Rdiv. ring. }
    rewrite S. unfold Rdiv. rewrite Rinv_r; [ring|]. apply not_0_INR. unfold nsum. clear -H Hg. induction O as [|q O IH]; [discriminate|]. apply Forall_cons_iff in H. destruct H as [[_ Hn] H]. cbn [existsb filter] in *. destruct (gives (fst q) ks); [|apply IH; assumption].
    cbn [map]. pose proof (weight_pos q Hn). change (weight q + list_sum (map weight (filter (fun q => gives (fst q) ks) O)) <> 0). lia.
  - intros q Hq. rewrite Forall_forall in H. destruct (H q Hq) as [(Ho & NZ & Po & So & BQ & Sp & Sm & _) Hn]. destruct (gives (fst q) ks) eqn:G.
    + rewrite iid_scale. f_equal. unfold value. cbn [fst snd]. pose proof (est_val_unbiased x (me_x (fst q)) ns (me_n (fst q)) hs rho P (me_p (fst q)) Hx Ho NZ Px Po Sp BP BQ (snd q) ks Hk Hn So Tr) as E.
      rewrite single_count in E by assumption. unfold gives in G. rewrite G in E. rewrite Rmult_1_l in E. exact E.
    + apply iid_zero. reflexivity.
Qed.
End Mpps.

(** ** Lists *)
Definition povm_xs (X : list (ltens CS * list nat)) : list (ltens CS) := map fst X.
Theorem mppl_value qr hs eps (X : list (ltens CS * list nat)) (M : list (meas * list (list nat))) : qr_sound qr -> (0 < eps)%R -> X <> [] -> M <> [] ->
  Forall (fun a => povm_ok (fst a) (snd a) hs /\ bigd (snd a) <> [] /\ psd_elems (fst a) /\ sums_to_id (fst a) /\ Forall (usable (fst a) (snd a) hs eps) M) X ->
  outc (qr_fails qr) (mppl_est_pmf_from qr (povm_xs X) (map (fun q => me_x (fst q)) M) (map smpl M) eps) (fun r =>
    r = map (fun a => map (fun ks => wmean (contributions (fst a) (snd a) hs M ks)) (outcomes (snd a))) X).
Proof.
  intros Hqr He HX HM H.
  assert (G : outc (qr_fails qr) (mapM (fun x => est_pmf_from_mpps qr x (map (fun q => me_x (fst q)) M) (map smpl M) eps) (povm_xs X)) (fun r =>
    r = map (fun a => map (fun ks => wmean (contributions (fst a) (snd a) hs M ks)) (outcomes (snd a))) X)).
  { clear HX. induction H as [|a X (Hx & Hb & Px & Sx & U) H IH]; cbn [povm_xs map mapM]; [apply outc_ok; reflexivity|].
    apply (outc_bind _ _ _ (fun r => r = map (fun ks => wmean (contributions (fst a) (snd a) hs M ks)) (outcomes (snd a)))); [apply (mpps_value qr Hqr (fst a) (snd a) hs eps); assumption|]. intros r ->.
    apply (outc_bind _ _ _ _ _ IH). intros rs ->. apply outc_ok. reflexivity. }
  unfold mppl_est_pmf_from. destruct X as [|a X]; [congruence|]. destruct M as [|q M]; [congruence|]. cbn [povm_xs map] in G |- *.
  assert (L : llen (fst a) = llen (me_x (fst q))).
  { pose proof (Forall_inv H) as (Hx & _ & _ & _ & U). pose proof (Forall_inv U) as (Ho & _). destruct (povm_dims _ _ _ Hx) as (_ & _ & L1), (povm_dims _ _ _ Ho) as (_ & _ & L2). destruct Hx as (_ & _ & L3 & _), Ho as (_ & _ & L4 & _). lia. }
  rewrite L, Nat.eqb_refl. cbn [passert]. exact G.
Qed.
Theorem mpps_errors qr (x : ltens CS) os samples eps :
  (length os <> length samples -> est_pmf_from_mpps qr x os samples eps = Err AssertionError) /\
  (forall o s e, In (o, s) (combine os samples) -> length os = length samples -> est_pmf_from qr x o s eps = Err e -> exists e', est_pmf_from_mpps qr x os samples eps = Err e') /\
  (nsoutdims x = [] -> length os = length samples -> (forall o s, In (o, s) (combine os samples) -> exists v, est_pmf_from qr x o s eps = Ok v) -> est_pmf_from_mpps qr x os samples eps = Err TypeError).
Proof.
  unfold est_pmf_from_mpps. split; [|split].
  - intros H. destruct (Nat.eqb_spec (length os) (length samples)); [congruence|reflexivity].
  - intros o s e Hin HL E. rewrite HL, Nat.eqb_refl. cbn [passert].
    assert (G : exists e', mapM (fun q => est_pmf_from qr x (fst q) (snd q) eps) (combine os samples) = Err e').
    { clear HL. revert Hin. generalize (combine os samples). intros l. induction l as [|a l IH]; intros Hin; [contradiction|]. cbn [mapM]. destruct (est_pmf_from qr x (fst a) (snd a) eps) as [v|e1] eqn:E1; [|eexists; reflexivity].
      destruct Hin as [->|Hin]; [cbn [fst snd] in E1; congruence|]. destruct (IH Hin) as [e' ->]. eexists. reflexivity. }
    destruct G as [e' ->]. eexists. reflexivity.
  - intros Hn HL H. rewrite HL, Nat.eqb_refl. cbn [passert].
    assert (G : exists es, mapM (fun q => est_pmf_from qr x (fst q) (snd q) eps) (combine os samples) = Ok es).
    { clear HL. revert H. generalize (combine os samples). intros l. induction l as [|[o s] l IH]; intros H; [exists []; reflexivity|]. cbn [mapM fst snd]. destruct (H o s (or_introl eq_refl)) as [v ->]. cbn [bind].
      destruct (IH (fun o' s' I => H o' s' (or_intror I))) as [es ->]. eexists. reflexivity. }
    destruct G as [es ->]. cbn [bind]. rewrite Hn. reflexivity.
Qed.
Theorem mppl_errors qr xs os samples eps :
  (xs = [] \/ os = [] -> mppl_est_pmf_from qr xs os samples eps = Err IndexError) /\
  (forall x xr o r, xs = x :: xr -> os = o :: r -> llen x <> llen o -> mppl_est_pmf_from qr xs os samples eps = Err AssertionError) /\
  (forall x xr o r, xs = x :: xr -> os = o :: r -> llen x = llen o -> length os <> length samples -> mppl_est_pmf_from qr xs os samples eps = Err AssertionError).
Proof.
  unfold mppl_est_pmf_from. split; [intros [-> | ->]; [reflexivity|destruct xs; reflexivity]|]. split.
  - intros x xr o r -> -> N. destruct (Nat.eqb_spec (llen x) (llen o)); [congruence|reflexivity].
  - intros x xr o r -> -> E N. rewrite E, Nat.eqb_refl. cbn [passert mapM]. rewrite (proj1 (mpps_errors qr x (o :: r) samples eps) N). reflexivity.
Qed.
