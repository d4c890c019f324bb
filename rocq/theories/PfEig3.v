(** [eig_sum] against [eig] of the MPO that the user would build by [mps_to_mpo]
    and [sumup]. *)
From Verif Require Export PfEig2 PfStates.
From Verif Require Import PfSumup Dense.
Open Scope nat_scope.

Section Api.
Context {K : StarRing}.
Add Ring Kr : (k_ring K).

(** An entry of the list as an MPO. *)
Definition as_mpo (m : ltens K) : res (ltens K) :=
  if list_eqb (map (@length nat) (mshape m)) (repeat 1 (llen m)) then mps_to_mpo m else Ok m.

Lemma pairs_diag ds : map (fun d => [d; d]) ds = pairs ds ds.
Proof. induction ds as [|d ds IH]; [reflexivity|]. cbn. f_equal. exact IH. Qed.
Lemma leg1_singles ds : leg1 (singles ds) = ds.
Proof. unfold leg1, singles. rewrite map_map. cbn. apply map_id. Qed.
Lemma one_leg_singles ds : one_leg (singles ds).
Proof. apply Forall_forall. intros p Hp. apply in_map_iff in Hp. destruct Hp as (d & <- & _). reflexivity. Qed.

Lemma as_mpo_spec (m z : ltens K) ds : is_op m ds \/ is_state m ds -> as_mpo m = Ok z ->
  is_op z ds /\ forall is js, inr is ds -> inr js ds -> amp (lts z) (pairs is js) 0 0 = mker m is js.
Proof.
  intros [H|H] E.
  - pose proof H as [Hm [Hd _]]. pose proof (ndims_op m ds H) as [l Hl]. destruct ds as [|d ds].
    { exfalso. destruct Hm as [Hne _]. cbn in Hd. destruct (lts m); [auto|discriminate]. }
    unfold as_mpo in E. change (mshape m) with (map pdims (lts m)) in E. rewrite Hd in E.
    assert (L : llen m = S (length ds)).
    { unfold llen. rewrite <- (map_length pdims), Hd. cbn. f_equal. apply (pairs_length ds ds). reflexivity. }
    rewrite L in E. cbn in E. injection E as <-. split; [exact H|]. intros is js _ _. unfold mker. rewrite Hl. reflexivity.
  - pose proof H as [Hm Hd]. pose proof (ndims_state m ds H) as [l Hl].
    unfold as_mpo in E. change (mshape m) with (map pdims (lts m)) in E. rewrite Hd in E.
    assert (L : llen m = length ds) by (unfold llen; apply (mps_like_length (lts m) ds Hd)).
    rewrite L in E.
    replace (map (@length nat) (singles ds)) with (repeat 1 (length ds)) in E.
    2:{ clear. induction ds as [|d ds IH]; [reflexivity|]. cbn. f_equal. exact IH. }
    rewrite list_eqb_refl in E.
    assert (Ok' : mpa_ok m) by (destruct Hm as (? & ? & ?); split; assumption).
    assert (Sm : mshape m = singles ds) by exact Hd.
    destruct (mps_to_mpo_spec m Ok') as (z' & Ez & Hz & Sz & _ & Az).
    { rewrite Sm. apply one_leg_singles. }
    rewrite E in Ez. injection Ez as <-. rewrite Sm, leg1_singles in Sz, Az. rewrite pairs_diag in Sz.
    split; [split; [exact Hz|split; [exact Sz|reflexivity]]|]. intros is js Hi Hj.
    specialize (Az is js Hi Hj). rewrite entry_amp in Az; [|exact Hz|rewrite Sz; apply inr_pairs; auto].
    rewrite (entry_amp m (singles is)) in Az; [|exact Ok'|rewrite Sm; apply singles_valid; exact Hi].
    rewrite (entry_amp m (singles js)) in Az; [|exact Ok'|rewrite Sm; apply singles_valid; exact Hj].
    rewrite Az. unfold mker. rewrite Hl. reflexivity.
Qed.

Lemma as_mpo_list ds (mpas ops : list (ltens K)) : Forall (fun m => is_op m ds \/ is_state m ds) mpas -> mapM as_mpo mpas = Ok ops ->
  length ops = length mpas /\ Forall (fun z => is_op z ds) ops /\
  forall is js, inr is ds -> inr js ds -> ksum (map (fun z : ltens K => amp (lts z) (pairs is js) 0 0) ops) = sum_ker mpas is js.
Proof.
  revert ops. induction mpas as [|m mpas IH]; intros ops F E.
  - injection E as <-. split; [reflexivity|]. split; [constructor|]. reflexivity.
  - cbn in E. destruct (as_mpo m) as [z|e] eqn:Em; [|discriminate]. cbn in E.
    destruct (mapM as_mpo mpas) as [zs|e] eqn:Es; [|discriminate]. cbn in E. injection E as <-.
    inversion F as [|? ? Fm Fs]; subst. destruct (IH zs Fs eq_refl) as (L & Fz & Sz).
    destruct (as_mpo_spec m z ds Fm Em) as [Hz Az].
    split; [cbn; lia|]. split; [constructor; assumption|]. intros is js Hi Hj. unfold sum_ker. cbn. rewrite (Az is js Hi Hj).
    f_equal. exact (Sz is js Hi Hj).
Qed.
Lemma bigsum_ksum (l : list (ltens K)) (f : ltens K -> K) d : bigsum (length l) (fun j => f (nth j l d)) = ksum (map f l).
Proof.
  induction l as [|x l IH]; [reflexivity|]. cbn [length map ksum fold_right]. rewrite bigsum_shift. cbn. f_equal. exact IH.
Qed.

Variable qr : nd K -> res (nd K * nd K).
Variable svd : nd K -> res (nd K * list K * nd K).
Variable eigs : nd K -> list K -> res (nd K * nd K).
Hypothesis Hqr : qr_sound qr.
Hypothesis Hsvd : svd_sound svd.
Hypothesis Heigs : eigs_wf eigs.
Theorem eig_sum_api rs (mpas ops : list (ltens K)) mpo num v sv rk ds : mpas <> [] ->
  Forall (fun m => is_op m ds \/ is_state m ds) mpas -> mapM as_mpo mpas = Ok ops -> msumup ops None = Ok mpo ->
  1 <= v -> start_ok rs sv ds ->
  eig_sum qr svd eigs rs mpas num v sv rk = eig qr svd eigs rs mpo num v sv rk.
Proof.
  intros Hne F Eo Em Hv Hs. destruct (as_mpo_list ds mpas ops F Eo) as (L & Fo & So).
  assert (Hno : ops <> []) by (destruct ops; [destruct mpas; [auto|discriminate]|discriminate]).
  destruct (msumup_spec ops None (length (pairs ds ds)) (pairs ds ds) Hno) as (y & Ey & Hy & Sy & _ & _ & _ & Ay).
  { eapply Forall_impl; [|exact Fo]. intros z [Hz _]. exact Hz. }
  { eapply Forall_impl; [|exact Fo]. intros z [_ [Hz _]]. exact Hz. }
  { reflexivity. }
  { discriminate. }
  rewrite Em in Ey. injection Ey as <-.
  apply (eig_sum_eig qr svd eigs Hqr Hsvd Heigs rs mpas mpo num v sv rk ds); auto.
  - split; [exact Hy|]. split; [exact Sy|reflexivity].
  - intros is js Hi Hj. rewrite Ay by (apply inr_pairs; auto). rewrite <- (So is js Hi Hj).
    rewrite <- (bigsum_ksum ops (fun z => amp (lts z) (pairs is js) 0 0) (mkLt [] 0 0)).
    apply bigsum_ext. intros j _. unfold wt. ring.
Qed.
End Api.
