(** [pmf_as_array]: all modes and implementations return the Born probabilities. *)
From Coq Require Import Reals Lra.
From Verif Require Export PovmArr PfPmf PfPovmEmbed PfCPovm.
Open Scope nat_scope.

(** ** Which arguments describe which density matrix *)
Section Gen.
Context {K : StarRing}.
Add Ring Kr : (k_ring K).
Definition rep_pmps (hs : list nat) (st : ltens K) : Prop := mpa_pos st /\ cform_wk st /\ canon_true st /\ two_legs (mshape st) /\ leg1 (mshape st) = hs.
Definition rep_mps (hs : list nat) (st : ltens K) : Prop := mpa_pos st /\ one_leg (mshape st) /\ leg1 (mshape st) = hs.
Definition rep_mpdo (hs : list nat) (st : ltens K) : Prop := mpa_ok st /\ bonds_pos st /\ mshape st = squares hs.
Inductive accepts (hs : list nat) (st : ltens K) : pmode -> pimpl -> (list nat -> list nat -> K) -> Prop :=
| acc_pmps i : rep_pmps hs st -> i <> IOther -> accepts hs st EPmps i (dmat st)
| acc_pmps_any m i : rep_pmps hs st -> i = ISymm \/ i = ILtr -> accepts hs st m i (dmat st)
| acc_mps m i : rep_mps hs st -> m = EMps \/ m = EAuto -> i = IAuto \/ i = IDefault -> accepts hs st m i (pure st)
| acc_mpdo m i : rep_mpdo hs st -> m = EMpdo \/ m = EAuto -> i = IAuto \/ i = IDefault -> accepts hs st m i (den st).
(** The state afterwards represents the same array. *)
Definition kept (st s : ltens K) : Prop := s = st \/ same_state st s.

Lemma outc_of_ok {A : Type} (F : Prop) (r : res A) (P : A -> Prop) : (exists z, r = Ok z /\ P z) -> outc F r P.
Proof. intros (z & E & H). left. exists z. auto. Qed.
Theorem pmf_raw_spec qr (x st : ltens K) ns hs m i rho : qr_sound qr -> povm_ok x ns hs -> accepts hs st m i rho ->
  outc (qr_fails qr) (pmf_raw qr x st m i) (fun r => is_pmf_arr x rho (fst r) /\ kept st (snd r)).
Proof.
  intros Hqr Hp H.
  assert (G : forall m i, rep_pmps hs st -> i = ISymm \/ i = ILtr \/ (i = IAuto /\ m = EPmps) -> outc (qr_fails qr) (pmf_raw qr x st m i) (fun r => is_pmf_arr x (dmat st) (fst r) /\ kept st (snd r))).
  { intros m' i' (A1 & A2 & A3 & A4 & A5) Hi. destruct (raw_pmps qr x st ns hs m' i' Hp A1 A4 A5 Hi) as (p & Ep & Ap). apply outc_of_ok. exists (p, st). split; [exact Ep|]. split; [exact Ap|]. left. reflexivity. }
  destruct H as [i R Hi|m i R Hi|m i (A1 & A2 & A3) Hm Hi|m i (A1 & A2 & A3) Hm Hi].
  - destruct i; try (apply G; auto; fail); [|congruence]. destruct R as (A1 & A2 & A3 & A4 & A5).
    eapply outc_weaken; [apply (raw_pmps_default qr Hqr x st ns hs); assumption|auto|]. intros r [P S]. split; [exact P|]. right. exact S.
  - apply G; tauto.
  - assert (D : ((i = IDefault /\ (m = EMps \/ m = EAuto)) \/ (i = IAuto /\ m = EAuto)) \/ (i = IAuto /\ m = EMps)) by (destruct Hm, Hi; tauto).
    destruct D as [D|[-> ->]].
    + eapply outc_weaken; [apply (raw_mps_default qr Hqr x st ns hs m i); assumption|auto|]. intros r [P S]. split; [exact P|]. left. exact S.
    + destruct (raw_mps_auto qr x st ns hs Hp A1 A2 A3) as (p & Ep & Ap). apply outc_of_ok. exists (p, st). split; [exact Ep|]. split; [exact Ap|]. left. reflexivity.
  - destruct (raw_mpdo qr x st ns hs m i Hp A1 A2 A3) as (p & Ep & Ap); [tauto|tauto|]. apply outc_of_ok. exists (p, st). split; [exact Ep|]. split; [exact Ap|]. left. reflexivity.
Qed.

(** ** Sums over the outcomes of sites with more than one outcome *)
Lemma msum_big ds : forall f : list nat -> K, (forall d, In d ds -> 0 < d) -> msum ds (fun ks => f (bigi ds ks)) = msum (bigd ds) f.
Proof.
  induction ds as [|d ds IH]; intros f Hd; [reflexivity|]. cbn [msum bigd filter]. change (filter (fun d => Nat.ltb 1 d) ds) with (bigd ds). destruct (Nat.ltb_spec 1 d) as [H|H].
  - cbn [msum]. apply bigsum_ext. intros k Hk. rewrite <- (IH (fun ks => f (k :: ks))) by (intros; apply Hd; right; assumption). apply msum_ext. intros ks _. unfold bigi. cbn [combine filter fst snd map]. rewrite (proj2 (Nat.ltb_lt _ _) H). reflexivity.
  - assert (d = 1) by (specialize (Hd d (or_introl eq_refl)); lia). subst d. rewrite bigsum_1. rewrite <- (IH f) by (intros; apply Hd; right; assumption). apply msum_ext. intros ks _. reflexivity.
Qed.
Lemma bigsum_dat (a : nd K) : ndwf a -> bigsum (size (shp a)) (fun k => nth k (dat a) k0) = msum (shp a) (get a).
Proof. intros W. rewrite msum_flat. apply bigsum_ext. intros k Hk. unfold get. rewrite ravel_unravel by exact Hk. reflexivity. Qed.
Theorem arr_total (x : ltens K) ns hs rho p : povm_ok x ns hs -> is_pmf_arr x rho p -> bigsum (size (shp p)) (fun k => nth k (dat p) k0) = msum (outdims x) (mborn x rho).
Proof.
  intros Hp (W & S & A). rewrite bigsum_dat by exact W. rewrite S. change (nsoutdims x) with (bigd (outdims x)). rewrite <- msum_big.
  - apply msum_ext. intros ks Hk. apply A. exact Hk.
  - destruct (povm_dims _ _ _ Hp) as (D1 & _). rewrite D1. intros d Hd. exact (proj1 (Forall_forall _ _) (proj1 (povm_pos x ns hs Hp)) d Hd).
Qed.
End Gen.

(** ** Over the complex numbers *)
Add Ring Cr : (k_ring CS).
Definition psd_elems (x : ltens CS) : Prop := forall ks, inr ks (outdims x) -> forall v : list nat -> CS,
  cnonneg (msum (hdims x) (fun is => msum (hdims x) (fun js => kconj (v is) * entry x (triples ks is js) * v js)))%K.
(** A density matrix given by (not normalised) vectors *)
Definition gram_rho (hs : list nat) (rho : list nat -> list nat -> CS) : Prop :=
  exists cs (v : list nat -> list nat -> CS), forall is js, inr is hs -> inr js hs -> rho is js = msum cs (fun c => v c is * kconj (v c js))%K.
Lemma cnonneg_msum ds : forall f : list nat -> CS, (forall is, inr is ds -> cnonneg (f is)) -> cnonneg (msum ds f).
Proof.
  induction ds as [|d ds IH]; intros f H; cbn [msum]; [apply H; constructor|]. apply cnonneg_sum. intros i Hi. apply IH. intros is His. apply H. constructor; assumption.
Qed.
Theorem born_nonneg (x : ltens CS) rho ks : psd_elems x -> gram_rho (hdims x) rho -> inr ks (outdims x) -> cnonneg (mborn x rho ks).
Proof.
  intros Px (cs & v & Hv) Hk. unfold mborn.
  rewrite (msum_ext _ _ (fun is => msum (hdims x) (fun js => msum cs (fun c => kconj (v c is) * entry x (triples ks is js) * v c js)))%K).
  - rewrite (msum_ext _ _ (fun is => msum cs (fun c => msum (hdims x) (fun js => kconj (v c is) * entry x (triples ks is js) * v c js)))%K) by (intros is _; apply msum_swap).
    rewrite msum_swap. apply cnonneg_msum. intros c _. apply (Px ks Hk (v c)).
  - intros is Hi. apply msum_ext. intros js Hj. rewrite Hv by assumption. rewrite <- msum_mul_l. apply msum_ext. intros c _. ring.
Qed.
Lemma gram_dmat hs (st : ltens CS) : gram_rho hs (dmat st).
Proof. exists (leg2 (mshape st)), (fun c is => entry st (pairs is c)). intros is js _ _. reflexivity. Qed.
Lemma gram_pure hs (st : ltens CS) : gram_rho hs (pure st).
Proof. exists [], (fun _ is => entry st (singles is)). intros is js _ _. reflexivity. Qed.

Lemma rsum_bigsum (l : list CS) : rsum (map Cre l) = Cre (bigsum (length l) (fun k => nth k l k0)).
Proof.
  induction l as [|a l IH]; [reflexivity|]. cbn [length map rsum fold_right]. change (fold_right Rplus 0%R (map Cre l)) with (rsum (map Cre l)). rewrite IH. rewrite bigsum_shift. cbn [nth]. unfold Cre. cbn [kadd CS c_add fst]. reflexivity.
Qed.
Lemma im_ok_real (a : nd CS) ie : (0 <= ie)%R -> (forall z, In z (dat a) -> Cim z = 0%R) -> im_ok (VCplx a) ie.
Proof. intros H0 H y Hy. cbn [imags] in Hy. apply in_map_iff in Hy. destruct Hy as (z & <- & Hz). rewrite (H z Hz), Rabs_R0. exact H0. Qed.
Theorem project_pmf_cplx (a : nd CS) ie re : (0 <= ie)%R -> (0 <= re)%R -> (forall z, In z (dat a) -> cnonneg z) -> rsum (map Cre (dat a)) = 1%R ->
  project_pmf (VCplx a) ie re 0 = Ok (re_part a, VCplx a).
Proof.
  intros Hi Hr Hz Hs.
  assert (Ec : cut (VCplx a) 0 = map Cre (dat a)).
  { unfold cut. cbn [reals]. rewrite map_map. apply map_ext_in. intros z Hin. destruct (Hz z Hin) as [_ H]. unfold trunc, Rleb. destruct (Rle_dec (Cre z) 0); [|reflexivity]. symmetry. apply Rle_antisym; assumption. }
  rewrite pmf_unfold.
  - rewrite Ec, Hs. replace (1 - 1)%R with 0%R by ring. rewrite Rabs_R0, Rleb_true by exact Hr. cbn [passert]. unfold normed. rewrite Ec, Hs. unfold re_part, vshape.
    replace (map (fun x => (x / 1)%R) (map Cre (dat a))) with (map Cre (dat a)); [reflexivity|]. rewrite map_map. apply map_ext. intros z. field.
  - exact Hi.
  - apply im_ok_real; [exact Hi|]. intros z H. apply Hz. exact H.
  - intros y Hy. cbn [reals] in Hy. apply in_map_iff in Hy. destruct Hy as (z & <- & H). destruct (Hz z H). lra.
  - intros [_ H]. cbn [reals] in H. assert (Q : (rsum (map Cre (dat a)) <= 0)%R); [|lra]. clear Hs Ec Hz. induction (map Cre (dat a)) as [|y l IH]; cbn; [lra|]. assert (y <= 0)%R by (apply H; left; reflexivity). assert (rsum l <= 0)%R by (apply IH; intros; apply H; right; assumption). unfold rsum in *. lra.
Qed.

(** Normalised *)
Definition unit_trace (hs : list nat) (rho : list nat -> list nat -> CS) : Prop := msum hs (fun is => rho is is) = k1.
(** The returned array holds the (real) Born probabilities. *)
Definition is_prob_arr (x : ltens CS) (rho : list nat -> list nat -> CS) (q : nd RS) : Prop :=
  ndwf q /\ shp q = nsoutdims x /\ is_pmf q /\
  forall ks, inr ks (outdims x) -> toC (get q (bigi (outdims x) ks)) = mborn x rho ks.
Lemma nonneg_born (a : nd CS) (x : ltens CS) ns hs rho : povm_ok x ns hs -> is_pmf_arr x rho a -> (forall ks, inr ks (outdims x) -> cnonneg (mborn x rho ks)) -> forall z, In z (dat a) -> cnonneg z.
Proof.
  intros Hp (W & S & A) H z Hz. destruct (In_nth _ _ k0 Hz) as (k & Hk & <-). rewrite W in Hk. 
  destruct (povm_dims _ _ _ Hp) as (D1 & _).
  assert (Hpos : Forall (fun d => 0 < d) (outdims x)) by (rewrite D1; apply (povm_pos x ns hs Hp)).
  destruct (bigi_onto (outdims x) Hpos (unravel (shp a) k)) as (ks & Hks & Eks).
  - change (bigd (outdims x)) with (nsoutdims x). rewrite <- S. apply unravel_inr. exact Hk.
  - rewrite <- (ravel_unravel (shp a) k Hk). change (nth (ravel (shp a) (unravel (shp a) k)) (dat a) k0) with (get a (unravel (shp a) k)). rewrite <- Eks, A by exact Hks. apply H. exact Hks.
Qed.
Theorem pmf_as_array_spec qr (x st : ltens CS) ns hs m i rho eps : qr_sound qr -> povm_ok x ns hs -> accepts hs st m i rho ->
  psd_elems x -> sums_to_id x -> gram_rho hs rho -> unit_trace hs rho -> (0 <= eps)%R ->
  outc (qr_fails qr) (pmf_as_array qr x st m eps i) (fun r => is_prob_arr x rho (fst r) /\ kept st (snd r)).
Proof.
  intros Hqr Hp Ha Px Cx Gr Tr He. destruct (povm_dims _ _ _ Hp) as (D1 & D2 & _).
  unfold pmf_as_array. eapply outc_bind; [apply (pmf_raw_spec qr x st ns hs m i rho Hqr Hp Ha)|]. intros [p s] [Ap Ks]. cbn [fst snd] in *.
  assert (Nn : forall ks, inr ks (outdims x) -> cnonneg (mborn x rho ks)) by (intros ks Hk; apply born_nonneg; auto; rewrite D2; exact Gr).
  pose proof (nonneg_born p x ns hs rho Hp Ap Nn) as Np.
  assert (Es : rsum (map Cre (dat p)) = 1%R).
  { rewrite rsum_bigsum. destruct Ap as (W & S & A). rewrite W. change (Cre (bigsum (size (shp p)) (fun k => nth k (dat p) k0)) = 1%R). rewrite (arr_total x ns hs rho p Hp) by (split; auto). rewrite total_probability by exact Cx. rewrite D2, Tr. reflexivity. }
  rewrite project_pmf_cplx by assumption. cbn [bind fst snd]. apply outc_ok. split; [|exact Ks]. destruct Ap as (W & S & A). cbn [fst].
  split; [unfold ndwf; cbn [re_part dat shp]; rewrite map_length; exact W|]. split; [exact S|]. split.
  - split; [|exact Es]. intros y Hy. cbn [re_part dat] in Hy. apply in_map_iff in Hy. destruct Hy as (z & <- & Hz). apply Np. exact Hz.
  - intros ks Hk. rewrite <- A by exact Hk. unfold get. cbn [re_part dat shp]. change (@k0 RS) with (Cre (@k0 CS)). rewrite map_nth. 
    destruct (Nn ks Hk) as [Im _]. rewrite <- A in Im by exact Hk. unfold get in Im. destruct (nth (ravel (shp p) (bigi (outdims x) ks)) (dat p) k0) as [u w]. unfold toC, Cre, Cim in *. cbn in *. rewrite Im. reflexivity.
Qed.
(** Without normalisation the call fails. *)
Theorem pmf_as_array_unnormalised qr (x st : ltens CS) ns hs m i rho eps : qr_sound qr -> povm_ok x ns hs -> accepts hs st m i rho ->
  psd_elems x -> sums_to_id x -> gram_rho hs rho -> (0 <= eps)%R -> outdims x <> map (fun _ => 1) (outdims x) -> (eps < Rabs (Cre (msum hs (fun is => rho is is)) - 1))%R ->
  pmf_as_array qr x st m eps i = Err AssertionError \/ (pmf_as_array qr x st m eps i = Err LinAlgError /\ qr_fails qr).
Proof.
  intros Hqr Hp Ha Px Cx Gr He Ho Tr. destruct (povm_dims _ _ _ Hp) as (D1 & D2 & _).
  unfold pmf_as_array. destruct (pmf_raw_spec qr x st ns hs m i rho Hqr Hp Ha) as [([p s] & E & Ap & Ks)|[E F]]; rewrite E; [|right; split; [reflexivity|exact F]]. left. cbn [bind fst snd] in *.
  assert (Nn : forall ks, inr ks (outdims x) -> cnonneg (mborn x rho ks)) by (intros ks Hk; apply born_nonneg; auto; rewrite D2; exact Gr).
  pose proof (nonneg_born p x ns hs rho Hp Ap Nn) as Np.
  assert (Es : rsum (map Cre (dat p)) = Cre (msum hs (fun is => rho is is))).
  { rewrite rsum_bigsum. destruct Ap as (W & S & A). rewrite W. change (Cre (bigsum (size (shp p)) (fun k => nth k (dat p) k0)) = Cre (msum hs (fun is => rho is is))). rewrite (arr_total x ns hs rho p Hp) by (split; auto). rewrite total_probability by exact Cx. rewrite D2. reflexivity. }
  assert (Ec : cut (VCplx p) 0 = map Cre (dat p)).
  { unfold cut. cbn [reals]. rewrite map_map. apply map_ext_in. intros z Hin. destruct (Np z Hin) as [_ H]. unfold trunc, Rleb. destruct (Rle_dec (Cre z) 0); [|reflexivity]. symmetry. apply Rle_antisym; assumption. }
  rewrite pmf_unfold.
  - rewrite Ec, Es, Rleb_false by exact Tr. reflexivity.
  - exact He.
  - apply im_ok_real; [exact He|]. intros z H. apply Np. exact H.
  - intros y Hy. cbn [reals] in Hy. apply in_map_iff in Hy. destruct Hy as (z & <- & H). destruct (Np z H). lra.
  - intros [Sh _]. cbn [vshape] in Sh. destruct Ap as (W & S & A). rewrite S in Sh. apply Ho. 
    assert (Hpos : Forall (fun d => 0 < d) (outdims x)) by (rewrite D1; apply (povm_pos x ns hs Hp)).
    change (nsoutdims x) with (bigd (outdims x)) in Sh. clear - Sh Hpos. induction (outdims x) as [|d l IH]; [reflexivity|]. inversion Hpos; subst. cbn [bigd filter] in Sh. destruct (Nat.ltb_spec 1 d); [discriminate|]. cbn [map]. f_equal; [lia|]. apply IH; assumption.
Qed.
