(** Values of [lfun_from] and [est_lfun_from]. *)
From Coq Require Import Reals Lra.
From Verif Require Export PfLfunFrom.
Open Scope nat_scope.
Add Ring Cr : (k_ring CS).

(** ** Sums *)
Lemma rsum_swap {A B : Type} (f : A -> B -> R) l m : rsum (map (fun a => rsum (map (f a) m)) l) = rsum (map (fun b => rsum (map (fun a => f a b) l)) m).
Proof.
  induction l as [|a l IH]; cbn [map].
  - unfold rsum at 1. cbn [fold_right]. induction m as [|b m IHm]; [reflexivity|]. cbn [map]. rewrite rsum_cons, <- IHm. unfold rsum. cbn. lra.
  - rewrite rsum_cons, IH. clear IH. induction m as [|b m IHm]; cbn [map]; [unfold rsum; cbn; lra|]. rewrite !rsum_cons, <- IHm. lra.
Qed.
Lemma rsum_rmsum {A : Type} ds (f : A -> list nat -> R) l : rsum (map (fun a => rmsum ds (f a)) l) = rmsum ds (fun ks => rsum (map (fun a => f a ks) l)).
Proof.
  induction l as [|a l IH]; cbn [map].
  - rewrite (rmsum_ext _ _ (fun _ => 0 * 0)%R) by (intros; unfold rsum; cbn; lra). rewrite (rmsum_scale ds 0%R (fun _ => 0%R)). unfold rsum. cbn. lra.
  - rewrite rsum_cons, IH, <- rmsum_add. apply rmsum_ext. intros ks _. cbn [map]. rewrite rsum_cons. reflexivity.
Qed.
Lemma rsum_mul {A : Type} c (f : A -> R) l : rsum (map (fun a => c * f a)%R l) = (c * rsum (map f l))%R.
Proof. rewrite <- (map_map f (fun x => c * x)%R). apply rsum_scale. Qed.
Lemma rmsum_big ds f : Forall (fun d => 0 < d) ds -> rmsum ds (fun ks => f (bigi ds ks)) = rmsum (bigd ds) f.
Proof. intros H. unfold rmsum. apply (msum_big (K := RS)). intros d Hd. rewrite Forall_forall in H. apply H. exact Hd. Qed.

(** ** States are not changed *)
Section QR.
Variable qr : nd CS -> res (nd CS * nd CS).
Lemma pmf_raw_state (x st : ltens CS) m p s : pmf_raw qr x st m IAuto = Ok (p, s) -> s = st.
Proof.
  unfold pmf_raw, passert. destruct (Nat.eqb (llen x) (llen st)); [|discriminate].
  assert (S : forall st' p s, bind (pmf_symm x st') (fun p => Ok (p, st)) = Ok (p, s) -> s = st) by (intros st' p' s'; destruct (pmf_symm x st'); cbn [bind]; intros H; [injection H as _ <-; reflexivity|discriminate]).
  assert (T : forall st' p s, bind (pmf_ltr x st') (fun p => Ok (p, st)) = Ok (p, s) -> s = st) by (intros st' p' s'; destruct (pmf_ltr x st'); cbn [bind]; intros H; [injection H as _ <-; reflexivity|discriminate]).
  assert (E : forall m' r, m' <> EPmps -> expectations qr x st m' = Ok r -> snd r = st).
  { intros m' r N. unfold expectations, passert. destruct (Nat.leb (llen x) (llen st)); [|discriminate]. destruct (probability_map x) as [pm|]; [|discriminate]. cbn [bind].
    set (m2 := match m' with EAuto => _ | _ => _ end). assert (N2 : m2 <> EPmps) by (unfold m2; destruct m'; try congruence; destruct (forallb _ _); [discriminate|]; destruct (forallb _ _); discriminate).
    destruct m2; try discriminate; [| |congruence].
    - destruct (reductions_mps_as_pmps _ _ _ _ _) as [ps|]; [|discriminate]. cbn [bind]. destruct (mapM _ ps) as [out|]; [|discriminate]. cbn [bind]. intros H. injection H as <-. reflexivity.
    - destruct (reductions_mpo _ _ _ _) as [ps|]; [|discriminate]. cbn [bind]. destruct (mapM _ ps) as [out|]; [|discriminate]. cbn [bind]. intros H. injection H as <-. reflexivity. }
  assert (D : forall m', m' <> EPmps -> (do r <- expectations qr x st m'; match fst r with z :: _ => do y <- prune z true; Ok (to_array y, snd r) | [] => Err StopIteration end) = Ok (p, s) -> s = st).
  { intros m' N. destruct (expectations qr x st m') as [r|] eqn:Er; [|discriminate]. cbn [bind]. destruct (fst r) as [|z l]; [discriminate|]. destruct (prune z true) as [y|]; [|discriminate]. cbn [bind]. intros H. injection H as _ <-. apply (E m' r N Er). }
  destruct m; cbn [bind].
  - apply D. discriminate.
  - destruct (mps_to_pmps st) as [q|]; [|discriminate]. cbn [bind]. destruct (Nat.eqb (llen x) 1); [apply T|apply S].
  - apply D. discriminate.
  - destruct (Nat.eqb (llen x) 1); [apply T|apply S].
  - apply D. discriminate.
Qed.
Lemma lfun_state (x st : ltens CS) c f m eps r s : lfun qr x c f st m eps = Ok (r, s) -> s = st.
Proof.
  unfold lfun. destruct (_ || _); [intros H; injection H as _ <-; reflexivity|]. unfold pmf_as_array. destruct (pmf_raw qr x st m IAuto) as [[p s']|] eqn:Ep; [|discriminate]. cbn [bind fst snd].
  destruct (project_pmf _ _ _ _) as [q|]; [|discriminate]. cbn [bind fst snd]. pose proof (pmf_raw_state _ _ _ _ _ Ep) as ->. unfold praise_unless, passert. destruct (match nsoutdims x with [] => false | _ => true end); [|discriminate].
  destruct (match c with None => true | Some _ => _ end); [|discriminate]. destruct c as [c|]; [destruct (Rleb _ _); [|discriminate]|]; intros H; injection H as _ <-; reflexivity.
Qed.
Lemma outc_state {A S : Type} F (r : res (A * S)) (P : A -> Prop) (s0 : S) : outc F r (fun z => P (fst z)) -> (forall z s, r = Ok (z, s) -> s = s0) -> outc F r (fun z => P (fst z) /\ snd z = s0).
Proof. intros [[[z s] [E H]]|H] HS; [left; exists (z, s); split; [exact E|]; split; [exact H|]; cbn; apply (HS z s E)|right; exact H]. Qed.
Lemma thread_outc {A B S : Type} F (f : A -> S -> res (B * S)) (v : A -> B) l (s : S) : (forall a, In a l -> outc F (f a s) (fun z => fst z = v a /\ snd z = s)) ->
  outc F (thread f l s) (fun z => fst z = map v l /\ snd z = s).
Proof.
  induction l as [|a l IH]; intros H; cbn [thread map]; [apply outc_ok; split; reflexivity|].
  apply (outc_bind F _ _ (fun z => fst z = v a /\ snd z = s)); [apply H; left; reflexivity|]. intros [b s'] [E1 E2]. cbn [fst snd] in E1, E2. subst b s'. cbn [fst snd].
  apply (outc_bind F _ _ (fun z => fst z = map v l /\ snd z = s)); [apply IH; intros; apply H; right; assumption|]. intros [bs s'] [E1 E2]. cbn [fst snd] in *. subst. apply outc_ok. split; reflexivity.
Qed.

(** ** One member of [other] *)
Section Val.
Variables (hs : list nat) (rho : mat CS) (eps : R).
Definition meas_ok (m : meas) : Prop := povm_ok (me_x m) (me_n m) hs /\ psd_elems (me_x m) /\ sums_to_id (me_x m) /\ born_prob (me_x m) rho (me_p m).
Definition sep_e (a b : meas) : Prop := forall ks ls, inr ks (me_n a) -> inr ls (msd a b) -> mte hs eps a b ks ls = true ->
  exists z, forall is js, inr is hs -> inr js hs -> elem_of (me_x a) ks is js = (z * summed_elem (me_n a) (me_n b) (me_x b) ls is js)%K.
Lemma prop_prob a b ks ls : meas_ok a -> meas_ok b -> nonzero_elems hs (me_n a) (me_n b) (me_x a) (me_x b) -> inr ks (me_n a) -> inr ls (msd a b) ->
  (exists z, forall is js, inr is hs -> inr js hs -> elem_of (me_x a) ks is js = (z * summed_elem (me_n a) (me_n b) (me_x b) ls is js)%K) ->
  (pfe hs a b ks ls * rmsum (me_n b) (fun l => if row_dec (proj (me_n a) l) ls then me_p b (bigi (me_n b) l) else 0) = me_p a (bigi (me_n a) ks))%R.
Proof.
  intros (Hx & Px & _ & BP) (Ho & Po & _ & BQ) [N1 N2] Hk Hl Z.
  assert (L : length (me_n a) = length (me_n b)) by (pose proof Hx as (_ & _ & L1 & _); pose proof Ho as (_ & _ & L2 & _); lia).
  apply PfHS.toC_inj. rewrite toC_mul, <- (kept_prob (me_x a) (me_x b) (me_n a) (me_n b) hs rho (me_p b) Hx Ho BQ) by exact Hl.
  rewrite <- trw_scale. destruct (povm_dims _ _ _ Hx) as (D1 & _). unfold born_prob in BP. rewrite D1 in BP. rewrite <- BP by exact Hk.
  rewrite (mborn_trw (me_x a) (me_n a) hs rho ks Hx). symmetry. apply trw_ext. apply prefactor_exact; [| |apply N1; exact Hk|apply N2; exact Hl|exact Z].
  - apply mpsd_gram. apply (psd_elems_mpsd _ _ hs Hx Px). exact Hk.
  - apply mpsd_gram. apply summed_psd; [exact L|exact Hl|]. exact (psd_elems_mpsd _ _ hs Ho Po).
Qed.
Lemma nme_rmsum a b ks : INR (nme hs eps a b ks) = rmsum (msd a b) (fun ls => if mte hs eps a b ks ls then 1 else 0)%R.
Proof.
  unfold nme, outcomes. rewrite rmsum_flat, rbig_rsum, <- (map_map (unravel (msd a b)) (fun ls => if mte hs eps a b ks ls then 1 else 0)%R). generalize (map (unravel (msd a b)) (seq 0 (size (msd a b)))). intros l.
  induction l as [|h l IH]; [reflexivity|]. cbn [filter map]. rewrite rsum_cons, <- IH. destruct (mte hs eps a b ks h); cbn [length]; rewrite ?S_INR; lra.
Qed.
Theorem she_mean a b ks : meas_ok a -> meas_ok b -> nonzero_elems hs (me_n a) (me_n b) (me_x a) (me_x b) -> sep_e a b -> inr ks (me_n a) ->
  rmsum (me_n b) (fun l => me_p b (bigi (me_n b) l) * she hs eps a b ks l)%R = (INR (nme hs eps a b ks) * me_p a (bigi (me_n a) ks))%R.
Proof.
  intros Ha Hb NZ Sep Hk. assert (L : length (me_n a) = length (me_n b)) by (pose proof (proj1 Ha) as (_ & _ & L1 & _); pose proof (proj1 Hb) as (_ & _ & L2 & _); lia).
  set (ms := msd a b). set (g := fun ls => if mte hs eps a b ks ls then pfe hs a b ks ls else 0%R).
  transitivity (rmsum (me_n b) (fun l => rmsum ms (fun ls => if row_dec (proj (me_n a) l) ls then me_p b (bigi (me_n b) l) * g ls else 0)))%R.
  - apply rmsum_ext. intros l Hl. rewrite (rmsum_single ms (proj (me_n a) l)).
    + destruct (row_dec (proj (me_n a) l) (proj (me_n a) l)); [reflexivity|congruence].
    + apply proj_inr; [exact L|exact Hl].
    + intros i _ N. destruct (row_dec (proj (me_n a) l) i); [congruence|reflexivity].
  - unfold rmsum at 1 2. rewrite (msum_swap (K:=RS)). change (rmsum ms (fun ls => rmsum (me_n b) (fun l => if row_dec (proj (me_n a) l) ls then me_p b (bigi (me_n b) l) * g ls else 0)) = (INR (nme hs eps a b ks) * me_p a (bigi (me_n a) ks)))%R.
    rewrite nme_rmsum. fold ms. rewrite Rmult_comm, <- rmsum_scale. apply rmsum_ext. intros ls Hls. unfold g. destruct (mte hs eps a b ks ls) eqn:Em.
    + rewrite <- (prop_prob a b ks ls Ha Hb NZ Hk Hls (Sep ks ls Hk Hls Em)), Rmult_1_r, <- rmsum_scale. apply rmsum_ext. intros l _. destruct (row_dec (proj (me_n a) l) ls); ring.
    + rewrite Rmult_0_r. rewrite (rmsum_ext _ _ (fun _ => 0 * 0)%R) by (intros l _; destruct (row_dec (proj (me_n a) l) ls); ring). rewrite (rmsum_scale (me_n b) 0%R (fun _ => 0%R)). ring.
Qed.
(** Mean and variance of a function of the outcomes of a measurement *)
Definition omean (b : meas) (f : list nat -> R) : R := rmsum (me_n b) (fun l => me_p b (bigi (me_n b) l) * f l)%R.
Definition ovar (b : meas) (f : list nat -> R) : R := (omean b (fun l => f l * f l) - omean b f * omean b f)%R.
Lemma mean_omean b h f : povm_ok (me_x b) (me_n b) hs -> (forall l, inr l (me_n b) -> h (rowZ (bigi (me_n b) l)) = f l) -> mean (bigd (me_n b)) (me_p b) h = omean b f.
Proof.
  intros Hb H. unfold mean, omean. rewrite <- (rmsum_big (me_n b) (fun js => me_p b js * h (rowZ js))%R) by (exact (proj1 (povm_pos _ _ _ Hb))). apply rmsum_ext. intros l Hl. rewrite H by exact Hl. reflexivity.
Qed.
Lemma cv_ovar b h f : povm_ok (me_x b) (me_n b) hs -> (forall l, inr l (me_n b) -> h (rowZ (bigi (me_n b) l)) = f l) -> cv (bigd (me_n b)) (me_p b) h h = ovar b f.
Proof. intros Hb H. unfold cv, ovar. rewrite (mean_omean b h f Hb H). rewrite (mean_omean b (fun r => h r * h r)%R (fun l => f l * f l)%R Hb); [reflexivity|]. intros l Hl. rewrite H by exact Hl. reflexivity. Qed.

Variables (X : list (meas * (list nat -> R))) (OW : list (meas * R)).
(** Everything is a measurement of the same state, and elements match only if they are proportional. *)
Definition setting : Prop := (forall t, In t X -> meas_ok (fst t)) /\ (forall q, In q OW -> meas_ok (fst q) /\ bigd (me_n (fst q)) <> []) /\
  (forall t q, In t X -> In q OW -> nonzero_elems hs (me_n (fst t)) (me_n (fst q)) (me_x (fst t)) (me_x (fst q)) /\ sep_e (fst t) (fst q)).
Hypothesis HS : setting.
Lemma setting_ready : forall t, In t X -> ready hs OW (fst t).
Proof. destruct HS as (H1 & H2 & H3). intros t Ht. split; [exact (proj1 (H1 t Ht))|]. intros q Hq. split; [exact (proj1 (proj1 (H2 q Hq)))|exact (proj1 (H3 t q Ht Hq))]. Qed.
Theorem est_fun_mean q : In q OW ->
  omean (fst q) (est_fun hs eps X OW q) = rsum (map (fun t => let ns := me_n (fst t) in rmsum ns (fun ks => snd t (bigi ns ks) * me_p (fst t) (bigi ns ks) * (snd q * INR (nme hs eps (fst t) (fst q) ks) / IZR (acc_w hs eps OW (fst t) ks))))%R X).
Proof.
  intros Hq. destruct HS as (H1 & H2 & H3). unfold omean, est_fun.
  rewrite (rmsum_ext _ _ (fun l => rsum (map (fun t => me_p (fst q) (bigi (me_n (fst q)) l) * rmsum (me_n (fst t)) (fun ks => snd t (bigi (me_n (fst t)) ks) * snd q / IZR (acc_w hs eps OW (fst t) ks) * she hs eps (fst t) (fst q) ks l)) X))%R) by (intros l _; rewrite rsum_mul; reflexivity).
  rewrite <- (rsum_rmsum (me_n (fst q)) (fun t l => me_p (fst q) (bigi (me_n (fst q)) l) * rmsum (me_n (fst t)) (fun ks => snd t (bigi (me_n (fst t)) ks) * snd q / IZR (acc_w hs eps OW (fst t) ks) * she hs eps (fst t) (fst q) ks l))%R X).
  f_equal. apply map_ext_in. intros t Ht. cbv zeta.
  rewrite (rmsum_ext _ _ (fun l => rmsum (me_n (fst t)) (fun ks => snd t (bigi (me_n (fst t)) ks) * snd q / IZR (acc_w hs eps OW (fst t) ks) * (me_p (fst q) (bigi (me_n (fst q)) l) * she hs eps (fst t) (fst q) ks l)))%R).
  - unfold rmsum at 1 2. rewrite (msum_swap (K := RS)). apply (rmsum_ext (me_n (fst t))). intros ks Hk. cbn beta.
    transitivity (snd t (bigi (me_n (fst t)) ks) * snd q / IZR (acc_w hs eps OW (fst t) ks) * rmsum (me_n (fst q)) (fun l => me_p (fst q) (bigi (me_n (fst q)) l) * she hs eps (fst t) (fst q) ks l))%R.
    + apply rmsum_scale.
    + rewrite (she_mean (fst t) (fst q) ks (H1 t Ht) (proj1 (H2 q Hq)) (proj1 (H3 t q Ht Hq)) (proj2 (H3 t q Ht Hq)) Hk). unfold Rdiv. ring.
  - intros l _. rewrite <- rmsum_scale. apply rmsum_ext. intros ks _. ring.
Qed.
(** The values of all members add to the linear function, up to the accumulators. *)
Theorem est_fun_total :
  rsum (map (fun q => omean (fst q) (est_fun hs eps X OW q)) OW) =
  rsum (map (fun t => let ns := me_n (fst t) in rmsum ns (fun ks => snd t (bigi ns ks) * me_p (fst t) (bigi ns ks) * (total_w hs eps OW (fst t) ks / IZR (acc_w hs eps OW (fst t) ks))))%R X).
Proof.
  rewrite (map_ext_in _ _ OW est_fun_mean). cbv zeta.
  rewrite (rsum_swap (fun q t => rmsum (me_n (fst t)) (fun ks => snd t (bigi (me_n (fst t)) ks) * me_p (fst t) (bigi (me_n (fst t)) ks) * (snd q * INR (nme hs eps (fst t) (fst q) ks) / IZR (acc_w hs eps OW (fst t) ks)))%R)).
  f_equal. apply map_ext. intros t. rewrite (rsum_rmsum (me_n (fst t)) (fun q ks => snd t (bigi (me_n (fst t)) ks) * me_p (fst t) (bigi (me_n (fst t)) ks) * (snd q * INR (nme hs eps (fst t) (fst q) ks) / IZR (acc_w hs eps OW (fst t) ks)))%R).
  apply rmsum_ext. intros ks _. rewrite rsum_mul. f_equal. unfold total_w, Rdiv. rewrite <- Rmult_comm, <- rsum_mul. f_equal. apply map_ext. intros q. ring.
Qed.

(** ** [lfun_from] *)
Hypothesis Hqr : qr_sound qr.
Lemma lfun_member (b : meas) st m (es : list (R * ofun)) : meas_ok b -> bigd (me_n b) <> [] -> accepts hs st m IAuto rho -> gram_rho hs rho -> unit_trace hs rho -> (0 <= eps)%R ->
  let h := lin (map fst es) (map snd es) in
  outc (qr_fails qr) (lfun_c qr (me_x b) (map (fun e => (Fin (fst e), snd e)) es) st m eps) (fun z => fst z = LVal (Fin (mean (bigd (me_n b)) (me_p b) h)) (Fin (cv (bigd (me_n b)) (me_p b) h h)) /\ snd z = st).
Proof.
  intros (Hb & Pb & Sb & Bb) Nb Acc Gr Tr He h. unfold lfun_c. rewrite reals_fin, map_map. cbn [snd]. destruct (povm_dims _ _ _ Hb) as (D & _). assert (Nx : nsoutdims (me_x b) = bigd (me_n b)) by (unfold nsoutdims; rewrite D; reflexivity).
  apply (outc_state (qr_fails qr) _ (fun z => z = LVal (Fin (mean (bigd (me_n b)) (me_p b) h)) (Fin (cv (bigd (me_n b)) (me_p b) h h)))).
  - destruct es as [|e es].
    + cbn [map]. rewrite lfun_empty by (intros [N _]; congruence). apply outc_ok. cbn [fst]. unfold h. cbn [map].
      assert (Z : linear (mean (bigd (me_n b)) (me_p b))) by apply mean_linear. assert (Z0 : mean (bigd (me_n b)) (me_p b) (lin [] []) = 0%R) by (apply linear_0 in Z; rewrite <- Z; apply rmsum_ext; intros; reflexivity).
      unfold cv. rewrite Z0. assert (Z1 : mean (bigd (me_n b)) (me_p b) (fun r => lin [] [] r * lin [] [] r)%R = 0%R) by (apply linear_0 in Z; rewrite <- Z; apply rmsum_ext; intros; unfold lin, rsum; cbn; ring). rewrite Z1. do 2 f_equal. ring.
    + assert (NE : nonempty_args (Some (map fst (e :: es))) (Some (map snd (e :: es)))) by (split; discriminate).
      assert (CO : coeff_ok (Some (map fst (e :: es))) (funs_of (nsoutdims (me_x b)) (Some (map snd (e :: es))))) by (cbn [coeff_ok funs_of]; rewrite !map_length; reflexivity).
      pose proof (lfun_spec qr Hqr (me_x b) st (me_n b) hs m rho (me_p b) _ _ eps Hb Acc Pb Sb Gr Tr He ltac:(rewrite Nx; exact Nb) Bb NE CO) as R.
      apply (outc_weaken _ _ _ _ _ R (fun f => f)). intros z [_ E]. rewrite E. unfold mean_res. cbn [funs_of]. rewrite Nx. reflexivity.
  - intros z s. apply lfun_state.
Qed.
Theorem lfun_from_value st m : OW <> [] -> accepts hs st m IAuto rho -> gram_rho hs rho -> unit_trace hs rho -> (0 <= eps)%R -> acc_pos hs eps X OW -> ~ lacking hs eps X OW ->
  outc (qr_fails qr) (lfun_from qr (selfs X) (others OW) (coeffs X) st m (Some (map snd OW)) eps) (fun z =>
    fst z = LVal (Fin (rsum (map (fun t => let ns := me_n (fst t) in rmsum ns (fun ks => snd t (bigi ns ks) * me_p (fst t) (bigi ns ks) * (total_w hs eps OW (fst t) ks / IZR (acc_w hs eps OW (fst t) ks))))%R X)))
                 (Fin (rsum (map (fun q => ovar (fst q) (est_fun hs eps X OW q)) OW))) /\ snd z = st).
Proof.
  intros NO Acc Gr Tr He HA NL. unfold lfun_from. rewrite (estimator_eq hs eps X OW setting_ready He). cbn [bind fst snd].
  destruct (cannot _ _) eqn:C; [exfalso; apply NL; apply (cannot_spec hs eps X OW setting_ready); exact C|].
  assert (E1 : combine (others OW) (map (fun q => flat_map (fun t => entsf hs eps OW (fst t) (snd t) q) X) OW) = map (fun q => (me_x (fst q), map (fun e => (Fin (fst e), snd e)) (all_ents hs eps X OW q))) OW).
  { unfold others. rewrite combine_maps. apply map_ext_in. intros q Hq. rewrite (all_fin hs eps X OW q HA Hq). reflexivity. }
  rewrite E1. set (V := fun q => (omean (fst q) (est_fun hs eps X OW q), ovar (fst q) (est_fun hs eps X OW q))).
  pose proof HS as (H1 & H2 & H3).
  assert (T : outc (qr_fails qr) (thread (fun a s => lfun_c qr (fst a) (snd a) s m eps) (map (fun q => (me_x (fst q), map (fun e => (Fin (fst e), snd e)) (all_ents hs eps X OW q))) OW) st)
     (fun z => fst z = map (fun q => LVal (Fin (fst (V q))) (Fin (snd (V q)))) OW /\ snd z = st)).
  { assert (TM : forall l s, thread (fun a s => lfun_c qr (fst a) (snd a) s m eps) (map (fun q => (me_x (fst q), map (fun e => (Fin (fst e), snd e)) (all_ents hs eps X OW q))) l) s = thread (fun q s => lfun_c qr (me_x (fst q)) (map (fun e => (Fin (fst e), snd e)) (all_ents hs eps X OW q)) s m eps) l s).
    { induction l as [|q l IH]; intros s; [reflexivity|]. cbn [map thread fst snd]. destruct (lfun_c _ _ _ _ _ _) as [r|]; [|reflexivity]. cbn [bind]. rewrite IH. reflexivity. }
    rewrite TM. apply thread_outc. intros q Hq. destruct (H2 q Hq) as [Mq Nq]. apply (outc_weaken _ _ _ _ _ (lfun_member (fst q) st m (all_ents hs eps X OW q) Mq Nq Acc Gr Tr He) (fun f => f)). intros z [Ez Es]. split; [|exact Es]. rewrite Ez. unfold V. cbn [fst snd].
    rewrite (mean_omean (fst q) _ (est_fun hs eps X OW q) (proj1 Mq)), (cv_ovar (fst q) _ (est_fun hs eps X OW q) (proj1 Mq)); [reflexivity| |]; intros l Hl; apply est_fun_eq; auto; apply setting_ready. }
  apply (outc_bind _ _ _ _ _ T). intros [vs s] [E2 E3]. cbn [fst snd] in E2, E3. subst vs s. cbn [fst snd].
  rewrite <- (map_map V (fun p => LVal (Fin (fst p)) (Fin (snd p)))). rewrite lres_sum_vals by (destruct OW; [congruence|discriminate]). cbn [bind]. apply outc_ok. cbn [fst snd]. split; [|reflexivity]. rewrite !map_map. unfold V. cbn [fst snd]. rewrite est_fun_total. reflexivity.
Qed.
(** Probabilities with coefficients that are not available *)
Theorem lfun_from_lacking st m : (0 <= eps)%R -> lacking hs eps X OW ->
  lfun_from qr (selfs X) (others OW) (coeffs X) st m (Some (map snd OW)) eps = Ok (LVal NaN NaN, st).
Proof. intros He HL. unfold lfun_from. rewrite (estimator_eq hs eps X OW setting_ready He). cbn [bind fst snd]. rewrite (proj2 (cannot_spec hs eps X OW setting_ready) HL). reflexivity. Qed.
End Val.
End QR.

(** ** Whole numbers as weights *)
Lemma rtrunc_IZR z : rtrunc (IZR z) = z.
Proof.
  assert (I : forall z, Int_part (IZR z) = z).
  { intros y. unfold Int_part. assert (E : (y + 1)%Z = up (IZR y)) by (apply tech_up; rewrite plus_IZR; lra). rewrite <- E. lia. }
  unfold rtrunc. destruct (Rle_dec 0 (IZR z)); [apply I|]. rewrite <- opp_IZR, I. lia.
Qed.
Lemma acc_whole hs eps OW a ks : (forall q, In q OW -> exists n : Z, snd q = IZR n) -> IZR (acc_w hs eps OW a ks) = total_w hs eps OW a ks.
Proof.
  unfold acc_w, total_w. intros H.
  assert (G : forall z, IZR (fold_left (fun z q => Nat.iter (nme hs eps a (fst q) ks) (fun z => rtrunc (IZR z + snd q)) z) OW z) = (IZR z + rsum (map (fun q => snd q * INR (nme hs eps a (fst q) ks)) OW))%R).
  { induction OW as [|q l IH]; intros z; [cbn [fold_left map]; unfold rsum; cbn; lra|]. cbn [fold_left map]. rewrite rsum_cons, IH by (intros; apply H; right; assumption).
    destruct (H q (or_introl eq_refl)) as [n E]. assert (K : forall k, IZR (Nat.iter k (fun z => rtrunc (IZR z + snd q)) z) = (IZR z + snd q * INR k)%R).
    { induction k as [|k IHk]; [cbn; lra|]. change (Nat.iter (S k) (fun z => rtrunc (IZR z + snd q)) z) with (rtrunc (IZR (Nat.iter k (fun z => rtrunc (IZR z + snd q)) z) + snd q)).
      set (N := Nat.iter k (fun z => rtrunc (IZR z + snd q)) z) in *. clearbody N. replace (IZR N + snd q)%R with (IZR (N + n)) by (rewrite plus_IZR, E; reflexivity). rewrite rtrunc_IZR, plus_IZR, IHk, <- E, S_INR. lra. }
    rewrite K. lra. }
  rewrite G. lra.
Qed.
Section Whole.
Variable qr : nd CS -> res (nd CS * nd CS).
Hypothesis Hqr : qr_sound qr.
(** Every outcome with a coefficient matches some element of [other]. *)
Definition available (hs : list nat) (eps : R) (X : list (meas * (list nat -> R))) (OW : list (meas * R)) : Prop :=
  forall t ks, In t X -> inr ks (me_n (fst t)) -> snd t (bigi (me_n (fst t)) ks) <> 0%R -> exists q, In q OW /\ 0 < nme hs eps (fst t) (fst q) ks.
Lemma total_pos hs eps OW a ks q : (forall q, In q OW -> (0 < snd q)%R) -> In q OW -> 0 < nme hs eps a (fst q) ks -> (0 < total_w hs eps OW a ks)%R.
Proof.
  intros HP Hq Hn. unfold total_w. assert (NN : forall l, (forall q, In q l -> (0 < snd q)%R) -> (0 <= rsum (map (fun q => snd q * INR (nme hs eps a (fst q) ks)) l))%R).
  { induction l as [|q' l IH]; intros H; cbn [map]; [unfold rsum; cbn; lra|]. rewrite rsum_cons. pose proof (IH ltac:(intros; apply H; right; assumption)). pose proof (H q' (or_introl eq_refl)). pose proof (pos_INR (nme hs eps a (fst q') ks)). nra. }
  induction OW as [|q' l IH]; [destruct Hq|]. cbn [map]. rewrite rsum_cons. destruct Hq as [->|Hq].
  - pose proof (NN l ltac:(intros; apply HP; right; assumption)). pose proof (HP q (or_introl eq_refl)). apply lt_INR in Hn. cbn [INR] in Hn. nra.
  - pose proof (IH ltac:(intros; apply HP; right; assumption) Hq). pose proof (HP q' (or_introl eq_refl)). pose proof (pos_INR (nme hs eps a (fst q') ks)). nra.
Qed.
Lemma total_none hs eps OW a ks : (forall q, In q OW -> nme hs eps a (fst q) ks = 0) -> total_w hs eps OW a ks = 0%R.
Proof. intros H. unfold total_w. induction OW as [|q l IH]; [reflexivity|]. cbn [map]. rewrite rsum_cons, IH by (intros; apply H; right; assumption). rewrite (H q (or_introl eq_refl)). cbn. lra. Qed.
Section W.
Variables (hs : list nat) (rho : mat CS) (eps : R) (X : list (meas * (list nat -> R))) (OW : list (meas * R)).
Hypothesis HS : setting hs rho eps X OW.
Hypothesis HI : forall q, In q OW -> exists n : Z, snd q = IZR n.
Hypothesis HP : forall q, In q OW -> (0 < snd q)%R.
Hypothesis HV : available hs eps X OW.
Lemma whole_ok : acc_pos hs eps X OW /\ ~ lacking hs eps X OW.
Proof.
  split.
  - intros t q ks Ht Hq Hk Hn E. pose proof (total_pos hs eps OW (fst t) ks q HP Hq Hn) as T. rewrite <- (acc_whole hs eps OW (fst t) ks HI), E in T. lra.
  - intros (t & ks & Ht & Hk & Hc & E). destruct (HV t ks Ht Hk Hc) as (q & Hq & Hn). pose proof (total_pos hs eps OW (fst t) ks q HP Hq Hn) as T. rewrite <- (acc_whole hs eps OW (fst t) ks HI), E in T. lra.
Qed.
(** The weighted averages are the probabilities. *)
Lemma whole_total : rsum (map (fun t => let ns := me_n (fst t) in rmsum ns (fun ks => snd t (bigi ns ks) * me_p (fst t) (bigi ns ks) * (total_w hs eps OW (fst t) ks / IZR (acc_w hs eps OW (fst t) ks))))%R X)
  = rsum (map (fun t => rmsum (bigd (me_n (fst t))) (fun js => snd t js * me_p (fst t) js))%R X).
Proof.
  f_equal. apply map_ext_in. intros t Ht. cbv zeta. destruct HS as (H1 & _). rewrite <- (rmsum_big (me_n (fst t)) (fun js => snd t js * me_p (fst t) js)%R) by (exact (proj1 (povm_pos _ _ _ (proj1 (H1 t Ht))))).
  apply rmsum_ext. intros ks Hk. destruct (Req_EM_T (snd t (bigi (me_n (fst t)) ks)) 0) as [->|N]; [ring|]. destruct (HV t ks Ht Hk N) as (q & Hq & Hn). pose proof (total_pos hs eps OW (fst t) ks q HP Hq Hn) as T.
  rewrite acc_whole by exact HI. field. lra.
Qed.
Theorem lfun_from_whole st m : OW <> [] -> accepts hs st m IAuto rho -> gram_rho hs rho -> unit_trace hs rho -> (0 <= eps)%R ->
  outc (qr_fails qr) (lfun_from qr (selfs X) (others OW) (coeffs X) st m (Some (map snd OW)) eps) (fun z =>
    fst z = LVal (Fin (rsum (map (fun t => rmsum (bigd (me_n (fst t))) (fun js => snd t js * me_p (fst t) js))%R X))) (Fin (rsum (map (fun q => ovar (fst q) (est_fun hs eps X OW q)) OW))) /\ snd z = st).
Proof.
  intros NO Acc Gr Tr He. destruct whole_ok as [A B]. rewrite <- whole_total. exact (lfun_from_value qr hs rho eps X OW HS Hqr st m NO Acc Gr Tr He A B).
Qed.
End W.
(** Without weights all members count alike. *)
Lemma lfun_from_none xs os cs st m eps : lfun_from qr xs os cs st m None eps = lfun_from qr xs os cs st m (Some (map (fun _ => 1%R) os)) eps.
Proof. reflexivity. Qed.
End Whole.
