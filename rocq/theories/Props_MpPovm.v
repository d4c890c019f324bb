(** Property theorems: matrix product POVMs (povm/mppovm.py) and utils/pmf.py.

    [povm_ok x ns hs] ([PfMpPovm]): [x] is a valid MP-POVM with [ns] outcomes and Hilbert space
    dimensions [hs]; site tensors have legs (outcome, row, column) and [triples ks is js] is
    the index with outcomes [ks], rows [is], columns [js].  [mborn x rho ks] is the Born
    probability [sum_(is, js) entry x (ks, is, js) * rho js is].  The density matrix [rho] of a
    state is [den st] for an MPDO, [dmat st] for a PMPS and [pure st] for an MPS. *)
From Coq Require Import Reals Lra.
From Verif Require Import Oracles PfKronPovm PfMpplBlock.
Open Scope nat_scope.

(** ** C49: [pmf] *)
Theorem C49_mpdo (K : StarRing) qr (x st : ltens K) ns hs m : povm_ok x ns hs -> mpa_ok st -> bonds_pos st -> mshape st = squares hs -> m = EMpdo \/ m = EAuto ->
  exists z, pmf qr x st m = Ok (z, st) /\ mpa_ok z /\ mshape z = singles ns /\ forall ks, inr ks ns -> entry z (singles ks) = mborn x (den st) ks.
Proof.
  intros Hp Hst Bst Sst Hm. destruct (pmf_mpdo qr x st ns hs m Hp Hst Bst Sst Hm) as (z & E & Z). destruct (povm_dims _ _ _ Hp) as (D & _). unfold is_pmf_mp in Z. rewrite D in Z. exists z. auto.
Qed.
Print Assumptions C49_mpdo.
Theorem C49_pmps (K : StarRing) qr (x st : ltens K) ns hs : qr_sound qr -> povm_ok x ns hs -> mpa_pos st -> cform_wk st -> canon_true st -> two_legs (mshape st) -> leg1 (mshape st) = hs ->
  outc (qr_fails qr) (pmf qr x st EPmps) (fun r =>
    (mpa_ok (fst r) /\ mshape (fst r) = singles ns /\ forall ks, inr ks ns -> entry (fst r) (singles ks) = mborn x (dmat st) ks) /\
    (mpa_pos (snd r) /\ mshape (snd r) = mshape st /\ to_array (snd r) = to_array st /\ canon_true (snd r) /\ cform_wk (snd r))).
Proof.
  intros Hq Hp H1 H2 H3 H4 H5. destruct (povm_dims _ _ _ Hp) as (D & _). eapply outc_weaken; [apply (pmf_pmps qr Hq x st ns hs); assumption|auto|]. intros r [Z S]. unfold is_pmf_mp in Z. rewrite D in Z. split; assumption.
Qed.
Print Assumptions C49_pmps.
Theorem C49_mps (K : StarRing) qr (x st : ltens K) ns hs m : qr_sound qr -> povm_ok x ns hs -> mpa_pos st -> one_leg (mshape st) -> leg1 (mshape st) = hs -> m = EMps \/ m = EAuto ->
  outc (qr_fails qr) (pmf qr x st m) (fun r =>
    (mpa_ok (fst r) /\ mshape (fst r) = singles ns /\ forall ks, inr ks ns -> entry (fst r) (singles ks) = mborn x (pure st) ks) /\ snd r = st).
Proof.
  intros Hq Hp H1 H2 H3 H4. destruct (povm_dims _ _ _ Hp) as (D & _). eapply outc_weaken; [apply (pmf_mps qr Hq x st ns hs); assumption|auto|]. intros r [Z S]. unfold is_pmf_mp in Z. rewrite D in Z. split; assumption.
Qed.
Print Assumptions C49_mps.
(** The windows of a longer state: the reduced density matrix [mred] of the sites
    [s .. s + len - 1] is measured, for every [s]. *)
Theorem C49_windows_mpdo (K : StarRing) qr (x st : ltens K) ns hs ds m : povm_ok x ns hs -> mpa_ok st -> bonds_pos st -> mshape st = squares ds -> fits hs ds -> llen x <= llen st -> m = EMpdo \/ m = EAuto ->
  exists zs, expectations qr x st m = Ok (zs, st) /\ Forall2 (is_exp x ds (den st)) (seq 0 (llen st - llen x + 1)) zs.
Proof. intros. eapply expectations_mpdo; eassumption. Qed.
Print Assumptions C49_windows_mpdo.
Theorem C49_windows_pmps (K : StarRing) qr (x st : ltens K) ns hs : qr_sound qr -> povm_ok x ns hs -> mpa_pos st -> cform_wk st -> canon_true st -> two_legs (mshape st) ->
  fits hs (leg1 (mshape st)) -> llen x <= llen st ->
  outc (qr_fails qr) (expectations qr x st EPmps) (fun r => Forall2 (is_exp x (leg1 (mshape st)) (dmat st)) (seq 0 (llen st - llen x + 1)) (fst r) /\ same_state st (snd r)).
Proof. intros Hq H1 H2 H3 H4 H5 H6 H7. exact (expectations_pmps qr Hq x st ns hs H1 H2 H3 H4 H5 H6 H7). Qed.
Print Assumptions C49_windows_pmps.
Theorem C49_windows_mps (K : StarRing) qr (x st : ltens K) ns hs m : qr_sound qr -> povm_ok x ns hs -> mpa_pos st -> one_leg (mshape st) ->
  fits hs (leg1 (mshape st)) -> llen x <= llen st -> m = EMps \/ m = EAuto ->
  outc (qr_fails qr) (expectations qr x st m) (fun r => Forall2 (is_exp x (leg1 (mshape st)) (pure st)) (seq 0 (llen st - llen x + 1)) (fst r) /\ snd r = st).
Proof. intros Hq H1 H2 H3 H4 H5 H6. exact (expectations_mps qr Hq x st ns hs m H1 H2 H3 H4 H5 H6). Qed.
Print Assumptions C49_windows_mps.
(** The probabilities add up to the trace if the elements add up to the identity. *)
Theorem C49_total (K : StarRing) (x : ltens K) rho : sums_to_id x -> msum (outdims x) (mborn x rho) = msum (hdims x) (fun is => rho is is).
Proof. exact (total_probability x rho). Qed.
Print Assumptions C49_total.
(** Positive elements give non-negative probabilities. *)
Theorem C49_nonneg (x : ltens CS) rho ks : psd_elems x -> mpsd (hdims x) rho -> inr ks (outdims x) -> cnonneg (mborn x rho ks).
Proof. intros Hx Hr Hk. apply born_nonneg; auto. apply mpsd_gram. exact Hr. Qed.
Print Assumptions C49_nonneg.
(** Products of local POVMs have positive elements that add up to the identity. *)
Theorem C49_product (ps : list (povm CS)) ns hs : ps <> [] -> length ns = length hs ->
  Forall2 (fun p q => ndwf (elements p) /\ povm_complete p (fst q) (snd q) /\ 0 < fst q <= 255 /\ 0 < snd q) ps (combine ns hs) ->
  exists z, kron_povm (map (@elements CS) ps) = Ok z /\ povm_ok z ns hs /\ psd_elems z /\ sums_to_id z /\ Forall (fun r => r = 1) (ranks z).
Proof. exact (kron_local ps ns hs). Qed.
Print Assumptions C49_product.
Theorem C49_from_local (p : povm CS) n d w : 0 < w -> ndwf (elements p) -> povm_complete p n d -> 0 < n <= 255 -> 0 < d ->
  exists z, from_local_povm (elements p) w = Ok z /\ povm_ok z (repeat n w) (repeat d w) /\ psd_elems z /\ sums_to_id z.
Proof.
  intros Hw W C Hn Hd. destruct (kron_local (repeat p w) (repeat n w) (repeat d w)) as (z & Ez & Pz & A & B & _).
  - destruct w; [lia|discriminate].
  - rewrite !repeat_length. reflexivity.
  - clear Hw. induction w; cbn [repeat combine]; constructor; auto.
  - exists z. split; [|auto]. rewrite <- Ez, from_local_kron. f_equal. clear. induction w; cbn; congruence.
Qed.
Print Assumptions C49_from_local.
Theorem C49_errors (K : StarRing) qr (x st : ltens K) ns hs : povm_ok x ns hs ->
  (forall m, llen x <> llen st -> pmf qr x st m = Err AssertionError) /\
  (llen x = llen st -> pmf qr x st EOther = Err ValueError) /\
  (llen x = llen st -> mpa_ok st -> ~ one_leg (mshape st) -> ~ two_legs (mshape st) -> pmf qr x st EAuto = Err ValueError).
Proof.
  intros Hp. destruct (expectations_errors qr x st EAuto) as (_ & E1 & E2). split; [|split].
  - intros m. apply pmf_error.
  - intros L. unfold pmf. rewrite L, Nat.eqb_refl. cbn [passert]. rewrite (E2 ns hs Hp) by lia. reflexivity.
  - intros L Hst H1 H2. unfold pmf. rewrite L, Nat.eqb_refl. cbn [passert]. rewrite (E1 ns hs Hp) by (auto; lia). reflexivity.
Qed.
Print Assumptions C49_errors.
(** Two entangled sites, three and two outcomes. *)
Definition ex_pv : ltens GZ :=
  mkLt [mk [1;3;2;2;2] [g 1 0; g 0 0; g 0 0; g 1 0; g 0 0; g 1 0; g 1 0; g 0 0;
                        g 0 0; g 1 0; g 0 1; g 0 0; g 0 (-1); g 0 0; g 0 0; g 2 0;
                        g 2 0; g 0 0; g 0 0; g 1 1; g 1 0; g 1 0; g 1 0; g 3 0];
        mk [2;2;2;2;1] [g 1 0; g 0 1; g 0 (-1); g 0 0; g 2 0; g 0 0; g 1 0; g 1 1;
                        g 0 0; g 0 0; g 1 0; g 3 0; g 1 0; g 0 2; g 0 1; g 0 0]] 0 2.
Lemma ex_pv_ok : povm_ok ex_pv [3; 2] [2; 2].
Proof.
  split; [split; [apply mpa_okb_ok; reflexivity|repeat constructor]|]. split; [apply cform_okb_ok; reflexivity|]. split; [reflexivity|]. split; [reflexivity|]. repeat constructor.
Qed.
(** PMPS, MPS and MPO states of two sites *)
Definition ex_pst : ltens GZ :=
  mkLt [mk [1;2;2;2] [g 1 0; g 0 0; g 0 0; g 0 0;  g 0 0; g 0 1; g 0 0; g 0 0];
        mk [2;2;1;1] [g 1 1; g 0 0; g 2 0; g 3 0]] 1 2.
Lemma ex_pst_ok : rep_pmps [2; 2] ex_pst.
Proof. split; [split; [apply mpa_okb_ok; reflexivity|repeat constructor]|]. split; [unfold cform_wk; cbn; lia|]. split; [apply canon_trueb_ok; reflexivity|]. split; [repeat constructor|reflexivity]. Qed.
Definition ex_mst : ltens GZ :=
  mkLt [mk [1;2;2] [g 1 0; g 0 1; g 2 1; g (-1) 3]; mk [2;2;1] [g 1 1; g 0 0; g 3 0; g (-2) 1]] 0 2.
Lemma ex_mst_ok : rep_mps [2; 2] ex_mst.
Proof. split; [split; [apply mpa_okb_ok; reflexivity|repeat constructor]|]. split; [repeat constructor|reflexivity]. Qed.
Definition ex_dst : ltens GZ := from_ok (mps_to_mpo ex_mst) no_mpa.
Lemma ex_dst_ok : rep_mpdo [2; 2] ex_dst.
Proof. split; [apply mpa_okb_ok; vm_compute; reflexivity|]. split; [unfold bonds_pos; vm_compute; repeat constructor; lia|vm_compute; reflexivity]. Qed.
Example C49_ex : povm_ok ex_pv [3; 2] [2; 2] /\ rep_pmps [2; 2] ex_pst /\ rep_mps [2; 2] ex_mst /\ rep_mpdo [2; 2] ex_dst /\ qr_sound qr_gz /\
  entry (fst (from_ok (pmf qr_gz ex_pv ex_pst EPmps) (no_mpa, no_mpa))) [[2]; [1]] = mborn ex_pv (dmat ex_pst) [2; 1] /\
  entry (fst (from_ok (pmf qr_gz ex_pv ex_dst EAuto) (no_mpa, no_mpa))) [[0]; [1]] = mborn ex_pv (pure ex_mst) [0; 1] /\
  mborn ex_pv (dmat ex_pst) [2; 1] = g 43 61 /\ mborn ex_pv (pure ex_mst) [0; 1] = g 373 (-126).
Proof. split; [exact ex_pv_ok|]. split; [exact ex_pst_ok|]. split; [exact ex_mst_ok|]. split; [exact ex_dst_ok|]. split; [exact qr_gz_sound|]. vms. Qed.

(** ** C50: [pmf_as_array].  [accepts hs st mode impl rho] ([PfPovmArr]): the arguments are
    accepted and the state has density matrix [rho]: any implementation for a PMPS, 'auto' and
    'default' for an MPS or MPDO.  [bigi ns ks] keeps the outcomes of the sites with more than one
    outcome.  [pmf_raw] is the array before [project_pmf]. *)
Theorem C50_same_array (K : StarRing) qr (x st : ltens K) ns hs m i rho : qr_sound qr -> povm_ok x ns hs -> accepts hs st m i rho ->
  outc (qr_fails qr) (pmf_raw qr x st m i) (fun r =>
    (ndwf (fst r) /\ shp (fst r) = nsoutdims x /\ forall ks, inr ks (outdims x) -> get (fst r) (bigi (outdims x) ks) = mborn x rho ks) /\ kept st (snd r)).
Proof. exact (pmf_raw_spec qr x st ns hs m i rho). Qed.
Print Assumptions C50_same_array.
(** Any two implementations that succeed return the same array. *)
Theorem C50_agree (K : StarRing) qr (x st st' : ltens K) ns hs m i m' i' rho rho' p s p' s' : qr_sound qr -> povm_ok x ns hs ->
  accepts hs st m i rho -> accepts hs st' m' i' rho' -> (forall is js, inr is hs -> inr js hs -> rho is js = rho' is js) ->
  pmf_raw qr x st m i = Ok (p, s) -> pmf_raw qr x st' m' i' = Ok (p', s') -> p = p'.
Proof.
  intros Hq Hp A A' R E E'. destruct (pmf_raw_spec qr x st ns hs m i rho Hq Hp A) as [(r & Er & Pr & _)|[Er _]]; [|congruence]. destruct (pmf_raw_spec qr x st' ns hs m' i' rho' Hq Hp A') as [(r' & Er' & Pr' & _)|[Er' _]]; [|congruence].
  rewrite E in Er. rewrite E' in Er'. injection Er as <-. injection Er' as <-. apply (pmf_arr_unique x ns hs rho p p' Hp Pr). destruct Pr' as (W & S & G). split; [exact W|]. split; [exact S|].
  intros ks Hk. rewrite G by exact Hk. apply mborn_ext. destruct (povm_dims _ _ _ Hp) as (_ & D & _). rewrite D. intros. symmetry. apply R; assumption.
Qed.
Print Assumptions C50_agree.
(** The symmetric implementation is right for every cut position. *)
Theorem C50_every_cut (K : StarRing) (x st : ltens K) ns hs n : povm_ok x ns hs -> mpa_pos st -> two_legs (mshape st) -> leg1 (mshape st) = hs -> 0 < n < llen x ->
  exists p q, symm_at n x st = Ok p /\ pmf_ltr x st = Ok q /\ p = q /\ is_pmf_arr x (dmat st) p.
Proof.
  intros Hp Hst T2 E Hn. destruct (symm_at_spec x st ns hs n Hp Hst T2 E Hn) as (p & Ep & Ap). destruct (pmf_ltr_spec x st ns hs Hp (proj1 Hst) T2 E) as (q & Eq & Aq).
  exists p, q. split; [exact Ep|]. split; [exact Eq|]. split; [exact (pmf_arr_unique x ns hs _ p q Hp Ap Aq)|exact Ap].
Qed.
Print Assumptions C50_every_cut.
(** The cut that is chosen lies inside the chain. *)
Theorem C50_cut_inside (K : StarRing) (x st : ltens K) : llen x = llen st -> 2 <= llen x -> exists n, symm_cut x st = Ok n /\ 0 < n < llen x.
Proof. exact (symm_cut_range x st). Qed.
Print Assumptions C50_cut_inside.
(** Over the complex numbers, for a POVM and a normalised state, the result is a probability
    distribution with the Born probabilities as entries. *)
Theorem C50_probabilities qr (x st : ltens CS) ns hs m i rho eps : qr_sound qr -> povm_ok x ns hs -> accepts hs st m i rho ->
  psd_elems x -> sums_to_id x -> mpsd hs rho -> unit_trace hs rho -> (0 <= eps)%R ->
  outc (qr_fails qr) (pmf_as_array qr x st m eps i) (fun r => is_prob_arr x rho (fst r) /\ kept st (snd r)).
Proof. intros Hq Hp Ha H1 H2 H3 H4 H5. apply (pmf_as_array_spec qr x st ns hs m i rho eps); auto. apply mpsd_gram. exact H3. Qed.
Print Assumptions C50_probabilities.
(** Density matrices of MPS and PMPS are positive. *)
Theorem C50_states_positive (st : ltens CS) hs : mpsd hs (dmat st) /\ mpsd hs (pure st).
Proof. split; apply gram_mpsd; [apply gram_dmat|apply gram_pure]. Qed.
Print Assumptions C50_states_positive.
Theorem C50_unnormalised qr (x st : ltens CS) ns hs m i rho eps : qr_sound qr -> povm_ok x ns hs -> accepts hs st m i rho ->
  psd_elems x -> sums_to_id x -> mpsd hs rho -> (0 <= eps)%R -> outdims x <> map (fun _ => 1) (outdims x) -> (eps < Rabs (Cre (msum hs (fun is => rho is is)) - 1))%R ->
  pmf_as_array qr x st m eps i = Err AssertionError \/ (pmf_as_array qr x st m eps i = Err LinAlgError /\ qr_fails qr).
Proof. intros Hq Hp Ha H1 H2 H3. apply (pmf_as_array_unnormalised qr x st ns hs m i rho eps Hq Hp Ha H1 H2). apply mpsd_gram. exact H3. Qed.
Print Assumptions C50_unnormalised.
Theorem C50_errors (K : StarRing) qr (x st : ltens K) m :
  (forall i, llen x <> llen st -> pmf_raw qr x st m i = Err AssertionError) /\ (llen x = llen st -> pmf_raw qr x st m IOther = Err ValueError).
Proof. exact (raw_errors qr x st m). Qed.
Print Assumptions C50_errors.
Example C50_ex : accepts [2; 2] ex_pst EPmps IDefault (dmat ex_pst) /\ accepts [2; 2] ex_pst EAuto ISymm (dmat ex_pst) /\ accepts [2; 2] ex_pst EPmps ILtr (dmat ex_pst) /\
  accepts [2; 2] ex_mst EMps IAuto (pure ex_mst) /\ accepts [2; 2] ex_dst EMpdo IAuto (den ex_dst) /\
  let f st m i := fst (from_ok (pmf_raw qr_gz ex_pv st m i) (mkNd [] [], no_mpa)) in
  shp (f ex_pst EPmps IDefault) = [3; 2] /\ f ex_pst EPmps IDefault = f ex_pst EAuto ISymm /\ f ex_pst EPmps ILtr = f ex_pst EAuto ISymm /\
  f ex_mst EMps IAuto = f ex_dst EMpdo IAuto /\ get (f ex_mst EMps IAuto) [0; 1] = g 373 (-126).
Proof.
  split; [apply acc_pmps; [exact ex_pst_ok|discriminate]|]. split; [apply acc_pmps_any; [exact ex_pst_ok|auto]|]. split; [apply acc_pmps; [exact ex_pst_ok|discriminate]|].
  split; [apply acc_mps; [exact ex_mst_ok|auto..]|]. split; [apply acc_mpdo; [exact ex_dst_ok|auto..]|]. vms.
Qed.
(** The hypotheses of [C50_probabilities] are met: X and Z measured on two qubits in the state
    [|00>]. *)
Definition ex_zero : nd CS := mkNd (K:=CS) [2] [(1, 0)%R; (0, 0)%R].
Example C50_ex_cplx : exists x st, povm_ok x [2; 2] [2; 2] /\ accepts [2; 2] st EMps IAuto (pure st) /\ psd_elems x /\ sums_to_id x /\ mpsd [2; 2] (pure st) /\ unit_trace [2; 2] (pure st).
Proof.
  destruct (cx_complete 2 ltac:(lia)) as (px & Ex & Cx). destruct (cz_complete 2 ltac:(lia)) as (pz & Ez & Cz).
  assert (Wx : ndwf (elements px)) by (destruct (x_povm_ok c_rsq 2 ltac:(lia)) as (p & E & _ & W & _); unfold cx_povm in Ex; congruence).
  assert (Wz : ndwf (elements pz)) by (destruct (z_povm_ok (K:=CS) 2 ltac:(lia)) as (p & E & _ & W & _); unfold cz_povm in Ez; congruence).
  destruct (kron_local [px; pz] [2; 2] [2; 2]) as (x & _ & Px & A & B & _); [discriminate|reflexivity| |].
  { cbn [combine]. apply Forall2_cons; [split; [exact Wx|]; split; [exact Cx|cbn; lia]|]. apply Forall2_cons; [split; [exact Wz|]; split; [exact Cz|cbn; lia]|constructor]. }
  destruct (from_kron_spec (K:=CS) [ex_zero; ex_zero]) as (st & _ & Hst & Sst & Rst & _ & Ast); [discriminate|repeat constructor|].
  exists x, st. split; [exact Px|]. split.
  { apply acc_mps; auto. split; [|split; [rewrite Sst; repeat constructor|rewrite Sst; reflexivity]]. apply mpa_pos_parts; [exact Hst|eapply Forall_impl; [|exact Rst]; cbn; lia|rewrite Sst; repeat constructor]. }
  split; [exact A|]. split; [exact B|]. split; [apply gram_mpsd, gram_pure|].
  assert (V : forall i j, i < 2 -> j < 2 -> entry st [[i]; [j]] = (get ex_zero [i] * (get ex_zero [j] * k1))%K).
  { intros i j Hi Hj. assert (Q : Forall2 inr [[i]; [j]] (map shp [ex_zero; ex_zero])) by (cbn [map shp ex_zero]; apply Forall2_cons; [|apply Forall2_cons; [|apply Forall2_nil]]; (apply Forall2_cons; [assumption|apply Forall2_nil])). rewrite entry_amp by (auto; unfold valid_idx; rewrite Sst; exact Q). rewrite Ast by exact Q. reflexivity. }
  assert (Z0 : get ex_zero [0] = (1, 0)%R) by (unfold get; cbn [ravel shp ex_zero]; rewrite size_nil; reflexivity). assert (Z1 : get ex_zero [1] = (0, 0)%R) by (unfold get; cbn [ravel shp ex_zero]; rewrite size_nil; reflexivity).
  unfold unit_trace, pure, singles. cbn [msum bigsum map]. rewrite !V by lia. rewrite !Z0, !Z1. apply cplx_eq; cbn; lra.
Qed.

(** ** C51: [embed], [block], [repeat].  [embedded x z ld s] ([PfPovmEmbed]): [z] is [x] on
    the sites [s .. s + len - 1] and has one outcome and identity matrices elsewhere, so that for
    every [rho] its probabilities are those of [x] in the reduced density matrix of these sites. *)
Theorem C51_embed (K : StarRing) (x : ltens K) ns hs n s ld : povm_ok x ns hs -> length (ld_list ld n) = n -> s + llen x <= n -> Forall (fun d => 0 < d) (ld_list ld n) ->
  exists z, embed x (Z.of_nat n) (Z.of_nat s) ld = Ok z /\
    povm_ok z (repeat 1 s ++ ns ++ repeat 1 (n - (s + llen x))) (firstn s (ld_list ld n) ++ hs ++ skipn (s + llen x) (ld_list ld n)) /\
    llen z = n /\ embedded x z (ld_list ld n) s.
Proof. exact (embed_spec x ns hs n s ld). Qed.
Print Assumptions C51_embed.
Theorem C51_embed_complete (K : StarRing) (x z : ltens K) ld s : embedded x z ld s -> sums_to_id x -> sums_to_id z.
Proof. exact (embed_complete x z ld s). Qed.
Print Assumptions C51_embed_complete.
Theorem C51_embed_errors (K : StarRing) (x : ltens K) n s ld : length (ld_list ld (Z.to_nat n)) <> Z.to_nat n \/ (n < Z.of_nat (llen x) + s)%Z -> (0 <= n)%Z -> embed x n s ld = Err AssertionError.
Proof. exact (embed_errors x n s ld). Qed.
Print Assumptions C51_embed_errors.
Theorem C51_block (K : StarRing) (x : ltens K) ns hs n d : povm_ok x ns hs -> Forall (fun e => e = d) hs -> llen x <= n ->
  exists zs, block x (Z.of_nat n) = Ok zs /\
    Forall2 (fun s z => embed x (Z.of_nat n) (Z.of_nat s) (LdInt d) = Ok z /\ llen z = n /\ povm_ok z (repeat 1 s ++ ns ++ repeat 1 (n - (s + llen x))) (repeat d n) /\ embedded x z (repeat d n) s) (seq 0 (n - llen x + 1)) zs.
Proof. exact (block_spec x ns hs n d). Qed.
Print Assumptions C51_block.
Theorem C51_block_error (K : StarRing) (x : ltens K) ns hs n : povm_ok x ns hs -> ~ (exists d, Forall (fun e => e = d) hs) -> block x n = Err AssertionError.
Proof. exact (block_error x ns hs n). Qed.
Print Assumptions C51_block_error.
(** [repeat]: [n / len] copies and, if needed, the first [n mod len] sites, which must
    factorize.  [bs] lists the outcomes, rows and columns of the copies. *)
Theorem C51_repeat (K : StarRing) (x : ltens K) ns hs n : povm_ok x ns hs -> 0 < n -> (n mod llen x = 0 \/ nth (n mod llen x - 1) (ranks x) 0 = 1) ->
  exists z, prepeat x n = Ok z /\ llen z = n /\ povm_ok z (cyc n ns) (cyc n hs) /\
    (n mod llen x = 0 -> forall bs, Forall2 blk_ok bs (repeat (ns, hs) (n / llen x)) ->
       entry z (triples (bks bs) (bis bs) (bjs bs)) = kprod (map (fun b => entry x (btri b)) bs)) /\
    (0 < n mod llen x -> forall bs b, Forall2 blk_ok bs (repeat (ns, hs) (n / llen x)) -> blk_ok b (firstn (n mod llen x) ns, firstn (n mod llen x) hs) ->
       entry z (triples (bks (bs ++ [b])) (bis (bs ++ [b])) (bjs (bs ++ [b]))) = (kprod (map (fun b => entry x (btri b)) bs) * entry (last_blk x n) (btri b))%K).
Proof. exact (prepeat_spec x ns hs n). Qed.
Print Assumptions C51_repeat.
(** The cut copy [last_blk] is a factor of [x]. *)
Theorem C51_repeat_factor (K : StarRing) (x : ltens K) ns hs m : povm_ok x ns hs -> 0 < m < llen x -> nth (m - 1) (ranks x) 0 = 1 ->
  let y := mkLt (firstn m (lts x)) 0 (Z.of_nat m) in let y' := mkLt (skipn m (lts x)) 0 (Z.of_nat (llen x - m)) in
  povm_ok y (firstn m ns) (firstn m hs) /\ povm_ok y' (skipn m ns) (skipn m hs) /\
  forall k1 k2 i1 i2 j1 j2, inr k1 (firstn m ns) -> inr k2 (skipn m ns) -> inr i1 (firstn m hs) -> inr i2 (skipn m hs) -> inr j1 (firstn m hs) -> inr j2 (skipn m hs) ->
    entry x (triples (k1 ++ k2) (i1 ++ i2) (j1 ++ j2)) = (entry y (triples k1 i1 j1) * entry y' (triples k2 i2 j2))%K.
Proof. intros Hp Hm Hr. exact (proj2 (povm_cut x ns hs m Hp Hm Hr)). Qed.
Print Assumptions C51_repeat_factor.
Theorem C51_repeat_error (K : StarRing) (x : ltens K) ns hs n : povm_ok x ns hs -> 0 < n mod llen x -> nth (n mod llen x - 1) (ranks x) 0 <> 1 -> prepeat x n = Err AssertionError.
Proof. exact (repeat_error x ns hs n). Qed.
Print Assumptions C51_repeat_error.
(** Lists of POVMs: the embeddings at the same position are consecutive. *)
Theorem C51_list_block (K : StarRing) (xs : list (ltens K)) L n d : xs <> [] -> L <= n ->
  Forall (fun x => llen x = L /\ exists ns, povm_ok x ns (repeat d L)) xs ->
  exists zs, mppl_block xs (Z.of_nat n) = Ok zs /\ length zs = (n - L + 1) * length xs /\
    forall k i, k <= n - L -> i < length xs -> let z := nth (k * length xs + i) zs nope in
      embed (nth i xs nope) (Z.of_nat n) (Z.of_nat k) (LdInt d) = Ok z /\ llen z = n /\ embedded (nth i xs nope) z (repeat d n) k.
Proof. exact (mppl_block_spec xs L n d). Qed.
Print Assumptions C51_list_block.
Theorem C51_list_repeat (K : StarRing) (xs : list (ltens K)) n : 0 < n ->
  Forall (fun x => (exists ns hs, povm_ok x ns hs) /\ (n mod llen x = 0 \/ nth (n mod llen x - 1) (ranks x) 0 = 1)) xs ->
  exists zs, mppl_repeat xs n = Ok zs /\ Forall2 (fun x z => prepeat x n = Ok z /\ llen z = n) xs zs.
Proof. exact (mppl_repeat_spec xs n). Qed.
Print Assumptions C51_list_repeat.
(** One site, elements [[1 1; 1 1]] and [[0 -1; -1 0]]. *)
Definition ex_el : nd GZ := mk [2;2;2] [g 1 0; g 1 0; g 1 0; g 1 0; g 0 0; g (-1) 0; g (-1) 0; g 0 0].
Definition ex_pv1 : ltens GZ := from_ok (from_local_povm ex_el 2) no_mpa.
Lemma ex_pv1_ok : povm_ok ex_pv1 [2; 2] [2; 2].
Proof.
  split; [split; [apply mpa_okb_ok; reflexivity|repeat constructor]|]. split; [apply cform_okb_ok; reflexivity|]. split; [reflexivity|]. split; [reflexivity|]. repeat constructor.
Qed.
Example C51_ex : povm_ok ex_pv [3; 2] [2; 2] /\ povm_ok ex_pv1 [2; 2] [2; 2] /\ nth 0 (ranks ex_pv1) 0 = 1 /\ Forall (fun e => e = 2) [2; 2] /\
  (let z := from_ok (embed ex_pv 4 1 (LdSeq [3; 2; 2; 5])) no_mpa in outdims z = [1; 3; 2; 1] /\ hdims z = [3; 2; 2; 5] /\
     entry z (triples [0; 2; 1; 0] [2; 1; 0; 4] [2; 1; 1; 4]) = entry ex_pv (triples [2; 1] [1; 0] [1; 1]) /\ entry z (triples [0; 2; 1; 0] [2; 1; 0; 4] [2; 1; 1; 3]) = g 0 0) /\
  map outdims (from_ok (block ex_pv 4) []) = [[3; 2; 1; 1]; [1; 3; 2; 1]; [1; 1; 3; 2]] /\
  outdims (from_ok (prepeat ex_pv 4) no_mpa) = [3; 2; 3; 2] /\ prepeat ex_pv 5 = Err AssertionError /\ llen (from_ok (prepeat ex_pv1 5) no_mpa) = 5 /\
  map outdims (from_ok (mppl_block [ex_pv; ex_pv1] 3) []) = [[3; 2; 1]; [2; 2; 1]; [1; 3; 2]; [1; 2; 2]] /\
  map outdims (from_ok (mppl_repeat [ex_pv; ex_pv1] 4) []) = [[3; 2; 3; 2]; [2; 2; 2; 2]].
Proof. split; [exact ex_pv_ok|]. split; [exact ex_pv1_ok|]. split; [reflexivity|]. split; [repeat constructor|]. vms. Qed.
(** A negative first site is not refused: the result has more than [nr_sites] sites. *)
Theorem C51_embed_negative_refuted : exists z, embed ex_pv1 3 (-1) (LdInt 2) = Ok z /\ llen z = 4.
Proof. exists (from_ok (embed ex_pv1 3 (-1) (LdInt 2)) no_mpa). vms. Qed.
Print Assumptions C51_embed_negative_refuted.
(** The cut copy of [repeat] depends on how the factors are normalised: two MP-POVMs with the
    same elements give different results, the second of which is not complete. *)
Definition ex_pv2 : ltens GZ := mkLt (map (nscale (g (-1) 0)) (lts ex_pv1)) 0 2.
Theorem C51_repeat_gauge_refuted : povm_ok ex_pv2 [2; 2] [2; 2] /\ to_array ex_pv2 = to_array ex_pv1 /\ exists z1 z2,
  prepeat ex_pv1 3 = Ok z1 /\ prepeat ex_pv2 3 = Ok z2 /\ entry z1 (triples [0; 0; 0] [0; 0; 0] [0; 0; 0]) = g 1 0 /\ entry z2 (triples [0; 0; 0] [0; 0; 0] [0; 0; 0]) = g (-1) 0 /\
  msum [2; 2; 2] (fun ks => entry z1 (triples ks [0; 0; 0] [0; 0; 0])) = g 1 0 /\ msum [2; 2; 2] (fun ks => entry z2 (triples ks [0; 0; 0] [0; 0; 0])) = g (-1) 0.
Proof.
  split. { split; [split; [apply mpa_okb_ok; reflexivity|repeat constructor]|]. split; [apply cform_okb_ok; reflexivity|]. split; [reflexivity|]. split; [reflexivity|]. repeat constructor. }
  split; [vmc|]. exists (from_ok (prepeat ex_pv1 3) no_mpa), (from_ok (prepeat ex_pv2 3) no_mpa). vms.
Qed.
Print Assumptions C51_repeat_gauge_refuted.

(** ** C58: [project_pmf] and [project_nonneg].  [vals] is an array of real or complex type;
    [arg_after v out] is the argument after the call (a real array is overwritten). *)
Theorem C58_project_pmf v ie re tr : (0 <= ie)%R -> (re < 1)%R -> (0 <= tr)%R ->
  (exists out after, project_pmf v ie re tr = Ok (out, after) /\ is_pmf out /\ shp out = vshape v /\ after = arg_after v out) \/
  project_pmf v ie re tr = Err AssertionError \/ project_pmf v ie re tr = Err AttributeError.
Proof. exact (project_pmf_spec v ie re tr). Qed.
Print Assumptions C58_project_pmf.
(** When it succeeds, and the values returned *)
Theorem C58_values v ie re tr : (0 <= ie)%R -> (re < 1)%R -> (0 <= tr)%R ->
  im_ok v ie -> re_ok v re -> ~ single_zero v tr -> (Rabs (rsum (cut v tr) - 1) <= re)%R ->
  exists out, project_pmf v ie re tr = Ok (out, arg_after v out) /\
    forall i, i < length (reals v) -> nth i (dat out) 0%R = ((if Rle_dec (nth i (reals v) 0%R) tr then 0 else nth i (reals v) 0%R) / rsum (cut v tr))%R.
Proof. exact (project_pmf_iff v ie re tr). Qed.
Print Assumptions C58_values.
Theorem C58_unchanged (a : nd RS) ie re : (0 <= ie)%R -> (0 <= re)%R -> is_pmf a -> shp a <> [] -> project_pmf (VReal a) ie re 0 = Ok (a, VReal a).
Proof. exact (project_pmf_id a ie re). Qed.
Print Assumptions C58_unchanged.
Theorem C58_nonneg v ie re tr : (0 <= ie)%R ->
  (im_ok v ie /\ re_ok v re /\ exists out, project_nonneg v ie re tr = Ok (out, arg_after v out) /\ shp out = vshape v /\ length (dat out) = length (reals v) /\
     (forall i, i < length (reals v) -> nth i (dat out) 0%R = if Rle_dec (nth i (reals v) 0%R) tr then 0%R else nth i (reals v) 0%R)) \/
  ((~ im_ok v ie \/ ~ re_ok v re) /\ project_nonneg v ie re tr = Err AssertionError).
Proof. exact (project_nonneg_spec v ie re tr). Qed.
Print Assumptions C58_nonneg.
(** A single value that is truncated makes the call fail in an attribute access. *)
Theorem C58_single_value v ie re tr : (0 <= ie)%R -> im_ok v ie -> re_ok v re -> single_zero v tr -> project_pmf v ie re tr = Err AttributeError.
Proof. exact (pmf_single v ie re tr). Qed.
Print Assumptions C58_single_value.
(** The hypotheses are met: complex values with small imaginary parts and a small negative one. *)
Definition ex_vals : nd CS := mkNd (K:=CS) [3] [(1 / 2, 1 / 100)%R; (-1 / 100, 0)%R; (1 / 2, -1 / 100)%R].
Example C58_ex : im_ok (VCplx ex_vals) (1 / 10) /\ re_ok (VCplx ex_vals) (1 / 10) /\ ~ single_zero (VCplx ex_vals) 0 /\ cut (VCplx ex_vals) 0 = [1 / 2; 0; 1 / 2]%R /\
  (Rabs (rsum (cut (VCplx ex_vals) 0) - 1) <= 1 / 10)%R.
Proof.
  assert (C : cut (VCplx ex_vals) 0 = [1 / 2; 0; 1 / 2]%R).
  { unfold cut, trunc. cbn [reals ex_vals dat map Cre fst]. rewrite !Rleb_false by (unfold Cre; cbn; lra). rewrite Rleb_true by (unfold Cre; cbn; lra). reflexivity. }
  split. { intros y Hy. cbn in Hy. destruct Hy as [<-|[<-|[<-|[]]]]; unfold Cim; cbn; apply Rabs_le; lra. }
  split. { intros y Hy. cbn in Hy. destruct Hy as [<-|[<-|[<-|[]]]]; unfold Cre; cbn; lra. }
  split. { intros [S _]. discriminate. }
  split; [exact C|]. rewrite C. unfold rsum. cbn. apply Rabs_le. lra.
Qed.
(** The bounds on the tolerances are needed.  A negative [real_trunc] keeps negative values; a
    [real_eps] of one accepts values that are all zero and divides by zero. *)
Theorem C58_negative_trunc_refuted : exists a out after, project_pmf (VReal a) 0 (3 / 4) (-1) = Ok (out, after) /\ exists x, In x (dat out) /\ (x < 0)%R.
Proof.
  set (a := mkNd (K:=RS) [2] [3 / 2; -1 / 2]%R). set (v := VReal a).
  assert (C : cut v (-1) = [3 / 2; -1 / 2]%R). { unfold cut, trunc, v, a. cbn [reals dat map]. rewrite !Rleb_false by lra. reflexivity. }
  assert (S : rsum (cut v (-1)) = 1%R) by (rewrite C; unfold rsum; cbn; lra).
  exists a, (normed v (-1)), (arg_after v (normed v (-1))). split.
  - fold v. rewrite pmf_unfold; [|lra| | |].
    + rewrite S. rewrite Rleb_true; [reflexivity|]. apply Rabs_le. lra.
    + intros y Hy. cbn in Hy. destruct Hy as [<-|[<-|[]]]; rewrite Rabs_R0; lra.
    + intros y Hy. cbn in Hy. destruct Hy as [<-|[<-|[]]]; lra.
    + intros [E _]. discriminate.
  - exists (-1 / 2 / 1)%R. split; [|lra]. unfold normed. rewrite S, C. cbn. right. left. reflexivity.
Qed.
Print Assumptions C58_negative_trunc_refuted.
Theorem C58_large_eps_refuted : exists a out after, project_pmf (VReal a) 0 1 0 = Ok (out, after) /\ ~ is_pmf out.
Proof.
  set (a := mkNd (K:=RS) [2] [0; 0]%R). set (v := VReal a).
  assert (C : cut v 0 = [0; 0]%R). { unfold cut, trunc, v, a. cbn [reals dat map]. rewrite !Rleb_true by lra. reflexivity. }
  exists a, (normed v 0), (arg_after v (normed v 0)). split.
  - fold v. rewrite pmf_unfold; [|lra| | |].
    + rewrite C. rewrite Rleb_true; [reflexivity|]. unfold rsum. cbn. apply Rabs_le. lra.
    + intros y Hy. cbn in Hy. destruct Hy as [<-|[<-|[]]]; rewrite Rabs_R0; lra.
    + intros y Hy. cbn in Hy. destruct Hy as [<-|[<-|[]]]; lra.
    + intros [E _]. discriminate.
  - intros [_ H]. unfold normed in H. rewrite C in H. cbn in H. unfold Rdiv in H. rewrite !Rmult_0_l in H. lra.
Qed.
Print Assumptions C58_large_eps_refuted.
