(** [MPPovm.block_pmfs_as_array] (mppovm.py 555-562): the probabilities of a POVM on every
    block of a chain. *)
From Coq Require Import Reals.
From Verif Require Import PfStates2 PfMpPovm PfRandom.
From Verif Require Export PfRedMode PfPovmArr PfKronPovm PfPovmEmbed.
Open Scope nat_scope.

Section Gen.
Context {K : StarRing}.
Add Ring Kr : (k_ring K).
Variable qr : nd K -> res (nd K * nd K).
Hypothesis Hqr : qr_sound qr.

(** A reduced state that [pmf_as_array] accepts *)
Definition red_ready (m : smode) (hs : list nat) (z : ltens K) : Prop :=
  match m with MPmps => rep_pmps hs z | MMpdo => rep_mpdo hs z | _ => False end.
Definition red_good (m : smode) (ds : list nat) (rho : list nat -> list nat -> K) (w : nat * nat) (z : ltens K) : Prop :=
  is_reduced m ds rho w z /\ red_ready m (firstn (snd w - fst w) (skipn (fst w) ds)) z.
Lemma reduction_good (x z : ltens K) w : two_legs (mshape x) -> is_reduction x w z -> red_good MPmps (leg1 (mshape x)) (dm_of MPmps x) w z.
Proof.
  intros H2 H. split; [apply reduction_reduced; assumption|]. destruct H as (Hz & Lz & Tz & Ez & Cz & _).
  destruct (full_canon z (proj1 Hz)) as [W T]; [rewrite Cz, Lz; reflexivity|]. cbn [red_ready]. repeat (split; [assumption|]). exact Ez.
Qed.

(** [reductions] with any arguments that select the windows [ws] *)
Theorem reductions_good (x : ltens K) m ds width starts stops ws : mpa_pos x -> cform_wk x -> canon_true x -> legs_of m ds (mshape x) ->
  check_reductions_args (llen x) width starts stops = Ok (map zwin ws) -> Forall (win_ok (llen x)) ws ->
  outc (qr_fails qr) (reductions qr x m width starts stops)
    (fun p => snd p <> MOther /\ snd p <> MMps /\ Forall2 (red_good (snd p) ds (dm_of m x)) ws (fst p)).
Proof.
  intros Hx Hc Ht Hl Ha Hw. destruct m; cbn [legs_of] in Hl; cbn [reductions]; [| | |contradiction].
  - assert (H1 : one_leg (mshape x)) by (unfold one_leg; rewrite Hl; apply Forall_forall; intros p Hp; apply in_map_iff in Hp; destruct Hp as (d & <- & _); reflexivity).
    assert (E1 : leg1 (mshape x) = ds) by (unfold leg1; rewrite Hl, map_map; cbn; apply map_id).
    destruct (mps_to_pmps_spec x (proj1 Hx) H1) as (p & Ep & Hpp & Mp & _ & Cp & _ & Pp).
    unfold reductions_mps_as_pmps. rewrite Ep. cbn [bind].
    assert (Lp : llen p = llen x) by (rewrite <- !mshape_length, Mp; unfold leg1; rewrite !map_length; reflexivity).
    destruct (full_canon p Hpp) as [Wp Tp]; [rewrite Cp, Lp; reflexivity|].
    assert (T2 : two_legs (mshape p)) by (rewrite Mp; apply two_legs_pad).
    unfold reductions_pmps. rewrite Lp, Ha. cbn [bind].
    rewrite <- Lp in Hw.
    pose proof (red_pmps_loop_spec qr Hqr ws p (Pp Hx) Wp Tp T2 Hw) as [([zs y] & -> & A & _)|[-> F]]; [|right; split; [reflexivity|exact F]].
    cbn [bind fst snd] in *. apply outc_ok. cbn [fst snd]. split; [discriminate|]. split; [discriminate|]. rewrite Lp in Hw.
    clear - Hx H1 Hw A E1 Ep Mp T2. revert Hw.
    induction A as [|w z ws zs Hr A IH]; intros Hw; [constructor|].
    apply Forall_cons_iff in Hw. destruct Hw as [Hw Hws]. constructor; [|exact (IH Hws)].
    destruct (reduction_good p z w T2 Hr) as [(Hz & Lz & Nz) R]. rewrite Mp, leg1_pad, E1 in Lz, Nz, R.
    split; [|exact R]. split; [exact Hz|]. split; [exact Lz|]. intros is js Hi Hj. rewrite Nz by auto.
    unfold traced. apply msum_ext. intros ks Hk. apply msum_ext. intros ms Hms. destruct w as [s e]. unfold win_ok in Hw. cbn [fst snd] in *.
    apply (dmat_mps x p); auto; [apply Hx| |]; rewrite E1; apply (inr_window _ s e); auto; lia.
  - destruct Hl as [E1 H2]. unfold reductions_pmps. rewrite Ha. cbn [bind].
    eapply outc_bind; [exact (red_pmps_loop_spec qr Hqr ws x Hx Hc Ht H2 Hw)|]. intros [zs y] (A & _). apply outc_ok. cbn [fst snd] in *. split; [discriminate|]. split; [discriminate|].
    eapply Forall2_weaken; [|exact A]. intros w z Hz. rewrite <- E1. apply reduction_good; auto.
  - assert (H2 : two_legs (mshape x)) by (unfold two_legs; rewrite Hl; apply Forall_forall; intros p Hp; apply in_map_iff in Hp; destruct Hp as (d & <- & _); reflexivity).
    destruct (reductions_mpo_spec x width starts stops ws (proj1 Hx) H2 Ha Hw) as (zs & Ez & A).
    rewrite Ez. cbn [bind]. apply outc_ok. cbn [fst snd]. split; [discriminate|]. split; [discriminate|]. eapply Forall2_weaken; [|exact A].
    intros w z (Hz & Mz & Rz & _ & Nz). assert (Mz' : mshape z = map (fun d => [d; d]) (firstn (snd w - fst w) (skipn (fst w) ds)))
      by (rewrite Mz, Hl, skipn_map, firstn_map; reflexivity).
    split.
    + split; [exact Hz|]. split; [exact Mz'|]. intros is js Hi Hj. cbn [dm_of].
      rewrite Nz by (rewrite Mz'; apply pairs_valid_sq; auto). rewrite Hl, diagd_dd. unfold traced.
      apply msum_ext. intros ks Hk. apply msum_ext. intros ms Hms.
      assert (Li : length is = length js) by (rewrite (inr_length _ _ Hi), (inr_length _ _ Hj); reflexivity).
      cbn [dm_of]. rewrite !pairs_app; auto; rewrite !app_length; lia.
    + split; [exact Hz|]. split; [|exact Mz']. apply ranks_pos; [exact Hz|]. rewrite Rz. pose proof (pos_ranks x (mpa_pos_bonds x Hx)) as Bst. rewrite Forall_forall in *. intros d Hd. apply Bst. eapply in_firstn_skipn. exact Hd.
Qed.
End Gen.

(** ** Partial traces of positive matrices *)
Lemma window_split (ds : list nat) s e : s <= e -> ds = firstn s ds ++ firstn (e - s) (skipn s ds) ++ skipn e ds.
Proof.
  intros H. rewrite <- (firstn_skipn s ds) at 1. f_equal. rewrite <- (firstn_skipn (e - s) (skipn s ds)) at 1. f_equal.
  rewrite skipn_add. f_equal. lia.
Qed.
Lemma traced_gram ds s e rho : s <= e -> gram_rho ds rho -> gram_rho (firstn (e - s) (skipn s ds)) (traced ds s e rho).
Proof.
  intros H (cs & v & Hv). exists (firstn s ds ++ skipn e ds ++ cs), (fun c is => v (skipn (length (firstn s ds) + length (skipn e ds)) c) (firstn (length (firstn s ds)) c ++ is ++ firstn (length (skipn e ds)) (skipn (length (firstn s ds)) c))).
  intros is js Hi Hj. unfold traced. rewrite msum_app. apply msum_ext. intros ks Hk. rewrite msum_app. apply msum_ext. intros ms Hms.
  rewrite Hv by (apply (inr_window ds s e); auto). apply msum_ext. intros c _.
  rewrite <- (inr_length _ _ Hk), <- (inr_length _ _ Hms). 
  rewrite (firstn_len_app _ ks (ms ++ c)), (skipn_len_app _ ks (ms ++ c) (length ks)), (firstn_len_app _ ms c) by reflexivity.
  rewrite (app_assoc ks ms c), (skipn_len_app _ (ks ++ ms) c) by (rewrite app_length; reflexivity). reflexivity.
Qed.
Lemma traced_trace ds s e rho : s <= e -> unit_trace ds rho -> unit_trace (firstn (e - s) (skipn s ds)) (traced ds s e rho).
Proof.
  intros H U. unfold unit_trace in *. rewrite <- U.
  transitivity (msum (firstn s ds ++ firstn (e - s) (skipn s ds) ++ skipn e ds) (fun is => rho is is)); [|rewrite <- (window_split ds s e H); reflexivity].
  rewrite msum_app. unfold traced. rewrite msum_swap. apply msum_ext. intros ks _. rewrite msum_app. reflexivity.
Qed.
Lemma gram_ext hs f g : (forall is js, inr is hs -> inr js hs -> f is js = g is js) -> gram_rho hs g -> gram_rho hs f.
Proof. intros E (cs & v & Hv). exists cs, v. intros is js Hi Hj. rewrite E by assumption. apply Hv; assumption. Qed.

Section Block.
Variable qr : nd CS -> res (nd CS * nd CS).
Hypothesis Hqr : qr_sound qr.
Lemma prob_ext (x : ltens CS) ns hs f g q : povm_ok x ns hs -> (forall is js, inr is hs -> inr js hs -> f is js = g is js) -> is_prob_arr x f q -> is_prob_arr x g q.
Proof.
  intros Hp E (W & S & P & A). split; [exact W|]. split; [exact S|]. split; [exact P|]. intros ks Hk. rewrite A by exact Hk. apply mborn_ext. destruct (povm_dims _ _ _ Hp) as (_ & D2 & _). rewrite D2. exact E.
Qed.
(** What is returned for each window *)
Definition is_block (x : ltens CS) ds rho (w : nat * nat) (q : nd RS) : Prop := is_prob_arr x (traced ds (fst w) (snd w) rho) q.
Lemma block_one (x z : ltens CS) ns hs ds rho m w eps : povm_ok x ns hs -> psd_elems x -> sums_to_id x -> gram_rho ds rho -> unit_trace ds rho -> (0 <= eps)%R ->
  m <> MOther -> m <> MMps -> fst w < snd w -> firstn (snd w - fst w) (skipn (fst w) ds) = hs -> red_good m ds rho w z ->
  outc (qr_fails qr) (do r <- pmf_as_array qr x z (back_mode m) eps IAuto; Ok (fst r)) (is_block x ds rho w).
Proof.
  intros Hp Px Cx Gr Tr He N1 N2 Hw Eh [(Hz & Lz & Nz) R]. rewrite Eh in *.
  assert (Gt : gram_rho hs (traced ds (fst w) (snd w) rho)) by (rewrite <- Eh; apply traced_gram; [lia|exact Gr]).
  assert (Tt : unit_trace hs (traced ds (fst w) (snd w) rho)) by (rewrite <- Eh; apply traced_trace; [lia|exact Tr]).
  assert (Tz : unit_trace hs (dm_of m z)) by (unfold unit_trace in *; rewrite <- Tt; apply msum_ext; intros is Hi; apply Nz; assumption).
  assert (Ac : accepts hs z (back_mode m) IAuto (dm_of m z)).
  { destruct m; [congruence| | |congruence]; cbn [red_ready] in R; cbn [back_mode].
    - apply (acc_pmps hs z IAuto); [exact R|discriminate].
    - apply (acc_mpdo hs z); auto. }
  eapply outc_bind; [apply (pmf_as_array_spec qr x z ns hs (back_mode m) IAuto (dm_of m z) eps); auto|].
  - apply (gram_ext hs _ (traced ds (fst w) (snd w) rho)); assumption.
  - intros r [Ar _]. apply outc_ok. exact (prob_ext x ns hs _ _ _ Hp Nz Ar).
Qed.
Theorem block_pmfs_spec (x st : ltens CS) ns hs m ds eps redarg width starts stops ws :
  povm_ok x ns hs -> psd_elems x -> sums_to_id x -> mpa_pos st -> cform_wk st -> canon_true st -> legs_of m ds (mshape st) ->
  gram_rho ds (dm_of m st) -> unit_trace ds (dm_of m st) -> (0 <= eps)%R ->
  (match redarg with (None, None, None) => (Some (Z.of_nat (llen x)), None, None) | r => r end) = (width, starts, stops) ->
  check_reductions_args (llen st) width starts stops = Ok (map zwin ws) ->
  Forall (fun w => win_ok (llen st) w /\ firstn (snd w - fst w) (skipn (fst w) ds) = hs) ws ->
  outc (qr_fails qr) (block_pmfs_as_array qr x st (back_mode m) eps redarg) (fun qs => Forall2 (is_block x ds (dm_of m st)) ws qs).
Proof.
  intros Hp Px Cx Hst Hc Ht Hl Gr Tr He Ea Hck Hw. unfold block_pmfs_as_array. rewrite Ea.
  replace (red_mode (back_mode m)) with m by (destruct m; reflexivity).
  eapply outc_bind; [apply (reductions_good qr Hqr st m ds width starts stops ws); auto; eapply Forall_impl; [|exact Hw]; cbn beta; tauto|].
  intros [zs m'] (N1 & N2 & A). cbn [fst snd] in *. unfold pmfs_as_array.
  revert Hw. clear - A N1 N2 Hp Px Cx Gr Tr He Hqr. induction A as [|w z ws zs Hz A IH]; intros Hw; [apply outc_ok; constructor|].
  apply Forall_cons_iff in Hw. destruct Hw as [[Hw Eh] Hws]. cbn [mapM].
  eapply outc_bind; [apply (block_one x z ns hs ds (dm_of m st) m' w eps); auto; apply Hw|]. intros q Hq. cbn beta.
  eapply outc_bind; [exact (IH Hws)|]. intros qs Hqs. apply outc_ok. constructor; assumption.
Qed.
(** The default: all blocks of the length of the POVM *)
Theorem block_pmfs_all (x st : ltens CS) ns hs m ds eps :
  povm_ok x ns hs -> psd_elems x -> sums_to_id x -> mpa_pos st -> cform_wk st -> canon_true st -> legs_of m ds (mshape st) ->
  gram_rho ds (dm_of m st) -> unit_trace ds (dm_of m st) -> (0 <= eps)%R -> fits hs ds -> llen x <= llen st -> length ds = llen st ->
  outc (qr_fails qr) (block_pmfs_as_array qr x st (back_mode m) eps (None, None, None)) (fun qs =>
    Forall2 (is_block x ds (dm_of m st)) (map (fun s => (s, s + llen x)) (seq 0 (llen st - llen x + 1))) qs).
Proof.
  intros Hp Px Cx Hst Hc Ht Hl Gr Tr He Hf Hlen Ld.
  assert (W : 0 < llen x <= llen st) by (pose proof (povm_len _ _ _ Hp); destruct (povm_dims _ _ _ Hp) as (_ & _ & D3); destruct Hp as (_ & _ & L & _); lia).
  eapply (block_pmfs_spec x st ns hs m ds eps (None, None, None)); try eassumption; [reflexivity|exact (windows_width _ _ W)|].
  apply Forall_forall. intros w Hi. apply in_map_iff in Hi. destruct Hi as (s & <- & Hs). apply in_seq in Hs. cbn [fst snd]. split; [unfold win_ok; cbn; lia|].
  pose proof (povm_dims _ _ _ Hp) as (D1 & D2 & D3). pose proof Hp as (_ & _ & L & _). replace (s + llen x - s) with (length hs) by lia. apply Hf. lia.
Qed.
End Block.

(** ** The embedded POVMs of [block] give the same arrays *)
Add Ring Cr2 : (k_ring CS).
Lemma inr_repeat1 n is : inr is (repeat 1 n) -> is = repeat 0 n.
Proof. revert is. induction n as [|n IH]; intros is H; [inversion H; reflexivity|]. cbn [repeat] in *. apply inr_cons_inv in H. destruct H as (i & js & -> & Hi & Hj). rewrite (IH js Hj). f_equal. lia. Qed.
Lemma inr_zeros' n : inr (repeat 0 n) (repeat 1 n).
Proof. induction n; constructor; [lia|assumption]. Qed.
Lemma embedded_outcome (x z : ltens CS) ld s ks : embedded x z ld s -> inr ks (outdims z) ->
  exists ks', inr ks' (outdims x) /\ ks = repeat 0 (length (firstn s ld)) ++ ks' ++ repeat 0 (length (skipn (s + llen x) ld)).
Proof.
  intros (Eo & _) H. rewrite Eo in H. apply inr_app_inv in H. destruct H as (a & b & -> & Ha & Hb). apply inr_app_inv in Hb. destruct Hb as (k & c & -> & Hk & Hc).
  exists k. split; [exact Hk|]. rewrite (inr_repeat1 _ _ Ha), (inr_repeat1 _ _ Hc). reflexivity.
Qed.
Lemma embedded_psd (x z : ltens CS) ld s : length (hdims x) = llen x -> s + llen x <= length ld -> embedded x z ld s -> psd_elems x -> psd_elems z.
Proof.
  intros Lh Hs He Px ks Hk v. destruct (embedded_outcome x z ld s ks He Hk) as (k & Hk' & ->). destruct He as (Eo & Eh & En & _ & B).
  specialize (B (fun js is => v js * kconj (v is))%K k Hk').
  match goal with |- cnonneg ?a => replace a with (mborn z (fun js is => v js * kconj (v is))%K (repeat 0 (length (firstn s ld)) ++ k ++ repeat 0 (length (skipn (s + llen x) ld)))) end.
  2: { unfold mborn. apply msum_ext. intros is _. apply msum_ext. intros js _. ring. }
  rewrite B. apply born_nonneg; [exact Px| |exact Hk'].
  assert (Ew : hdims x = firstn (s + llen x - s) (skipn s (hdims z))).
  { rewrite Eh. assert (Lf : length (firstn s ld) = s) by (rewrite firstn_length; lia). rewrite (skipn_len_app _ (firstn s ld)) by (symmetry; exact Lf). rewrite (firstn_len_app _ (hdims x)) by lia. reflexivity. }
  rewrite Ew at 1. apply (traced_gram (hdims z) s (s + llen x)); [lia|]. exists [], (fun _ => v). intros is js _ _. reflexivity.
Qed.
Lemma bigi_ones n is : length is = n -> bigi (repeat 1 n) is = [].
Proof. revert is. induction n as [|n IH]; intros [|i is] H; try discriminate; [reflexivity|]. unfold bigi in *. cbn [repeat combine filter fst Nat.ltb Nat.leb]. apply IH. cbn in H. lia. Qed.
Theorem blocks_agree (x z : ltens CS) ns hs ds rho s q q' : povm_ok x ns hs -> embedded x z ds s -> hdims z = ds ->
  is_block x ds rho (s, s + llen x) q -> is_prob_arr z rho q' -> q = q'.
Proof.
  intros Hp (Eo & Eh & En & _ & B) Eds (W & S & _ & A) (W' & S' & _ & A'). cbn [fst snd] in *.
  apply nd_eq; [exact W|exact W'|congruence|]. rewrite S. intros j Hj.
  destruct (povm_dims _ _ _ Hp) as (D1 & _).
  assert (Hpos : Forall (fun d => 0 < d) (outdims x)) by (rewrite D1; apply (povm_pos x ns hs Hp)).
  destruct (bigi_onto (outdims x) Hpos j Hj) as (ks & Hks & <-).
  assert (T : toC (get q (bigi (outdims x) ks)) = toC (get q' (bigi (outdims x) ks))); [|exact (f_equal Cre T)].
  rewrite A by exact Hks. set (dl := firstn s ds) in *. set (dr := skipn (s + llen x) ds) in *.
  transitivity (mborn z rho (repeat 0 (length dl) ++ ks ++ repeat 0 (length dr))); [rewrite B by exact Hks; rewrite Eds; reflexivity|].
  rewrite <- A'.
  - f_equal. f_equal. rewrite Eo, !bigi_app, !bigi_ones by (rewrite ?repeat_length; try reflexivity; symmetry; exact (inr_length _ _ Hks)). rewrite app_nil_r. reflexivity.
  - rewrite Eo. apply inr_app; [apply inr_zeros'|apply inr_app; [exact Hks|apply inr_zeros']].
Qed.

Lemma accepts_legs {K : StarRing} (st : ltens K) m ds : mpa_pos st -> cform_wk st -> canon_true st -> legs_of m ds (mshape st) -> accepts ds st (back_mode m) IAuto (dm_of m st).
Proof.
  intros Hst Hc Ht Hl. destruct m; cbn [legs_of back_mode] in *; [| | |contradiction].
  - apply (acc_mps ds st); auto. split; [exact Hst|]. rewrite Hl. split.
    + unfold one_leg. apply Forall_forall. intros p Hp. apply in_map_iff in Hp. destruct Hp as (d & <- & _). reflexivity.
    + unfold leg1. rewrite map_map. apply map_id.
  - apply (acc_pmps ds st); [|discriminate]. destruct Hl as [E1 E2]. repeat (split; [assumption|]). exact E1.
  - apply (acc_mpdo ds st); auto. split; [apply Hst|]. split; [apply mpa_pos_bonds; exact Hst|exact Hl].
Qed.
Section Agree.
Variable qr : nd CS -> res (nd CS * nd CS).
Hypothesis Hqr : qr_sound qr.
Theorem block_agree (x st : ltens CS) ns hs m d n eps :
  povm_ok x ns hs -> Forall (fun e => e = d) hs -> psd_elems x -> sums_to_id x -> mpa_pos st -> cform_wk st -> canon_true st -> legs_of m (repeat d n) (mshape st) ->
  gram_rho (repeat d n) (dm_of m st) -> unit_trace (repeat d n) (dm_of m st) -> (0 <= eps)%R -> llen x <= n -> n = llen st ->
  outc (qr_fails qr) (do zs <- block x (Z.of_nat n); mapM (fun z => do r <- pmf_as_array qr z st (back_mode m) eps IAuto; Ok (fst r)) zs) (fun qs' =>
    forall qs, block_pmfs_as_array qr x st (back_mode m) eps (None, None, None) = Ok qs -> qs = qs').
Proof.
  intros Hp Hd Px Cx Hst Hc Ht Hl Gr Tr He Hlen Ln.
  pose proof (povm_dims _ _ _ Hp) as (D1 & D2 & D3). pose proof Hp as (_ & _ & L & _). pose proof (povm_len _ _ _ Hp) as Hlp.
  destruct (block_spec x ns hs n d Hp Hd Hlen) as (zs & Ez & Fz). rewrite Ez. cbn [bind].
  assert (Eh : hs = repeat d (length hs)). { clear - Hd. induction Hd as [|e hs -> Hd IH]; [reflexivity|]. cbn [length repeat]. f_equal. exact IH. }
  assert (Fi : fits hs (repeat d n)).
  { intros s Hs. rewrite repeat_length in Hs. rewrite Eh at 2. rewrite skipn_repeat, firstn_repeat by lia. reflexivity. }
  assert (G : outc (qr_fails qr) (mapM (fun z => do r <- pmf_as_array qr z st (back_mode m) eps IAuto; Ok (fst r)) zs)
    (fun qs' => Forall2 (fun s q => exists z, embedded x z (repeat d n) s /\ hdims z = repeat d n /\ is_prob_arr z (dm_of m st) q) (seq 0 (n - llen x + 1)) qs')).
  { clear Ez. assert (Hs : Forall (fun s => s + llen x <= n) (seq 0 (n - llen x + 1))) by (apply Forall_forall; intros s Hs; apply in_seq in Hs; lia).
    revert Hs. induction Fz as [|s z ss zs (_ & Lz & Hz & Em) Fz IH]; intros Hs; [apply outc_ok; constructor|]. apply Forall_cons_iff in Hs. destruct Hs as [Hs Hss].
    cbn [mapM]. apply (outc_bind _ _ _ (is_prob_arr z (dm_of m st))).
    - apply (outc_bind _ _ _ (fun r => is_prob_arr z (dm_of m st) (fst r) /\ kept st (snd r))); [|intros r Hr; apply outc_ok; exact (proj1 Hr)].
      eapply (pmf_as_array_spec qr z st); [exact Hqr|exact Hz|apply accepts_legs; assumption|..|exact He]; auto.
      + eapply (embedded_psd x z (repeat d n) s); eauto; [rewrite D2; lia|rewrite repeat_length; exact Hs].
      + exact (embed_complete x z _ s Em Cx).
    - intros q Hq. cbn beta in Hq. eapply outc_bind; [exact (IH Hss)|].
      intros qs Hqs. apply outc_ok. constructor; [|exact Hqs]. exists z. split; [exact Em|]. split; [|exact Hq]. destruct (povm_dims _ _ _ Hz) as (_ & D2' & _). exact D2'. }
  eapply outc_weaken; [exact G|auto|]. intros qs' Hqs' qs Eqs.
  assert (Hb : Forall2 (is_block x (repeat d n) (dm_of m st)) (map (fun s => (s, s + llen x)) (seq 0 (n - llen x + 1))) qs).
  { subst n. eapply outc_inv; [|exact Eqs]. apply (block_pmfs_all qr Hqr x st ns hs m (repeat d (llen st)) eps); auto. apply repeat_length. }
  clear - Hp Hqs' Hb. revert qs Hb. induction Hqs' as [|s q ss qs' (z & Em & Eh & Hz) Hqs' IH]; intros qs Hb; inversion Hb as [|? q0 ? qs0 Hq0 Hb']; subst; [reflexivity|].
  f_equal; [exact (blocks_agree x z ns hs (repeat d n) (dm_of m st) s q0 q Hp Em Eh Hq0 Hz)|exact (IH _ Hb')].
Qed.
End Agree.

(** A POVM that is longer than the chain: no array and no error *)
Theorem block_pmfs_long qr (x st : ltens CS) m ds eps : mpa_pos st -> legs_of m ds (mshape st) -> llen st < llen x ->
  block_pmfs_as_array qr x st (back_mode m) eps (None, None, None) = Ok [].
Proof.
  intros Hst Hl H. unfold block_pmfs_as_array. replace (red_mode (back_mode m)) with m by (destruct m; reflexivity).
  assert (E : forall n, n = llen st -> check_reductions_args n (Some (Z.of_nat (llen x))) None None = Ok []).
  { intros n ->. unfold check_reductions_args. rewrite PfCanon2.pyrange_empty by lia. reflexivity. }
  destruct m; cbn [legs_of] in Hl; cbn [reductions]; [| | |contradiction].
  - assert (H1 : one_leg (mshape st)) by (unfold one_leg; rewrite Hl; apply Forall_forall; intros p Hp; apply in_map_iff in Hp; destruct Hp as (d & <- & _); reflexivity).
    destruct (mps_to_pmps_spec st (proj1 Hst) H1) as (p & Ep & Hpp & Mp & _). unfold reductions_mps_as_pmps. rewrite Ep. cbn [bind]. unfold reductions_pmps.
    rewrite E by (rewrite <- !mshape_length, Mp; unfold leg1; rewrite !map_length; reflexivity). reflexivity.
  - unfold reductions_pmps. rewrite E by reflexivity. reflexivity.
  - assert (H2 : two_legs (mshape st)) by (unfold two_legs; rewrite Hl; apply Forall_forall; intros p Hp; apply in_map_iff in Hp; destruct Hp as (d & <- & _); reflexivity).
    destruct (reductions_mpo_spec st (Some (Z.of_nat (llen x))) None None [] (proj1 Hst) H2 (E _ eq_refl) (Forall_nil _)) as (zs & -> & A). inversion A; subst. reflexivity.
Qed.
