(** Statements about [MPPovm.block_pmfs_as_array] (mppovm.py 555-562). *)
From Coq Require Import Reals Lra.
From Verif Require Import PfBlockPmf PfPovmArr PfMpPovm PfPovmEmbed PfCPovm PfKronPovm Oracles Gauss Examples.
Open Scope nat_scope.

(** C72.  [legs_of], [dm_of], [traced] ([PfRedMode]): the density matrix of a state given in a
    mode, and its partial trace over the sites outside [s, e).  [is_prob_arr x rho q]
    ([PfPovmArr]): [q] is a probability distribution with the Born probabilities of [x] in
    [rho] as entries. *)
Theorem C72_blocks qr (x st : ltens CS) ns hs m ds eps : qr_sound qr ->
  povm_ok x ns hs -> psd_elems x -> sums_to_id x -> mpa_pos st -> cform_wk st -> canon_true st -> legs_of m ds (mshape st) ->
  mpsd ds (dm_of m st) -> unit_trace ds (dm_of m st) -> (0 <= eps)%R -> fits hs ds -> llen x <= llen st -> length ds = llen st ->
  outc (qr_fails qr) (block_pmfs_as_array qr x st (back_mode m) eps (None, None, None)) (fun qs =>
    Forall2 (fun w q => is_prob_arr x (traced ds (fst w) (snd w) (dm_of m st)) q) (map (fun s => (s, s + llen x)) (seq 0 (llen st - llen x + 1))) qs).
Proof. intros Hq Hp Px Cx Hst Hc Ht Hl Gr. exact (block_pmfs_all qr Hq x st ns hs m ds eps Hp Px Cx Hst Hc Ht Hl (mpsd_gram _ _ Gr)). Qed.
Print Assumptions C72_blocks.
(** Given first and last sites *)
Theorem C72_windows qr (x st : ltens CS) ns hs m ds eps ws : qr_sound qr ->
  povm_ok x ns hs -> psd_elems x -> sums_to_id x -> mpa_pos st -> cform_wk st -> canon_true st -> legs_of m ds (mshape st) ->
  mpsd ds (dm_of m st) -> unit_trace ds (dm_of m st) -> (0 <= eps)%R ->
  Forall (fun w => (fst w < snd w <= llen st) /\ firstn (snd w - fst w) (skipn (fst w) ds) = hs) ws ->
  outc (qr_fails qr) (block_pmfs_as_array qr x st (back_mode m) eps (None, Some (map Z.of_nat (map fst ws)), Some (map Z.of_nat (map snd ws)))) (fun qs =>
    Forall2 (fun w q => is_prob_arr x (traced ds (fst w) (snd w) (dm_of m st)) q) ws qs).
Proof.
  intros Hq Hp Px Cx Hst Hc Ht Hl Gr Tr He Hw.
  exact (block_pmfs_spec qr Hq x st ns hs m ds eps (None, Some (map Z.of_nat (map fst ws)), Some (map Z.of_nat (map snd ws))) None _ _ ws Hp Px Cx Hst Hc Ht Hl (mpsd_gram _ _ Gr) Tr He eq_refl (windows_stops _ ws) Hw).
Qed.
Print Assumptions C72_windows.
(** The two ways to the probabilities of all blocks agree: [block_pmfs_as_array] reduces the
    state, [block] embeds the POVM. *)
Theorem C72_agree qr (x st : ltens CS) ns hs m d n eps : qr_sound qr ->
  povm_ok x ns hs -> Forall (fun e => e = d) hs -> psd_elems x -> sums_to_id x -> mpa_pos st -> cform_wk st -> canon_true st -> legs_of m (repeat d n) (mshape st) ->
  mpsd (repeat d n) (dm_of m st) -> unit_trace (repeat d n) (dm_of m st) -> (0 <= eps)%R -> llen x <= n -> n = llen st ->
  outc (qr_fails qr) (do zs <- block x (Z.of_nat n); mapM (fun z => do r <- pmf_as_array qr z st (back_mode m) eps IAuto; Ok (fst r)) zs) (fun qs' =>
    forall qs, block_pmfs_as_array qr x st (back_mode m) eps (None, None, None) = Ok qs -> qs = qs').
Proof. intros Hq Hp Hd Px Cx Hst Hc Ht Hl Gr. exact (block_agree qr Hq x st ns hs m d n eps Hp Hd Px Cx Hst Hc Ht Hl (mpsd_gram _ _ Gr)). Qed.
Print Assumptions C72_agree.
(** Embedding keeps the elements positive. *)
Theorem C72_embed_positive (x z : ltens CS) ns hs ld s : povm_ok x ns hs -> s + llen x <= length ld -> PfPovmEmbed.embedded x z ld s -> psd_elems x -> psd_elems z.
Proof.
  intros Hp. apply embedded_psd. destruct (povm_dims _ _ _ Hp) as (_ & D2 & D3). rewrite D2, D3. symmetry. apply Hp.
Qed.
Print Assumptions C72_embed_positive.
(** Partial traces of positive matrices are positive, of normalised ones normalised. *)
Theorem C72_traced ds s e rho : s <= e -> mpsd ds rho -> unit_trace ds rho ->
  mpsd (firstn (e - s) (skipn s ds)) (traced ds s e rho) /\ unit_trace (firstn (e - s) (skipn s ds)) (traced ds s e rho).
Proof. intros H P U. split; [apply gram_mpsd, traced_gram; [exact H|apply mpsd_gram; exact P]|apply traced_trace; assumption]. Qed.
Print Assumptions C72_traced.
(** The mode 'auto' of the other methods is refused, as are unknown modes. *)
Theorem C72_modes qr (x st : ltens CS) eps redarg :
  block_pmfs_as_array qr x st EAuto eps redarg = Err ValueError /\ block_pmfs_as_array qr x st EOther eps redarg = Err ValueError.
Proof. unfold block_pmfs_as_array. destruct redarg as [[[w|] [s|]] [e|]]; split; reflexivity. Qed.
Print Assumptions C72_modes.
(** A POVM that is longer than the chain gives no array and no error. *)
Theorem C72_too_long qr (x st : ltens CS) m ds eps : mpa_pos st -> legs_of m ds (mshape st) -> llen st < llen x ->
  block_pmfs_as_array qr x st (back_mode m) eps (None, None, None) = Ok [].
Proof. exact (block_pmfs_long qr x st m ds eps). Qed.
Print Assumptions C72_too_long.

(** The hypotheses are met: X and Z measured on two neighbours of three qubits in [|000>]. *)
Definition blk_zero : nd CS := mkNd (K:=CS) [2] [(1, 0)%R; (0, 0)%R].
Example C72_ex : exists x st, povm_ok x [2; 2] [2; 2] /\ psd_elems x /\ sums_to_id x /\ mpa_pos st /\ cform_wk st /\ canon_true st /\ legs_of MMps (repeat 2 3) (mshape st) /\
  mpsd (repeat 2 3) (dm_of MMps st) /\ unit_trace (repeat 2 3) (dm_of MMps st) /\ fits [2; 2] (repeat 2 3) /\ llen x <= llen st /\ length (repeat 2 3) = llen st.
Proof.
  destruct (cx_complete 2 ltac:(lia)) as (px & Ex & Cx). destruct (cz_complete 2 ltac:(lia)) as (pz & Ez & Cz).
  assert (Wx : ndwf (elements px)) by (destruct (x_povm_ok c_rsq 2 ltac:(lia)) as (p & E & _ & W & _); unfold cx_povm in Ex; congruence).
  assert (Wz : ndwf (elements pz)) by (destruct (z_povm_ok (K:=CS) 2 ltac:(lia)) as (p & E & _ & W & _); unfold cz_povm in Ez; congruence).
  destruct (kron_local [px; pz] [2; 2] [2; 2]) as (x & _ & Px & A & B & _); [discriminate|reflexivity| |].
  { cbn [combine]. apply Forall2_cons; [split; [exact Wx|]; split; [exact Cx|cbn; lia]|]. apply Forall2_cons; [split; [exact Wz|]; split; [exact Cz|cbn; lia]|constructor]. }
  destruct (from_kron_spec (K:=CS) [blk_zero; blk_zero; blk_zero]) as (st & _ & Hst & Sst & Rst & Fst & Ast); [discriminate|repeat constructor|].
  exists x, st. split; [exact Px|]. split; [exact A|]. split; [exact B|].
  assert (Lst : llen st = 3) by (rewrite <- mshape_length, Sst; reflexivity).
  destruct (povm_dims _ _ _ Px) as (_ & _ & Lx).
  split; [apply mpa_pos_parts; [exact Hst|eapply Forall_impl; [|exact Rst]; cbn; lia|rewrite Sst; repeat constructor]|].
  destruct (PfStates2.full_canon st Hst) as [W T]; [rewrite Fst, Lst; reflexivity|]. split; [exact W|]. split; [exact T|].
  split; [rewrite Sst; reflexivity|]. split; [apply gram_mpsd, gram_pure|]. split; [|split; [|rewrite Lst, Lx; cbn; lia]].
  - assert (V : forall i j k, i < 2 -> j < 2 -> k < 2 -> entry st [[i]; [j]; [k]] = (get blk_zero [i] * (get blk_zero [j] * (get blk_zero [k] * k1)))%K).
    { intros i j k Hi Hj Hk. assert (Q : Forall2 inr [[i]; [j]; [k]] (map shp [blk_zero; blk_zero; blk_zero])) by (cbn [map shp blk_zero]; repeat (apply Forall2_cons; [apply Forall2_cons; [assumption|apply Forall2_nil]|]); apply Forall2_nil). rewrite entry_amp by (auto; unfold valid_idx; rewrite Sst; exact Q). rewrite Ast by exact Q. reflexivity. }
    assert (Z0 : get blk_zero [0] = (1, 0)%R) by (unfold get; cbn [ravel shp blk_zero]; rewrite size_nil; reflexivity). assert (Z1 : get blk_zero [1] = (0, 0)%R) by (unfold get; cbn [ravel shp blk_zero]; rewrite size_nil; reflexivity).
    unfold unit_trace, dm_of, singles. cbn [repeat msum bigsum map]. rewrite !V by lia. rewrite !Z0, !Z1. apply cplx_eq; cbn; lra.
  - intros s Hs. cbn [repeat length] in *. destruct s as [|[|s]]; [reflexivity|reflexivity|lia].
Qed.
