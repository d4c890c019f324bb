(** Bounds on the ranks of canonical chains; the spectra returned by singularvals. *)
From Verif Require Export PfHistory.

Lemma Forall2_nth_le (l m : list nat) d : length l = length m -> (forall k, k < length l -> nth k l d <= nth k m d) -> Forall2 le l m.
Proof.
  revert m. induction l as [|a l IH]; intros [|b m] L H; try discriminate; constructor.
  - exact (H 0 ltac:(cbn; lia)).
  - apply IH; [cbn in L; lia|]. intros k Hk. exact (H (S k) ltac:(cbn; lia)).
Qed.
Lemma Forall2_nth_inv (A B : Type) (P : A -> B -> Prop) l m : Forall2 P l m -> forall k d e, k < length l -> P (nth k l d) (nth k m e).
Proof. induction 1 as [|a b l m H HF IH]; intros k d e Hk; [cbn in Hk; lia|]. destruct k; [exact H|]. apply IH. cbn in Hk; lia. Qed.

Section Bounds.
Context {K : StarRing}.
Add Ring Kr : (k_ring K).

Lemma tall_bound (ts : list (nd K)) : forall l r k, bonds ts l r -> k < length ts ->
  (forall j, j <= k -> tall (nth j ts dummy)) -> rdim (nth k ts dummy) <= l * size (concat (firstn (S k) (map pdims ts))).
Proof.
  induction ts as [|t ts IH]; intros l r k B Hk HT; [cbn in Hk; lia|]. destruct B as [Ht [El B]].
  pose proof (HT 0 ltac:(lia)) as T0. cbn [nth] in T0. unfold tall in T0.
  destruct k as [|k].
  - cbn [nth firstn map concat]. rewrite app_nil_r. rewrite <- El. exact T0.
  - cbn [nth]. cbn in Hk. specialize (IH (rdim t) r k B ltac:(lia) (fun j Hj => HT (S j) ltac:(lia))).
    change (firstn (S (S k)) (map pdims (t :: ts))) with (pdims t :: firstn (S k) (map pdims ts)). cbn [concat]. rewrite size_app.
    rewrite <- El. nia.
Qed.
Lemma wide_bound (ts : list (nd K)) : forall l r, bonds ts l r ->
  (forall j, j < length ts -> wide (nth j ts dummy)) -> l <= size (concat (map pdims ts)) * r.
Proof.
  induction ts as [|t ts IH]; intros l r B HT; [cbn in *; subst; rewrite size_nil; lia|]. destruct B as [Ht [El B]].
  pose proof (HT 0 ltac:(cbn; lia)) as T0. cbn [nth] in T0. unfold wide in T0.
  specialize (IH (rdim t) r B (fun j Hj => HT (S j) ltac:(cbn; lia))). cbn [map concat]. rewrite size_app. nia.
Qed.

(** Bond [k] of a chain that is canonical beyond it is not larger than the
    product of the dimensions on that side. *)
Theorem canon_dims_ranks (x : ltens K) k : mpa_ok x -> canon_dims x -> S k < llen x ->
  ((Z.of_nat k < lcan x)%Z -> nth k (ranks x) 0 <= size (concat (firstn (S k) (mshape x)))) /\
  ((rcan x <= Z.of_nat (S k))%Z -> nth k (ranks x) 0 <= size (concat (skipn (S k) (mshape x)))).
Proof.
  intros [Hne HB] [HT HW] Hk. unfold llen in *.
  assert (ER : nth k (ranks x) 0 = ldim (nth (S k) (lts x) dummy)).
  { unfold ranks. rewrite (map_nth_lt _ _ ldim (tl (lts x)) k dummy 0) by (destruct (lts x); cbn in *; lia). destruct (lts x); [cbn in Hk; lia|reflexivity]. }
  assert (ER2 : ldim (nth (S k) (lts x) dummy) = rdim (nth k (lts x) dummy)).
  { clear - HB Hk. revert HB k Hk. generalize 1 at 1. induction (lts x) as [|t ts IH]; intros l B k Hk; [cbn in Hk; lia|].
    destruct B as [Ht [El B]]. destruct k as [|k]; [destruct ts as [|u us]; [cbn in Hk; lia|]; apply B|]. exact (IH _ B k ltac:(cbn in Hk; lia)). }
  split; intros H.
  - rewrite ER, ER2. assert (G := tall_bound (lts x) 1 1 k HB ltac:(lia) (fun j Hj => HT j ltac:(lia) ltac:(lia))). unfold mshape. lia.
  - rewrite ER. assert (ES : lts x = firstn (S k) (lts x) ++ skipn (S k) (lts x)) by (symmetry; apply firstn_skipn).
    pose proof HB as HB'. rewrite ES in HB'. apply bonds_app in HB'. destruct HB' as [m [_ B2]].
    assert (Em : m = ldim (nth (S k) (lts x) dummy)).
    { rewrite (skipn_cons_nth _ (lts x) (S k) dummy) in B2 by lia. destruct B2 as [_ [E _]]. congruence. }
    assert (G : m <= size (concat (map pdims (skipn (S k) (lts x)))) * 1).
    { apply (wide_bound _ m 1 B2). intros j Hj. rewrite skipn_length in Hj. rewrite nth_skipn. apply HW; lia. }
    unfold mshape. rewrite <- Em. rewrite skipn_map. lia.
Qed.

Lemma k_add_sub (a b : K) : (a + b - a = b)%K.
Proof. ring. Qed.

(** ** group_sites *)
Lemma bonds_pos_ends (g : list (nd K)) : forall l r, g <> [] -> bonds g l r -> pos g ->
  0 < l /\ 0 < r /\ 0 < size (concat (map pdims g)).
Proof.
  induction g as [|t g IH]; intros l r Hne B HP; [congruence|]. destruct B as [Ht [El B]]. inversion HP as [|? ? H1 H2]; subst.
  rewrite (shp_lt t (proj2 Ht)), size_cons, size_app, size_single in H1. cbn [map concat]. rewrite size_app.
  destruct g as [|u us].
  - cbn in B. subst r. cbn [map concat]. rewrite size_nil. nia.
  - destruct (IH (rdim t) r ltac:(discriminate) B H2) as [A1 [A2 A3]]. split; [nia|]. split; [exact A2|].
    apply Nat.mul_pos_pos; [nia|exact A3].
Qed.
Lemma group_pos (gs : list (list (nd K))) : forall l r, Forall (fun g => g <> []) gs -> bonds (concat gs) l r -> pos (concat gs) ->
  pos (map ltens_to_array gs).
Proof.
  induction gs as [|g gs IH]; intros l r HF B HP; [constructor|]. inversion HF as [|? ? Hg HF']; subst.
  cbn [concat] in *. apply bonds_app in B. destruct B as [m [B1 B2]]. apply Forall_app in HP. destruct HP as [P1 P2].
  cbn [map]. constructor; [|exact (IH m r HF' B2 P2)].
  destruct (ltens_to_array_spec g l m Hg B1) as [H1 [H2 [H3 [H4 _]]]]. destruct (bonds_pos_ends g l m Hg B1 P1) as [A1 [A2 A3]].
  rewrite (shp_lt _ (proj2 H1)), size_cons, size_app, size_single, H2, H3, H4.
  apply Nat.mul_pos_pos; [exact A1|]. apply Nat.mul_pos_pos; [exact A3|exact A2].
Qed.
Lemma group_sites_pos (x z : ltens K) n : mpa_pos x -> 0 < n -> llen x mod n = 0 -> group_sites x n = Ok z -> pos (lts z).
Proof.
  intros [[Hne Hb] HP] Hn Hm E. unfold group_sites in E. destruct (Nat.eqb_spec n 0); [lia|]. rewrite Hm in E. cbn [Nat.eqb praise_unless] in E.
  destruct (Nat.eqb_spec n 1); [injection E as <-; exact HP|]. unfold mpa_new in E. apply lt_init_inv in E. destruct E as [E _]. rewrite E.
  assert (Len : llen x = (llen x / n) * n) by (pose proof (Nat.div_mod (llen x) n ltac:(lia)); lia).
  destruct (grouping_exists _ n Hn (llen x / n) (lts x) Len) as [ts [Et Ft]].
  replace (chunks (llen x) n (lts x)) with ts by (rewrite <- Et; symmetry; apply chunks_groups; [exact Hn|exact Ft|rewrite Et; apply Nat.le_refl]).
  rewrite <- Et in Hb, HP. apply (group_pos ts 1 1); [|exact Hb|exact HP].
  clear -Ft Hn. induction Ft as [|g ts Hg Ft IH]; constructor; auto. intros ->. cbn in Hg. lia.
Qed.

Section QR.
Variable qr : nd K -> res (nd K * nd K).
Hypothesis Hqr : qr_sound qr.

(** One full sweep in each direction brings every rank down to full_rank. *)
Theorem two_sweeps (x y z : ltens K) : mpa_pos x -> cform_wk x -> canon_dims x ->
  canonicalize qr x CAFull CANone = Ok y -> canonicalize qr y CANone CAFull = Ok z ->
  (rcan z <= 1)%Z /\ Forall2 le (ranks z) (full_rank (mshape x)) /\ to_array z = to_array x.
Proof.
  intros Hx Hw Hd E1 E2.
  destruct (Nat.eq_dec (llen x) 0) as [L0|L0]; [exfalso; destruct Hx as [[Hne _] _]; unfold llen in L0; destruct (lts x); [congruence|discriminate]|].
  set (n := Z.of_nat (llen x)).
  pose proof (canonicalize_spec qr Hqr 1 1 x CAFull CANone (pos_chain _ Hx) Hw ltac:(intros [? ?]; discriminate)) as HS.
  cbv zeta in HS. cbn [left_target right_target] in HS. fold n in HS.
  pose proof (outc_inv _ _ _ _ (HS ltac:(lia) ltac:(lia) ltac:(lia)) E1) as [S1 [W1 [_ [F1 F2]]]]. clear HS.
  destruct (sim_dense x y (proj1 Hx) S1) as [Py [My [Ry [Ty [_ Dy]]]]]. specialize (Dy Hd).
  assert (Ly : llen y = llen x) by (rewrite <- (mshape_length y), <- (mshape_length x), My; reflexivity).
  destruct Hw as [Hw1 Hw2]. fold n in Hw1, Hw2.
  replace (n <? rcan x)%Z with false in F1, F2 by (symmetry; apply Z.ltb_ge; lia).
  pose proof (canonicalize_spec qr Hqr 1 1 y CANone CAFull (pos_chain _ Py) W1 ltac:(intros [? ?]; discriminate)) as HS.
  cbv zeta in HS. cbn [left_target right_target] in HS. rewrite Ly in HS. fold n in HS.
  pose proof (outc_inv _ _ _ _ (HS ltac:(lia) ltac:(lia) ltac:(lia)) E2) as [S2 [W2 [_ [G1 G2]]]]. clear HS.
  destruct (sim_dense y z (proj1 Py) S2) as [Pz [Mz [Rz [Tz [_ Dz]]]]]. specialize (Dz Dy).
  assert (Lz : llen z = llen x) by (rewrite <- (mshape_length z), <- (mshape_length x), Mz, My; reflexivity).
  assert (Rz1 : (rcan z <= 1)%Z).
  { rewrite G2. destruct (Z.ltb_spec 1 (rcan y)); [lia|]. destruct (Z.ltb_spec (lcan y) 0); [destruct W1; lia|lia]. }
  split; [exact Rz1|]. split; [|congruence].
  assert (Rl : length (ranks z) = llen x - 1) by (rewrite ranks_length, Lz; reflexivity).
  apply Forall2_nth_le with (d := 0).
  - rewrite Rl. destruct (le_lt_dec (llen x) 1) as [L1|L1].
    + rewrite <- (mshape_length x) in *. destruct (mshape x) as [|p [|q l]]; [reflexivity|reflexivity|cbn in L1; lia].
    + destruct (full_rank_spec (mshape x) 0) as [_ E]; [rewrite mshape_length; lia|]. rewrite E, mshape_length. reflexivity.
  - rewrite Rl. intros k Hk. destruct (full_rank_spec (mshape x) k) as [E _]; [rewrite mshape_length; lia|]. rewrite E.
    destruct (canon_dims_ranks y k (proj1 Py) Dy ltac:(lia)) as [B1 _].
    destruct (canon_dims_ranks z k (proj1 Pz) Dz ltac:(lia)) as [_ B2].
    specialize (B1 ltac:(rewrite F1; lia)). specialize (B2 ltac:(lia)). rewrite My in B1. rewrite Mz, My in B2.
    pose proof (Forall2_nth_inv _ _ _ _ _ Rz k 0 0 ltac:(lia)). lia.
Qed.

(** group_sites followed by split_sites: the same array on the original sites. *)
Theorem group_split (x y : ltens K) n gs : mpa_pos x -> 0 < n ->
  concat gs = mshape x -> Forall (fun g => length g = n /\ exists d, (0 < d \/ n = 1) /\ Forall (fun p => length p = d) g) gs ->
  group_sites x n = Ok y ->
  outc (qr_fails qr) (split_sites qr y n) (fun z => mpa_pos z /\ mshape z = mshape x /\ to_array z = to_array x /\
    canonical_form z = (0%Z, Z.of_nat (llen x))).
Proof.
  intros Hx Hn Eg HF E. assert (HF1 : Forall (fun g : list (list nat) => length g = n) gs) by (eapply Forall_impl; [|exact HF]; cbn; tauto).
  destruct (group_sites_spec x n gs (proj1 Hx) Hn Eg HF1) as [y' [E' [Hy [Sy Ty]]]]. rewrite E in E'. injection E' as <-.
  assert (Hm : llen x mod n = 0).
  { rewrite <- mshape_length, <- Eg. replace (length (concat gs)) with (length gs * n); [apply Nat.mod_mul; lia|].
    clear -HF1. induction HF1 as [|g gs Hg HF IH]; [reflexivity|]. cbn [concat length]. rewrite app_length, <- IH, Hg. lia. }
  pose proof (group_sites_pos x y n Hx Hn Hm E) as Py.
  eapply outc_weaken; [apply (split_sites_spec qr Hqr y n gs (pos_chain y (conj Hy Py)) Hn Sy HF)|auto|].
  intros z [H1 [H2 [H3 [H4 H5]]]]. split; [split; assumption|]. split; [congruence|]. split; [congruence|].
  rewrite H5. f_equal. rewrite <- (mshape_length z), <- (mshape_length x), H3, Eg. reflexivity.
Qed.

Section SVals.
Variable svd : nd K -> res (nd K * list K * nd K).
Hypothesis Hsvd : svd_sound svd.

(** Where the spectra come from: leading parts of what [svd] returned. *)
Definition from_svd (s : list K) : Prop := exists m u s' v k, svd m = Ok (u, s', v) /\ s = firstn k s'.

Lemma csvd_r_factor_from rk x site t u s v k : csvd_r_factor svd (truncated_svd svd) rk None x site = Ok (t, u, s, v, k) -> from_svd s.
Proof.
  unfold csvd_r_factor, svd_site. intros E.
  destruct (pyget (lts x) site) as [t'|]; cbn [bind] in E; [|discriminate].
  destruct (shape_last t') as [d|]; cbn [bind] in E; [|discriminate].
  destruct (reshape_py t' _) as [m|]; cbn [bind] in E; [|discriminate].
  unfold truncated_svd in E. destruct (svd m) as [[[u' s'] v']|] eqn:Es; cbn [bind] in E; [|discriminate].
  injection E as <- <- <- <- <-. exists m, u', s', v', (Nat.min rk (length s')). auto.
Qed.
Lemma csvd_r_loop_from rk sites : forall x z ys, csvd_loop (csvd_r_step svd (truncated_svd svd) rk None) sites x = Ok (z, ys) ->
  Forall from_svd (map fst ys).
Proof.
  induction sites as [|s sites IH]; intros x z ys E; cbn [csvd_loop] in E; [injection E as <- <-; constructor|].
  destruct (csvd_r_step svd (truncated_svd svd) rk None x s) as [[y [sv k]]|] eqn:Es; cbn [bind fst snd] in E; [|discriminate].
  destruct (csvd_loop _ sites y) as [[z' ys']|] eqn:El; cbn [bind fst snd] in E; [|discriminate]. injection E as <- <-.
  cbn [map fst]. constructor; [|exact (IH _ _ _ El)].
  unfold csvd_r_step in Es. destruct (csvd_r_factor svd (truncated_svd svd) rk None x s) as [[[[[t u] s'] v] k']|] eqn:Ef; cbn [bind] in Es; [|discriminate].
  pose proof (csvd_r_factor_from _ _ _ _ _ _ _ _ Ef) as HF.
  repeat match type of Es with bind ?r _ = _ => destruct r; cbn [bind] in Es; [|discriminate] end. injection Es as _ <- _. exact HF.
Qed.
Lemma singularvals_from (x z : ltens K) ss : singularvals qr svd x = Ok (ss, z) -> Forall from_svd ss.
Proof.
  unfold singularvals. destruct (Nat.eqb (llen x) 1); [intros E; injection E as <- _; constructor|]. intros E.
  destruct (canonicalize qr x CANone (CAInt 1)) as [x1|]; cbn [bind] in E; [|discriminate].
  destruct (max_rank x1) as [rk|]; cbn [bind] in E; [|discriminate].
  destruct (Nat.ltb 0 rk); cbn [passert] in E; [|discriminate].
  destruct (csvd_loop _ _ x1) as [[y ys]|] eqn:El; cbn [bind fst snd] in E; [|discriminate].
  destruct (csvd_r_factor _ _ _ _ y _) as [[[[[t u] s'] v] k']|] eqn:Ef; cbn [bind] in E; [|discriminate].
  injection E as <- _. apply Forall_app. split; [exact (csvd_r_loop_from _ _ _ _ _ El)|]. constructor; [|constructor].
  exact (csvd_r_factor_from _ _ _ _ _ _ _ _ Ef).
Qed.

(** Singular value decomposition of the dense array across the cut before site [j]:
    orthonormal families [U], [V] and real values [s]. *)
Definition cut_svd (x : ltens K) (j : nat) (s : list K) : Prop :=
  exists (U : list (list nat) -> nat -> K) (V : nat -> list (list nat) -> K),
    (forall is1 is2, valid_idx is1 (firstn j (mshape x)) -> valid_idx is2 (skipn j (mshape x)) ->
       entry x (is1 ++ is2) = bigsum (length s) (fun c => U is1 c * nth c s k0 * V c is2)%K) /\
    (forall c e, c < length s -> e < length s -> msums (firstn j (mshape x)) (fun is => kconj (U is c) * U is e)%K = delta c e) /\
    (forall c e, c < length s -> e < length s -> msums (skipn j (mshape x)) (fun is => V c is * kconj (V e is))%K = delta c e) /\
    (forall c, c < length s -> kconj (nth c s k0) = nth c s k0).

Lemma schmidt_dense (x : ltens K) j s : mpa_ok x -> schmidt 1 1 (lts x) j s -> cut_svd x j s.
Proof.
  intros Hx [U [V [H1 [H2 [H3 H4]]]]]. exists (fun is c => U is 0 c), (fun c is => V c is 0).
  unfold mshape. rewrite <- ?firstn_map, <- ?skipn_map in *. split; [|split; [|split; [|exact H4]]].
  - intros is1 is2 V1 V2. rewrite entry_amp; [|exact Hx|].
    + apply H1; auto.
    + unfold mshape. rewrite <- (firstn_skipn j (map pdims (lts x))). apply Forall2_app; assumption.
  - intros c e Hc He. rewrite <- (H2 c e Hc He), bigsum_1. rewrite ?firstn_map. reflexivity.
  - intros c e Hc He. rewrite <- (H3 c e Hc He), bigsum_1. rewrite ?skipn_map. reflexivity.
Qed.
(** The squares of the values sum to the squared norm. *)
Lemma cut_svd_norm (x : ltens K) j s : mpa_ok x -> schmidt 1 1 (lts x) j s -> norm2_of x = bigsum (length s) (fun c => nth c s k0 * nth c s k0)%K.
Proof. intros Hx H. unfold norm2_of. rewrite <- (ovl_inner x x Hx Hx eq_refl). apply (schmidt_norm 1 1 (lts x) j s H). Qed.

Variable svdfunc : nd K -> nat -> res (nd K * list K * nd K).
Hypothesis Hts : tsvd_sound svdfunc.

Theorem compress_dense (x : ltens K) rank relerr dir canon : mpa_pos x -> cform_wk x -> (llen x = 1 -> cform_ok x /\ canon_true x) ->
  rank_pos rank -> relerr_ok relerr -> dir <> DOther ->
  outc (FQS svd svdfunc qr) (compress_svd qr svd svdfunc x rank relerr dir canon) (fun '(z, ov) =>
    mpa_pos z /\ mshape z = mshape x /\ Forall2 le (ranks z) (ranks x) /\ ranks_le rank z /\ cform_ok z /\ canon_true z /\
    ov = norm2_of z /\ inner_of x z = norm2_of z /\ (exists a, minner x z = Ok a /\ get a [] = ov) /\
    dist2_of x z = (norm2_of x - norm2_of z)%K /\
    (relerr_exact relerr -> ranks_le rank x -> to_array z = to_array x)).
Proof.
  intros Hx Hw H1 Hr Hre Hd.
  eapply outc_weaken; [apply (compress_svd_spec svd svdfunc Hsvd Hts qr Hqr 1 1 x rank relerr dir canon (pos_chain _ Hx) Hw H1 Hr Hre Hd)|auto|].
  intros [z ov] [C1 [C2 [C3 [C4 [C5 [C6 [C7 [C8 C9]]]]]]]]. pose proof (chain_pos z C1) as Hz.
  rewrite (ovl_inner z z (proj1 Hz) (proj1 Hz) eq_refl) in C7, C8. rewrite (ovl_inner x z (proj1 Hx) (proj1 Hz) C2) in C8.
  repeat (split; [assumption|]). split.
  - destruct (minner_spec x z (proj1 Hx) (proj1 Hz) (mpa_pos_bonds x Hx) (mpa_pos_bonds z Hz) (eq_sym C2)) as [a [Ea [_ [_ Va]]]].
    exists a. split; [exact Ea|]. rewrite Va, C7, <- C8. unfold inner_of. apply msums_ext. intros is Hi.
    rewrite (entry_amp x is (proj1 Hx) Hi), (entry_amp z is (proj1 Hz)) by (rewrite C2; exact Hi). reflexivity.
  - split; [apply pythagoras; assumption|]. intros R1 R2. apply same_amps_dense; [apply Hx|apply Hz|exact C2|exact (C9 R1 R2)].
Qed.

(** compression(): the copy of the argument is compressed. *)
Lemma mpa_copy_id (x : ltens K) : mpa_ok x -> cform_ok x -> mpa_copy x = Ok x.
Proof.
  intros [Hne HB] [H1 H2]. unfold mpa_copy, lt_copy, lt_init. cbn [fst snd].
  replace (rcan x =? 0)%Z with false by (symmetry; apply Z.eqb_neq; unfold llen in *; lia).
  unfold llen in *. replace (0 <? Z.of_nat (length (lts x)))%Z with true by (symmetry; apply Z.ltb_lt; lia). cbn [passert].
  replace ((0 <=? lcan x)%Z && (lcan x <? Z.of_nat (length (lts x)))%Z)%bool with true by (symmetry; apply andb_true_iff; rewrite Z.leb_le, Z.ltb_lt; lia). cbn [passert].
  replace ((0 <? rcan x)%Z && (rcan x <=? Z.of_nat (length (lts x)))%Z)%bool with true by (symmetry; apply andb_true_iff; rewrite Z.leb_le, Z.ltb_lt; lia). cbn [passert].
  rewrite (check_bonds_ok _ _ _ HB). cbn [bind]. destruct x; reflexivity.
Qed.
End SVals.
End QR.
End Bounds.
