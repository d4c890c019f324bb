(** [_adapt_to] and [compress(method='var')]: environments of the current tensors,
    sweeps of projections, and the returned overlap. *)
From Verif Require Export PfVar3 PfInner.
From Verif Require Import PfCanon PfBounds PfUpdate PfFromArray PfCompress PropAux PfHistory.
Open Scope nat_scope.

(** ** Specification *)
Section Spec.
Context {K : StarRing}.
Variable qr : nd K -> res (nd K * nd K).
Variable svd : nd K -> res (nd K * list K * nd K).
(** The sweeps with environments computed from the current tensors. *)
Definition fresh_adapt (w : ltens K) (v num : nat) (x : ltens K) : res (K * ltens K) :=
  do z <- ref_prepare qr (nd K) (llen w) v (a_radd w) (np_ones 2) x;
  do mr <- max_rank z;
  do s <- ref_sweeps qr (nd K) unit (llen w) v (a_ladd w) (a_radd w) (a_solve qr svd w v mr) (np_ones 2) num (z, None);
  norm_sq qr (fst s).
(** The sweeps with projections of the dense target [T]. *)
Definition dense_adapt (ds : list nat) (T : list nat -> K) (v num : nat) (x : ltens K) : res (K * ltens K) :=
  do z <- canonicalize qr x CANone (CAInt 1);
  do mr <- max_rank z;
  do s <- g_sweeps qr unit (length ds) v (proj_locl qr svd ds T v mr) num (z, None);
  norm_sq qr (fst s).
End Spec.

Section Adapt.
Context {K : StarRing}.
Add Ring Kr : (k_ring K).
Variable qr : nd K -> res (nd K * nd K).
Variable svd : nd K -> res (nd K * list K * nd K).

Lemma ndims_one (x : ltens K) ds l r : bonds (lts x) l r -> mps_like (lts x) ds -> forallb (fun d => (d =? 1)%Z) (ndims x) = true.
Proof.
  intros B M. pose proof (bonds_ok _ _ _ B) as O. unfold ndims, mps_like in *. clear B l r. revert ds M.
  induction O as [|t ts Ht O IH]; intros ds M; [reflexivity|]. destruct ds as [|d ds]; [discriminate|].
  cbn [map singles] in *. injection M as M1 M2. cbn [forallb]. rewrite (IH ds M2), andb_true_r. apply Z.eqb_eq.
  unfold ndim. rewrite (lt_ok_shp _ Ht). cbn [length]. rewrite app_length, M1. cbn. lia.
Qed.

(** Every local update uses the environments of the current tensors. *)
Theorem adapt_fresh (x w : ltens K) num v : 1 <= v <= llen w -> llen x = llen w -> (0 <= lcan x)%Z -> (rcan x <= Z.of_nat (llen w))%Z ->
  adapt_to qr svd x w num v =
  passert (forallb (fun d => (d =? 1)%Z) (ndims x)) (
  passert (forallb (fun d => (d =? 1)%Z) (ndims w)) (fresh_adapt qr svd w v num x)).
Proof.
  intros Hv Lx H0 Hn. unfold adapt_to. destruct (forallb _ (ndims x)); [|reflexivity]. destruct (forallb _ (ndims w)); [|reflexivity]. cbn [passert].
  pose proof (prepare_fresh qr (nd K) unit (llen w) v (a_ladd w) (a_radd w) (np_ones 2) ltac:(lia) ltac:(lia) x Lx H0 Hn) as P.
  unfold fresh_adapt. fold (a_radd w). fold (a_ladd w).
  destruct (sweep_prepare qr (nd K) unit (llen w) v (a_radd w) (np_ones 2) x) as [s|e]; cbn [bind].
  - destruct P as (-> & P2 & P3). cbn [bind]. destruct (max_rank (st_x s)) as [mr|e]; [|reflexivity]. cbn [bind].
    replace (Nat.leb v (llen w)) with true by (symmetry; apply Nat.leb_le; lia).
    pose proof (sweeps_fresh qr (nd K) unit (llen w) v (a_ladd w) (a_radd w) (a_solve qr svd w v mr) (np_ones 2) ltac:(lia) ltac:(lia) num s P3) as S.
    unfold rel, view in S. rewrite P2 in S. unfold a_solve in *.
    destruct (sweeps qr (nd K) unit (llen w) v _ _ _ num s) as [s'|e]; cbn [bind].
    + destruct S as [-> _]. cbn [bind fst]. reflexivity.
    + rewrite S. reflexivity.
  - rewrite P. reflexivity.
Qed.

Hypothesis Hqr : qr_sound qr.
Hypothesis Hsvd : svd_sound svd.
Notation F := (FQS svd (truncated_svd svd) qr).

Theorem adapt_dense ds (x w : ltens K) num v : 1 <= v <= length ds -> 2 <= length ds ->
  chain_ok (lts w) 1 1 -> mps_like (lts w) ds -> mps_inv ds x ->
  adapt_to qr svd x w num v = dense_adapt qr svd ds (state w) v num x.
Proof.
  intros Hv H2 Cw Mw Hx. pose proof (mps_inv_len _ _ Hx) as Lx. pose proof Hx as (C & Mx & Wk).
  assert (Lw : llen w = length ds) by (unfold llen; apply mps_like_length in Mw; exact Mw).
  assert (Ew : forallb (fun d => (d =? 1)%Z) (ndims w) = true) by (eapply ndims_one; [apply Cw|exact Mw]).
  assert (Ex : forallb (fun d => (d =? 1)%Z) (ndims x) = true) by (eapply ndims_one; [apply C|exact Mx]).
  unfold cform_wk, llen in Wk.
  rewrite adapt_fresh; [|lia|unfold llen in *; lia|lia|unfold llen in *; lia]. rewrite Ew, Ex. cbn [passert].
  unfold fresh_adapt, dense_adapt, ref_prepare. rewrite Lw.
  destruct (canonicalize qr x CANone (CAInt 1)) as [z|e] eqn:Ez; [|reflexivity]. cbn [bind].
  assert (Iz : mps_inv ds z) by (apply (inv_canon_right qr Hqr ds x 1 z Hx); [lia|exact Ez]).
  destruct (window_ex ds z 0 v Iz) as (Z1 & Z2 & Z3 & z1 & z2 & z3 & zl & zr & Wz); [lia|lia|].
  destruct (adapt_window qr svd _ _ _ _ _ _ _ _ _ _ _ _ Wz ltac:(lia) w Cw Mw) as (l & r & _ & -> & _). cbn [bind].
  pose proof Iz as (Cz & _). destruct (max_rank_spec z 1 1 Cz) as (mr & -> & Hmr & _); [unfold llen; rewrite (mps_inv_len _ _ Iz); exact H2|]. cbn [bind].
  assert (E : ref_sweeps qr (nd K) unit (length ds) v (a_ladd w) (a_radd w) (a_solve qr svd w v mr) (np_ones 2) num (z, None) =
              g_sweeps qr unit (length ds) v (proj_locl qr svd ds (state w) v mr) num (z, None)); [|rewrite E; reflexivity].
  apply (g_sweeps_ext qr unit (length ds) v (mps_inv ds)); [ | | | |exact Iz].
  - intros y pos Hy Hp. apply adapt_fresh_locl; auto; lia.
  - intros y pos p y' Hy Hp Ep Eu. destruct (window_ex ds y pos v Hy) as (X1 & X2 & X3 & d1 & d2 & d3 & la & ra & W); [lia|lia|].
    rewrite (proj_window qr svd _ _ _ _ _ _ _ _ _ _ _ _ W) in Ep. apply bind_inv in Ep. destruct Ep as (us & Eus & Ep). injection Ep as <-. cbn [snd] in Eu.
    pose proof (proj_t_shape _ _ _ _ _ _ _ _ _ _ _ _ (state w) W) as (S1 & S2 & S3).
    pose proof (split_spec qr Hqr svd Hsvd _ la d2 ra v mr S1 S2 S3 (w_e2 _ _ _ _ _ _ _ _ _ _ _ _ W) ltac:(lia) Hmr) as O.
    apply (outc_inv _ _ _ us O) in Eus. destruct Eus as (Cu & Mu & _). eapply window_update; eauto.
  - intros y pos y' Hy Hp Ec. apply (inv_canon_left qr Hqr ds y pos y' Hy); [lia|exact Ec].
  - intros y pos y' Hy Hp Ec. apply (inv_canon_right qr Hqr ds y (pos + v) y' Hy); [lia|exact Ec].
Qed.

(** The result of [_adapt_to]. *)
Theorem adapt_spec ds (x w : ltens K) num v : 1 <= v <= length ds -> 2 <= length ds ->
  chain_ok (lts w) 1 1 -> mps_like (lts w) ds -> mps_inv ds x -> cform_ok x -> canon_true x ->
  outc F (adapt_to qr svd x w num v) (fun p => let z := snd p in
    mps_inv ds z /\ cform_ok z /\ canon_true z /\ (forall mr, Forall (fun k => k <= mr) (ranks x) -> Forall (fun k => k <= mr) (ranks z)) /\
    fst p = ip ds (state z) (state z) /\ (0 < num -> fst p = ip ds (state w) (state z))).
Proof.
  intros Hv H2 Cw Mw Hx Fx Tx. rewrite (adapt_dense ds) by assumption. unfold dense_adapt.
  pose proof Hx as (Cx & _). destruct (max_rank_spec x 1 1 Cx) as (m0 & _ & _ & R0 & I0); [unfold llen; rewrite (mps_inv_len _ _ Hx); exact H2|].
  eapply outc_bind; [apply (ad_canon_start qr svd Hqr ds v m0 x); auto; lia|]. cbn beta.
  intros z (Az & _ & Rz). pose proof Az as (Iz & Fz & Tz & Lz & rz & _). pose proof Iz as (Cz & _).
  destruct (max_rank_spec z 1 1 Cz) as (mr & -> & Hmr & Rm & Im); [unfold llen; rewrite (mps_inv_len _ _ Iz); exact H2|]. cbn [bind].
  eapply outc_bind; [apply (sweeps_pos qr unit (length ds) v F (ad_ok ds v mr) (ad_Q ds (state w)))|].
  - intros s pos Hs Hp. apply (proj_step qr svd Hqr Hsvd ds (state w) v mr s pos); auto; lia.
  - intros y pos Hy Hp. apply (ad_canon_left qr svd Hqr ds v mr y pos); auto; lia.
  - intros y pos Hy Hp. apply (ad_canon_right qr svd Hqr ds v mr y pos); auto; lia.
  - cbn [fst]. repeat (split; [assumption|]). exact Rm.
  - cbn beta. intros s (As & Qs). destruct As as (Is & Fs & Ts & _ & _ & Rs). pose proof Is as (Cs & Ms & Ws).
    eapply outc_weaken; [apply (norm_spec qr Hqr 1 1 (fst s) Cs Fs Ts)|intros HF; left; exact HF|]. cbn beta. cbn zeta.
    intros p (P1 & (S1 & S2 & S3 & S4 & S5 & _) & P3 & _).
    assert (Mz : mps_like (lts (snd p)) ds) by (unfold mps_like, mshape in *; congruence).
    assert (St : forall is, inr is ds -> state (snd p) is = state (fst s) is).
    { intros is Hi. unfold state. apply S4; auto. rewrite <- S2. unfold mshape. rewrite Mz. apply singles_valid. exact Hi. }
    assert (Ip : ip ds (state (snd p)) (state (snd p)) = ip ds (state (fst s)) (state (fst s))).
    { unfold ip. apply msum_ext. intros is Hi. rewrite !St by assumption. reflexivity. }
    assert (Iw : ip ds (state w) (state (snd p)) = ip ds (state w) (state (fst s))).
    { unfold ip. apply msum_ext. intros is Hi. rewrite !St by assumption. reflexivity. }
    split; [split; [exact S1|split; [exact Mz|apply cform_ok_wk; exact P3]]|]. split; [exact P3|]. split; [auto|].
    rewrite P1, (ovl_ip _ _ ds Ms), Ip, Iw. split; [|split; [reflexivity|]].
    + intros m Hm. eapply Forall2_le_Forall; [exact S3|]. eapply Forall_impl; [|exact Rs]. cbn beta. intros k Hk.
      assert (mr <= m); [|lia]. pose proof (Forall2_le_Forall m _ _ Rz Hm) as R. rewrite Forall_forall in R. apply R. exact Im.
    + intros Hn. specialize (Qs Hn). unfold ad_Q in Qs. rewrite <- (ip_conj ds (state (fst s)) (state w)), Qs, ip_conj. reflexivity.
Qed.

(** ** [compress(method='var')] *)
Lemma mpa_pos_parts (x : ltens K) : mpa_ok x -> Forall (fun k => 0 < k) (ranks x) -> Forall (fun p => 0 < size p) (mshape x) -> mpa_pos x.
Proof.
  intros Hx R P. split; [exact Hx|]. destruct Hx as [_ B]. pose proof (bonds_pos_ranks _ 1 1 B ltac:(lia) ltac:(lia) R) as H.
  pose proof (bonds_ok _ _ _ B) as O. unfold mshape in P. rewrite Forall_map in P. rewrite Forall_forall in *. intros t Ht.
  specialize (H t Ht). specialize (O t Ht). specialize (P t Ht). rewrite (lt_ok_shp _ O), size_cons, size_app, size_single. nia.
Qed.
Lemma mpa_pos_sizes (x : ltens K) : mpa_pos x -> Forall (fun k => 0 < k) (ranks x) /\ Forall (fun p => 0 < size p) (mshape x).
Proof.
  intros H. split; [apply (chain_ranks_pos x 1 1); apply pos_chain; exact H|]. destruct H as [[_ B] P]. unfold mshape. rewrite Forall_map.
  pose proof (bonds_ok _ _ _ B) as O. rewrite Forall_forall in *. intros t Ht. specialize (O t Ht). specialize (P t Ht).
  rewrite (lt_ok_shp _ O), size_cons, size_app, size_single in P. nia.
Qed.

(** The flattened state. *)
Definition rav (ps : list (list nat)) (is : list (list nat)) : list nat := zip2 ravel ps is.
Lemma rav_inr ps is : Forall2 inr is ps -> inr (rav ps is) (map size ps).
Proof. induction 1 as [|i p is ps H F IH]; cbn [rav zip2 map]; constructor; auto. apply ravel_lt. exact H. Qed.
Lemma rav_singles ps is : zip2 (fun p i => [ravel p i]) ps is = singles (rav ps is).
Proof. revert is. induction ps as [|p ps IH]; intros [|i is]; try reflexivity. cbn [rav zip2 singles map]. f_equal. apply IH. Qed.

Lemma msums_rav ps (f : list nat -> K) : msum (map size ps) f = msums ps (fun is => f (rav ps is)).
Proof.
  revert f. induction ps as [|p ps IH]; intros f; [reflexivity|]. cbn [map msum msums]. rewrite msum_flat. apply bigsum_ext. intros a Ha.
  rewrite IH. apply msums_ext. intros is _. cbn [rav zip2]. rewrite ravel_unravel by exact Ha. reflexivity.
Qed.

Lemma flatten_spec (x : ltens K) : mpa_pos x -> cform_ok x ->
  exists z, mravel x = Ok z /\ mps_inv (map size (mshape x)) z /\ cform_ok z /\ ranks z = ranks x /\ (canon_true x -> canon_true z) /\
    (forall is, Forall2 inr is (mshape x) -> state z (rav (mshape x) is) = entry x is).
Proof.
  intros Hx Fx. destruct (mpa_pos_sizes x Hx) as [Rx Sx].
  destruct (mravel_spec x (proj1 Hx) Fx (mpa_pos_bonds x Hx)) as (z & E & Oz & Sz & Rz & Cz & Tz & Az & _).
  assert (Fz : cform_ok z).
  { unfold cform_ok, canonical_form in *. injection Cz as -> ->. unfold llen in *. 
    assert (L : length (mshape z) = length (mshape x)) by (rewrite Sz, map_length; reflexivity). unfold mshape in L. rewrite !map_length in L. rewrite L. exact Fx. }
  assert (Pz : mpa_pos z).
  { apply mpa_pos_parts; [exact Oz|rewrite Rz; exact Rx|]. rewrite Sz, Forall_map. eapply Forall_impl; [|exact Sx]. cbn beta. intros p Hp. rewrite size_single. exact Hp. }
  exists z. split; [exact E|]. split; [|split; [exact Fz|split; [exact Rz|split; [exact Tz|]]]].
  - split; [apply pos_chain; exact Pz|]. split; [|apply cform_ok_wk; exact Fz]. unfold mps_like, singles. rewrite map_map. exact Sz.
  - intros is Hi. unfold state. rewrite <- rav_singles, Az by exact Hi. symmetry. apply entry_amp; [apply Hx|exact Hi].
Qed.
Lemma unflatten_spec (z : ltens K) ps : mps_inv (map size ps) z -> cform_ok z -> Forall (fun p => 0 < size p) ps -> ps <> [] ->
  exists c, mreshape z (RList (map zshape ps)) = Ok c /\ mpa_pos c /\ mshape c = ps /\ ranks c = ranks z /\ cform_ok c /\ (canon_true z -> canon_true c) /\
    (forall is, Forall2 inr is ps -> entry c is = state z (rav ps is)).
Proof.
  intros (Cz & Mz & _) Fz Sz Np. pose proof (chain_pos z Cz) as Pz.
  destruct (mreshape_spec z (RList (map zshape ps)) ps (proj1 Pz) Fz) as (c & E & Oc & Sc & Rc & Cc & Tc & Ac).
  - cbn. destruct ps; [congruence|discriminate].
  - cbn [reshape_shapes]. unfold mps_like, singles in Mz. rewrite map_map in Mz. clear -Mz. revert ps Mz.
    induction (lts z) as [|t ts IH]; intros [|p ps] Mz; try discriminate; [constructor|]. cbn [map] in *. injection Mz as M1 M2. constructor; [|apply IH; exact M2].
    split; [rewrite M1, size_single; reflexivity|]. split; [apply RT_all|left; reflexivity].
  - exists c. split; [exact E|].
    assert (Pc : mpa_pos c) by (apply mpa_pos_parts; [exact Oc|rewrite Rc; apply (chain_ranks_pos z 1 1 Cz)|rewrite Sc; exact Sz]).
    split; [exact Pc|]. split; [exact Sc|]. split; [exact Rc|]. split; [|split; [exact Tc|]].
    + unfold cform_ok, canonical_form in *. injection Cc as -> ->. unfold llen in *.
      assert (L : length (mshape c) = length (mshape z)) by (rewrite Sc; unfold mps_like in Mz; unfold mshape; rewrite Mz; unfold singles; rewrite !map_length; reflexivity).
      unfold mshape in L. rewrite !map_length in L. rewrite L. exact Fz.
    + intros is Hi. rewrite entry_amp by (auto; rewrite ?Sc; exact Hi). unfold state. apply Ac; [|exact Hi|].
      * unfold mshape. rewrite Mz. apply singles_valid. apply rav_inr. exact Hi.
      * unfold mshape. rewrite Mz. unfold rav. clear -Hi. induction Hi as [|i p is ps H F IH]; [reflexivity|]. cbn [singles zip2 map] in *. f_equal; [|exact IH].
        cbn. rewrite size_nil. lia.
Qed.
Lemma ip_inner ps (x y : ltens K) f g : mshape x = ps ->
  (forall is, Forall2 inr is ps -> f (rav ps is) = entry x is) -> (forall is, Forall2 inr is ps -> g (rav ps is) = entry y is) ->
  ip (map size ps) f g = inner_of x y.
Proof.
  intros <- Hf Hg. unfold ip, inner_of. rewrite msums_rav. apply msums_ext. intros is Hi. rewrite Hf, Hg by exact Hi. reflexivity.
Qed.

(** A start that fits: it has the shape of [x] and a true canonical form. *)
Definition cstart (x c : ltens K) : Prop := mpa_pos c /\ cform_ok c /\ canon_true c /\ mshape c = mshape x.
Definition cstart_ok (rc : nat -> res (ltens K)) (x : ltens K) (sv : option (ltens K)) (rank : option nat) (m : nat) : Prop :=
  match sv with
  | Some s => cstart x s /\ Forall (fun k => k <= m) (ranks s)
  | None => exists k, rank = Some k /\ k <= m /\ exists c, rc k = Ok c /\ cstart x c /\ Forall (fun j => j <= m) (ranks c)
  end.

Lemma combine_refl_eqb (l : list (list nat)) : forallb (fun p => list_eqb (fst p) (snd p)) (combine l l) = true.
Proof. induction l as [|a l IH]; [reflexivity|]. cbn [combine forallb fst snd]. rewrite list_eqb_refl. exact IH. Qed.

Lemma norm_copy (x : ltens K) : mpa_pos x -> cform_ok x -> canon_true x ->
  outc F (do c <- mpa_copy x; do p <- norm_sq qr c; Ok (snd p, fst p)) (fun p =>
    mpa_pos (fst p) /\ cform_ok (fst p) /\ canon_true (fst p) /\ mshape (fst p) = mshape x /\
    (forall m, Forall (fun k => k <= m) (ranks x) -> Forall (fun k => k <= m) (ranks (fst p))) /\
    snd p = norm2_of (fst p) /\ snd p = inner_of x (fst p)).
Proof.
  intros Hx Fx Tx. rewrite (mpa_copy_id x (proj1 Hx) Fx). cbn [bind].
  eapply outc_bind; [eapply outc_weaken; [apply (norm_spec qr Hqr 1 1 x (pos_chain _ Hx) Fx Tx)|intros HF; left; exact HF|intros p H; exact H]|].
  cbn beta. intros p (P1 & P2 & P3 & _). apply outc_ok. cbn [fst snd].
  assert (RR := P2). destruct RR as (_ & _ & RR & _).
  destruct (sim_dense x (snd p) (proj1 Hx) P2) as (S1 & S2 & _ & S4 & S5 & _).
  rewrite (ovl_inner x x (proj1 Hx) (proj1 Hx) eq_refl) in P1.
  assert (En : forall is, entry (snd p) is = entry x is) by (intros is; unfold entry; rewrite S4; reflexivity).
  split; [exact S1|]. split; [exact P3|]. split; [auto|]. split; [exact S2|]. split; [intros m Hm; eapply Forall2_le_Forall; eauto|].
  rewrite P1. unfold norm2_of, inner_of. rewrite S2. split; apply msums_ext; intros is _; rewrite ?En; reflexivity.
Qed.

Theorem compression_var_spec rc (x : ltens K) num sv rank v m : mpa_pos x -> cform_ok x -> canon_true x ->
  (2 <= llen x -> 1 <= v <= llen x /\ cstart_ok rc x sv rank m) ->
  outc F (compression_var qr svd rc x num sv rank v) (fun p => let c := fst p in
    mpa_pos c /\ cform_ok c /\ canon_true c /\ mshape c = mshape x /\ (2 <= llen x -> Forall (fun k => k <= m) (ranks c)) /\
    snd p = norm2_of c /\ (0 < num -> snd p = inner_of x c)).
Proof.
  intros Hx Fx Tx H. pose proof (pos_chain x Hx) as Cx. cbn zeta. unfold compression_var. destruct (Nat.eqb_spec (llen x) 1) as [E1|E1].
  - eapply outc_weaken; [apply norm_copy; auto|auto|]. cbn beta. intros p (P1 & P2 & P3 & P4 & P5 & P6 & P7).
    split; [exact P1|split; [exact P2|split; [exact P3|split; [exact P4|split; [lia|split; [exact P6|auto]]]]]].
  - assert (H2 : 2 <= llen x).
    { destruct Cx as [N _]. unfold llen in *. destruct (lts x) as [|a [|b l]]; cbn in *; [congruence|congruence|lia]. }
    destruct (H H2) as [Hv Hst]. destruct (max_rank_spec x 1 1 Cx H2) as (mx & Emx & Hmx & Rx & _).
    assert (Hs : exists rk c, match sv with Some s => max_rank s | None => match rank with None => Err ValueError | Some r => Ok r end end = Ok rk /\ rk <= m /\
      match sv with
      | None => rc rk
      | Some s => do c <- mpa_copy s; passert (forallb (fun p => list_eqb (fst p) (snd p)) (combine (mshape x) (mshape c))) (Ok c)
      end = Ok c /\ cstart x c /\ Forall (fun j => j <= m) (ranks c)).
    { destruct sv as [s|]; cbn in Hst.
      - destruct Hst as [Cs Rs]. pose proof Cs as (Ps & Fs & Ts & Ss).
        assert (L : llen s = llen x) by (unfold llen; rewrite <- (map_length pdims (lts s)), <- (map_length pdims (lts x)); unfold mshape in Ss; rewrite Ss; reflexivity).
        destruct (max_rank_spec s 1 1 (pos_chain s Ps)) as (k & Ek & _ & _ & Ik); [lia|]. exists k, s. split; [exact Ek|].
        split; [rewrite Forall_forall in Rs; auto|]. rewrite (mpa_copy_id s (proj1 Ps) Fs). cbn [bind]. rewrite Ss, combine_refl_eqb. cbn [passert]. auto.
      - destruct Hst as (k & -> & Hk & c & Ec & Cc & Rc). exists k, c. auto. }
    destruct Hs as (rk & c0 & Erk & Hrk & Ec0 & (Pc & Fc & Tc & Sc) & Rc). rewrite Erk, Emx. cbn [bind].
    destruct (Nat.ltb_spec mx rk) as [Hlt|Hge].
    + eapply outc_weaken; [apply norm_copy; auto|auto|]. cbn beta. intros p (P1 & P2 & P3 & P4 & P5 & P6 & P7).
      split; [exact P1|split; [exact P2|split; [exact P3|split; [exact P4|split; [|split; [exact P6|auto]]]]]]. intros _. apply P5. eapply Forall_impl; [|exact Rx]. cbn beta. intros; lia.
    + rewrite Ec0. cbn [bind]. destruct (flatten_spec c0 Pc Fc) as (c1 & -> & I1 & F1 & R1 & T1 & A1). cbn [bind]. rewrite Sc in *.
      destruct (flatten_spec x Hx Fx) as (x1 & -> & Ix & F2 & R2 & T2 & A2). cbn [bind].
      assert (L : length (map size (mshape x)) = llen x) by (unfold mshape, llen; rewrite !map_length; reflexivity).
      eapply outc_bind; [apply (adapt_spec (map size (mshape x)) c1 x1 num v); auto; try lia; try apply Ix|]. cbn beta zeta.
      intros p (Ip & Fp & Tp & Rp & V1 & V2).
      destruct (unflatten_spec (snd p) (mshape x) Ip Fp) as (c & -> & Pc' & Sc' & Rc' & Fc' & Tc' & Ac').
      * apply (mpa_pos_sizes x Hx).
      * unfold mshape. destruct Cx as [N _]. destruct (lts x); [congruence|discriminate].
      * cbn [bind]. apply outc_ok. cbn [fst snd]. split; [exact Pc'|]. split; [exact Fc'|]. split; [auto|]. split; [exact Sc'|].
        split; [intros _; rewrite Rc'; apply Rp; rewrite R1; exact Rc|].
        assert (Ac2 : forall is, Forall2 inr is (mshape x) -> state (snd p) (rav (mshape x) is) = entry c is) by (intros is Hi; symmetry; apply Ac'; exact Hi).
        split.
        -- rewrite V1. unfold norm2_of. apply ip_inner; auto.
        -- intros Hn. rewrite (V2 Hn). apply ip_inner; auto.
Qed.
(** Neither a rank nor a start: ValueError. *)
Theorem compression_var_none rc (x : ltens K) num v : llen x <> 1 -> compression_var qr svd rc x num None None v = Err ValueError.
Proof. intros H. unfold compression_var. apply Nat.eqb_neq in H. rewrite H. reflexivity. Qed.
End Adapt.
