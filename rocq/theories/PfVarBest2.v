(** Variational compression: the distance to the target along the sweeps. *)
From Coq Require Import Reals Lra.
From Verif Require Import PfQuasi.
From Verif Require PfDots.
From Verif Require Import PfEigVal PfEigVal2.
From Verif Require Export PfVarBest.
From Verif Require Import PfCanon PfBounds PfUpdate PfFromArray PfCompress PropAux PfHistory.
Open Scope nat_scope.

Local Notation rav := PfVar4.rav.
Add Ring CSvb2 : (k_ring CS).

(** The array the sweeps start from: the given one, or the random one. *)
Definition start_is (rc : nat -> res (ltens CS)) (sv : option (ltens CS)) (rank : option nat) (c : ltens CS) : Prop :=
  match sv with Some s => c = s | None => exists k, rank = Some k /\ rc k = Ok c end.

Section Best.
Variable qr : nd CS -> res (nd CS * nd CS).
Hypothesis Hqr : qr_sound qr.
Variable svd : nd CS -> res (nd CS * list CS * nd CS).
Hypothesis Hsvd : svd_sound svd.
Hypothesis Hsort : svd_sorted svd.
Notation F := (FQS svd (truncated_svd svd) qr).

Definition far (ds : list nat) (T : list nat -> CS) (x : ltens CS) : R := Cre (vdist ds T (state x)).

(** One local update: no state that agrees with the old one outside of the window and
    whose ranks stay below [mr] is closer to the target than the new one. *)
Lemma best_local ds T v mr s pos s' : 1 <= v <= 2 -> v <= length ds -> 0 < mr -> ad_ok ds v mr pos (fst s) -> pos <= length ds - v ->
  g_local unit v (proj_locl qr svd ds T v mr) s pos = Ok s' -> ad_ok ds v mr pos (fst s') /\ outside pos v (fst s) (fst s') /\
  forall y, mpa_ok y -> mps_like (lts y) ds -> outside pos v (fst s) y -> (v = 2 -> Forall (fun k => k <= mr) (ranks y)) ->
    (far ds T (fst s') <= far ds T y)%R.
Proof.
  intros Hv Hn Hm Hs Hp E. destruct s as [x o]. cbn [fst] in *. pose proof Hs as (I & _).
  destruct (window_ex ds x pos v I ltac:(lia) ltac:(lia)) as (X1 & X2 & X3 & d1 & d2 & d3 & la & ra & W).
  unfold g_local in E. cbn [fst] in E. rewrite (proj_window _ _ _ _ _ _ _ _ _ _ _ _ _ _ W) in E.
  destruct (proj_t_shape _ _ _ _ _ _ _ _ _ _ _ _ T W) as (St & Wt & Pt). pose proof W as [wx wd l1 l2 e1 e2 m1 m2 m3 b1 b2 b3 p1 p2 p3 ne].
  apply bind_inv in E. destruct E as (q & Eq & E). apply bind_inv in Eq. destruct Eq as (us & Es & Eq). injection Eq as <-. cbn [snd fst] in E.
  pose proof (outc_inv _ _ _ _ (split_spec qr Hqr svd Hsvd _ la d2 ra v mr St Wt Pt e2 ltac:(lia) Hm) Es) as (Cu & Mu & Ru & Ou & U1).
  destruct (update_ad ds v mr pos x X1 X2 X3 d1 d2 d3 la ra us ltac:(lia) Hs W Cu Mu Ru) as (z & Ez & Az & Lz).
  rewrite Ez in E. cbn [bind] in E. injection E as <-. cbn [fst]. split; [exact Az|].
  destruct (ad_iso ds v mr pos x X1 X2 X3 d1 d2 d3 la ra Hs W) as [I1 I3]. destruct Cu as (Nu & Bu & Pu).
  assert (Lu : length us = v) by (apply mps_like_length in Mu; congruence).
  split.
  { unfold outside, llen. rewrite wx, Lz. destruct (ins_mid X1 X2 X3 pos v l1 l2) as (A1 & _ & A3). destruct (ins_mid X1 us X3 pos v l1 Lu) as (B1' & _ & B3').
    rewrite A1, A3, B1', B3'. rewrite !app_length, l2, Lu. auto. }
  intros y Hy My Hout Ry.
  destruct (outside_window ds x y pos v X1 X2 X3 d1 d2 d3 la ra W Hy My Hout ltac:(lia)) as (ys & Ly & Lys & Ny & Mys & By).
  unfold far, state. rewrite Ly, Lz, wd. rewrite !(vdist_window X1 _ X3 d1 d2 d3 la ra T) by auto.
  set (t := proj_t d1 d2 d3 la ra X1 X3 T) in *.
  enough (H : (Cre (vdist (la :: d2 ++ [ra]) (get t) (get (ltens_to_array us))) <= Cre (vdist (la :: d2 ++ [ra]) (get t) (get (ltens_to_array ys))))%R).
  { assert (CA : forall a b : CS, Cre (a + b)%K = (Cre a + Cre b)%R) by reflexivity. rewrite !CA. lra. }
  destruct (Nat.eq_dec v 1) as [->|V1].
  - rewrite (U1 eq_refl). change (ltens_to_array [t]) with t. rewrite vdist_same. apply (proj2 (vdist_nonneg _ _ _)).
  - assert (v = 2) as -> by lia. destruct d2 as [|f1 [|f2 [|]]]; try discriminate.
    apply (two_best qr Hqr svd Hsvd Hsort t la f1 f2 ra mr us ys St Wt Pt Hm Es By Mys).
    specialize (Ry eq_refl). rename Ry into Rk. unfold ranks in Rk. rewrite Ly in Rk. destruct ys as [|a ys]; [contradiction|].
    destruct X1 as [|a1 X1]; cbn [app tl] in *; rewrite ?map_app, ?Forall_app in Rk; cbn [map] in *; [tauto|].
    destruct Rk as [_ Rk]. rewrite map_app in Rk. pose proof (Forall_inv_tail Rk) as R2. apply Forall_app in R2. tauto.
Qed.
Lemma best_step ds T v mr s pos s' : 1 <= v <= 2 -> v <= length ds -> 0 < mr -> ad_ok ds v mr pos (fst s) -> pos <= length ds - v ->
  g_local unit v (proj_locl qr svd ds T v mr) s pos = Ok s' -> ad_ok ds v mr pos (fst s') /\ (far ds T (fst s') <= far ds T (fst s))%R.
Proof.
  intros Hv Hn Hm Hs Hp E. destruct (best_local ds T v mr s pos s' Hv Hn Hm Hs Hp E) as (A & _ & B). split; [exact A|].
  destruct Hs as (I & _ & _ & _ & _ & Rk). destruct I as (C & M & _). apply B; auto.
  - apply (chain_pos (fst s) C).
  - unfold outside. auto.
Qed.

(** The sweeps. *)
Lemma best_from ds T v mr : 1 <= v <= 2 -> v <= length ds -> 0 < mr -> forall m k s s', ad_ok ds v mr 0 (fst s) ->
  foldM (g_one qr unit (length ds) v (proj_locl qr svd ds T v mr)) (seq k m) s = Ok s' ->
  ad_ok ds v mr 0 (fst s') /\ (far ds T (fst s') <= far ds T (fst s))%R.
Proof.
  intros Hv Hn Hm. induction m as [|m IH]; intros k s s' Hs E.
  - cbn in E. injection E as <-. split; [exact Hs|lra].
  - cbn [seq foldM] in E. apply bind_inv in E. destruct E as (s1 & E1 & E).
    destruct (one_inv qr unit (length ds) v (fun pos y => ad_ok ds v mr pos (fst y) /\ (far ds T (fst y) <= far ds T (fst s))%R) (fun _ => True)
      (proj_locl qr svd ds T v mr)) with (k := k) (s := s) (s' := s1) as [[A1 D1] _]; auto.
    + intros y pos y' [Ay Dy] Hp Ey. destruct (best_step ds T v mr y pos y' Hv Hn Hm Ay Hp Ey) as [A2 D2]. split; [split; [exact A2|lra]|exact Logic.I].
    + intros y o pos z [Ay Dy] Hp Ey. cbn [fst] in *. pose proof (outc_inv _ _ _ _ (ad_canon_left qr svd Hqr ds v mr y pos ltac:(lia) Hn Ay Hp) Ey) as Az.
      split; [exact Az|]. unfold far in *. rewrite (vdist_ext ds T (state z) T (state y)); [exact Dy|reflexivity|].
      intros is Hi. apply (canon_state qr Hqr ds v mr ltac:(lia) Hm y z _ _ is (proj1 Ay) Ey Hi).
    + intros y o pos z [Ay Dy] Hp Ey. cbn [fst] in *. pose proof (outc_inv _ _ _ _ (ad_canon_right qr svd Hqr ds v mr y pos ltac:(lia) Hn Ay Hp) Ey) as Az.
      split; [exact Az|]. unfold far in *. rewrite (vdist_ext ds T (state z) T (state y)); [exact Dy|reflexivity|].
      intros is Hi. apply (canon_state qr Hqr ds v mr ltac:(lia) Hm y z _ _ is (proj1 Ay) Ey Hi).
    + split; [exact Hs|lra].
    + destruct (IH (S k) s1 s' A1 E) as [A2 D2]. split; [exact A2|lra].
Qed.

(** The states of one call of [_adapt_to]. *)
Lemma adapt_states ds (x w : ltens CS) num v p : 1 <= v <= length ds -> 2 <= length ds -> chain_ok (lts w) 1 1 -> mps_like (lts w) ds ->
  mps_inv ds x -> cform_ok x -> canon_true x -> adapt_to qr svd x w num v = Ok p ->
  exists z mr s, canonicalize qr x CANone (CAInt 1) = Ok z /\ max_rank z = Ok mr /\ 0 < mr /\ ad_ok ds v mr 0 z /\
    (forall is, inr is ds -> state z is = state x is) /\
    foldM (g_one qr unit (length ds) v (proj_locl qr svd ds (state w) v mr)) (seq 0 num) (z, None) = Ok s /\
    (1 <= v <= 2 -> forall is, inr is ds -> state (snd p) is = state (fst s) is).
Proof.
  intros Hv H2 Cw Mw Hx Fx Tx E. rewrite (adapt_dense qr svd Hqr Hsvd ds) in E by assumption. unfold dense_adapt in E.
  apply bind_inv in E. destruct E as (z & Ez & E). apply bind_inv in E. destruct E as (mr & Em & E). apply bind_inv in E. destruct E as (s & Es & E).
  pose proof Hx as (Cx & _). destruct (max_rank_spec x 1 1 Cx) as (m0 & _ & _ & R0 & I0); [unfold llen; rewrite (mps_inv_len _ _ Hx); exact H2|].
  pose proof (outc_inv _ _ _ _ (ad_canon_start qr svd Hqr ds v m0 x ltac:(lia) ltac:(lia) Hx Fx Tx R0) Ez) as (Az & _ & Rz).
  pose proof Az as (Iz & Fz & Tz & Lz & rz & _). pose proof Iz as (Cz & _).
  destruct (max_rank_spec z 1 1 Cz) as (mr' & Em' & Hmr & Rm & Im); [unfold llen; rewrite (mps_inv_len _ _ Iz); exact H2|].
  rewrite Em in Em'. injection Em' as <-.
  assert (Az' : ad_ok ds v mr 0 z) by (repeat (split; [assumption|]); exact Rm).
  exists z, mr, s. split; [exact Ez|]. split; [exact Em|]. split; [exact Hmr|]. split; [exact Az'|].
  split; [intros is Hi; apply (canon_state qr Hqr ds v mr ltac:(lia) Hmr x z _ _ is Hx Ez Hi)|]. split; [exact Es|]. intros V2 is Hi.
  destruct (best_from ds (state w) v mr V2 ltac:(lia) Hmr num 0 (z, None) s Az' Es) as [As _]. destruct As as (Is & Fs & Ts & _). pose proof Is as (Cs & Ms & _).
  pose proof (outc_inv _ _ _ _ (norm_spec qr Hqr 1 1 (fst s) Cs Fs Ts) E) as Hp. cbn beta zeta in Hp. destruct Hp as (_ & (S1 & S2 & S3 & S4 & _) & _).
  unfold state. apply S4; [|lia|lia]. unfold mshape. rewrite Ms. apply singles_valid. exact Hi.
Qed.
Lemma adapt_mono ds (x w : ltens CS) num v p : 1 <= v <= 2 -> v <= length ds -> 2 <= length ds -> chain_ok (lts w) 1 1 -> mps_like (lts w) ds ->
  mps_inv ds x -> cform_ok x -> canon_true x -> adapt_to qr svd x w num v = Ok p ->
  (far ds (state w) (snd p) <= far ds (state w) x)%R /\
  forall num' p', num <= num' -> adapt_to qr svd x w num' v = Ok p' -> (far ds (state w) (snd p') <= far ds (state w) (snd p))%R.
Proof.
  intros V Hn H2 Cw Mw Hx Fx Tx E. destruct (adapt_states ds x w num v p ltac:(lia) H2 Cw Mw Hx Fx Tx E) as (z & mr & s & Ez & Em & Hm & Az & Sz & Es & Sp). specialize (Sp V).
  assert (P1 : far ds (state w) (snd p) = far ds (state w) (fst s)) by (unfold far; f_equal; apply vdist_ext; [reflexivity|exact Sp]).
  destruct (best_from ds (state w) v mr V Hn Hm num 0 (z, None) s Az Es) as [As Ds]. split.
  - rewrite P1. replace (far ds (state w) x) with (far ds (state w) z); [exact Ds|]. unfold far. f_equal. apply vdist_ext; [reflexivity|exact Sz].
  - intros num' p' Hle E'. destruct (adapt_states ds x w num' v p' ltac:(lia) H2 Cw Mw Hx Fx Tx E') as (z' & mr' & s' & Ez' & Em' & _ & _ & _ & Es' & Sp'). specialize (Sp' V).
    rewrite Ez in Ez'. injection Ez' as <-. rewrite Em in Em'. injection Em' as <-.
    replace num' with (num + (num' - num)) in Es' by lia. rewrite seq_app, foldM_app, Es in Es'. cbn [bind Nat.add] in Es'.
    destruct (best_from ds (state w) v mr V Hn Hm _ _ s s' As Es') as [_ D2]. rewrite P1.
    replace (far ds (state w) (snd p')) with (far ds (state w) (fst s')); [exact D2|]. unfold far. f_equal. apply vdist_ext; [reflexivity|]. intros is Hi. symmetry. apply Sp'. exact Hi.
Qed.

(** ** [compress(method='var')] *)
Lemma vdist_dist ps (x y : ltens CS) f g : mshape x = ps ->
  (forall is, Forall2 inr is ps -> f (rav ps is) = entry x is) -> (forall is, Forall2 inr is ps -> g (rav ps is) = entry y is) ->
  vdist (map size ps) f g = dist2_of x y.
Proof.
  intros <- Hf Hg. unfold vdist, dist2_of. rewrite msums_rav. apply msums_ext. intros is Hi. rewrite Hf, Hg by exact Hi. ring.
Qed.

Lemma var_cases rc (x : ltens CS) sv rank v m : mpa_pos x -> cform_ok x -> canon_true x ->
  (2 <= llen x -> 1 <= v <= llen x /\ cstart_ok rc x sv rank m) ->
  let ds := map size (mshape x) in
  (forall num p, compression_var qr svd rc x num sv rank v = Ok p -> mshape (fst p) = mshape x /\ forall is, valid_idx is (mshape x) -> entry (fst p) is = entry x is) \/
  (2 <= llen x /\ exists c0 c1 x1, start_is rc sv rank c0 /\ cstart x c0 /\
     mps_inv ds c1 /\ cform_ok c1 /\ canon_true c1 /\ (forall is, valid_idx is (mshape x) -> state c1 (rav (mshape x) is) = entry c0 is) /\
     mps_inv ds x1 /\ (forall is, valid_idx is (mshape x) -> state x1 (rav (mshape x) is) = entry x is) /\
     forall num p, compression_var qr svd rc x num sv rank v = Ok p -> exists q, adapt_to qr svd c1 x1 num v = Ok q /\
       forall is, valid_idx is (mshape x) -> state (snd q) (rav (mshape x) is) = entry (fst p) is).
Proof.
  intros Hx Fx Tx H ds. pose proof (pos_chain x Hx) as Cx.
  assert (NC : forall num p, (do c <- mpa_copy x; do p <- norm_sq qr c; Ok (snd p, fst p)) = Ok p -> compression_var qr svd rc x num sv rank v = Ok p ->
    mshape (fst p) = mshape x /\ forall is, valid_idx is (mshape x) -> entry (fst p) is = entry x is).
  { intros num p E _. rewrite (mpa_copy_id x (proj1 Hx) Fx) in E. cbn [bind] in E. apply bind_inv in E. destruct E as (q & Eq & E). injection E as <-. cbn [fst].
    pose proof (outc_inv _ _ _ _ (norm_spec qr Hqr 1 1 x Cx Fx Tx) Eq) as Hp. cbn beta zeta in Hp. destruct Hp as (_ & S & _).
    destruct (sim_dense x (snd q) (proj1 Hx) S) as (_ & S2 & _ & S4 & _). split; [exact S2|]. intros is _. exact (f_equal (fun a => get a (concat is)) S4). }
  destruct (Nat.eqb_spec (llen x) 1) as [E1|E1].
  { left. intros num p E. apply (NC num p); [|exact E]. unfold compression_var in E. rewrite E1 in E. exact E. }
  assert (H2 : 2 <= llen x).
  { destruct Cx as [N _]. unfold llen in *. destruct (lts x) as [|a [|b l]]; cbn in *; [congruence|congruence|lia]. }
  destruct (H H2) as [Hv Hst]. destruct (max_rank_spec x 1 1 Cx H2) as (mx & Emx & Hmx & Rx & _).
  assert (Hs : exists rk c, match sv with Some s => max_rank s | None => match rank with None => Err ValueError | Some r => Ok r end end = Ok rk /\ rk <= m /\
      match sv with
      | None => rc rk
      | Some s => do c <- mpa_copy s; passert (forallb (fun p => list_eqb (fst p) (snd p)) (combine (mshape x) (mshape c))) (Ok c)
      end = Ok c /\ cstart x c /\ start_is rc sv rank c).
  { destruct sv as [s|]; cbn in Hst.
    - destruct Hst as [Cs Rs]. pose proof Cs as (Ps & Fs & Ts & Ss).
      assert (L : llen s = llen x) by (unfold llen; rewrite <- (map_length pdims (lts s)), <- (map_length pdims (lts x)); unfold mshape in Ss; rewrite Ss; reflexivity).
      destruct (max_rank_spec s 1 1 (pos_chain s Ps)) as (k & Ek & _ & _ & Ik); [lia|]. exists k, s. split; [exact Ek|].
      split; [rewrite Forall_forall in Rs; auto|]. rewrite (mpa_copy_id s (proj1 Ps) Fs). cbn [bind]. rewrite Ss, combine_refl_eqb. cbn [passert].
      split; [reflexivity|]. split; [exact Cs|reflexivity].
    - destruct Hst as (k & -> & Hk & c & Ec & Cc & Rc). exists k, c. split; [reflexivity|]. split; [exact Hk|]. split; [exact Ec|]. split; [exact Cc|]. exists k. auto. }
  destruct Hs as (rk & c0 & Erk & Hrk & Ec0 & CS0 & SI). pose proof CS0 as (Pc & Fc & Tc & Sc).
  destruct (Nat.ltb_spec mx rk) as [Hlt|Hge].
  { left. intros num p E. apply (NC num p); [|exact E]. unfold compression_var in E. apply Nat.eqb_neq in E1. rewrite E1, Erk, Emx in E. cbn [bind] in E.
    apply Nat.ltb_lt in Hlt. rewrite Hlt in E. exact E. }
  right. split; [exact H2|].
  destruct (flatten_spec c0 Pc Fc) as (c1 & E3 & I1 & F1 & R1 & T1 & A1). rewrite Sc in *.
  destruct (flatten_spec x Hx Fx) as (x1 & E4 & Ix & F2 & R2 & T2 & A2).
  exists c0, c1, x1. split; [exact SI|]. split; [exact CS0|]. split; [exact I1|]. split; [exact F1|]. split; [auto|]. split; [exact A1|]. split; [exact Ix|]. split; [exact A2|].
  intros num p E. unfold compression_var in E. apply Nat.eqb_neq in E1. rewrite E1, Erk, Emx in E. cbn [bind] in E.
  apply Nat.ltb_ge in Hge. rewrite Hge, Ec0 in E. cbn [bind] in E. rewrite E3, E4 in E. cbn [bind] in E.
  apply bind_inv in E. destruct E as (q & Eq & E). exists q. split; [exact Eq|].
  assert (L : length ds = llen x) by (unfold ds, mshape, llen; rewrite !map_length; reflexivity).
  pose proof (outc_inv _ _ _ _ (adapt_spec qr svd Hqr Hsvd ds c1 x1 num v ltac:(lia) ltac:(lia) (proj1 Ix) (proj1 (proj2 Ix)) I1 F1 (T1 Tc)) Eq) as Hq. cbn beta zeta in Hq.
  destruct Hq as (Ip & Fp & _). apply bind_inv in E. destruct E as (c & Ec & E). injection E as <-. cbn [fst].
  destruct (unflatten_spec (snd q) (mshape x) Ip Fp) as (c' & Ec' & _ & _ & _ & _ & _ & Ac').
  - apply (mpa_pos_sizes x Hx).
  - unfold mshape. destruct Cx as [N _]. destruct (lts x); [congruence|discriminate].
  - rewrite Ec in Ec'. injection Ec' as <-. intros is Hi. symmetry. apply Ac'. exact Hi.
Qed.

Theorem var_mono rc (x : ltens CS) num sv rank v m p : mpa_pos x -> cform_ok x -> canon_true x ->
  (2 <= llen x -> 1 <= v <= llen x /\ v <= 2 /\ cstart_ok rc x sv rank m) ->
  compression_var qr svd rc x num sv rank v = Ok p ->
  (forall c0, start_is rc sv rank c0 -> (Cre (dist2_of x (fst p)) <= Cre (dist2_of x c0))%R) /\
  (forall num' p', num <= num' -> compression_var qr svd rc x num' sv rank v = Ok p' -> (Cre (dist2_of x (fst p')) <= Cre (dist2_of x (fst p)))%R).
Proof.
  intros Hx Fx Tx H E.
  assert (DN : forall y : ltens CS, (0 <= Cre (dist2_of x y))%R).
  { intros y. rewrite adist_dist. cbn. apply adist_nonneg. }
  assert (DZ : forall y : ltens CS, (forall is, valid_idx is (mshape x) -> entry y is = entry x is) -> Cre (dist2_of x y) = 0%R).
  { intros y Hy. unfold dist2_of. rewrite PfDots.msums_zero; [reflexivity|]. intros is Hi. rewrite Hy by exact Hi. ring. }
  destruct (var_cases rc x sv rank v m Hx Fx Tx) as [A|(H2 & c0 & c1 & x1 & SI & CS0 & I1 & F1 & T1 & A1 & Ix & A2 & A)].
  { intros H2. destruct (H H2) as (V1 & V2 & V3). auto. }
  - split.
    + intros c0 _. rewrite (DZ (fst p)) by (apply (A num p E)). apply DN.
    + intros num' p' _ E'. rewrite (DZ (fst p')) by (apply (A num' p' E')). apply DN.
  - destruct (H H2) as (V1 & V2 & V3). set (ds := map size (mshape x)) in *.
    assert (L : length ds = llen x) by (unfold ds, mshape, llen; rewrite !map_length; reflexivity).
    destruct (A num p E) as (q & Eq & Aq).
    destruct (adapt_mono ds c1 x1 num v q ltac:(lia) ltac:(lia) ltac:(lia) (proj1 Ix) (proj1 (proj2 Ix)) I1 F1 T1 Eq) as [M1 M2]. unfold far in *.
    assert (D : forall f y, (forall is, valid_idx is (mshape x) -> f (rav (mshape x) is) = entry y is) -> vdist ds (state x1) f = dist2_of x y).
    { intros f y Hy. apply vdist_dist; auto. }
    split.
    + intros c2 S2. assert (c2 = c0) as ->.
      { unfold start_is in *. destruct sv as [s|]; [congruence|]. destruct SI as (k & Ek & Hk). destruct S2 as (k2 & Ek2 & Hk2). congruence. }
      rewrite (D _ _ Aq), (D _ _ A1) in M1. exact M1.
    + intros num' p' Hle E'. destruct (A num' p' E') as (q' & Eq' & Aq'). specialize (M2 num' q' Hle Eq'). rewrite (D _ _ Aq), (D _ _ Aq') in M2. exact M2.
Qed.
End Best.
