(** [pmf] and [pmf_as_array] (before the projection): all implementations give the same array. *)
From Verif Require Export PfLtr.
Open Scope nat_scope.

Section Symm.
Context {K : StarRing}.
Add Ring Kr : (k_ring K).

(** ** The cut is inside the chain *)
Lemma cumprod_length l : forall a, length (cumprod a l) = length l.
Proof. induction l as [|d l IH]; intros a; [reflexivity|]. cbn. f_equal. apply IH. Qed.
Lemma removelast_length {A : Type} (l : list A) : length (removelast l) = length l - 1.
Proof. induction l as [|a [|b l] IH]; [reflexivity..|]. change (removelast (a :: b :: l)) with (a :: removelast (b :: l)). cbn [length] in *. rewrite IH. lia. Qed.
Lemma argmin_lt l : l <> [] -> argmin l < length l.
Proof.
  induction l as [|d l IH]; intros H; [congruence|]. cbn [argmin length]. destruct (forallb (fun e => Nat.leb d e) l) eqn:E; [lia|].
  assert (l <> []) by (intros ->; discriminate). specialize (IH H0). lia.
Qed.
(** ... and minimises what it is meant to minimise. *)
Lemma argmin_min l : forall k, k < length l -> nth (argmin l) l 0 <= nth k l 0.
Proof.
  induction l as [|d l IH]; intros k Hk; [cbn in Hk; lia|]. cbn [argmin]. destruct (forallb (fun e => Nat.leb d e) l) eqn:E.
  - cbn [nth]. destruct k; [lia|]. rewrite forallb_forall in E. cbn in Hk. apply Nat.leb_le. apply E. apply nth_In. lia.
  - assert (Hn : l <> []) by (intros ->; discriminate). cbn [nth]. destruct k as [|k]; [|apply IH; cbn in Hk; lia].
    assert (exists e, In e l /\ e < d) as (e & He & Hd).
    { clear - E. induction l as [|a l IHl]; [discriminate|]. cbn in E. destruct (Nat.leb_spec d a); [cbn in E; destruct (IHl E) as (e & H1 & H2); exists e; split; [right; exact H1|exact H2]|exists a; split; [left; reflexivity|lia]]. }
    apply (In_nth _ _ 0) in He. destruct He as (q & Hq & <-). specialize (IH q Hq). lia.
Qed.
Lemma ranks_len (x : ltens K) : length (ranks x) = llen x - 1.
Proof. unfold ranks, llen. rewrite map_length. destruct (lts x); cbn; lia. Qed.
Lemma symm_cut_range (x st : ltens K) : llen x = llen st -> 2 <= llen x -> exists n, symm_cut x st = Ok n /\ 0 < n < llen x.
Proof.
  intros E H. unfold symm_cut.
  set (cp := cumprod 1 (outdims x)). set (rk := map _ (combine (ranks st) (ranks x))). set (p0 := map _ (combine (removelast cp) rk)).
  assert (L : length p0 = llen x - 1).
  { unfold p0, rk. rewrite map_length, combine_length, removelast_length, map_length, combine_length, !ranks_len. unfold cp. rewrite cumprod_length. unfold outdims. rewrite map_length. fold (llen x). lia. }
  match goal with |- context [map ?f (seq 0 (length p0))] => set (m := map f (seq 0 (length p0))) end. assert (Lm : length m = llen x - 1) by (unfold m; rewrite map_length, seq_length; exact L).
  destruct m as [|a m'] eqn:Em; [cbn in Lm; lia|]. rewrite <- Em in *. pose proof (argmin_lt m ltac:(rewrite Em; discriminate)). exists (S (argmin m)). split; [rewrite Em; reflexivity|lia].
Qed.
Theorem pmf_symm_spec (x st : ltens K) ns hs : povm_ok x ns hs -> mpa_pos st -> two_legs (mshape st) -> leg1 (mshape st) = hs -> 2 <= llen x ->
  exists p, pmf_symm x st = Ok p /\ is_pmf_arr x (dmat st) p.
Proof.
  intros Hp Hst T2 E H. destruct (povm_dims _ _ _ Hp) as (_ & _ & D3). assert (L : llen x = llen st).
  { rewrite <- (mshape_length st), D3. destruct Hp as (_ & _ & L & _). rewrite L, <- E. unfold leg1. rewrite map_length. reflexivity. }
  destruct (symm_cut_range x st L H) as (n & En & Hn). unfold pmf_symm. rewrite En. cbn [bind]. apply (symm_at_spec x st ns hs); assumption.
Qed.

(** ** The whole chain as a window *)
Lemma mred_all ds rho (is js : list nat) n : length ds <= n -> mred ds rho 0 n is js = rho is js :> K.
Proof. intros H. unfold mred. cbn [firstn msum app]. rewrite skipn_all2 by exact H. cbn [msum]. rewrite !app_nil_r. reflexivity. Qed.
Lemma fits_all hs : fits hs hs.
Proof. intros s H. assert (s = 0) by lia. subst. cbn. apply firstn_all. Qed.
(** The probabilities as an MPArray *)
Definition is_pmf_mp (x : ltens K) (rho : list nat -> list nat -> K) (z : ltens K) : Prop :=
  mpa_ok z /\ mshape z = singles (outdims x) /\ forall ks, inr ks (outdims x) -> entry z (singles ks) = mborn x rho ks.
Lemma exp_pmf (x : ltens K) ns hs rho z : povm_ok x ns hs -> is_exp x hs rho 0 z -> is_pmf_mp x rho z.
Proof.
  intros Hp (H1 & H2 & H3 & H4 & H5). destruct (povm_dims _ _ _ Hp) as (D1 & D2 & D3). destruct Hp as (_ & _ & L & _). split; [exact H1|]. split; [exact H3|]. intros ks Hk. rewrite H5 by exact Hk. apply mborn_ext. intros is js _ _. apply mred_all. lia.
Qed.
Lemma exp_arr (x : ltens K) ns hs rho z : povm_ok x ns hs -> is_exp x hs rho 0 z -> exists y, prune z true = Ok y /\ is_pmf_arr x rho (to_array y).
Proof.
  intros Hp He. destruct (exp_pmf _ _ _ _ _ Hp He) as (Hz & Sz & Az). destruct (povm_dims _ _ _ Hp) as (D1 & D2 & D3). destruct (povm_pos _ _ _ Hp) as [P1 _].
  destruct He as (_ & _ & _ & Fz & _). destruct (prune_single_spec z Hz) as (y & Ey & Hy & Sy & Ay).
  { unfold cform_ok. unfold canonical_form in Fz. injection Fz as -> ->. rewrite <- (mshape_length z), Sz, D1. unfold singles. rewrite map_length, D3. unfold cf_ok. pose proof (povm_len _ _ _ Hp). destruct Hp as (_ & _ & L & _). lia. }
  exists y. split; [exact Ey|]. rewrite D1 in *. rewrite Sz in *.
  assert (E1 : concat (pruned (map drop1 (singles ns))) = bigd ns).
  { transitivity (concat (filter has_legs (map drop1 (singles ns)))); [unfold pruned; destruct (filter has_legs (map drop1 (singles ns))); reflexivity|].
    clear - P1. induction P1 as [|n ns Hn P1 IH]; [reflexivity|]. change (map drop1 (singles (n :: ns))) with (drop1 [n] :: map drop1 (singles ns)). cbn [filter]. unfold bigd. cbn [filter]. fold (bigd ns).
    assert (E : drop1 [n] = if Nat.eqb n 1 then [] else [n]) by (unfold drop1; rewrite size_single; reflexivity). rewrite E.
    destruct (Nat.eqb_spec n 1) as [->|N]; cbn [has_legs]; [exact IH|]. rewrite (proj2 (Nat.ltb_lt 1 n)) by lia. change (has_legs [n]) with true. cbv iota. cbn [concat app]. f_equal. exact IH. }
  split; [apply wf_to_array|]. split; [rewrite shp_to_array by apply Hy; rewrite Sy; unfold nsoutdims; rewrite D1; exact E1|].
  rewrite D1. intros ks Hk. rewrite <- Az by exact Hk. unfold entry. rewrite <- Ay by (apply singles_valid; exact Hk). f_equal.
  clear - P1 Hk. revert ks Hk. induction P1 as [|n ns Hn P1 IH]; intros ks Hk; [inversion Hk; reflexivity|]. apply inr_cons_inv in Hk. destruct Hk as (k & ks' & -> & Hk & Hks).
  cbn [singles map zip2 concat]. unfold bigi. cbn [combine filter map fst]. fold (bigi ns ks') (singles ns) (singles ks'). unfold drop1_idx at 1. rewrite size_single.
  destruct (Nat.eqb_spec n 1) as [->|N]; [cbn [app Nat.ltb Nat.leb]; apply IH; exact Hks|]. rewrite (proj2 (Nat.ltb_lt 1 n)) by lia. cbn [map snd app]. f_equal. apply IH. exact Hks.
Qed.
(** Every index of the array is reached. *)
Lemma bigi_onto ds : Forall (fun d => 0 < d) ds -> forall js, inr js (bigd ds) -> exists is, inr is ds /\ bigi ds is = js.
Proof.
  induction 1 as [|d ds Hd H IH]; intros js Hj; [inversion Hj; exists []; split; [constructor|reflexivity]|]. unfold bigd in Hj. cbn [filter] in Hj. fold (bigd ds) in Hj.
  destruct (Nat.ltb 1 d) eqn:E.
  - apply inr_cons_inv in Hj. destruct Hj as (j & js' & -> & Hj & Hjs). destruct (IH js' Hjs) as (is & Hi & Ei). exists (j :: is). split; [apply inr_cons; assumption|]. unfold bigi. cbn [combine filter map fst]. rewrite E. cbn [map snd]. f_equal. exact Ei.
  - destruct (IH js Hj) as (is & Hi & Ei). exists (0 :: is). split; [apply inr_cons; assumption|]. unfold bigi. cbn [combine filter map fst]. rewrite E. exact Ei.
Qed.
Theorem pmf_arr_unique (x : ltens K) ns hs rho p q : povm_ok x ns hs -> is_pmf_arr x rho p -> is_pmf_arr x rho q -> p = q.
Proof.
  intros Hp (W1 & S1 & A1) (W2 & S2 & A2). destruct (povm_dims _ _ _ Hp) as (D1 & _). destruct (povm_pos _ _ _ Hp) as [P1 _].
  apply nd_eq; auto; [congruence|]. rewrite S1. intros idx Hi. unfold nsoutdims in Hi. rewrite D1 in *. fold (bigd ns) in Hi. destruct (bigi_onto ns P1 idx Hi) as (ks & Hk & <-). rewrite A1, A2 by exact Hk. reflexivity.
Qed.

(** ** [pmf] *)
Section QR.
Variable qr : nd K -> res (nd K * nd K).
Hypothesis Hqr : qr_sound qr.
(** What a successful call leaves in the state object *)
Definition same_state (st s : ltens K) : Prop :=
  mpa_pos s /\ mshape s = mshape st /\ to_array s = to_array st /\ canon_true s /\ cform_wk s.

Lemma whole (x st : ltens K) ns hs : povm_ok x ns hs -> length (mshape st) = length hs -> llen x = llen st /\ llen st - llen x + 1 = 1.
Proof. intros Hp E. destruct (povm_dims _ _ _ Hp) as (_ & _ & D3). destruct Hp as (_ & _ & L & _). rewrite mshape_length in E. lia. Qed.
Lemma exp_mpdo_1 (x st : ltens K) ns hs m : povm_ok x ns hs -> mpa_ok st -> bonds_pos st -> mshape st = squares hs -> m = EMpdo \/ m = EAuto ->
  exists z, expectations qr x st m = Ok ([z], st) /\ is_exp x hs (den st) 0 z.
Proof.
  intros Hp Hst Bst Sst Hm. destruct (whole x st ns hs Hp) as [L L1]; [rewrite Sst; unfold squares; apply map_length|].
  destruct (expectations_mpdo qr x st ns hs hs m) as (zs & Ez & Fz); auto; [apply fits_all|lia|]. rewrite L1 in Fz. cbn [seq] in Fz. inversion Fz as [|? z ? zs' Hz Fz']; subst. inversion Fz'; subst. exists z. auto.
Qed.
Lemma exp_pmps_1 (x st : ltens K) ns hs : povm_ok x ns hs -> mpa_pos st -> cform_wk st -> canon_true st -> two_legs (mshape st) -> leg1 (mshape st) = hs ->
  outc (qr_fails qr) (expectations qr x st EPmps) (fun r => exists z, fst r = [z] /\ is_exp x hs (dmat st) 0 z /\ same_state st (snd r)).
Proof.
  intros Hp Hst Hc Ht T2 E. destruct (whole x st ns hs Hp) as [L L1]; [rewrite <- E; unfold leg1; rewrite map_length; reflexivity|].
  eapply outc_weaken; [apply (expectations_pmps qr Hqr x st ns hs); auto; [rewrite E; apply fits_all|lia]|auto|].
  intros r (F & S). rewrite L1, E in F. cbn [seq] in F. inversion F as [|? z ? zs' Hz F']; subst. inversion F'; subst. exists z. split; [reflexivity|]. split; [exact Hz|exact S].
Qed.
Lemma exp_mps_1 (x st : ltens K) ns hs m : povm_ok x ns hs -> mpa_pos st -> one_leg (mshape st) -> leg1 (mshape st) = hs -> m = EMps \/ m = EAuto ->
  outc (qr_fails qr) (expectations qr x st m) (fun r => exists z, r = ([z], st) /\ is_exp x hs (pure st) 0 z).
Proof.
  intros Hp Hst T2 E Hm. destruct (whole x st ns hs Hp) as [L L1]; [rewrite <- E; unfold leg1; rewrite map_length; reflexivity|].
  eapply outc_weaken; [apply (expectations_mps qr Hqr x st ns hs m); auto; [rewrite E; apply fits_all|lia]|auto|].
  intros [zs s] (F & S). cbn [fst snd] in *. subst s. rewrite L1, E in F. cbn [seq] in F. inversion F as [|? z ? zs' Hz F']; subst. inversion F'; subst. exists z. auto.
Qed.
Theorem pmf_mpdo (x st : ltens K) ns hs m : povm_ok x ns hs -> mpa_ok st -> bonds_pos st -> mshape st = squares hs -> m = EMpdo \/ m = EAuto ->
  exists z, pmf qr x st m = Ok (z, st) /\ is_pmf_mp x (den st) z.
Proof.
  intros Hp Hst Bst Sst Hm. destruct (exp_mpdo_1 x st ns hs m Hp Hst Bst Sst Hm) as (z & Ez & Hz). destruct (whole x st ns hs Hp) as [L _]; [rewrite Sst; unfold squares; apply map_length|].
  exists z. unfold pmf. rewrite L, Nat.eqb_refl. cbn [passert]. rewrite Ez. cbn. split; [reflexivity|]. exact (exp_pmf x ns hs (den st) z Hp Hz).
Qed.
Theorem pmf_pmps (x st : ltens K) ns hs : povm_ok x ns hs -> mpa_pos st -> cform_wk st -> canon_true st -> two_legs (mshape st) -> leg1 (mshape st) = hs ->
  outc (qr_fails qr) (pmf qr x st EPmps) (fun r => is_pmf_mp x (dmat st) (fst r) /\ same_state st (snd r)).
Proof.
  intros Hp Hst Hc Ht T2 E. destruct (whole x st ns hs Hp) as [L L1]; [rewrite <- E; unfold leg1; rewrite map_length; reflexivity|].
  unfold pmf. rewrite L, Nat.eqb_refl. cbn [passert]. eapply outc_bind; [apply (exp_pmps_1 x st ns hs); assumption|].
  intros [zs s] (z & Ez & Hz & S). cbn [fst snd] in *. subst zs. apply outc_ok. cbn [fst snd]. split; [exact (exp_pmf x ns hs (dmat st) z Hp Hz)|exact S].
Qed.
Theorem pmf_mps (x st : ltens K) ns hs m : povm_ok x ns hs -> mpa_pos st -> one_leg (mshape st) -> leg1 (mshape st) = hs -> m = EMps \/ m = EAuto ->
  outc (qr_fails qr) (pmf qr x st m) (fun r => is_pmf_mp x (pure st) (fst r) /\ snd r = st).
Proof.
  intros Hp Hst T2 E Hm. destruct (whole x st ns hs Hp) as [L L1]; [rewrite <- E; unfold leg1; rewrite map_length; reflexivity|].
  unfold pmf. rewrite L, Nat.eqb_refl. cbn [passert]. eapply outc_bind; [apply (exp_mps_1 x st ns hs m); assumption|].
  intros [zs s] (z & Ez & Hz). injection Ez as -> ->. apply outc_ok. cbn [fst snd]. split; [exact (exp_pmf x ns hs (pure st) z Hp Hz)|reflexivity].
Qed.
Theorem pmf_error (x st : ltens K) m : llen x <> llen st -> pmf qr x st m = Err AssertionError.
Proof. intros H. unfold pmf. rewrite (proj2 (Nat.eqb_neq _ _) H). reflexivity. Qed.

(** ** [pmf_as_array] before the projection *)
Lemma raw_default (x st : ltens K) m : llen x = llen st -> 
  pmf_raw qr x st m IDefault = do r <- expectations qr x st m;
                match fst r with
                | z :: _ => do y <- prune z true; Ok (to_array y, snd r)
                | [] => Err StopIteration
                end.
Proof. intros L. unfold pmf_raw. rewrite L, Nat.eqb_refl. cbn [passert bind]. reflexivity. Qed.
(** Implementations for PMPS, any [mode]; [auto] chooses [symm] for mode [pmps]. *)
Theorem raw_pmps (x st : ltens K) ns hs m i : povm_ok x ns hs -> mpa_pos st -> two_legs (mshape st) -> leg1 (mshape st) = hs ->
  i = ISymm \/ i = ILtr \/ (i = IAuto /\ m = EPmps) ->
  exists p, pmf_raw qr x st m i = Ok (p, st) /\ is_pmf_arr x (dmat st) p.
Proof.
  intros Hp Hst T2 E Hi. destruct (whole x st ns hs Hp) as [L L1]; [rewrite <- E; unfold leg1; rewrite map_length; reflexivity|].
  destruct (pmf_ltr_spec x st ns hs Hp (proj1 Hst) T2 E) as (p & Ep & Ap). 
  assert (W : 0 < llen x) by (pose proof (povm_len _ _ _ Hp); destruct (povm_dims _ _ _ Hp) as (_ & _ & D3); destruct Hp as (_ & _ & L' & _); lia).
  destruct (Nat.eqb_spec (llen x) 1) as [E1|N1].
  - exists p. split; [|exact Ap]. unfold pmf_raw. rewrite L, Nat.eqb_refl. rewrite <- L, E1, Nat.eqb_refl. cbn [passert]. destruct Hi as [->|[->|[-> ->]]]; cbn [bind]; rewrite Ep; reflexivity.
  - destruct (pmf_symm_spec x st ns hs Hp Hst T2 E) as (q & Eq & Aq); [lia|]. rewrite (pmf_arr_unique x ns hs (dmat st) q p Hp Aq Ap) in Eq.
    exists p. split; [|exact Ap]. unfold pmf_raw. rewrite L, Nat.eqb_refl. rewrite <- L, (proj2 (Nat.eqb_neq _ _) N1). cbn [passert]. destruct Hi as [->|[->|[-> ->]]]; cbn [bind]; rewrite ?Ep, ?Eq; reflexivity.
Qed.
Theorem raw_pmps_default (x st : ltens K) ns hs : povm_ok x ns hs -> mpa_pos st -> cform_wk st -> canon_true st -> two_legs (mshape st) -> leg1 (mshape st) = hs ->
  outc (qr_fails qr) (pmf_raw qr x st EPmps IDefault) (fun r => is_pmf_arr x (dmat st) (fst r) /\ same_state st (snd r)).
Proof.
  intros Hp Hst Hc Ht T2 E. destruct (whole x st ns hs Hp) as [L L1]; [rewrite <- E; unfold leg1; rewrite map_length; reflexivity|].
  rewrite raw_default by exact L. eapply outc_bind; [apply (exp_pmps_1 x st ns hs); assumption|].
  intros [zs s] (z & Ez & Hz & S). cbn [fst snd] in *. subst zs. destruct (exp_arr x ns hs (dmat st) z Hp Hz) as (y & Ey & Ay). rewrite Ey. cbn [bind]. apply outc_ok. cbn [fst snd]. auto.
Qed.
Theorem raw_mpdo (x st : ltens K) ns hs m i : povm_ok x ns hs -> mpa_ok st -> bonds_pos st -> mshape st = squares hs -> m = EMpdo \/ m = EAuto -> i = IDefault \/ i = IAuto ->
  exists p, pmf_raw qr x st m i = Ok (p, st) /\ is_pmf_arr x (den st) p.
Proof.
  intros Hp Hst Bst Sst Hm Hi. destruct (exp_mpdo_1 x st ns hs m Hp Hst Bst Sst Hm) as (z & Ez & Hz). destruct (whole x st ns hs Hp) as [L _]; [rewrite Sst; unfold squares; apply map_length|].
  destruct (exp_arr x ns hs (den st) z Hp Hz) as (y & Ey & Ay). exists (to_array y). split; [|exact Ay].
  assert (Ed : pmf_raw qr x st m i = pmf_raw qr x st m IDefault).
  { destruct Hi as [->| ->]; [reflexivity|]. unfold pmf_raw. destruct Hm as [->| ->]; reflexivity. }
  rewrite Ed, raw_default by exact L. rewrite Ez. cbn [bind fst snd]. rewrite Ey. reflexivity.
Qed.
Theorem raw_mps_default (x st : ltens K) ns hs m i : povm_ok x ns hs -> mpa_pos st -> one_leg (mshape st) -> leg1 (mshape st) = hs ->
  (i = IDefault /\ (m = EMps \/ m = EAuto)) \/ (i = IAuto /\ m = EAuto) ->
  outc (qr_fails qr) (pmf_raw qr x st m i) (fun r => is_pmf_arr x (pure st) (fst r) /\ snd r = st).
Proof.
  intros Hp Hst T2 E Hi. destruct (whole x st ns hs Hp) as [L L1]; [rewrite <- E; unfold leg1; rewrite map_length; reflexivity|].
  assert (Ed : pmf_raw qr x st m i = pmf_raw qr x st m IDefault) by (destruct Hi as [[-> _]|[-> ->]]; reflexivity).
  rewrite Ed, raw_default by exact L. eapply outc_bind; [apply (exp_mps_1 x st ns hs m); try assumption; tauto|].
  intros [zs s] (z & Ez & Hz). injection Ez as -> ->. cbn [fst snd]. destruct (exp_arr x ns hs (pure st) z Hp Hz) as (y & Ey & Ay). rewrite Ey. cbn [bind]. apply outc_ok. cbn [fst snd]. auto.
Qed.
(** Mode [mps] with [auto] goes through the PMPS of the state. *)
Theorem raw_mps_auto (x st : ltens K) ns hs : povm_ok x ns hs -> mpa_pos st -> one_leg (mshape st) -> leg1 (mshape st) = hs ->
  exists p, pmf_raw qr x st EMps IAuto = Ok (p, st) /\ is_pmf_arr x (pure st) p.
Proof.
  intros Hp Hst T2 E. destruct (whole x st ns hs Hp) as [L L1]; [rewrite <- E; unfold leg1; rewrite map_length; reflexivity|].
  destruct (mps_to_pmps_spec st (proj1 Hst) T2) as (p & Ep & Hpp & Mp & _ & Cp & _ & Pp).
  assert (Lp : llen p = llen st) by (rewrite <- !mshape_length, Mp; unfold leg1; rewrite !map_length; reflexivity).
  destruct (raw_pmps x p ns hs EPmps IAuto Hp (Pp Hst)) as (q & Eq & W & S & A).
  { rewrite Mp. apply two_legs_pad. }
  { rewrite Mp, leg1_pad. exact E. }
  { auto. }
  exists q. split.
  - unfold pmf_raw in *. rewrite Lp in Eq. rewrite L, Nat.eqb_refl in *. cbn [passert bind] in *. rewrite Ep. cbn [bind].
    destruct (Nat.eqb (llen st) 1); cbn [bind] in *; [destruct (pmf_ltr x p) as [v|] eqn:F|destruct (pmf_symm x p) as [v|] eqn:F]; cbn [bind] in *; try discriminate; injection Eq as ->; reflexivity.
  - split; [exact W|]. split; [exact S|]. intros ks Hk. rewrite A by exact Hk. apply mborn_ext. intros is js Hi Hj.
    destruct (povm_dims _ _ _ Hp) as (_ & D2 & _). rewrite D2 in Hi, Hj. apply dmat_mps; auto; try (rewrite E; assumption). apply Hst.
Qed.
Theorem raw_errors (x st : ltens K) m : (forall i, llen x <> llen st -> pmf_raw qr x st m i = Err AssertionError) /\
  (llen x = llen st -> pmf_raw qr x st m IOther = Err ValueError).
Proof.
  split.
  - intros i H. unfold pmf_raw. rewrite (proj2 (Nat.eqb_neq _ _) H). reflexivity.
  - intros H. unfold pmf_raw. rewrite H, Nat.eqb_refl. reflexivity.
Qed.
End QR.

(** ** Total probability *)
Definition list_delta (is js : list nat) : K := if list_eqb is js then k1 else k0.
(** The elements add up to the identity. *)
Definition sums_to_id (x : ltens K) : Prop := forall is js, inr is (hdims x) -> inr js (hdims x) ->
  msum (outdims x) (fun ks => entry x (triples ks is js)) = list_delta is js.
Lemma list_eqb_cons i is j js : list_eqb (i :: is) (j :: js) = Nat.eqb i j && list_eqb is js.
Proof.
  destruct (Nat.eqb_spec i j) as [->|N]; cbn [andb].
  - destruct (list_eqb is js) eqn:E; [apply list_eqb_eq in E as ->; apply list_eqb_refl|].
    destruct (list_eqb (j :: is) (j :: js)) eqn:F; [|reflexivity]. apply list_eqb_eq in F. injection F as ->. rewrite list_eqb_refl in E. discriminate.
  - destruct (list_eqb (i :: is) (j :: js)) eqn:F; [|reflexivity]. apply list_eqb_eq in F. injection F as -> ->. congruence.
Qed.
Lemma msum_list_delta ds : forall is (f : list nat -> K), inr is ds -> msum ds (fun js => list_delta is js * f js)%K = f is.
Proof.
  induction ds as [|d ds IH]; intros is f Hi.
  - inversion Hi; subst. cbn [msum]. unfold list_delta. rewrite list_eqb_refl. ring.
  - apply inr_cons_inv in Hi. destruct Hi as (i & is' & -> & Hi & His). cbn [msum].
    rewrite (bigsum_ext _ _ (fun j => delta i j * msum ds (fun js => list_delta is' js * f (j :: js)))%K).
    + rewrite bigsum_delta_l by exact Hi. apply (IH is' (fun js => f (i :: js)) His).
    + intros j _. rewrite <- msum_mul_l. apply msum_ext. intros js _. unfold list_delta. rewrite list_eqb_cons. unfold delta. destruct (Nat.eqb i j); cbn [andb]; [ring|]. ring.
Qed.
Theorem total_probability (x : ltens K) rho : sums_to_id x -> msum (outdims x) (mborn x rho) = msum (hdims x) (fun is => rho is is).
Proof.
  intros H. unfold mborn. rewrite msum_swap. apply msum_ext. intros is Hi. rewrite msum_swap.
  rewrite (msum_ext _ _ (fun js => list_delta is js * rho js is)%K).
  - apply (msum_list_delta _ is (fun js => rho js is)). exact Hi.
  - intros js Hj. rewrite msum_mul_r, H by assumption. reflexivity.
Qed.
End Symm.
