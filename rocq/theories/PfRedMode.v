(** The dispatcher [reductions] (mpsmpo.py 348-357): what its results represent in
    the mode it returns. *)
From Verif Require Import PfStates2 PfMpPovm PfRandom.

Section RedMode.
Context {K : StarRing}.
Add Ring Kr : (k_ring K).

(** The physical legs of a state described in a mode, with system dimensions [ds]:
    one leg per site for 'mps', two of any second dimension for 'pmps', two equal
    ones for 'mpdo'. *)
Definition legs_of (m : smode) (ds : list nat) (ps : list (list nat)) : Prop :=
  match m with
  | MMps => ps = map (fun d => [d]) ds
  | MPmps => map (fun p => nth 0 p 0) ps = ds /\ Forall (fun p => length p = 2) ps
  | MMpdo => ps = map (fun d => [d; d]) ds
  | MOther => False
  end.
(** The density matrix it stands for. *)
Definition dm_of (m : smode) (z : ltens K) (is js : list nat) : K :=
  match m with
  | MMps => (entry z (singles is) * kconj (entry z (singles js)))%K
  | MPmps => msum (leg2 (mshape z)) (fun cs => entry z (pairs is cs) * kconj (entry z (pairs js cs)))%K
  | MMpdo => entry z (pairs is js)
  | MOther => k0
  end.
(** The partial trace of a matrix over the sites before [s] and from [e] on. *)
Definition traced (ds : list nat) (s e : nat) (rho : list nat -> list nat -> K) (is js : list nat) : K :=
  msum (firstn s ds) (fun ks => msum (skipn e ds) (fun ms => rho (ks ++ is ++ ms) (ks ++ js ++ ms))).
Definition is_reduced (m : smode) (ds : list nat) (rho : list nat -> list nat -> K) (w : nat * nat) (z : ltens K) : Prop :=
  let ds' := firstn (snd w - fst w) (skipn (fst w) ds) in
  mpa_ok z /\ legs_of m ds' (mshape z) /\
  forall is js, inr is ds' -> inr js ds' -> dm_of m z is js = traced ds (fst w) (snd w) rho is js.

Lemma reduction_reduced (x z : ltens K) w : two_legs (mshape x) -> is_reduction x w z ->
  is_reduced MPmps (leg1 (mshape x)) (dm_of MPmps x) w z.
Proof.
  intros H2 (Hz & Lz & Tz & Ez & _ & Nz). split; [apply Hz|]. split; [split; [exact Ez|exact Tz]|].
  intros is js Hi Hj. rewrite <- Ez in Hi, Hj. exact (Nz is js Hi Hj).
Qed.

Section QR.
Variable qr : nd K -> res (nd K * nd K).
Hypothesis Hqr : qr_sound qr.

Theorem reductions_spec (x : ltens K) m ds ws : mpa_pos x -> cform_wk x -> canon_true x -> legs_of m ds (mshape x) ->
  Forall (win_ok (llen x)) ws ->
  outc (qr_fails qr) (reductions qr x m None (Some (map Z.of_nat (map fst ws))) (Some (map Z.of_nat (map snd ws))))
    (fun p => Forall2 (is_reduced (snd p) ds (dm_of m x)) ws (fst p)).
Proof.
  intros Hx Hc Ht Hl Hw. destruct m; cbn [legs_of] in Hl; cbn [reductions]; [| | |contradiction].
  - assert (H1 : one_leg (mshape x)) by (unfold one_leg; rewrite Hl; apply Forall_forall; intros p Hp; apply in_map_iff in Hp; destruct Hp as (d & <- & _); reflexivity).
    assert (E1 : leg1 (mshape x) = ds) by (unfold leg1; rewrite Hl, map_map; cbn; apply map_id).
    eapply outc_bind; [exact (mps_as_pmps_spec qr Hqr x ws Hx H1 Hw)|]. intros zs Hzs. apply outc_ok. cbn [fst snd].
    clear - Hx H1 Hw Hzs E1.
    induction Hzs as [|w z ws zs (p & Ep & Hr) Hzs IH]; [constructor|].
    apply Forall_cons_iff in Hw. destruct Hw as [Hw Hws]. constructor; [|exact (IH Hws)].
    destruct (mps_to_pmps_spec x (proj1 Hx) H1) as (p' & Ep' & Hp & Mp & _). rewrite Ep in Ep'. injection Ep' as <-.
    assert (T2 : two_legs (mshape p)) by (rewrite Mp; apply two_legs_pad).
    destruct (reduction_reduced p z w T2 Hr) as (Hz & Lz & Nz). rewrite Mp, leg1_pad, E1 in Lz, Nz.
    split; [exact Hz|]. split; [exact Lz|]. intros is js Hi Hj. rewrite Nz by auto.
    unfold traced. apply msum_ext. intros ks Hk. apply msum_ext. intros ms Hms. destruct w as [s e]. unfold win_ok in Hw. cbn [fst snd] in *.
    assert (Ld : length ds = llen x) by (rewrite <- E1; unfold leg1; rewrite map_length; apply mshape_length).
    apply (dmat_mps x p); auto; [apply Hx| |]; rewrite E1; apply (inr_window _ s e); auto; lia.
  - destruct Hl as [E1 H2]. unfold reductions_pmps. rewrite windows_stops. cbn [bind].
    eapply outc_bind; [exact (red_pmps_loop_spec qr Hqr ws x Hx Hc Ht H2 Hw)|]. intros [zs y] (A & _). apply outc_ok. cbn [fst snd] in *.
    eapply Forall2_weaken; [|exact A]. intros w z Hz. rewrite <- E1. apply reduction_reduced; auto.
  - assert (H2 : two_legs (mshape x)) by (unfold two_legs; rewrite Hl; apply Forall_forall; intros p Hp; apply in_map_iff in Hp; destruct Hp as (d & <- & _); reflexivity).
    destruct (reductions_mpo_spec x None (Some (map Z.of_nat (map fst ws))) (Some (map Z.of_nat (map snd ws))) ws (proj1 Hx) H2 (windows_stops _ ws) Hw) as (zs & Ez & A).
    rewrite Ez. cbn [bind]. apply outc_ok. cbn [fst snd]. eapply Forall2_weaken; [|exact A].
    intros w z (Hz & Mz & _ & _ & Nz). assert (Mz' : mshape z = map (fun d => [d; d]) (firstn (snd w - fst w) (skipn (fst w) ds)))
      by (rewrite Mz, Hl, skipn_map, firstn_map; reflexivity).
    split; [exact Hz|]. split; [exact Mz'|]. intros is js Hi Hj. cbn [dm_of].
    rewrite Nz by (rewrite Mz'; apply pairs_valid_sq; auto). rewrite Hl, diagd_dd. unfold traced.
    apply msum_ext. intros ks Hk. apply msum_ext. intros ms Hms.
    assert (Li : length is = length js) by (rewrite (inr_length _ _ Hi), (inr_length _ _ Hj); reflexivity).
    cbn [dm_of]. rewrite !pairs_app; auto; rewrite !app_length; lia.
Qed.
Lemma reductions_mode (x : ltens K) m width starts stops p : reductions qr x m width starts stops = Ok p ->
  snd p = match m with MMpdo => MMpdo | _ => MPmps end.
Proof.
  destruct m; cbn [reductions]; intros E; [| | |discriminate E];
    match type of E with bind ?t _ = _ => destruct t; cbn [bind] in E; [injection E as <-; reflexivity|discriminate E] end.
Qed.
End QR.
End RedMode.
