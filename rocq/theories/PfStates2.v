(** Reductions as MPOs, reductions of an MPS, and the MPS/PMPS round trip. *)
From Verif Require Export PfRedMpo PfRedSup PfDm.

Section States2.
Context {K : StarRing}.
Add Ring Kr : (k_ring K).

Lemma state_after (x y : ltens K) : mpa_pos x -> canon_true x -> sim 1 1 x y ->
  mpa_pos y /\ mshape y = mshape x /\ to_array y = to_array x /\ canon_true y.
Proof. intros Hx Ht S. destruct (sim_dense x y (proj1 Hx) S) as (A & B & _ & D & E & _). auto. Qed.

Lemma entry_ext (x y : ltens K) : mpa_ok x -> mpa_ok y -> mshape x = mshape y ->
  (forall is, valid_idx is (mshape x) -> entry x is = entry y is) -> to_array x = to_array y.
Proof.
  intros Hx Hy E H. apply to_array_eq; auto. intros is Hi. specialize (H is Hi). rewrite !entry_amp in H; auto. unfold valid_idx. rewrite <- E. exact Hi.
Qed.

Lemma valid_pairs ds : forall is, Forall2 inr is (map (fun d => [d; d]) ds) -> exists js ks, is = pairs js ks /\ inr js ds /\ inr ks ds.
Proof.
  induction ds as [|d ds IH]; intros is H; cbn [map] in H.
  - inversion H; subst. exists [], []. repeat split; constructor.
  - inversion H as [|i p is' ps Hi Hr]; subst. destruct (IH _ Hr) as (js & ks & -> & Hj & Hk).
    apply inr_cons_inv in Hi. destruct Hi as (j & ? & -> & Hj' & X). apply inr_cons_inv in X. destruct X as (k & ? & -> & Hk' & X). inversion X; subst.
    exists (j :: js), (k :: ks). split; [reflexivity|]. split; apply inr_cons; auto.
Qed.

Lemma reduction_to_mpo (x z : ltens K) s e : is_reduction x (s, e) z ->
  exists m, pmps_to_mpo z = Ok m /\ mpa_ok m /\ mshape m = map (fun d => [d; d]) (firstn (e - s) (skipn s (leg1 (mshape x)))) /\
    forall is js, inr is (leg1 (mshape z)) -> inr js (leg1 (mshape z)) -> entry m (pairs is js) = dm_reduced x s e is js.
Proof.
  intros (Hp & _ & H2 & E1 & _ & N). cbn [fst snd] in *.
  destruct (pmps_to_mpo_spec z (proj1 Hp) H2) as (m & Em & Hm & Mm & _ & _ & Nm). exists m. split; [exact Em|]. split; [exact Hm|].
  split; [rewrite Mm, E1; reflexivity|]. intros is js Hi Hj. rewrite Nm by auto. apply N; auto.
Qed.

Lemma diagd_dd ds : diagd (map (fun d => [d; d]) ds) = ds.
Proof. induction ds as [|d ds IH]; [reflexivity|]. cbn [map diagd nth]. unfold diagd in IH. rewrite IH. f_equal. lia. Qed.
Lemma inr_firstn_len n ds ks : inr ks (firstn n ds) -> n <= length ds -> length ks = n.
Proof. intros H Hn. apply inr_length in H. rewrite firstn_length in H. lia. Qed.
Lemma inr_window (ds : list nat) s e ks is ms : s <= e -> inr ks (firstn s ds) -> inr is (firstn (e - s) (skipn s ds)) -> inr ms (skipn e ds) ->
  inr (ks ++ is ++ ms) ds.
Proof.
  intros Hse Hk Hi Hm. rewrite <- (firstn_skipn s ds). apply Forall2_app; [exact Hk|].
  rewrite <- (firstn_skipn (e - s) (skipn s ds)). apply Forall2_app; [exact Hi|]. rewrite skipn_add. replace (e - s + s) with e by lia.
  first [exact Hm | replace (s + (e - s)) with e by lia; exact Hm].
Qed.
Lemma ptrace_mpo (x M m : ltens K) s e : mpa_ok x -> two_legs (mshape x) -> s < e <= llen x ->
  pmps_to_mpo x = Ok M -> is_ptrace M (s, e) m ->
  mpa_ok m /\ mshape m = map (fun d => [d; d]) (firstn (e - s) (skipn s (leg1 (mshape x)))) /\
  forall is js, let ds := firstn (e - s) (skipn s (leg1 (mshape x))) in inr is ds -> inr js ds -> entry m (pairs is js) = dm_reduced x s e is js.
Proof.
  intros Hx H2 Hse EM (Hm & Mm & _ & _ & N). cbn [fst snd] in *.
  destruct (pmps_to_mpo_spec x Hx H2) as (M' & EM' & HM & MM & _ & _ & NM). rewrite EM in EM'. injection EM' as <-.
  split; [exact Hm|]. rewrite MM in Mm, N. rewrite diagd_dd in N. rewrite skipn_map, firstn_map in Mm. split; [exact Mm|].
  intros is js. set (ds := leg1 (mshape x)) in *. cbv zeta. intros Hi Hj.
  rewrite N.
  - apply msum_ext. intros ks Hk. apply msum_ext. intros ms Hms.
    rewrite <- NM.
    + f_equal. rewrite pairs_app by reflexivity. f_equal. symmetry. apply pairs_app. apply inr_length in Hi, Hj. congruence.
    + apply (inr_window ds s e); auto; lia.
    + apply (inr_window ds s e); auto; lia.
  - unfold valid_idx. rewrite Mm. clear - Hi Hj. revert is js Hi Hj. generalize (firstn (e - s) (skipn s ds)). induction l as [|d l IH]; intros is js Hi Hj.
    + inversion Hi; inversion Hj; subst. constructor.
    + apply inr_cons_inv in Hi. destruct Hi as (i & is' & -> & Hi & Hi'). apply inr_cons_inv in Hj. destruct Hj as (j & js' & -> & Hj & Hj').
      cbn. constructor; [apply inr_cons; [exact Hi|apply inr_cons; [exact Hj|constructor]]|apply IH; auto].
Qed.

Lemma reduction_agrees (x z M m' : ltens K) s e : mpa_ok x -> two_legs (mshape x) -> s < e <= llen x ->
  is_reduction x (s, e) z -> pmps_to_mpo x = Ok M -> reductions_mpo M None (Some [Z.of_nat s]) (Some [Z.of_nat e]) = Ok [m'] ->
  exists m, pmps_to_mpo z = Ok m /\ mshape m = mshape m' /\ to_array m = to_array m'.
Proof.
  intros Hx H2 Hse Hr EM Em'. destruct (reduction_to_mpo x z s e Hr) as (m & Em & Hm & Mm & Nm).
  destruct (pmps_to_mpo_spec x Hx H2) as (M' & EM' & HM & MM & _ & _ & NM). rewrite EM in EM'. injection EM' as <-.
  assert (LM : llen M = llen x) by (rewrite <- !mshape_length, MM; unfold leg1; rewrite !map_length; reflexivity).
  destruct (reductions_mpo_spec M None (Some [Z.of_nat s]) (Some [Z.of_nat e]) [(s, e)] HM) as (zs & Ezs & Fzs).
  - rewrite MM. unfold two_legs. apply Forall_forall. intros p Hp. apply in_map_iff in Hp. destruct Hp as (d & <- & _). reflexivity.
  - reflexivity.
  - constructor; [|constructor]. unfold win_ok. cbn [fst snd]. lia.
  - rewrite Em' in Ezs. injection Ezs as <-. inversion Fzs as [|? ? ? ? Hpt _]; subst.
    destruct (ptrace_mpo x M m' s e Hx H2 Hse EM Hpt) as (Hm' & Mm' & Nm').
    exists m. split; [exact Em|]. split; [congruence|]. apply entry_ext; auto; [congruence|].
    intros is Hi. unfold valid_idx in Hi. rewrite Mm in Hi. destruct (valid_pairs _ _ Hi) as (js & ks & -> & Hj & Hk).
    destruct Hr as (_ & _ & _ & E1 & _). cbn [fst snd] in E1.
    rewrite Nm, Nm' by (rewrite ?E1; auto). reflexivity.
Qed.

(** ** Reductions of an MPS *)
Definition mps_reduction (x : ltens K) (w : nat * nat) (m : ltens K) : Prop :=
  let s := fst w in let e := snd w in let ds := leg1 (mshape x) in
  mpa_ok m /\ mshape m = map (fun d => [d; d]) (firstn (e - s) (skipn s ds)) /\
  forall is js, inr is (firstn (e - s) (skipn s ds)) -> inr js (firstn (e - s) (skipn s ds)) ->
    entry m (pairs is js) = msum (firstn s ds) (fun ks => msum (skipn e ds) (fun ms =>
      entry x (singles (ks ++ is ++ ms)) * kconj (entry x (singles (ks ++ js ++ ms)))))%K.

Lemma leg1_pad ds : leg1 (map (fun d => [d; 1]) ds) = ds.
Proof. unfold leg1. rewrite map_map. cbn. apply map_id. Qed.
Lemma two_legs_pad ds : two_legs (map (fun d => [d; 1]) ds).
Proof. unfold two_legs. apply Forall_forall. intros p Hp. apply in_map_iff in Hp. destruct Hp as (d & <- & _). reflexivity. Qed.
Lemma dmat_mps (x p : ltens K) is js : mpa_ok x -> one_leg (mshape x) -> mps_to_pmps x = Ok p ->
  inr is (leg1 (mshape x)) -> inr js (leg1 (mshape x)) -> dmat p is js = (entry x (singles is) * kconj (entry x (singles js)))%K.
Proof.
  intros Hx H1 Ep Hi Hj. destruct (mps_to_mpo_spec x Hx H1) as (z & Ez & _ & _ & _ & Nz). rewrite <- Nz by auto.
  destruct (mps_to_pmps_spec x Hx H1) as (p' & Ep' & Hp & Mp & _). rewrite Ep in Ep'. injection Ep' as <-.
  destruct (pmps_to_mpo_spec p Hp) as (z' & Ez' & _ & _ & _ & _ & Nz'); [rewrite Mp; apply two_legs_pad|].
  unfold mps_to_mpo in Ez. rewrite Ep in Ez. cbn [bind] in Ez. rewrite Ez in Ez'. injection Ez' as <-.
  rewrite Nz'; [reflexivity| |]; rewrite Mp, leg1_pad; auto.
Qed.

Section QR.
Variable qr : nd K -> res (nd K * nd K).
Hypothesis Hqr : qr_sound qr.

Lemma full_canon (z : ltens K) : mpa_ok z -> canonical_form z = (0%Z, Z.of_nat (llen z)) -> cform_wk z /\ canon_true z.
Proof.
  intros Hz E. injection E as E1 E2. split; [split; rewrite ?E1, ?E2; lia|]. unfold canon_true. rewrite E1, E2.
  split; intros k Hk Hl; lia.
Qed.

Theorem mps_as_pmps_spec (x : ltens K) ws : mpa_pos x -> one_leg (mshape x) -> Forall (win_ok (llen x)) ws ->
  outc (qr_fails qr) (reductions_mps_as_pmps qr x None (Some (map Z.of_nat (map fst ws))) (Some (map Z.of_nat (map snd ws))))
    (fun zs => Forall2 (fun w z => exists p, mps_to_pmps x = Ok p /\ is_reduction p w z) ws zs).
Proof.
  intros Hx H1 Hw. destruct (mps_to_pmps_spec x (proj1 Hx) H1) as (p & Ep & Hp & Mp & _ & Cp & _ & Pp).
  unfold reductions_mps_as_pmps. rewrite Ep. cbn [bind].
  assert (Lp : llen p = llen x) by (rewrite <- !mshape_length, Mp; unfold leg1; rewrite !map_length; reflexivity).
  destruct (full_canon p Hp) as [Wp Tp]; [rewrite Cp, Lp; reflexivity|].
  unfold reductions_pmps. rewrite windows_stops. cbn [bind].
  eapply outc_bind; [apply (red_pmps_loop_spec qr Hqr ws p); auto|].
  - rewrite Mp. apply two_legs_pad.
  - rewrite Lp. exact Hw.
  - intros [zs y] (A & _ & _). cbn [fst] in *. apply outc_ok. eapply Forall2_weaken; [|exact A]. intros w z Hz. exists p. auto.
Qed.
Theorem mps_as_mpo_spec (x : ltens K) ws : mpa_pos x -> one_leg (mshape x) -> Forall (win_ok (llen x)) ws ->
  outc (qr_fails qr) (reductions_mps_as_mpo qr x None (Some (map Z.of_nat (map fst ws))) (Some (map Z.of_nat (map snd ws))))
    (fun ms => Forall2 (mps_reduction x) ws ms).
Proof.
  intros Hx H1 Hw. unfold reductions_mps_as_mpo. eapply outc_bind; [apply mps_as_pmps_spec; auto|].
  intros zs Hzs. cbn beta in Hzs.
  assert (G : exists ms, mapM pmps_to_mpo zs = Ok ms /\ Forall2 (mps_reduction x) ws ms).
  { clear - Hx H1 Hw Hzs. induction Hzs as [|w z ws zs (p & Ep & Hr) Hzs IH]; [exists []; split; [reflexivity|constructor]|].
    apply Forall_cons_iff in Hw. destruct Hw as [Hw Hws]. destruct (IH Hws) as (ms & Em & Fm).
    destruct w as [s e]. destruct (reduction_to_mpo p z s e Hr) as (m & Ez & Hm & Mm & Nm).
    exists (m :: ms). split; [cbn [mapM]; rewrite Ez; cbn [bind]; rewrite Em; reflexivity|]. constructor; [|exact Fm].
    destruct (mps_to_pmps_spec x (proj1 Hx) H1) as (p' & Ep' & Hp & Mp & _). rewrite Ep in Ep'. injection Ep' as <-.
    rewrite Mp, leg1_pad in Mm. destruct Hr as (_ & _ & _ & E1 & _). cbn [fst snd] in E1. rewrite Mp, leg1_pad in E1.
    split; [exact Hm|]. split; [exact Mm|]. cbn [fst snd]. intros is js Hi Hj. rewrite Nm by (rewrite E1; auto).
    unfold win_ok in Hw. cbn [fst snd] in Hw. unfold dm_reduced. rewrite Mp, leg1_pad. apply msum_ext. intros ks Hk. apply msum_ext. intros ms' Hms.
    apply dmat_mps; auto; [apply Hx| |]; apply (inr_window _ s e); auto; lia. }
  destruct G as (ms & Em & Fm). rewrite Em. apply outc_ok. exact Fm.
Qed.
End QR.

Lemma leg2_pad ds : Forall (fun c => c = 1) (leg2 (map (fun d => [d; 1]) ds)).
Proof. unfold leg2. rewrite map_map. cbn. apply Forall_forall. intros c Hc. apply in_map_iff in Hc. destruct Hc as (d & <- & _). reflexivity. Qed.
Lemma mps_pmps_roundtrip (x : ltens K) : mpa_ok x -> one_leg (mshape x) ->
  exists p z, mps_to_pmps x = Ok p /\ pmps_to_mps p = Ok z /\ mshape z = mshape x /\ ranks z = ranks x /\ to_array z = to_array x.
Proof.
  intros Hx H1. destruct (mps_to_pmps_spec x Hx H1) as (p & Ep & Hp & Mp & Rp & Cp & Np & _).
  assert (Lp : llen p = llen x) by (rewrite <- !mshape_length, Mp; unfold leg1; rewrite !map_length; reflexivity).
  assert (C : cform_ok p).
  { injection Cp as E1 E2. assert (0 < llen x) by (destruct Hx as [Hne _]; unfold llen; destruct (lts x); [congruence|cbn; lia]).
    unfold cform_ok, cf_ok. rewrite E1, E2. fold (llen p). lia. }
  destruct (pmps_to_mps_spec p Hp C) as (z & Ez & Hz & Mz & Rz & _ & _ & Nz); [rewrite Mp; apply two_legs_pad|rewrite Mp; apply leg2_pad|].
  rewrite Mp, leg1_pad in Mz, Nz. rewrite <- one_leg_singles in Mz by exact H1.
  exists p, z. split; [exact Ep|]. split; [exact Ez|]. split; [exact Mz|]. split; [congruence|].
  apply entry_ext; auto. intros is Hi. unfold valid_idx in Hi. rewrite Mz in Hi.
  assert (Es : exists js, is = singles js /\ inr js (leg1 (mshape x))).
  { clear - Hi H1. revert is Hi. induction (mshape x) as [|q ps IH]; intros is Hi; [inversion Hi; exists []; split; [reflexivity|constructor]|].
    inversion Hi as [|i q' is' ps' Hi1 Hi2]; subst. apply Forall_cons_iff in H1. destruct H1 as [Hq H1]. destruct (IH H1 _ Hi2) as (js & -> & Hj).
    destruct q as [|d [|]]; try discriminate. apply inr_cons_inv in Hi1. destruct Hi1 as (j & ? & -> & Hj1 & X). inversion X; subst.
    exists (j :: js). split; [reflexivity|]. cbn. apply inr_cons; auto. }
  destruct Es as (js & -> & Hj). rewrite Nz by exact Hj. apply Np; [exact Hj|].
  clear - Hj. apply inr_length in Hj. unfold leg1 in Hj. rewrite map_length in Hj. revert Hj. generalize (mshape x). induction js; intros [|q l] L; cbn in *; try lia; [constructor|].
  apply inr_cons; [lia|apply IHjs; lia].
Qed.
End States2.
