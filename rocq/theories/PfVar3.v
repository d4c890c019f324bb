(** [_adapt_to]: fresh environments, projections and the returned number. *)
From Verif Require Export PfVar2.
From Verif Require Import PfCanon PfBounds PfUpdate PfFromArray PfCompress.
Open Scope nat_scope.

Section Var.
Context {K : StarRing}.
Add Ring Kr : (k_ring K).
Variable qr : nd K -> res (nd K * nd K).
Variable svd : nd K -> res (nd K * list K * nd K).

Definition a_ladd (w : ltens K) (k : nat) (e t : nd K) : res (nd K) := do a <- pyget (lts w) (Z.of_nat k); adapt_add_l e t a.
Definition a_radd (w : ltens K) (k : nat) (e t : nd K) : res (nd K) := do a <- pyget (lts w) (Z.of_nat k); adapt_add_r e t a.
Definition a_solve (w : ltens K) (v mr pos : nat) (l : nd K) (ts : list (nd K)) (r : nd K) : res (unit * list (nd K)) :=
  do us <- adapt_new_lten qr svd l (pyslice (lts w) (Z.of_nat pos) (Z.of_nat (pos + v))) r mr; Ok (tt, us).

(** ** The window *)
Section Win.
Variables (ds : list nat) (x : ltens K) (pos v : nat) (X1 X2 X3 : list (nd K)) (d1 d2 d3 : list nat) (la ra : nat).
Hypothesis W : window ds x pos v X1 X2 X3 d1 d2 d3 la ra.
Hypothesis Hv : 1 <= v.

Lemma adapt_window (w : ltens K) : chain_ok (lts w) 1 1 -> mps_like (lts w) ds ->
  exists l r, lenv (nd K) (a_ladd w) (np_ones 2) (lts x) pos = Ok l /\ renv (nd K) (length ds) v (a_radd w) (np_ones 2) (lts x) pos = Ok r /\
    forall mr, adapt_new_lten qr svd l (pyslice (lts w) (Z.of_nat pos) (Z.of_nat (pos + v))) r mr =
      split_t qr svd v mr (proj_t d1 d2 d3 la ra X1 X3 (state w)).
Proof.
  intros (_ & B & P) M. destruct (mps_window w _ _ _ _ _ _ _ _ _ _ _ _ W B M) as (W1 & W2 & W3 & lw & rw & Ew & M1 & M2 & M3 & B1 & B2 & B3 & L1 & L2).
  destruct (win_len _ _ _ _ _ _ _ _ _ _ _ _ W Hv) as [Hle Hlen]. destruct W as [wx wd l1 l2 e1 e2 m1 m2 m3 b1 b2 b3 p1 p2 p3 ne].
  assert (F1 : Forall2 site_s W1 X1) by (apply site_s_like; exists d1; auto).
  assert (F3 : Forall2 site_s W3 X3) by (apply site_s_like; exists d3; auto).
  destruct (lenv_a X1 W1 (W2 ++ W3) (X2 ++ X3) lw la B1 b1 F1) as (l & El & Wl & Sl & Gl).
  destruct (renv_a X3 (length ds) v (W1 ++ W2) (X1 ++ X2) W3 rw ra pos Hv ltac:(lia) B3 b3 F3) as (r & Er & Wr & Sr & Gr);
    [rewrite app_length; lia|rewrite app_length; lia|rewrite app_length; lia|].
  rewrite <- !app_assoc in Er. exists l, r. rewrite wx. unfold a_ladd, a_radd, state. rewrite Ew.
  split; [rewrite <- l1; exact El|]. split; [exact Er|]. intros mr.
  rewrite (pyslice_mid _ W1 W2 W3) by lia. rewrite <- L2.
  apply (new_lten_proj qr svd W1 W2 W3 X1 X3 d1 d2 d3 lw rw la ra l r mr); auto.
  split; [destruct W2; [cbn in L2; lia|discriminate]|]. split; [exact B2|].
  rewrite Ew in P. unfold PfCanon.pos in *. rewrite !Forall_app in P. tauto.
Qed.
Lemma proj_window T mr : proj_locl qr svd ds T v mr x pos = do us <- split_t qr svd v mr (proj_t d1 d2 d3 la ra X1 X3 T); Ok (tt, us).
Proof.
  unfold proj_locl. destruct W as [wx wd l1 l2 e1 e2 m1 m2 m3 b1 b2 b3 p1 p2 p3 ne].
  destruct (ins_mid X1 X2 X3 pos v l1 l2) as (A1 & A2 & A3). destruct (ins_mid d1 d2 d3 pos v e1 e2) as (D1 & D2 & D3).
  rewrite wx, wd, A1, A2, A3, D1, D2, D3. rewrite (bond_l_bonds X2 la ra ne b2), (bond_r_bonds X2 la ra ne b2). reflexivity.
Qed.
End Win.

Lemma adapt_fresh_locl ds (w x : ltens K) pos v mr : chain_ok (lts w) 1 1 -> mps_like (lts w) ds -> mps_inv ds x -> 1 <= v -> pos + v <= length ds ->
  fresh_locl (nd K) unit (length ds) v (a_ladd w) (a_radd w) (a_solve w v mr) (np_ones 2) x pos = proj_locl qr svd ds (state w) v mr x pos.
Proof.
  intros C M Hx Hv Hp. destruct (window_ex ds x pos v Hx Hv Hp) as (X1 & X2 & X3 & d1 & d2 & d3 & la & ra & W).
  destruct (adapt_window _ _ _ _ _ _ _ _ _ _ _ _ W Hv w C M) as (l & r & El & Er & En).
  unfold fresh_locl. rewrite El, Er. cbn [bind]. unfold a_solve. rewrite En. rewrite (proj_window _ _ _ _ _ _ _ _ _ _ _ _ W). reflexivity.
Qed.

Hypothesis Hqr : qr_sound qr.
Hypothesis Hsvd : svd_sound svd.
Notation F := (FQS svd (truncated_svd svd) qr).

(** ** The invariant of the sweeps *)
Definition ad_ok (ds : list nat) (v mr pos : nat) (x : ltens K) : Prop :=
  mps_inv ds x /\ cform_ok x /\ canon_true x /\ (Z.of_nat pos <= lcan x)%Z /\ (rcan x <= Z.of_nat (pos + v))%Z /\ Forall (fun k => k <= mr) (ranks x).

Lemma Forall2_le_Forall mr l l' : Forall2 le l l' -> Forall (fun k => k <= mr) l' -> Forall (fun k => k <= mr) l.
Proof. induction 1; intros Hf; inversion Hf; subst; constructor; auto; lia. Qed.

Lemma ad_canon_left ds v mr x pos : 1 <= v -> v <= length ds -> ad_ok ds v mr pos x -> S pos <= length ds - v ->
  outc F (canonicalize qr x (CAInt (Z.of_nat (S pos))) CANone) (ad_ok ds v mr (S pos)).
Proof.
  intros Hv Hn (I & Cf & Ct & Hl & Hr & Rk) Hp. pose proof I as (C & M & Wk). pose proof (mps_inv_len _ _ I) as L.
  pose proof (canonicalize_spec qr Hqr 1 1 x (CAInt (Z.of_nat (S pos))) CANone C Wk ltac:(intros [? ?]; discriminate)) as H.
  cbn zeta in H. unfold left_target, right_target, llen in H. rewrite L in H. destruct (Z.ltb_spec (Z.of_nat (S pos)) 0); [lia|].
  eapply outc_weaken; [apply H; lia|intros Hf; left; exact Hf|]. cbn beta. intros z (S & Wz & Cz & El & Er).
  unfold cform_wk, llen in Wk. rewrite L in Wk.
  split; [apply (sim_inv ds x z I S Wz)|]. split; [auto|]. split; [apply S; exact Ct|].
  split; [|split; [|eapply Forall2_le_Forall; [apply S|exact Rk]]].
  - destruct (Z.ltb_spec (Z.of_nat (length ds)) (rcan x)); lia.
  - destruct (Z.ltb_spec (Z.of_nat (length ds)) (rcan x)); [lia|]. destruct (lcan x <? _)%Z; lia.
Qed.
Lemma ad_canon_right ds v mr x pos : 1 <= v -> v <= length ds -> ad_ok ds v mr (S pos) x -> S pos <= length ds - v ->
  outc F (canonicalize qr x CANone (CAInt (Z.of_nat (pos + v)))) (ad_ok ds v mr pos).
Proof.
  intros Hv Hn (I & Cf & Ct & Hl & Hr & Rk) Hp. pose proof I as (C & M & Wk). pose proof (mps_inv_len _ _ I) as L.
  pose proof (canonicalize_spec qr Hqr 1 1 x CANone (CAInt (Z.of_nat (pos + v))) C Wk ltac:(intros [? ?]; discriminate)) as H.
  cbn zeta in H. unfold left_target, right_target, llen in H. rewrite L in H. destruct (Z.ltb_spec (Z.of_nat (pos + v)) 0); [lia|].
  eapply outc_weaken; [apply H; lia|intros Hf; left; exact Hf|]. cbn beta. intros z (S & Wz & Cz & El & Er).
  unfold cform_wk, llen in Wk. rewrite L in Wk.
  split; [apply (sim_inv ds x z I S Wz)|]. split; [auto|]. split; [apply S; exact Ct|].
  split; [|split; [|eapply Forall2_le_Forall; [apply S|exact Rk]]].
  - rewrite El. destruct (Z.ltb_spec (Z.of_nat (pos + v)) (rcan x)); lia.
  - rewrite Er. destruct (Z.ltb_spec (Z.of_nat (pos + v)) (rcan x)); [lia|]. destruct (Z.ltb_spec (lcan x) 0); lia.
Qed.
(** The start. *)
Lemma ad_canon_start ds v mr x : 1 <= v -> v <= length ds -> mps_inv ds x -> cform_ok x -> canon_true x -> Forall (fun k => k <= mr) (ranks x) ->
  outc F (canonicalize qr x CANone (CAInt 1)) (fun z => ad_ok ds v mr 0 z /\ (rcan z <= 1)%Z /\ Forall2 le (ranks z) (ranks x)).
Proof.
  intros Hv Hn I Cf Ct Rk. pose proof I as (C & M & Wk). pose proof (mps_inv_len _ _ I) as L.
  pose proof (canonicalize_spec qr Hqr 1 1 x CANone (CAInt 1) C Wk ltac:(intros [? ?]; discriminate)) as H.
  cbn zeta in H. unfold left_target, right_target, llen in H. rewrite L in H. destruct (Z.ltb_spec 1 0); [lia|].
  eapply outc_weaken; [apply H; lia|intros Hf; left; exact Hf|]. cbn beta. intros z (S & Wz & Cz & El & Er).
  unfold cform_wk, llen in Wk. rewrite L in Wk.
  assert (R1 : (rcan z <= 1)%Z) by (rewrite Er; destruct (Z.ltb_spec 1 (rcan x)); [lia|]; destruct (Z.ltb_spec (lcan x) 0); lia).
  split; [|split; [exact R1|apply S]].
  split; [apply (sim_inv ds x z I S Wz)|]. split; [auto|]. split; [apply S; exact Ct|].
  split; [|split; [|eapply Forall2_le_Forall; [apply S|exact Rk]]].
  - rewrite El. destruct (Z.ltb_spec 1 (rcan x)); lia.
  - lia.
Qed.

(** The isometries around the window. *)
Lemma ad_iso ds v mr pos (x : ltens K) X1 X2 X3 d1 d2 d3 la ra : ad_ok ds v mr pos x -> window ds x pos v X1 X2 X3 d1 d2 d3 la ra ->
  Forall left_iso X1 /\ Forall right_iso X3.
Proof.
  intros (_ & _ & (Tl & Tr) & Hl & Hr & _) W. destruct W as [wx wd l1 l2 e1 e2 m1 m2 m3 b1 b2 b3 p1 p2 p3 ne].
  unfold llen in *. rewrite wx in Tl, Tr. split.
  - apply Forall_nth. intros k d Hk. rewrite (nth_indep X1 d dummy Hk). rewrite <- (app_nth1 X1 (X2 ++ X3) dummy Hk).
    apply Tl; [lia|]. rewrite app_length. lia.
  - apply Forall_nth. intros k d Hk. rewrite (nth_indep X3 d dummy Hk).
    specialize (Tr (length X1 + (length X2 + k))). rewrite app_nth2_plus, app_nth2_plus in Tr. apply Tr; [lia|]. rewrite !app_length. lia.
Qed.

(** ** One local update *)
Lemma proj_t_shape ds (x : ltens K) pos v X1 X2 X3 d1 d2 d3 la ra T : window ds x pos v X1 X2 X3 d1 d2 d3 la ra ->
  let t := proj_t d1 d2 d3 la ra X1 X3 T in
  shp t = la :: d2 ++ [ra] /\ ndwf t /\ 0 < size (shp t).
Proof.
  intros W. destruct (window_size _ _ _ _ _ _ _ _ _ _ _ _ W) as (Sz & _). cbn zeta. unfold proj_t.
  split; [reflexivity|]. split; [apply wf_tab|]. cbn [shp tab]. rewrite size_cons, size_app. unfold size at 2. cbn. nia.
Qed.
Lemma ranks_mid (X1 us X3 : list (nd K)) X2 mr la ra cl cr cl' cr' : X2 <> [] -> us <> [] -> bonds X2 la ra -> bonds us la ra ->
  Forall (fun k => k <= mr) (ranks (mkLt (X1 ++ X2 ++ X3) cl cr)) -> Forall (fun k => k <= mr) (map ldim (tl us)) ->
  Forall (fun k => k <= mr) (ranks (mkLt (X1 ++ us ++ X3) cl' cr')).
Proof.
  intros N2 Nu B2 Bu H Hu. unfold ranks in *. cbn [lts] in *.
  destruct X2 as [|x2 X2]; [contradiction|]. destruct us as [|u us]; [contradiction|]. cbn [tl] in Hu.
  destruct B2 as (_ & E2 & _). destruct Bu as (_ & Eu & _).
  destruct X1 as [|x1 X1]; cbn [app tl] in *.
  - rewrite map_app, Forall_app in *. tauto.
  - rewrite map_app, Forall_app in *. destruct H as [H1 H]. split; [exact H1|]. cbn [app map] in *. inversion H as [|? ? H2 H3]; subst.
    constructor; [lia|]. rewrite map_app, Forall_app in *. tauto.
Qed.

Lemma update_ad ds v mr pos x X1 X2 X3 d1 d2 d3 la ra us : 1 <= v -> ad_ok ds v mr pos x -> window ds x pos v X1 X2 X3 d1 d2 d3 la ra ->
  chain_ok us la ra -> mps_like us d2 -> Forall (fun k => k <= mr) (map ldim (tl us)) ->
  exists z, lt_update_slice x (mkSlice (Some (Z.of_nat pos)) (Some (Z.of_nat (pos + v))) None) us (COne None) = Ok z /\
    ad_ok ds v mr pos z /\ lts z = X1 ++ us ++ X3.
Proof.
  intros Hv (I & Cf & Ct & Hl & Hr & Rk) W Cu Mu Ru. pose proof W as [wx wd l1 l2 e1 e2 m1 m2 m3 b1 b2 b3 p1 p2 p3 ne].
  destruct x as [xs cl cr]. cbn [lts lcan rcan] in *. subst xs. pose proof I as ((Cn & Cb & Cp) & M & Wk). cbn [lts] in *.
  pose proof Cu as (Nu & Bu & Pu).
  assert (Lu : length us = length X2) by (apply mps_like_length in m2, Mu; congruence).
  destruct (update_slice_spec X1 X3 X2 us cl cr (COne None) (repeat None (length us)) la ra) as (z & E & Oz & Lz & Fz & Wz & Tz); auto.
  { split; [exact Cn|]. exact Cb. } { apply repeat_length. }
  rewrite l1 in E, Fz, Tz. rewrite l2 in E. rewrite <- Nat2Z.inj_add in E.
  rewrite upd_forms_none in Fz; [|lia|lia|lia]. injection Fz as Fl Fr.
  destruct (flags_none (K:=K) (length us) cl cr (Z.of_nat pos) us eq_refl) as [Hh Hs].
  destruct (window_update _ _ _ _ _ _ _ _ _ _ _ _ us z I W Cu Mu E) as [Iz _].
  exists z. split; [exact E|]. split; [|exact Lz].
  pose proof (mps_inv_len _ _ Iz) as Ln. rewrite wd, !app_length in Ln.
  split; [exact Iz|]. split; [unfold cform_ok, cf_ok, llen; lia|]. split; [apply Tz; auto|].
  split; [lia|]. split; [lia|].
  destruct z as [zs zl zr]. cbn [lts] in Lz. subst zs. exact (ranks_mid X1 us X3 X2 mr la ra cl cr zl zr ne Nu b2 Bu Rk Ru).
Qed.

(** After the update: the overlap with the target is the square of the norm. *)
Definition ad_Q (ds : list nat) (T : list nat -> K) (x : ltens K) : Prop := ip ds (state x) T = ip ds (state x) (state x).
Lemma proj_step ds T v mr s pos : 1 <= v -> v <= length ds -> 0 < mr -> ad_ok ds v mr pos (fst s) -> pos <= length ds - v ->
  outc F (g_local unit v (proj_locl qr svd ds T v mr) s pos) (fun s' => ad_ok ds v mr pos (fst s') /\ ad_Q ds T (fst s')).
Proof.
  intros Hv Hn Hm Hs Hp. destruct s as [x o]. cbn [fst] in *. pose proof Hs as (I & _).
  destruct (window_ex ds x pos v I Hv ltac:(lia)) as (X1 & X2 & X3 & d1 & d2 & d3 & la & ra & W).
  unfold g_local. cbn [fst]. rewrite (proj_window _ _ _ _ _ _ _ _ _ _ _ _ W).
  destruct (proj_t_shape _ _ _ _ _ _ _ _ _ _ _ _ T W) as (St & Wt & Pt). pose proof W as [wx wd l1 l2 e1 e2 m1 m2 m3 b1 b2 b3 p1 p2 p3 ne].
  pose proof (split_spec qr Hqr svd Hsvd _ la d2 ra v mr St Wt Pt e2 Hv Hm) as Sp.
  destruct Sp as [(us & Es & Cu & Mu & Ru & Ou & _)|[Es Hf]]; [|rewrite Es; right; split; [reflexivity|exact Hf]].
  rewrite Es. cbn [bind snd fst].
  destruct (update_ad ds v mr pos x X1 X2 X3 d1 d2 d3 la ra us Hv Hs W Cu Mu Ru) as (z & Ez & Az & Lz).
  rewrite Ez. cbn [bind]. apply outc_ok. cbn [fst]. split; [exact Az|].
  destruct (ad_iso ds v mr pos x X1 X2 X3 d1 d2 d3 la ra Hs W) as [I1 I3]. destruct Cu as (Nu & Bu & Pu).
  unfold ad_Q, state. rewrite Lz, wd.
  rewrite (ip_proj X1 us X3 d1 d2 d3 la ra T) by auto. rewrite (ip_window X1 us us X3 d1 d2 d3 la ra) by auto. rewrite <- Ou.
  apply msum_ext. intros r Hr. unfold proj_t. rewrite get_tab by exact Hr. reflexivity.
Qed.
(** With one site: the updated state is the orthogonal projection of the target. *)
Theorem proj_orth ds T mr x pos o s' y : ad_ok ds 1 mr pos x -> S pos <= length ds ->
  g_local unit 1 (proj_locl qr svd ds T 1 mr) (x, o) pos = Ok s' ->
  mpa_ok y -> mps_like (lts y) ds -> outside pos 1 x y ->
  outside pos 1 x (fst s') /\ ip ds (state y) (state (fst s')) = ip ds (state y) T.
Proof.
  intros Hs Hp E Hy My Hout. pose proof Hs as (I & _).
  destruct (window_ex ds x pos 1 I ltac:(lia) ltac:(lia)) as (X1 & X2 & X3 & d1 & d2 & d3 & la & ra & W).
  unfold g_local in E. cbn [fst] in E. rewrite (proj_window _ _ _ _ _ _ _ _ _ _ _ _ W) in E.
  destruct (proj_t_shape _ _ _ _ _ _ _ _ _ _ _ _ T W) as (St & Wt & Pt). pose proof W as [wx wd l1 l2 e1 e2 m1 m2 m3 b1 b2 b3 p1 p2 p3 ne].
  unfold split_t in E. cbn [Nat.eqb bind snd fst] in E. set (t := proj_t d1 d2 d3 la ra X1 X3 T) in *.
  destruct (lt_ok_shape t la d2 ra St Wt) as (Lo & Ll & Lp & Lr).
  assert (Cu : chain_ok [t] la ra) by (split; [discriminate|split; [cbn; auto|constructor; [exact Pt|constructor]]]).
  assert (Mu : mps_like [t] d2) by (unfold mps_like; change (map pdims [t]) with [pdims t]; rewrite Lp; destruct d2 as [|d [|]]; try discriminate; reflexivity).
  destruct (update_ad ds 1 mr pos x X1 X2 X3 d1 d2 d3 la ra [t] ltac:(lia) Hs W Cu Mu ltac:(constructor)) as (z & Ez & Az & Lz).
  rewrite Ez in E. cbn [bind] in E. injection E as <-. cbn [fst].
  destruct (ad_iso ds 1 mr pos x X1 X2 X3 d1 d2 d3 la ra Hs W) as [I1 I3].
  destruct (outside_window ds x y pos 1 X1 X2 X3 d1 d2 d3 la ra W Hy My Hout ltac:(lia)) as (ys & Ly & _ & Ny & Mys & By).
  destruct Cu as (Nu & Bu & Pu). split.
  - unfold outside, llen. rewrite wx, Lz. destruct (ins_mid X1 X2 X3 pos 1 l1 l2) as (A1 & _ & A3). destruct (ins_mid X1 [t] X3 pos 1 l1 eq_refl) as (B1' & _ & B3').
    rewrite A1, A3, B1', B3'. rewrite !app_length, l2. auto.
  - unfold state. rewrite Ly, Lz, wd. rewrite (ip_proj X1 ys X3 d1 d2 d3 la ra T) by auto. rewrite (ip_window X1 ys [t] X3 d1 d2 d3 la ra) by auto.
    apply msum_ext. intros r Hr. f_equal. change (ltens_to_array [t]) with t. unfold t, proj_t. rewrite get_tab by exact Hr. reflexivity.
Qed.
End Var.
