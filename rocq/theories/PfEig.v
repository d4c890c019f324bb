(** [eig] and [eig_sum] are sweeps with the compression of the dense operator to
    the window as local operator. *)
From Verif Require Export PfWindow.
From Verif Require Import PfCanon PfBounds PfUpdate PfFromArray PfCompress.
Open Scope nat_scope.

(** ** Specification *)
Section Spec.
Context {K : StarRing}.
Variable qr : nd K -> res (nd K * nd K).
Variable svd : nd K -> res (nd K * list K * nd K).
Variable eigs : nd K -> list K -> res (nd K * nd K).

(** The parts of a list before, inside and after a window of [v] sites. *)
Definition bef {A : Type} (pos : nat) (l : list A) : list A := firstn pos l.
Definition ins {A : Type} (pos v : nat) (l : list A) : list A := firstn v (skipn pos l).
Definition aft {A : Type} (pos v : nat) (l : list A) : list A := skipn v (skipn pos l).
Definition bond_l (ts : list (nd K)) : nat := match ts with t :: _ => ldim t | [] => 0 end.
Definition bond_r (ts : list (nd K)) : nat := match rev ts with t :: _ => rdim t | [] => 0 end.

(** The dense operator [M] on sites of dimensions [ds] compressed to the window of
    the current MPS. *)
Definition dense_op (ds : list nat) (M : list nat -> list nat -> K) (v : nat) (ts : list (nd K)) (pos : nat) : nd K :=
  let win := ins pos v ts in
  lop (bef pos ds) (ins pos v ds) (aft pos v ds) (bond_l win) (bond_r win) (bef pos ts) (aft pos v ts) M.
(** The local update: the eigenvector of the compressed operator, split into sites. *)
Definition dense_locl ds M v (x : ltens K) (pos : nat) : res (K * list (nd K)) :=
  eig_minimize2 qr svd eigs (dense_op ds M v (lts x) pos) (ins pos v (lts x)).
(** Right-canonical start, then the sweeps. *)
Definition dense_eig ds M (v num : nat) (x : ltens K) : res (K * ltens K) :=
  do z <- canonicalize qr x CANone (CAInt 1);
  do s <- g_sweeps qr K (length ds) v (dense_locl ds M v) num (z, None);
  match snd s with Some val => Ok (val, fst s) | None => Err UnboundLocalError end.
End Spec.

Section Eig.
Context {K : StarRing}.
Add Ring Kr : (k_ring K).
Variable qr : nd K -> res (nd K * nd K).
Variable svd : nd K -> res (nd K * list K * nd K).
Variable eigs : nd K -> list K -> res (nd K * nd K).
Hypothesis Hqr : qr_sound qr.
Hypothesis Hsvd : svd_sound svd.
Hypothesis Heigs : eigs_wf eigs.

Lemma bond_l_bonds (ts : list (nd K)) l r : ts <> [] -> bonds ts l r -> bond_l ts = l.
Proof. destruct ts; [contradiction|]. intros _ (_ & E & _). exact E. Qed.
Lemma bond_r_bonds (ts : list (nd K)) l r : ts <> [] -> bonds ts l r -> bond_r ts = r.
Proof.
  intros H B. unfold bond_r. rewrite <- (rev_involutive ts) in H, B. destruct (rev ts) as [|t us]; [contradiction|]. cbn [rev] in B.
  apply bonds_app in B. destruct B as (m & _ & (_ & _ & E)). exact E.
Qed.
Lemma ins_mid {A : Type} (a b c : list A) p v : length a = p -> length b = v ->
  bef p (a ++ b ++ c) = a /\ ins p v (a ++ b ++ c) = b /\ aft p v (a ++ b ++ c) = c.
Proof.
  intros <- <-. unfold bef, ins, aft. rewrite firstn_app, Nat.sub_diag, firstn_all, firstn_O, app_nil_r.
  rewrite skipn_app, Nat.sub_diag, skipn_all, skipn_O. cbn [app].
  rewrite firstn_app, Nat.sub_diag, firstn_all, firstn_O, app_nil_r, skipn_app, Nat.sub_diag, skipn_all, skipn_O. auto.
Qed.

Lemma dense_op_window ds M (x : ltens K) pos v X1 X2 X3 d1 d2 d3 la ra : window ds x pos v X1 X2 X3 d1 d2 d3 la ra ->
  dense_op ds M v (lts x) pos = lop d1 d2 d3 la ra X1 X3 M.
Proof.
  intros W. destruct W as [wx wd l1 l2 e1 e2 m1 m2 m3 b1 b2 b3 p1 p2 p3 ne]. unfold dense_op.
  destruct (ins_mid X1 X2 X3 pos v l1 l2) as (A1 & A2 & A3). destruct (ins_mid d1 d2 d3 pos v e1 e2) as (D1 & D2 & D3).
  rewrite wx, wd, A1, A2, A3, D1, D2, D3. cbn zeta. rewrite (bond_l_bonds _ _ _ ne b2), (bond_r_bonds _ _ _ ne b2). reflexivity.
Qed.
Lemma window_size ds (x : ltens K) pos v X1 X2 X3 d1 d2 d3 la ra : window ds x pos v X1 X2 X3 d1 d2 d3 la ra -> 0 < la * size d2 * ra /\ 0 < la /\ 0 < ra.
Proof.
  intros W. destruct W as [wx wd l1 l2 e1 e2 m1 m2 m3 b1 b2 b3 p1 p2 p3 ne]. destruct (bonds_pos_ends _ _ _ ne b2 p2) as (Hl & Hr & Hs).
  fold (sdims X2) in Hs. rewrite (sdims_mps _ _ m2) in Hs. split; [|split; assumption]. repeat apply Nat.mul_pos_pos; assumption.
Qed.

(** The parts of an operator or state that match a window. *)
Lemma mpo_window (w : ltens K) ds (x : ltens K) pos v X1 X2 X3 d1 d2 d3 la ra : window ds x pos v X1 X2 X3 d1 d2 d3 la ra ->
  bonds (lts w) 1 1 -> mpo_like (lts w) ds ds ->
  exists W1 W2 W3 lw rw, lts w = W1 ++ W2 ++ W3 /\ mpo_like W1 d1 d1 /\ mpo_like W2 d2 d2 /\ mpo_like W3 d3 d3 /\
    bonds W1 1 lw /\ bonds W2 lw rw /\ bonds W3 rw 1 /\ length W1 = pos /\ length W2 = v.
Proof.
  intros W B M. pose proof (mpo_like_length _ _ _ M) as L. destruct W as [wx wd l1 l2 e1 e2 m1 m2 m3 b1 b2 b3 p1 p2 p3 ne].
  set (W1 := firstn pos (lts w)). set (W2 := firstn v (skipn pos (lts w))). set (W3 := skipn v (skipn pos (lts w))).
  assert (E : lts w = W1 ++ W2 ++ W3) by (unfold W1, W2, W3; rewrite !firstn_skipn; reflexivity).
  assert (Hd : length ds = pos + v + length d3) by (rewrite wd, !app_length; lia).
  assert (L1 : length W1 = pos) by (unfold W1; rewrite firstn_length; lia).
  assert (L2 : length W2 = v) by (unfold W2; rewrite firstn_length, skipn_length; lia).
  rewrite E in B, M. apply bonds_app in B. destruct B as (lw & B1 & B). apply bonds_app in B. destruct B as (rw & B2 & B3).
  rewrite wd in M. destruct M as [M _]. rewrite !map_app in M. rewrite !pairs_app in M by (rewrite ?app_length; lia).
  apply app_split in M; [|rewrite map_length, pairs_length by lia; lia]. destruct M as [M1 M].
  apply app_split in M; [|rewrite map_length, pairs_length by lia; lia]. destruct M as [M2 M3].
  exists W1, W2, W3, lw, rw. unfold mpo_like. repeat (split; [solve [auto]|]). auto.
Qed.
Lemma mps_window (w : ltens K) ds (x : ltens K) pos v X1 X2 X3 d1 d2 d3 la ra : window ds x pos v X1 X2 X3 d1 d2 d3 la ra ->
  bonds (lts w) 1 1 -> mps_like (lts w) ds ->
  exists W1 W2 W3 lw rw, lts w = W1 ++ W2 ++ W3 /\ mps_like W1 d1 /\ mps_like W2 d2 /\ mps_like W3 d3 /\
    bonds W1 1 lw /\ bonds W2 lw rw /\ bonds W3 rw 1 /\ length W1 = pos /\ length W2 = v.
Proof.
  intros W B M. pose proof (mps_like_length _ _ M) as L. destruct W as [wx wd l1 l2 e1 e2 m1 m2 m3 b1 b2 b3 p1 p2 p3 ne].
  set (W1 := firstn pos (lts w)). set (W2 := firstn v (skipn pos (lts w))). set (W3 := skipn v (skipn pos (lts w))).
  assert (E : lts w = W1 ++ W2 ++ W3) by (unfold W1, W2, W3; rewrite !firstn_skipn; reflexivity).
  assert (Hd : length ds = pos + v + length d3) by (rewrite wd, !app_length; lia).
  assert (L1 : length W1 = pos) by (unfold W1; rewrite firstn_length; lia).
  assert (L2 : length W2 = v) by (unfold W2; rewrite firstn_length, skipn_length; lia).
  rewrite E in B, M. apply bonds_app in B. destruct B as (lw & B1 & B). apply bonds_app in B. destruct B as (rw & B2 & B3).
  rewrite wd in M. unfold mps_like in M. rewrite !map_app, !singles_app in M.
  apply app_split in M; [|rewrite map_length, singles_length; lia]. destruct M as [M1 M].
  apply app_split in M; [|rewrite map_length, singles_length; lia]. destruct M as [M2 M3].
  exists W1, W2, W3, lw, rw. unfold mps_like. repeat (split; [solve [auto]|]). auto.
Qed.

(** ** The environments of a window *)
Section Win.
Variables (ds : list nat) (x : ltens K) (pos v : nat) (X1 X2 X3 : list (nd K)) (d1 d2 d3 : list nat) (la ra : nat).
Hypothesis W : window ds x pos v X1 X2 X3 d1 d2 d3 la ra.
Hypothesis Hv : 1 <= v.

Definition o_ladd (w : ltens K) (k : nat) (e t : nd K) : res (nd K) := do a <- pyget (lts w) (Z.of_nat k); eig_leftvec_add e a t None.
Definition o_radd (w : ltens K) (k : nat) (e t : nd K) : res (nd K) := do a <- pyget (lts w) (Z.of_nat k); eig_rightvec_add e a t.
Definition s_ladd (w : ltens K) (k : nat) (e t : nd K) : res (nd K) := do a <- pyget (lts w) (Z.of_nat k); eig_leftvec_add_mps e a t.
Definition s_radd (w : ltens K) (k : nat) (e t : nd K) : res (nd K) := do a <- pyget (lts w) (Z.of_nat k); eig_rightvec_add_mps e a t.

Lemma win_len : pos + v <= length ds /\ length ds = pos + v + length X3.
Proof. destruct W as [wx wd l1 l2 e1 e2 m1 m2 m3 b1 b2 b3 p1 p2 p3 ne]. rewrite wd, !app_length. apply mps_like_length in m3. lia. Qed.

(** The operator of [eig] in this window. *)
Lemma op_window_o (w : ltens K) : bonds (lts w) 1 1 -> mpo_like (lts w) ds ds ->
  exists l r, lenv (nd K) (o_ladd w) (np_ones 3) (lts x) pos = Ok l /\ renv (nd K) (length ds) v (o_radd w) (np_ones 3) (lts x) pos = Ok r /\
    eig_local_op l (pyslice (lts w) (Z.of_nat pos) (Z.of_nat (pos + v))) r =
    Ok (dense_op ds (fun is js => amp (lts w) (pairs is js) 0 0) v (lts x) pos).
Proof.
  intros B M. destruct (mpo_window w _ _ _ _ _ _ _ _ _ _ _ _ W B M) as (W1 & W2 & W3 & lw & rw & Ew & M1 & M2 & M3 & B1 & B2 & B3 & L1 & L2).
  destruct (window_size _ _ _ _ _ _ _ _ _ _ _ _ W) as (Sz & _). rewrite (dense_op_window _ _ _ _ _ _ _ _ _ _ _ _ _ W).
  destruct win_len as [Hle Hlen]. destruct W as [wx wd l1 l2 e1 e2 m1 m2 m3 b1 b2 b3 p1 p2 p3 ne].
  assert (F1 : Forall2 site_o W1 X1) by (apply site_o_like; exists d1; auto).
  assert (F3 : Forall2 site_o W3 X3) by (apply site_o_like; exists d3; auto).
  destruct (lenv_o X1 W1 (W2 ++ W3) (X2 ++ X3) lw la B1 b1 F1) as (l & El & Wl & Sl & Gl).
  destruct (renv_o X3 (length ds) v (W1 ++ W2) (X1 ++ X2) W3 rw ra pos Hv ltac:(lia) B3 b3 F3) as (r & Er & Wr & Sr & Gr);
    [rewrite app_length; lia|rewrite app_length; lia|rewrite app_length; lia|].
  rewrite <- !app_assoc in Er. exists l, r. rewrite wx. unfold o_ladd, o_radd. rewrite Ew.
  split; [rewrite <- l1; exact El|]. split; [exact Er|].
  rewrite (pyslice_mid _ W1 W2 W3) by lia.
  apply (local_op_lop W1 W2 W3 X1 X3 d1 d2 d3 lw rw la ra); auto.
  - intros E. apply (f_equal (@length _)) in E. cbn in E. lia.
  - intros y Hy. rewrite (Gl y Hy). unfold ker_o. rewrite (sdims_mps _ _ m1). reflexivity.
  - intros y Hy. rewrite (Gr y Hy). unfold ker_o. rewrite (sdims_mps _ _ m3). reflexivity.
Qed.

(** The operator of a pure state in [eig_sum]. *)
Lemma op_window_s (w : ltens K) : chain_ok (lts w) 1 1 -> mps_like (lts w) ds ->
  exists l r, lenv (nd K) (s_ladd w) (np_ones 2) (lts x) pos = Ok l /\ renv (nd K) (length ds) v (s_radd w) (np_ones 2) (lts x) pos = Ok r /\
    eig_local_op_mps l (pyslice (lts w) (Z.of_nat pos) (Z.of_nat (pos + v))) r =
    Ok (dense_op ds (fun is js => amp (lts w) (singles is) 0 0 * kconj (amp (lts w) (singles js) 0 0))%K v (lts x) pos).
Proof.
  intros (_ & B & P) M. destruct (mps_window w _ _ _ _ _ _ _ _ _ _ _ _ W B M) as (W1 & W2 & W3 & lw & rw & Ew & M1 & M2 & M3 & B1 & B2 & B3 & L1 & L2).
  destruct (window_size _ _ _ _ _ _ _ _ _ _ _ _ W) as (Sz & Pl & Pr). rewrite (dense_op_window _ _ _ _ _ _ _ _ _ _ _ _ _ W).
  destruct win_len as [Hle Hlen]. destruct W as [wx wd l1 l2 e1 e2 m1 m2 m3 b1 b2 b3 p1 p2 p3 ne].
  assert (F1 : Forall2 site_s W1 X1) by (apply site_s_like; exists d1; auto).
  assert (F3 : Forall2 site_s W3 X3) by (apply site_s_like; exists d3; auto).
  destruct (lenv_s X1 W1 (W2 ++ W3) (X2 ++ X3) lw la B1 b1 F1) as (l & El & Wl & Sl & Gl).
  destruct (renv_s X3 (length ds) v (W1 ++ W2) (X1 ++ X2) W3 rw ra pos Hv ltac:(lia) B3 b3 F3) as (r & Er & Wr & Sr & Gr);
    [rewrite app_length; lia|rewrite app_length; lia|rewrite app_length; lia|].
  rewrite <- !app_assoc in Er. exists l, r. rewrite wx. unfold s_ladd, s_radd. rewrite Ew.
  split; [rewrite <- l1; exact El|]. split; [exact Er|].
  rewrite (pyslice_mid _ W1 W2 W3) by lia.
  apply (local_op_mps_lop W1 W2 W3 X1 X3 d1 d2 d3 lw rw la ra); auto.
  rewrite Ew in P. unfold PfCanon.pos in P. rewrite !Forall_app in P. destruct P as (_ & P2 & _).
  assert (O2 : Forall lt_ok W2) by (eapply bonds_ok; eauto).
  rewrite Forall_forall in *. intros t Ht. specialize (P2 t Ht). specialize (O2 t Ht). rewrite (lt_ok_shp t O2), size_cons, size_app in P2.
  unfold size at 2 in P2. cbn in P2. nia.
Qed.
End Win.

(** ** [eig] *)
Lemma start_copy (x z : ltens K) ds : mpa_copy x = Ok z -> mps_inv ds x -> mps_inv ds z.
Proof.
  intros E (C & M & Wk). unfold mpa_copy, lt_copy in E. apply lt_init_inv in E. destruct E as (E & _ & Cf & _). unfold mps_inv, cform_wk, llen.
  rewrite E. split; [exact C|]. split; [exact M|]. unfold cf_ok in Cf. lia.
Qed.
(** A start vector that fits. *)
Definition start_ok (random_start : nat -> res (ltens K)) (startvec : option (ltens K)) (ds : list nat) : Prop :=
  match startvec with
  | Some x => mps_inv ds x
  | None => forall r x, random_start r = Ok x -> mps_inv ds x
  end.
Lemma start_vector_inv rs sv rk ds x : start_ok rs sv ds -> start_vector rs sv rk = Ok x -> mps_inv ds x.
Proof.
  intros H E. unfold start_vector in E. apply bind_inv in E. destruct E as (z & E1 & E2). apply passert_inv in E2. destruct E2 as [_ E2].
  injection E2 as <-. destruct sv as [y|]; cbn in H.
  - eapply start_copy; eauto.
  - destruct rk as [[|[|r]]|]; try discriminate; eapply H; eauto.
Qed.

(** Sweeps with fresh environments are sweeps with the dense operator. *)
Lemma sweeps_dense (E : Type) ladd radd solve ones ds M v num (x : ltens K) : 1 <= v < length ds -> mps_inv ds x ->
  (forall z, mps_inv ds z -> exists r, renv E (length ds) v radd ones (lts z) 0 = Ok r) ->
  (forall z pos, mps_inv ds z -> pos <= length ds - v -> fresh_locl E K (length ds) v ladd radd solve ones z pos = dense_locl qr svd eigs ds M v z pos) ->
  (do st <- sweep_prepare qr E K (length ds) v radd ones x;
   do st <- sweeps qr E K (length ds) v ladd radd solve num st; eig_result st) = dense_eig qr svd eigs ds M v num x.
Proof.
  intros Hv Hx Hr Hl. pose proof (mps_inv_len _ _ Hx) as Lx. pose proof Hx as (C & Mx & Wk). unfold cform_wk, llen in Wk.
  pose proof (prepare_fresh qr E K (length ds) v ladd radd ones ltac:(lia) ltac:(lia) x Lx ltac:(lia) ltac:(lia)) as P.
  unfold dense_eig. destruct (sweep_prepare qr E K (length ds) v radd ones x) as [s|e] eqn:Es; cbn [bind].
  - destruct P as (P1 & P2 & P3). unfold ref_prepare in P1. apply bind_inv in P1. destruct P1 as (z & Ez & P1). apply bind_inv in P1. destruct P1 as (r & _ & P1).
    injection P1 as ->. rewrite Ez. cbn [bind].
    assert (Iz : mps_inv ds (st_x s)) by (apply (inv_canon_right qr Hqr ds x 1 (st_x s) Hx); [lia|exact Ez]).
    pose proof (sweeps_fresh qr E K (length ds) v ladd radd solve ones ltac:(lia) ltac:(lia) num s P3) as S.
    assert (X : ref_sweeps qr E K (length ds) v ladd radd solve ones num (view E K s) = g_sweeps qr K (length ds) v (dense_locl qr svd eigs ds M v) num (st_x s, None)).
    { unfold view. rewrite P2. apply (g_sweeps_ext qr K (length ds) v (mps_inv ds)); [exact Hl| | | |exact Iz].
      - intros y pos p y' Hy Hp Ep Eu. destruct (window_ex ds y pos v Hy) as (X1 & X2 & X3 & d1 & d2 & d3 & la & ra & W); [lia|lia|].
        unfold dense_locl in Ep. rewrite (dense_op_window _ _ _ _ _ _ _ _ _ _ _ _ _ W) in Ep.
        pose proof W as [wx wd l1 l2 e1 e2 m1 m2 m3 b1 b2 b3 p1 p2 p3 ne].
        destruct (ins_mid X1 X2 X3 pos v l1 l2) as (_ & A2 & _). rewrite wx, A2 in Ep. destruct p as [val ts].
        destruct (minimize2_window qr Hqr svd Hsvd eigs Heigs _ X2 la d2 ra val ts ltac:(split; auto) m2 Ep) as [Ct Mt].
        eapply window_update; eauto.
      - intros y pos y' Hy Hp Ec. apply (inv_canon_left qr Hqr ds y pos y' Hy); [lia|exact Ec].
      - intros y pos y' Hy Hp Ec. apply (inv_canon_right qr Hqr ds y (pos + v) y' Hy); [lia|exact Ec]. }
    unfold rel in S. destruct (sweeps qr E K (length ds) v ladd radd solve num s) as [s'|e]; cbn [bind].
    + destruct S as [S _]. rewrite X in S. rewrite S. cbn [bind]. unfold eig_result, view. cbn [fst snd]. reflexivity.
    + rewrite X in S. rewrite S. reflexivity.
  - unfold ref_prepare in P. destruct (canonicalize qr x CANone (CAInt 1)) as [z|e'] eqn:Ez; cbn [bind] in *.
    + exfalso. destruct (Hr z) as (r & E1); [|rewrite E1 in P; discriminate]. apply (inv_canon_right qr Hqr ds x 1 z Hx); [lia|exact Ez].
    + injection P as ->. reflexivity.
Qed.

Theorem eig_dense rs (mpo : ltens K) num v sv rk ds : mpa_ok mpo -> mpo_like (lts mpo) ds ds -> 1 <= v -> start_ok rs sv ds ->
  eig qr svd eigs rs mpo num v sv rk =
  passert (Nat.ltb v (length ds)) (
    do x <- start_vector rs sv rk;
    dense_eig qr svd eigs ds (fun is js => amp (lts mpo) (pairs is js) 0 0) v num x).
Proof.
  intros [_ B] M Hv Hst. pose proof (mpo_like_length _ _ _ M) as L. unfold eig, llen. rewrite L.
  destruct (Nat.ltb_spec v (length ds)) as [Hn|]; [|reflexivity]. cbn [passert].
  destruct (start_vector rs sv rk) as [x|e] eqn:Ex; [|reflexivity]. cbn [bind]. pose proof (start_vector_inv _ _ _ _ _ Hst Ex) as Hx.
  apply (sweeps_dense (nd K) (o_ladd mpo) (o_radd mpo)); auto.
  - intros z Hz. destruct (window_ex ds z 0 v Hz) as (X1 & X2 & X3 & d1 & d2 & d3 & la & ra & W); [lia|lia|].
    destruct (op_window_o _ _ _ _ _ _ _ _ _ _ _ _ W Hv mpo B M) as (l & r & _ & E & _). exists r. exact E.
  - intros z pos Hz Hp. destruct (window_ex ds z pos v Hz) as (X1 & X2 & X3 & d1 & d2 & d3 & la & ra & W); [lia|lia|].
    destruct (op_window_o _ _ _ _ _ _ _ _ _ _ _ _ W Hv mpo B M) as (l & r & E1 & E2 & E3).
    unfold fresh_locl. rewrite E1, E2. cbn [bind]. unfold eig_minimize. rewrite E3. cbn [bind]. unfold dense_locl.
    rewrite (window_slice _ _ _ _ _ _ _ _ _ _ _ _ W). pose proof W as [wx wd l1 l2 e1 e2 m1 m2 m3 b1 b2 b3 p1 p2 p3 ne].
    destruct (ins_mid X1 X2 X3 pos v l1 l2) as (_ & A2 & _). rewrite wx, A2. reflexivity.
Qed.
End Eig.
