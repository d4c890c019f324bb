(** The quadratic form of the local operator, [eig] with fresh environments, and
    [eig_sum] against [eig]. *)
From Verif Require Export PfEigSum.
From Verif Require Import PfCanon PfBounds PfUpdate PfFromArray PfCompress.
Open Scope nat_scope.

(** ** Specification of the sweeps with environments computed from scratch *)
Section Spec.
Context {K : StarRing}.
(** [E] environments; result of the local problem is an eigenvalue and the sites. *)
Definition fresh_eig (qr : nd K -> res (nd K * nd K)) (E : Type) (n v : nat) (ladd radd : nat -> E -> nd K -> res E)
    (solve : nat -> E -> list (nd K) -> E -> res (K * list (nd K))) (ones : E) (num : nat) (x : ltens K) : res (K * ltens K) :=
  do z <- ref_prepare qr E n v radd ones x;
  do s <- ref_sweeps qr E K n v ladd radd solve ones num (z, None);
  match snd s with Some val => Ok (val, fst s) | None => Err UnboundLocalError end.
(** The state [y] agrees with [x] outside of the window. *)
Definition outside (pos v : nat) (x y : ltens K) : Prop :=
  bef pos (lts y) = bef pos (lts x) /\ aft pos v (lts y) = aft pos v (lts x) /\ llen y = llen x.
End Spec.

Section Eig2.
Context {K : StarRing}.
Add Ring Kr : (k_ring K).

Lemma bonds_det (ts : list (nd K)) : forall l r r', bonds ts l r -> bonds ts l r' -> r = r'.
Proof. induction ts as [|t ts IH]; intros l r r' B B'; cbn in B, B'; [congruence|]. destruct B as (_ & _ & B). destruct B' as (_ & _ & B'). eapply IH; eauto. Qed.
Lemma bonds_det_l (ts : list (nd K)) l l' r : ts <> [] \/ l = l' -> bonds ts l r -> bonds ts l' r -> l = l'.
Proof. intros H B B'. destruct ts as [|t ts]; [destruct H; [contradiction|assumption]|]. cbn in *. destruct B as (_ & E & _). destruct B' as (_ & E' & _). congruence. Qed.
Lemma bonds_nil_eq (l r : nat) : bonds (K:=K) [] l r -> l = r.
Proof. intros B. exact B. Qed.

(** A state that agrees with [x] outside of the window. *)
Lemma outside_window ds (x y : ltens K) pos v X1 X2 X3 d1 d2 d3 la ra : window ds x pos v X1 X2 X3 d1 d2 d3 la ra ->
  mpa_ok y -> mps_like (lts y) ds -> outside pos v x y -> 1 <= v ->
  exists ys, lts y = X1 ++ ys ++ X3 /\ ys = ins pos v (lts y) /\ ys <> [] /\ mps_like ys d2 /\ bonds ys la ra.
Proof.
  intros W [Hy By] My (Hb & Ha & Hl) Hv. destruct W as [wx wd l1 l2 e1 e2 m1 m2 m3 b1 b2 b3 p1 p2 p3 ne].
  destruct (ins_mid X1 X2 X3 pos v l1 l2) as (A1 & _ & A3). rewrite wx, A1 in Hb. rewrite wx, A3 in Ha.
  exists (ins pos v (lts y)).
  assert (Ey : lts y = X1 ++ ins pos v (lts y) ++ X3).
  { rewrite <- Hb, <- Ha. unfold bef, ins, aft. rewrite !firstn_skipn. reflexivity. }
  split; [exact Ey|]. split; [reflexivity|]. set (ys := ins pos v (lts y)) in *.
  assert (Ly : length ys = v).
  { unfold llen in Hl. rewrite wx, Ey, !app_length in Hl. lia. }
  split; [intros E; rewrite E in Ly; cbn in Ly; lia|].
  rewrite Ey in By, My. subst ds. split.
  - unfold mps_like in *. rewrite !map_app, !singles_app in My. apply app_split in My; [|rewrite map_length, singles_length; lia]. destruct My as [_ My].
    apply app_split in My; [|rewrite map_length, singles_length; lia]. apply My.
  - apply bonds_app in By. destruct By as (la' & B1 & By). apply bonds_app in By. destruct By as (ra' & B2 & B3).
    rewrite (bonds_det _ _ _ _ b1 B1). replace ra with ra'; [exact B2|].
    destruct X3 as [|t X3]; [cbn in *; congruence|]. cbn in b3, B3. destruct b3 as (_ & E & _). destruct B3 as (_ & E' & _). congruence.
Qed.

Theorem local_quad (w x : ltens K) ds pos v : mpa_ok w -> mpo_like (lts w) ds ds -> mps_inv ds x -> 1 <= v -> pos + v <= length ds ->
  exists l r op, lenv (nd K) (o_ladd w) (np_ones 3) (lts x) pos = Ok l /\ renv (nd K) (length ds) v (o_radd w) (np_ones 3) (lts x) pos = Ok r /\
    eig_local_op l (pyslice (lts w) (Z.of_nat pos) (Z.of_nat (pos + v))) r = Ok op /\
    let sh := bond_l (ins pos v (lts x)) :: ins pos v ds ++ [bond_r (ins pos v (lts x))] in
    shp op = [size sh; size sh] /\
    forall y z, mpa_ok y -> mpa_ok z -> mps_like (lts y) ds -> mps_like (lts z) ds -> outside pos v x y -> outside pos v x z ->
      let ty := ltens_to_array (ins pos v (lts y)) in let tz := ltens_to_array (ins pos v (lts z)) in
      shp ty = sh /\ shp tz = sh /\
      sandwich w y (Some z) = Ok (msum sh (fun r => msum sh (fun c => kconj (get tz r) * get op [ravel sh r; ravel sh c] * get ty c)))%K.
Proof.
  intros Hw Mw Hx Hv Hp. destruct (window_ex ds x pos v Hx Hv Hp) as (X1 & X2 & X3 & d1 & d2 & d3 & la & ra & W).
  pose proof Hw as [_ Bw]. destruct (op_window_o _ _ _ _ _ _ _ _ _ _ _ _ W Hv w Bw Mw) as (l & r & E1 & E2 & E3).
  exists l, r, (dense_op ds (fun is js => amp (lts w) (pairs is js) 0 0) v (lts x) pos). split; [exact E1|]. split; [exact E2|]. split; [exact E3|].
  rewrite (dense_op_window _ _ _ _ _ _ _ _ _ _ _ _ _ W).
  pose proof W as [wx wd l1 l2 e1 e2 m1 m2 m3 b1 b2 b3 p1 p2 p3 ne].
  destruct (ins_mid X1 X2 X3 pos v l1 l2) as (_ & A2 & _). destruct (ins_mid d1 d2 d3 pos v e1 e2) as (_ & D2 & _).
  rewrite wx, A2, wd, D2, (bond_l_bonds _ _ _ ne b2), (bond_r_bonds _ _ _ ne b2). cbn zeta. split; [reflexivity|].
  intros y z Hy Hz My Mz Oy Oz. rewrite <- wd in My, Mz.
  destruct (outside_window ds x y _ _ _ _ _ _ _ _ _ _ W Hy My Oy Hv) as (ys & Ey & Iy & Ny & Msy & Bsy).
  destruct (outside_window ds x z _ _ _ _ _ _ _ _ _ _ W Hz Mz Oz Hv) as (zs & Ez & Iz & Nz & Msz & Bsz).
  rewrite <- Iy, <- Iz.
  assert (Sh : forall us : list (nd K), us <> [] -> mps_like us d2 -> bonds us la ra -> shp (ltens_to_array us) = la :: d2 ++ [ra]).
  { intros us Nu Mu Bu. destruct (ltens_to_array_spec us la ra Nu Bu) as (Ot & Tl & Tr & Tp & _). cbn zeta in *.
    rewrite (lt_ok_shp _ Ot), Tl, Tp, Tr. fold (sdims us). rewrite (sdims_mps _ _ Mu). reflexivity. }
  split; [apply Sh; assumption|]. split; [apply Sh; assumption|].
  rewrite (sandwich_spec w y z ds ds Hw Hy Hz (proj1 Mw) eq_refl My Mz). f_equal.
  pose proof (lop_quad d1 d2 d3 la ra X1 X3 (fun is js => amp (lts w) (pairs is js) 0 0) (get (ltens_to_array zs)) (get (ltens_to_array ys))
    (fun is => amp (lts z) (singles is) 0 0) (fun is => amp (lts y) (singles is) 0 0)) as Q. cbn zeta in Q. rewrite Q.
  - rewrite <- wd. unfold melem. apply msum_ext. intros is Hi. apply msum_ext. intros js Hj.
    rewrite (entry_amp y), (entry_amp w), (entry_amp z); auto; unfold mshape.
    + rewrite Mz. apply singles_valid. exact Hi.
    + rewrite (proj1 Mw). apply inr_pairs; auto.
    + rewrite My. apply singles_valid. exact Hj.
  - intros i1 i2 i3 H1 H2 H3. rewrite Ez. apply (psi_window X1 zs X3 d1 d2 d3); auto.
  - intros i1 i2 i3 H1 H2 H3. rewrite Ey. apply (psi_window X1 ys X3 d1 d2 d3); auto.
Qed.

(** ** Fresh environments *)
Variable qr : nd K -> res (nd K * nd K).
Variable svd : nd K -> res (nd K * list K * nd K).
Variable eigs : nd K -> list K -> res (nd K * nd K).

Lemma sweeps_fresh_eig (E : Type) n v ladd radd solve (ones : E) num x : 1 <= v <= n -> llen x = n -> (0 <= lcan x)%Z -> (rcan x <= Z.of_nat n)%Z ->
  (do st <- sweep_prepare qr E K n v radd ones x;
   do st <- sweeps qr E K n v ladd radd solve num st; eig_result st) = fresh_eig qr E n v ladd radd solve ones num x.
Proof.
  intros Hv Lx H0 Hn. pose proof (prepare_fresh qr E K n v ladd radd ones ltac:(lia) ltac:(lia) x Lx H0 Hn) as P.
  unfold fresh_eig. destruct (sweep_prepare qr E K n v radd ones x) as [s|e]; cbn [bind].
  - destruct P as (-> & P2 & P3). cbn [bind]. pose proof (sweeps_fresh qr E K n v ladd radd solve ones ltac:(lia) ltac:(lia) num s P3) as S.
    unfold rel, view in S. rewrite P2 in S. destruct (sweeps qr E K n v ladd radd solve num s) as [s'|e]; cbn [bind].
    + destruct S as [-> _]. cbn [bind]. reflexivity.
    + rewrite S. reflexivity.
  - rewrite P. reflexivity.
Qed.
(** The start vector has [n] sites and a canonical form in range. *)
Definition start_len (rs : nat -> res (ltens K)) (sv : option (ltens K)) (n : nat) : Prop :=
  match sv with
  | Some x => llen x = n
  | None => forall r x, rs r = Ok x -> llen x = n /\ (0 <= lcan x)%Z /\ (rcan x <= Z.of_nat n)%Z
  end.
Lemma start_len_inv rs sv rk n x : start_len rs sv n -> start_vector rs sv rk = Ok x -> llen x = n /\ (0 <= lcan x)%Z /\ (rcan x <= Z.of_nat n)%Z.
Proof.
  intros H E. unfold start_vector in E. apply bind_inv in E. destruct E as (z & E1 & E2). apply passert_inv in E2. destruct E2 as [_ E2].
  injection E2 as <-. destruct sv as [y|]; cbn in H.
  - unfold mpa_copy, lt_copy in E1. apply lt_init_inv in E1. destruct E1 as (E & _ & Cf & _). unfold llen in *. rewrite E. split; [exact H|]. unfold cf_ok in Cf. lia.
  - destruct rk as [[|[|r]]|]; try discriminate; eapply H; eauto.
Qed.

Theorem eig_fresh rs (mpo : ltens K) num v sv rk : 1 <= v -> start_len rs sv (llen mpo) ->
  eig qr svd eigs rs mpo num v sv rk =
  passert (Nat.ltb v (llen mpo)) (
    do x <- start_vector rs sv rk;
    fresh_eig qr (nd K) (llen mpo) v (o_ladd mpo) (o_radd mpo)
      (fun pos l ts r => eig_minimize qr svd eigs l (pyslice (lts mpo) (Z.of_nat pos) (Z.of_nat (pos + v))) r ts) (np_ones 3) num x).
Proof.
  intros Hv Hst. unfold eig. destruct (Nat.ltb_spec v (llen mpo)) as [Hn|]; [|reflexivity]. cbn [passert].
  destruct (start_vector rs sv rk) as [x|e] eqn:Ex; [|reflexivity]. cbn [bind]. destruct (start_len_inv _ _ _ _ _ Hst Ex) as (L & H0 & H1).
  apply (sweeps_fresh_eig (nd K) (llen mpo) v (o_ladd mpo) (o_radd mpo)); auto. lia.
Qed.
Theorem eig_sum_fresh rs m0 mpas num v sv rk : 1 <= v -> Forall (fun m => llen m = llen m0) mpas -> Forall (fun m => lts m <> []) (m0 :: mpas) ->
  start_len rs sv (llen m0) ->
  eig_sum qr svd eigs rs (m0 :: mpas) num v sv rk =
  passert (Nat.ltb v (llen m0)) (
    do x <- start_vector rs sv rk;
    fresh_eig qr (list (nd K)) (llen m0) v (eig_sum_ladd (m0 :: mpas)) (eig_sum_radd (m0 :: mpas))
      (fun pos l ts r => do op <- eig_sum_op (m0 :: mpas) l (Z.of_nat pos) (Z.of_nat (pos + v)) r; eig_minimize2 qr svd eigs op ts)
      (map (fun m => np_ones (Z.to_nat (1 + hd 0%Z (ndims m)))) (m0 :: mpas)) num x).
Proof.
  intros Hv HL Hne Hst. unfold eig_sum. change (pyget (m0 :: mpas) 0) with (Ok m0). cbn [bind].
  set (ms := m0 :: mpas) in *.
  replace (forallb (fun m => Nat.eqb (llen m) (llen m0)) ms) with true.
  2: { symmetry. apply forallb_forall. intros m [<-|Hm]; [apply Nat.eqb_refl|]. apply Nat.eqb_eq. rewrite Forall_forall in HL. apply HL. exact Hm. }
  assert (HN : mapM (fun m => pyget (ndims m) 0) ms = Ok (map (fun m => hd 0%Z (ndims m)) ms)).
  { clear - Hne. induction Hne as [|m l Hm F IH]; [reflexivity|]. cbn [mapM map]. rewrite IH. unfold ndims. destruct (lts m); [contradiction|reflexivity]. }
  cbn [passert]. rewrite HN. cbn [bind]. rewrite map_map.
  destruct (Nat.ltb_spec v (llen m0)) as [Hn|]; [|reflexivity]. cbn [passert].
  destruct (start_vector rs sv rk) as [x|e] eqn:Ex; [|reflexivity]. cbn [bind]. destruct (start_len_inv _ _ _ _ _ Hst Ex) as (L & H0 & H1).
  apply (sweeps_fresh_eig (list (nd K)) (llen m0) v (eig_sum_ladd ms) (eig_sum_radd ms)); auto. lia.
Qed.

(** ** [eig_sum] against [eig] *)
Lemma dense_op_ext ds M N v (x : ltens K) pos : mps_inv ds x -> 1 <= v -> pos + v <= length ds ->
  (forall is js, inr is ds -> inr js ds -> M is js = N is js) -> dense_op ds M v (lts x) pos = dense_op ds N v (lts x) pos.
Proof.
  intros Hx Hv Hp H. destruct (window_ex ds x pos v Hx Hv Hp) as (X1 & X2 & X3 & d1 & d2 & d3 & la & ra & W).
  rewrite !(dense_op_window _ _ _ _ _ _ _ _ _ _ _ _ _ W). apply lop_ext. rewrite <- (w_ds _ _ _ _ _ _ _ _ _ _ _ _ W). exact H.
Qed.
Theorem sum_local_op mpas (mpo x : ltens K) ds pos v : mpas <> [] -> Forall (fun m => is_op m ds \/ is_state m ds) mpas -> is_op mpo ds ->
  (forall is js, inr is ds -> inr js ds -> amp (lts mpo) (pairs is js) 0 0 = sum_ker mpas is js) ->
  mps_inv ds x -> 1 <= v -> pos + v <= length ds ->
  exists ls rs l r op,
    lenv (list (nd K)) (eig_sum_ladd mpas) (map (fun m => np_ones (Z.to_nat (1 + hd 0%Z (ndims m)))) mpas) (lts x) pos = Ok ls /\
    renv (list (nd K)) (length ds) v (eig_sum_radd mpas) (map (fun m => np_ones (Z.to_nat (1 + hd 0%Z (ndims m)))) mpas) (lts x) pos = Ok rs /\
    lenv (nd K) (o_ladd mpo) (np_ones 3) (lts x) pos = Ok l /\
    renv (nd K) (length ds) v (o_radd mpo) (np_ones 3) (lts x) pos = Ok r /\
    eig_sum_op mpas ls (Z.of_nat pos) (Z.of_nat (pos + v)) rs = Ok op /\
    eig_local_op l (pyslice (lts mpo) (Z.of_nat pos) (Z.of_nat (pos + v))) r = Ok op.
Proof.
  intros Hne Hm [[_ Bo] Mo] He Hx Hv Hp. destruct (window_ex ds x pos v Hx Hv Hp) as (X1 & X2 & X3 & d1 & d2 & d3 & la & ra & W).
  destruct (sum_window _ _ _ _ _ _ _ _ _ _ _ _ W Hv mpas Hne Hm) as (ls & rs & E1 & E2 & E3).
  destruct (op_window_o _ _ _ _ _ _ _ _ _ _ _ _ W Hv mpo Bo Mo) as (l & r & F1 & F2 & F3).
  assert (HO : map (fun m => np_ones (K:=K) (Z.to_nat (1 + hd 0%Z (ndims m)))) mpas = map m_one mpas).
  { apply map_ext_in. intros m Hin. rewrite Forall_forall in Hm. unfold m_one.
    destruct (Hm m Hin) as [Hm'|Hm']; [destruct (ndims_op _ _ Hm') as (l0 & ->)|destruct (ndims_state _ _ Hm') as (l0 & ->)]; reflexivity. }
  rewrite HO. exists ls, rs, l, r, (dense_op ds (sum_ker mpas) v (lts x) pos). repeat (split; [assumption|]). rewrite F3. f_equal.
  apply dense_op_ext; auto.
Qed.

Hypothesis Hqr : qr_sound qr.
Hypothesis Hsvd : svd_sound svd.
Hypothesis Heigs : eigs_wf eigs.
Lemma dense_eig_ext ds M N v num x : mps_inv ds x -> 1 <= v < length ds -> (forall is js, inr is ds -> inr js ds -> M is js = N is js) ->
  dense_eig qr svd eigs ds M v num x = dense_eig qr svd eigs ds N v num x.
Proof.
  intros Hx Hv H. unfold dense_eig. destruct (canonicalize qr x CANone (CAInt 1)) as [z|e] eqn:Ez; [|reflexivity]. cbn [bind].
  assert (Iz : mps_inv ds z) by (apply (inv_canon_right qr Hqr ds x 1 z Hx); [lia|exact Ez]).
  destruct (g_sweeps_ext qr K (length ds) v (mps_inv ds) (dense_locl qr svd eigs ds M v) (dense_locl qr svd eigs ds N v)) with (num := num) (s := (z, None (A:=K))) as [E _]; auto.
  - intros y pos Hy Hp. unfold dense_locl. rewrite (dense_op_ext ds M N v y pos Hy); auto; lia.
  - intros y pos p y' Hy Hp Ep Eu. destruct (window_ex ds y pos v Hy) as (X1 & X2 & X3 & d1 & d2 & d3 & la & ra & W); [lia|lia|].
    unfold dense_locl in Ep. rewrite (dense_op_window _ _ _ _ _ _ _ _ _ _ _ _ _ W) in Ep.
    pose proof W as [wx wd l1 l2 e1 e2 m1 m2 m3 b1 b2 b3 p1 p2 p3 ne].
    destruct (ins_mid X1 X2 X3 pos v l1 l2) as (_ & A2 & _). rewrite wx, A2 in Ep. destruct p as [val ts].
    destruct (minimize2_window qr Hqr svd Hsvd eigs Heigs _ X2 la d2 ra val ts ltac:(split; auto) m2 Ep) as [Ct Mt].
    eapply window_update; eauto.
  - intros y pos y' Hy Hp Ec. apply (inv_canon_left qr Hqr ds y pos y' Hy); [lia|exact Ec].
  - intros y pos y' Hy Hp Ec. apply (inv_canon_right qr Hqr ds y (pos + v) y' Hy); [lia|exact Ec].
  - rewrite E. reflexivity.
Qed.
Theorem eig_sum_eig rs mpas (mpo : ltens K) num v sv rk ds : mpas <> [] -> Forall (fun m => is_op m ds \/ is_state m ds) mpas -> is_op mpo ds ->
  (forall is js, inr is ds -> inr js ds -> amp (lts mpo) (pairs is js) 0 0 = sum_ker mpas is js) ->
  1 <= v -> start_ok rs sv ds ->
  eig_sum qr svd eigs rs mpas num v sv rk = eig qr svd eigs rs mpo num v sv rk.
Proof.
  intros Hne Hm [Ho Mo] He Hv Hst. rewrite (eig_sum_dense qr svd eigs Hqr Hsvd Heigs rs mpas num v sv rk ds Hne Hm Hv Hst).
  rewrite (eig_dense qr svd eigs Hqr Hsvd Heigs rs mpo num v sv rk ds Ho Mo Hv Hst).
  destruct (Nat.ltb_spec v (length ds)) as [Hn|]; [|reflexivity]. cbn [passert].
  destruct (start_vector rs sv rk) as [x|e] eqn:Ex; [|reflexivity]. cbn [bind]. pose proof (start_vector_inv _ _ _ _ _ Hst Ex) as Hx.
  apply dense_eig_ext; auto. intros is js Hi Hj. symmetry. apply He; assumption.
Qed.
End Eig2.
