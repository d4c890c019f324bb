(** [eig] and [eig_sum]: the number returned, the state returned, and the expectation
    values along the sweeps. *)
From Verif Require Export PfVar4 PfEig3.
From Verif Require Import PfCanon PfBounds PfUpdate PfFromArray PfCompress PropAux PfHistory ObjState PfObjState.
Open Scope nat_scope.

(** ** Sweeps with an invariant on the state and the last local result *)
Section Inv.
Context {K : StarRing}.
Variable qr : nd K -> res (nd K * nd K).
Variables (V : Type) (n v : nat).
Variable I : nat -> ltens K * option V -> Prop.
Variable Q : ltens K * option V -> Prop.
Variable g : ltens K -> nat -> res (V * list (nd K)).
Hypothesis Hup : forall s pos s', I pos s -> pos <= n - v -> g_local V v g s pos = Ok s' -> I pos s' /\ Q s'.
Hypothesis Hcl : forall x o pos z, I pos (x, o) -> S pos <= n - v -> canonicalize qr x (CAInt (Z.of_nat (S pos))) CANone = Ok z -> I (S pos) (z, o).
Hypothesis Hcr : forall x o pos z, I (S pos) (x, o) -> S pos <= n - v -> canonicalize qr x CANone (CAInt (Z.of_nat (pos + v))) = Ok z -> I pos (z, o).

Lemma ltr_inv m : forall pos s s', I pos s -> pos + m <= n - v ->
  foldM (g_ltr qr V v g) (seq (S pos) m) s = Ok s' -> I (pos + m) s' /\ (Q s \/ 0 < m -> Q s').
Proof.
  induction m as [|m IH]; intros pos s s' Hs Hm E.
  - cbn in E. injection E as <-. rewrite Nat.add_0_r. split; [exact Hs|]. intros [H|H]; [exact H|lia].
  - cbn [seq foldM] in E. apply bind_inv in E. destruct E as (s1 & E1 & E). unfold g_ltr in E1. change (Nat.ltb 0 (S pos)) with true in E1. cbn iota in E1.
    apply bind_inv in E1. destruct E1 as (x & Ex & E1). destruct s as [x0 o]. cbn [fst snd] in *.
    pose proof (Hcl x0 o pos x Hs ltac:(lia) Ex) as Hx. destruct (Hup (x, o) (S pos) s1 Hx ltac:(lia) E1) as [H1 Q1].
    destruct (IH (S pos) s1 s' H1 ltac:(lia) E) as [Hz Qz]. split; [replace (pos + S m) with (S pos + m) by lia; exact Hz|]. intros _. apply Qz. left. exact Q1.
Qed.
Lemma rtl_inv m : forall s s', I m s -> m <= n - v ->
  foldM (g_rtl qr V v g) (rev (seq 0 m)) s = Ok s' -> I 0 s' /\ (Q s \/ 0 < m -> Q s').
Proof.
  induction m as [|m IH]; intros s s' Hs Hm E.
  - cbn in E. injection E as <-. split; [exact Hs|]. intros [H|H]; [exact H|lia].
  - rewrite seq_S, rev_app_distr in E. cbn [rev app foldM Nat.add] in E. apply bind_inv in E. destruct E as (s1 & E1 & E). unfold g_rtl in E1.
    apply bind_inv in E1. destruct E1 as (x & Ex & E1). destruct s as [x0 o]. cbn [fst snd] in *.
    pose proof (Hcr x0 o m x Hs ltac:(lia) Ex) as Hx. destruct (Hup (x, o) m s1 Hx ltac:(lia) E1) as [H1 Q1].
    destruct (IH s1 s' H1 ltac:(lia) E) as [Hz Qz]. split; [exact Hz|]. intros _. apply Qz. left. exact Q1.
Qed.
Lemma one_inv k s s' : I 0 s -> (0 < k -> Q s) -> g_one qr V n v g s k = Ok s' -> I 0 s' /\ Q s'.
Proof.
  intros Hs Hq E. unfold g_one in E. apply bind_inv in E. destruct E as (s1 & E1 & E).
  assert (H : I (n - v) s1 /\ Q s1).
  { destruct (Nat.ltb_spec 0 k) as [L|L].
    - destruct (ltr_inv (n - v) 0 s s1 Hs ltac:(lia) E1) as [Hz Qz]. split; [exact Hz|]. apply Qz. left. auto.
    - rewrite Nat.add_1_r in E1. cbn [seq foldM] in E1. apply bind_inv in E1. destruct E1 as (s2 & E2 & E1).
      unfold g_ltr in E2. change (Nat.ltb 0 0) with false in E2. cbn [bind] in E2.
      destruct s as [x o]. cbn [fst snd] in E2. destruct (Hup (x, o) 0 s2 Hs ltac:(lia) E2) as [H2 Q2].
      destruct (ltr_inv (n - v) 0 s2 s1 H2 ltac:(lia) E1) as [Hz Qz]. split; [exact Hz|]. apply Qz. left. exact Q2. }
  destruct H as [H1 Q1]. destruct (rtl_inv (n - v) s1 s' H1 ltac:(lia) E) as [Hz Qz]. split; [exact Hz|]. apply Qz. left. exact Q1.
Qed.
Theorem sweeps_inv num s s' : I 0 s -> g_sweeps qr V n v g num s = Ok s' -> I 0 s' /\ (0 < num -> Q s').
Proof.
  intros Hs E. unfold g_sweeps in E.
  assert (H : forall m k s s', I 0 s -> (0 < k -> Q s) -> foldM (g_one qr V n v g) (seq k m) s = Ok s' -> I 0 s' /\ (0 < k + m -> Q s')).
  { clear s s' Hs E num. induction m as [|m IH]; intros k s s' Hs Hq E.
    - cbn in E. injection E as <-. rewrite Nat.add_0_r. auto.
    - cbn [seq foldM] in E. apply bind_inv in E. destruct E as (s1 & E1 & E). destruct (one_inv k s s1 Hs Hq E1) as [H1 Q1].
      destruct (IH (S k) s1 s' H1 ltac:(auto) E) as [Hz Qz]. split; [exact Hz|]. intros _. apply Qz. lia. }
  apply (H num 0 s s' Hs); [lia|exact E].
Qed.
End Inv.

(** ** Specification *)
Section Spec.
Context {K : StarRing}.
(** A matrix of size [m], the quadratic form and the square of the norm of a vector. *)
Definition hermitian (m : nat) (op : nd K) : Prop := forall i j, i < m -> j < m -> get op [i; j] = kconj (get op [j; i]).
Definition quad (m : nat) (op : nd K) (c : nat -> K) : K := bigsum m (fun i => bigsum m (fun j => kconj (c i) * get op [i; j] * c j))%K.
Definition sqn (m : nat) (c : nat -> K) : K := bigsum m (fun i => kconj (c i) * c i)%K.
(** The eigensolver returns eigenpairs: [h]: of Hermitian matrices only. *)
Definition eigs_pairs (h : bool) (eigs : nd K -> list K -> res (nd K * nd K)) : Prop := forall m op v0 val vec,
  shp op = [m; m] -> (h = true -> hermitian m op) -> eigs op v0 = Ok (val, vec) ->
  forall i, i < m -> bigsum m (fun j => get op [i; j] * nth j (dat vec) k0)%K = (nth 0 (dat val) k0 * nth i (dat vec) k0)%K.
(** The vectors are normalised. *)
Definition eigs_unit (h : bool) (eigs : nd K -> list K -> res (nd K * nd K)) : Prop := forall m op v0 val vec,
  shp op = [m; m] -> (h = true -> hermitian m op) -> eigs op v0 = Ok (val, vec) -> sqn m (fun i => nth i (dat vec) k0) = k1.
(** The value is the best one: [better val q s] compares it with a vector of
    quadratic form [q] and square of the norm [s]. *)
Definition eigs_best (h : bool) (better : K -> K -> K -> Prop) (eigs : nd K -> list K -> res (nd K * nd K)) : Prop := forall m op v0 val vec,
  shp op = [m; m] -> (h = true -> hermitian m op) -> eigs op v0 = Ok (val, vec) ->
  forall c, better (nth 0 (dat val) k0) (quad m op c) (sqn m c).
(** Hermitian dense operators on sites of dimensions [ds]. *)
Definition herm_op (ds : list nat) (M : list nat -> list nat -> K) : Prop :=
  forall is js, inr is ds -> inr js ds -> M is js = kconj (M js is).
(** The start vector is a valid MPS with a true canonical form. *)
Definition estart_ok (random_start : nat -> res (ltens K)) (startvec : option (ltens K)) (ds : list nat) : Prop :=
  let ok x := mps_inv ds x /\ cform_ok x /\ canon_true x in
  match startvec with Some x => ok x | None => forall r x, random_start r = Ok x -> ok x end.
End Spec.

Section Val.
Context {K : StarRing}.
Add Ring Kr : (k_ring K).
Variable qr : nd K -> res (nd K * nd K).
Variable svd : nd K -> res (nd K * list K * nd K).
Variable eigs : nd K -> list K -> res (nd K * nd K).
Hypothesis Hqr : qr_sound qr.
Hypothesis Hsvd : svd_sound svd.
Hypothesis Heigs : eigs_wf eigs.

(** ** The local operator of a Hermitian operator *)
Lemma msum4_swap d1 d3 e1 e3 (F : list nat -> list nat -> list nat -> list nat -> K) :
  msum d1 (fun a => msum d3 (fun b => msum e1 (fun c => msum e3 (fun d => F a b c d)))) =
  msum e1 (fun c => msum e3 (fun d => msum d1 (fun a => msum d3 (fun b => F a b c d)))).
Proof.
  transitivity (msum d1 (fun a => msum e1 (fun c => msum e3 (fun d => msum d3 (fun b => F a b c d))))).
  { apply msum_ext. intros a _. rewrite msum_swap. apply msum_ext. intros c _. apply msum_swap. }
  rewrite msum_swap. apply msum_ext. intros c _. apply msum_swap.
Qed.
Lemma lop_herm d1 d2 d3 la ra (X1 X3 : list (nd K)) M : herm_op (d1 ++ d2 ++ d3) M ->
  hermitian (size (la :: d2 ++ [ra])) (lop d1 d2 d3 la ra X1 X3 M).
Proof.
  intros H i j Hi Hj. set (sh := la :: d2 ++ [ra]) in *.
  pose proof (unravel_inr sh i Hi) as Ii. pose proof (unravel_inr sh j Hj) as Ij.
  rewrite <- (ravel_unravel sh i Hi), <- (ravel_unravel sh j Hj). unfold sh. rewrite !get_lop by assumption. fold sh.
  destruct (inr_shape_inv _ _ _ _ Ii) as (a & r & a' & -> & _ & Hr & _). destruct (inr_shape_inv _ _ _ _ Ij) as (b & c & b' & -> & _ & Hc & _).
  unfold kern. rewrite !mid_mk. rewrite msum_conj, msum4_swap. apply msum_ext. intros j1 H1. rewrite msum_conj. apply msum_ext. intros j3 H3.
  rewrite msum_conj. apply msum_ext. intros i1 G1. rewrite msum_conj. apply msum_ext. intros i3 G3.
  rewrite (H (i1 ++ r ++ i3) (j1 ++ c ++ j3)) by (repeat apply inr_app; assumption).
  rewrite !(kconj_mul K), !(kconj_invol K). ring.
Qed.

(** ** Flat vectors *)
Lemma get_flat (t : nd K) sh r : shp t = sh -> get t r = nth (ravel sh r) (dat t) k0.
Proof. intros <-. reflexivity. Qed.
Lemma quad_flat (op t : nd K) sh : shp t = sh ->
  msum sh (fun r => msum sh (fun c => kconj (get t r) * get op [ravel sh r; ravel sh c] * get t c))%K = quad (size sh) op (fun i => nth i (dat t) k0).
Proof.
  intros S. unfold quad. rewrite msum_flat. apply bigsum_ext. intros i Hi. rewrite msum_flat. apply bigsum_ext. intros j Hj.
  rewrite !(get_flat t sh _ S), !ravel_unravel by assumption. reflexivity.
Qed.
Lemma sqn_flat (t : nd K) sh : shp t = sh -> msum sh (fun r => kconj (get t r) * get t r)%K = sqn (size sh) (fun i => nth i (dat t) k0).
Proof. intros S. unfold sqn. rewrite msum_flat. apply bigsum_ext. intros i Hi. rewrite !(get_flat t sh _ S), !ravel_unravel by assumption. reflexivity. Qed.
Lemma quad_pair m (op : nd K) c lam : (forall i, i < m -> bigsum m (fun j => get op [i; j] * c j)%K = (lam * c i)%K) -> quad m op c = (lam * sqn m c)%K.
Proof.
  intros H. unfold quad, sqn. rewrite <- bigsum_mul_l. apply bigsum_ext. intros i Hi.
  transitivity (kconj (c i) * bigsum m (fun j => get op [i; j] * c j))%K; [rewrite <- bigsum_mul_l; apply bigsum_ext; intros; ring|]. rewrite H by exact Hi. ring.
Qed.

(** ** The local problem *)
Lemma minimize2_inv op X2 la d2 ra val us : chain_ok X2 la ra -> mps_like X2 d2 -> eig_minimize2 qr svd eigs op X2 = Ok (val, us) ->
  exists t zs va vec v0, shp t = la :: d2 ++ [ra] /\ ndwf t /\ eigs op v0 = Ok (va, vec) /\ dat t = dat vec /\ val = nth 0 (dat va) k0 /\
    chain_ok us la ra /\ mps_like us d2 /\ chain_ok zs la ra /\ mps_like zs d2 /\
    (forall r, inr r (la :: d2 ++ [ra]) -> get (ltens_to_array zs) r = get t r) /\
    msum (la :: d2 ++ [ra]) (fun r => kconj (get (ltens_to_array us) r) * get (ltens_to_array zs) r)%K =
    msum (la :: d2 ++ [ra]) (fun r => kconj (get (ltens_to_array us) r) * get (ltens_to_array us) r)%K /\
    (length X2 = 1 -> us = zs) /\ (forall mr, Forall (fun k => k <= mr) (map ldim X2) -> Forall (fun k => k <= mr) (map ldim (tl us))).
Proof.
  intros (Nx & Bx & Px) Mx E. unfold eig_minimize2 in E.
  apply bind_inv in E. destruct E as (rk & Erk & E). apply bind_inv in E. destruct E as (t0 & E0 & E). apply bind_inv in E. destruct E as (t & Et & E).
  apply bind_inv in E. destruct E as ((va & vec) & Ee & E). apply bind_inv in E. destruct E as (vec' & Ev & E).
  apply bind_inv in E. destruct E as (lt & El & E). apply bind_inv in E. destruct E as (us' & Eu & E). injection E as <- <-.
  destruct X2 as [|x X2]; [contradiction|]. rewrite (pyget_at _ [] x X2 0 eq_refl : pyget (x :: X2) 0 = Ok x) in E0. injection E0 as <-.
  cbn [tl] in Et. pose proof Bx as (Ox & Lx & Bx'). rewrite (foldM_matdot X2 x ra Ox Bx') in Et. injection Et as <-.
  destruct (ltens_to_array_spec (x :: X2) la ra Nx Bx) as (Ot & Tl & Tr & Tp & _). cbn zeta in *.
  change (fold_left matdot X2 x) with (ltens_to_array (x :: X2)) in El, Ee. set (t := ltens_to_array (x :: X2)) in *.
  assert (St : shp t = la :: d2 ++ [ra]).
  { rewrite (lt_ok_shp t Ot), Tl, Tp, Tr. fold (sdims (x :: X2)). rewrite (sdims_mps _ _ Mx). reflexivity. }
  destruct (bonds_pos_ends _ _ _ Nx Bx Px) as (Hl & Hr & Hs). fold (sdims (x :: X2)) in Hs. rewrite (sdims_mps _ _ Mx) in Hs.
  assert (Pt : 0 < size (shp t)).
  { rewrite St, size_cons, size_app. unfold size at 2. cbn. nia. }
  assert (Wv : ndwf vec' /\ dat vec' = dat vec).
  { pose proof (Heigs _ _ _ _ Ee) as Wv. destruct (ndim vec) as [|[|[|]]] eqn:Nv in Ev; try discriminate.
    - destruct (Nat.eqb _ _) in Ev; [|discriminate]. injection Ev as <-. auto.
    - cbn [praise_unless] in Ev. destruct (list_eqb (shp va) [1]) in Ev; [|discriminate]. destruct (Nat.eqb_spec (nth 1 (shp vec) 0) 1) as [H1|] in Ev; [|discriminate].
      injection Ev as <-. split; [|reflexivity]. unfold ndim in Nv. destruct (shp vec) as [|p [|q []]] eqn:S in Nv; try discriminate. unfold ndwf in *. rewrite S in *. cbn [shp dat nth] in *.
      subst q. rewrite Wv. unfold size. cbn. lia. }
  destruct Wv as [Wv Dv]. destruct (reshape_py_inv _ _ _ El) as [-> Sl]. set (lt := reshape vec' (shp t)) in *.
  assert (Wl : ndwf lt) by (apply wf_reshape; auto).
  assert (Slt : shp lt = la :: d2 ++ [ra]) by exact St.
  assert (Nd : d2 <> []) by (intros ->; unfold mps_like in Mx; discriminate).
  exists lt. destruct (Nat.eqb_spec (length (x :: X2)) 1) as [L1|L1].
  - injection Eu as <-. exists [lt], va, vec, (dat t). destruct X2; [|discriminate]. destruct (lt_ok_shape lt la d2 ra St Wl) as (Lo & Ll & Lp & Lr).
    assert (C : chain_ok [lt] la ra) by (split; [discriminate|]; split; [split; [exact Lo|split; [exact Ll|exact Lr]]|constructor; [exact Pt|constructor]]).
    assert (M : mps_like [lt] d2) by (destruct d2 as [|d [|]]; try discriminate; unfold mps_like; cbn; rewrite Lp; reflexivity).
    split; [exact Slt|]. split; [exact Wl|]. split; [exact Ee|]. split; [exact Dv|]. split; [reflexivity|]. split; [exact C|]. split; [exact M|]. split; [exact C|]. split; [exact M|].
    split; [reflexivity|]. split; [reflexivity|]. split; [reflexivity|]. intros; constructor.
  - apply bind_inv in Eu. destruct Eu as (z0 & Ez & Eu). apply bind_inv in Eu. destruct Eu as (c & Ec & Eu). injection Eu as <-.
    assert (Hrk : 0 < rk /\ forall mr, Forall (fun k => k <= mr) (map ldim (x :: X2)) -> rk <= mr).
    { unfold max_left in Erk. cbn [map] in Erk. injection Erk as <-. split.
      - rewrite Lx. clear - Hl. induction (map ldim X2); cbn; lia.
      - intros mr F. cbn [map] in F. inversion F as [|? ? F1 F2]; subst. clear - F1 F2. induction F2; cbn; [exact F1|]. lia. }
    destruct (window_split qr Hqr svd Hsvd lt la d2 ra rk c) as (Cc & Mc & Rc & _ & _ & z & _ & Cz & Mz & Oz & Az); auto; try exact St; try exact Pt; try apply Hrk.
    { rewrite Ez. exact Ec. }
    pose proof Cc as (Nc & Bc & _). pose proof Cz as (Nz & Bz & _).
    assert (G : forall r, inr r (la :: d2 ++ [ra]) -> get (ltens_to_array (lts z)) r = get lt r).
    { intros r Hr'. destruct (inr_shape_inv _ _ _ _ Hr') as (a & i & b & -> & Ha & Hi & Hb). rewrite (arr_amp (lts z) la ra d2 a i b) by auto. apply Az; auto. }
    exists (lts z), va, vec, (dat t). split; [exact Slt|]. split; [exact Wl|]. split; [exact Ee|]. split; [exact Dv|]. split; [reflexivity|].
    split; [exact Cc|]. split; [exact Mc|]. split; [exact Cz|]. split; [exact Mz|]. split; [exact G|]. split; [|split; [intros; lia|]].
    + rewrite <- (ovl_local (lts (fst c)) (lts z) la ra d2 (get (ltens_to_array (lts z))) Nc Bc Mc)
        by (intros; symmetry; apply (arr_amp _ la ra d2); auto).
      rewrite <- (ovl_local (lts (fst c)) (lts (fst c)) la ra d2 (get (ltens_to_array (lts (fst c)))) Nc Bc Mc)
        by (intros; symmetry; apply (arr_amp _ la ra d2); auto).
      assert (Ep : map pdims (lts z) = map pdims (lts (fst c))) by (unfold mps_like in *; congruence).
      rewrite <- (ovl_conj (lts z) (lts (fst c)) la ra Ep), Oz. apply ovl_conj. reflexivity.
    + intros mr F. eapply Forall_impl; [|exact Rc]. cbn beta. intros k Hk. pose proof (proj2 Hrk mr F). lia.
Qed.

Lemma window_left ds v mr pos (x : ltens K) X1 X2 X3 d1 d2 d3 la ra : ad_ok ds v mr pos x -> 0 < mr -> window ds x pos v X1 X2 X3 d1 d2 d3 la ra ->
  Forall (fun k => k <= mr) (map ldim X2).
Proof.
  intros (_ & _ & _ & _ & _ & R) Hm W. destruct W as [wx wd l1 l2 e1 e2 m1 m2 m3 b1 b2 b3 p1 p2 p3 ne].
  unfold ranks in R. rewrite wx in R. destruct X1 as [|x1 X1].
  - destruct X2 as [|x2 X2]; [contradiction|]. cbn [app tl map] in *. destruct b2 as (_ & E & _). cbn in b1. subst. constructor; [lia|].
    rewrite map_app, Forall_app in R. apply R.
  - cbn [app tl] in R. rewrite !map_app, !Forall_app in R. apply R.
Qed.

(** ** One local update *)
Variables (ds : list nat) (M : list nat -> list nat -> K) (v mr : nat) (h : bool).
Hypothesis HM : h = true -> herm_op ds M.
Hypothesis Hv : 1 <= v.
Hypothesis Hm : 0 < mr.
Definition mexp (f : list nat -> K) : K := melem ds ds M f f.

Lemma eig_step (x : ltens K) o pos s' : v <= length ds -> ad_ok ds v mr pos x -> pos <= length ds - v ->
  g_local K v (dense_locl qr svd eigs ds M v) (x, o) pos = Ok s' ->
  exists val m op v0 va vec z, let c i := nth i (dat vec) k0 in
    snd s' = Some val /\ ad_ok ds v mr pos (fst s') /\
    shp op = [m; m] /\ (h = true -> hermitian m op) /\ eigs op v0 = Ok (va, vec) /\ val = nth 0 (dat va) k0 /\
    (* the vector before the truncation *)
    chain_ok (lts z) 1 1 /\ mps_like (lts z) ds /\ mexp (state z) = quad m op c /\ ip ds (state z) (state z) = sqn m c /\
    ip ds (state (fst s')) (state z) = ip ds (state (fst s')) (state (fst s')) /\ (v = 1 -> forall is, state (fst s') is = state z is) /\
    (* the old vector *)
    exists cx, mexp (state x) = quad m op cx /\ ip ds (state x) (state x) = sqn m cx.
Proof.
  intros Hn Hs Hp E. pose proof Hs as (I & _).
  destruct (window_ex ds x pos v I Hv ltac:(lia)) as (X1 & X2 & X3 & d1 & d2 & d3 & la & ra & W).
  pose proof W as [wx wd l1 l2 e1 e2 m1 m2 m3 b1 b2 b3 p1 p2 p3 ne].
  unfold g_local in E. cbn [fst] in E. apply bind_inv in E. destruct E as ([val us] & Ep & E). unfold dense_locl in Ep.
  rewrite (dense_op_window _ _ _ _ _ _ _ _ _ _ _ _ _ W) in Ep. destruct (ins_mid X1 X2 X3 pos v l1 l2) as (_ & A2 & _). rewrite wx, A2 in Ep.
  destruct (minimize2_inv _ X2 la d2 ra val us ltac:(split; auto) m2 Ep) as (t & zs & va & vec & v0 & St & Wt & Ee & Dt & Ev & Cu & Mu & Cz & Mz & Gz & Ou & Uz & Ru).
  cbn [snd fst] in E. specialize (Ru mr (window_left _ _ _ _ _ _ _ _ _ _ _ _ _ Hs Hm W)).
  destruct (update_ad ds v mr pos x X1 X2 X3 d1 d2 d3 la ra us Hv Hs W Cu Mu Ru) as (y & Ey & Ay & Ly).
  rewrite Ey in E. cbn [bind] in E. injection E as <-. cbn [fst snd].
  destruct (ad_iso ds v mr pos x X1 X2 X3 d1 d2 d3 la ra Hs W) as [I1 I3].
  set (sh := la :: d2 ++ [ra]) in *. set (op := lop d1 d2 d3 la ra X1 X3 M) in *.
  exists val, (size sh), op, v0, va, vec, (mkLt (X1 ++ zs ++ X3) 0 0). cbn zeta. cbn [lts].
  pose proof Cz as (Nz & Bz & Pz). pose proof Cu as (Nu & Bu & Pu).
  assert (Q : forall us : list (nd K), us <> [] -> bonds us la ra -> mps_like us d2 ->
    mexp (fun is => amp (X1 ++ us ++ X3) (singles is) 0 0) = quad (size sh) op (fun i => nth i (dat (ltens_to_array us)) k0) /\
    ip ds (fun is => amp (X1 ++ us ++ X3) (singles is) 0 0) (fun is => amp (X1 ++ us ++ X3) (singles is) 0 0) = sqn (size sh) (fun i => nth i (dat (ltens_to_array us)) k0)).
  { intros ts Nt Bt Mt. destruct (ltens_to_array_spec ts la ra Nt Bt) as (Ot & Tl & Tr & Tp & _). cbn zeta in *.
    assert (Sx : shp (ltens_to_array ts) = sh) by (rewrite (lt_ok_shp _ Ot), Tl, Tp, Tr; fold (sdims ts); rewrite (sdims_mps _ _ Mt); reflexivity).
    rewrite <- (quad_flat op (ltens_to_array ts) sh Sx), <- (sqn_flat (ltens_to_array ts) sh Sx). split.
    - unfold mexp. rewrite wd. symmetry. apply lop_quad; intros; apply (psi_window X1 ts X3 d1 d2 d3); auto.
    - rewrite wd. apply ip_window; auto. }
  split; [reflexivity|]. split; [exact Ay|]. split; [reflexivity|]. split; [intros Hh; apply lop_herm; rewrite <- wd; auto|]. split; [exact Ee|]. split; [exact Ev|].
  split. { split; [intros A; apply app_eq_nil in A; destruct A as [_ A]; apply app_eq_nil in A; tauto|]. split; [|unfold PfCanon.pos; rewrite !Forall_app; auto].
           apply bonds_app. exists la. split; [exact b1|]. apply bonds_app. exists ra. auto. }
  split; [rewrite wd; apply mps_like_join; [exact m1|apply mps_like_join; assumption]|].
  assert (Qt : quad (size sh) op (fun i => nth i (dat (ltens_to_array zs)) k0) = quad (size sh) op (fun i => nth i (dat vec) k0) /\
               sqn (size sh) (fun i => nth i (dat (ltens_to_array zs)) k0) = sqn (size sh) (fun i => nth i (dat vec) k0)).
  { destruct (ltens_to_array_spec zs la ra Nz Bz) as (Ot & Tl & Tr & Tp & _). cbn zeta in *.
    assert (Sx : shp (ltens_to_array zs) = sh) by (rewrite (lt_ok_shp _ Ot), Tl, Tp, Tr; fold (sdims zs); rewrite (sdims_mps _ _ Mz); reflexivity).
    assert (A : forall i, i < size sh -> nth i (dat (ltens_to_array zs)) k0 = nth i (dat vec) k0).
    { intros i Hi. pose proof (Gz (unravel sh i) (unravel_inr sh i Hi)) as G. rewrite (get_flat _ sh _ Sx), (get_flat t sh _ St), ravel_unravel in G by exact Hi. rewrite G, Dt. reflexivity. }
    split; unfold quad, sqn.
    - apply bigsum_ext. intros i Hi. apply bigsum_ext. intros j Hj. rewrite !A by assumption. reflexivity.
    - apply bigsum_ext. intros i Hi. rewrite !A by assumption. reflexivity. }
  destruct (Q zs Nz Bz Mz) as [Q1 Q2]. unfold state at 1 2 3. cbn [lts].
  split; [rewrite <- (proj1 Qt); exact Q1|]. split; [rewrite <- (proj2 Qt); exact Q2|].
  assert (Sy : forall is, state y is = amp (X1 ++ us ++ X3) (singles is) 0 0) by (intros is; unfold state; rewrite Ly; reflexivity).
  split; [|split].
  - transitivity (ip ds (fun is => amp (X1 ++ us ++ X3) (singles is) 0 0) (fun is => amp (X1 ++ zs ++ X3) (singles is) 0 0)).
    { unfold ip. apply msum_ext. intros is _. rewrite !Sy. reflexivity. }
    transitivity (ip ds (fun is => amp (X1 ++ us ++ X3) (singles is) 0 0) (fun is => amp (X1 ++ us ++ X3) (singles is) 0 0)).
    { rewrite wd, (ip_window X1 us zs X3 d1 d2 d3 la ra), (ip_window X1 us us X3 d1 d2 d3 la ra) by auto. exact Ou. }
    unfold ip. apply msum_ext. intros is _. rewrite !Sy. reflexivity.
  - intros E1 is. rewrite Sy. rewrite (Uz ltac:(lia)). reflexivity.
  - exists (fun i => nth i (dat (ltens_to_array X2)) k0). unfold state. rewrite wx. apply (Q X2 ne b2 m2).
Qed.

(** ** The states during the sweeps *)
Lemma canon_state (x z : ltens K) l r is : mps_inv ds x -> canonicalize qr x l r = Ok z -> inr is ds -> state z is = state x is.
Proof.
  intros (C & Mx & W) E Hi. rewrite <- (canonicalize_call_eq qr l r x) in E. destruct (canonicalize_call qr l r x) as [y o] eqn:Ec.
  destruct (canonicalize_left qr Hqr 1 1 l r x y o C W Ec) as (S & _). unfold oc in E. destruct o; [|discriminate]. cbn in E. injection E as <-.
  destruct S as (_ & _ & _ & A & _). unfold state. apply A; [|lia|lia]. unfold mshape. rewrite Mx. apply singles_valid. exact Hi.
Qed.
Lemma mexp_ext f g : (forall is, inr is ds -> f is = g is) -> mexp f = mexp g.
Proof. intros E. unfold mexp, melem. apply msum_ext. intros is Hi. apply msum_ext. intros js Hj. rewrite !E by assumption. reflexivity. Qed.
Lemma ip_ext2 (f g f' g' : list nat -> K) : (forall is, inr is ds -> f is = f' is) -> (forall is, inr is ds -> g is = g' is) -> ip ds f g = ip ds f' g'.
Proof. intros E E'. unfold ip. apply msum_ext. intros is Hi. rewrite E, E' by assumption. reflexivity. Qed.

(** What is known of a state and a value after an update. *)
Definition from_vec (y : ltens K) (val : K) : Prop := exists z, chain_ok (lts z) 1 1 /\ mps_like (lts z) ds /\
  (eigs_pairs h eigs -> mexp (state z) = (val * ip ds (state z) (state z))%K) /\ (eigs_unit h eigs -> ip ds (state z) (state z) = k1) /\
  ip ds (state y) (state z) = ip ds (state y) (state y) /\ (v = 1 -> forall is, inr is ds -> state y is = state z is).
Lemma step_from (x : ltens K) o pos s' : v <= length ds -> ad_ok ds v mr pos x -> pos <= length ds - v ->
  g_local K v (dense_locl qr svd eigs ds M v) (x, o) pos = Ok s' ->
  ad_ok ds v mr pos (fst s') /\ exists val, snd s' = Some val /\ from_vec (fst s') val /\
    (forall better, eigs_best h better eigs -> better val (mexp (state x)) (ip ds (state x) (state x))).
Proof.
  intros Hn Hs Hp E. destruct (eig_step x o pos s' Hn Hs Hp E) as (val & m & op & v0 & va & vec & z & V & A & So & Ho & Ee & Ev & Cz & Mz & E1 & E2 & E3 & E4 & cx & X1 & X2).
  split; [exact A|]. exists val. split; [exact V|]. split.
  - exists z. split; [exact Cz|]. split; [exact Mz|]. split; [|split; [|split; [exact E3|auto]]].
    + intros Hpair. rewrite E1, E2, Ev. apply quad_pair. exact (Hpair m op v0 va vec So Ho Ee).
    + intros Hu. rewrite E2. exact (Hu m op v0 va vec So Ho Ee).
  - intros better Hb. rewrite X1, X2, Ev. exact (Hb m op v0 va vec So Ho Ee cx).
Qed.

Theorem dense_eig_from num (x y : ltens K) val : v < length ds -> mps_inv ds x -> cform_ok x -> canon_true x ->
  Forall (fun k => k <= mr) (ranks x) -> dense_eig qr svd eigs ds M v num x = Ok (val, y) ->
  ad_ok ds v mr 0 y /\ from_vec y val.
Proof.
  intros Hn Hx Cf Ct Rk E. unfold dense_eig in E. apply bind_inv in E. destruct E as (z & Ez & E). apply bind_inv in E. destruct E as (s & Es & E).
  destruct (outc_inv _ _ _ _ (ad_canon_start qr svd Hqr ds v mr x Hv ltac:(lia) Hx Cf Ct Rk) Ez) as (Az & _).
  destruct (snd s) as [val'|] eqn:Sv; [|discriminate]. injection E as <- <-.
  destruct (Nat.eq_dec num 0) as [->|Hnum]; [cbn in Es; injection Es as <-; discriminate|].
  destruct (sweeps_inv qr K (length ds) v (fun pos s => ad_ok ds v mr pos (fst s)) (fun s => exists val, snd s = Some val /\ from_vec (fst s) val)
    (dense_locl qr svd eigs ds M v)) with (num := num) (s := (z, None (A := K))) (s' := s) as [A Q]; auto.
  - intros [x1 o1] pos s1 A1 Hp E1. destruct (step_from x1 o1 pos s1 ltac:(lia) A1 Hp E1) as (A2 & w & W1 & W2 & _). eauto.
  - intros x1 o1 pos z1 A1 Hp E1. exact (outc_inv _ _ _ _ (ad_canon_left qr svd Hqr ds v mr x1 pos Hv ltac:(lia) A1 Hp) E1).
  - intros x1 o1 pos z1 A1 Hp E1. exact (outc_inv _ _ _ _ (ad_canon_right qr svd Hqr ds v mr x1 pos Hv ltac:(lia) A1 Hp) E1).
  - destruct (Q ltac:(lia)) as (w & W1 & W2). rewrite Sv in W1. injection W1 as <-. auto.
Qed.

(** With one site the values improve along the sweeps. *)
Theorem dense_eig_best better num (x y : ltens K) val : v = 1 -> v < length ds -> mps_inv ds x -> cform_ok x -> canon_true x ->
  Forall (fun k => k <= mr) (ranks x) -> eigs_pairs h eigs -> eigs_unit h eigs -> eigs_best h better eigs ->
  (forall a b f, better a b k1 -> better b (mexp f) (ip ds f f) -> better a (mexp f) (ip ds f f)) ->
  dense_eig qr svd eigs ds M v num x = Ok (val, y) -> better val (mexp (state x)) (ip ds (state x) (state x)).
Proof.
  intros V1 Hn Hx Cf Ct Rk H1 H2 H3 Tr E. unfold dense_eig in E. apply bind_inv in E. destruct E as (z & Ez & E). apply bind_inv in E. destruct E as (s & Es & E).
  destruct (outc_inv _ _ _ _ (ad_canon_start qr svd Hqr ds v mr x Hv ltac:(lia) Hx Cf Ct Rk) Ez) as (Az & _).
  destruct (snd s) as [val'|] eqn:Sv; [|discriminate]. injection E as <- <-.
  destruct (Nat.eq_dec num 0) as [->|Hnum]; [cbn in Es; injection Es as <-; discriminate|].
  set (B0 := fun val => better val (mexp (state x)) (ip ds (state x) (state x))).
  set (P := fun s : ltens K * option K => match snd s with
    | None => forall is, inr is ds -> state (fst s) is = state x is
    | Some val => mexp (state (fst s)) = val /\ ip ds (state (fst s)) (state (fst s)) = k1 /\ B0 val end).
  assert (Pc : forall x1 o1 z1 l r, mps_inv ds x1 -> P (x1, o1) -> canonicalize qr x1 l r = Ok z1 -> P (z1, o1)).
  { intros x1 o1 z1 l r Hx1 P1 E1. pose proof (fun is => canon_state x1 z1 l r is Hx1 E1) as S. unfold P in *. cbn [fst snd] in *. destruct o1 as [w|].
    - destruct P1 as (P1 & P2 & P3). rewrite (mexp_ext _ _ S), (ip_ext2 _ _ _ _ S S). auto.
    - intros is Hi. rewrite S by exact Hi. auto. }
  destruct (sweeps_inv qr K (length ds) v (fun pos s => ad_ok ds v mr pos (fst s) /\ P s) (fun s => exists val, snd s = Some val /\ B0 val)
    (dense_locl qr svd eigs ds M v)) with (num := num) (s := (z, None (A := K))) (s' := s) as [A Q].
  - intros [x1 o1] pos s1 [A1 P1] Hp E1. destruct (step_from x1 o1 pos s1 ltac:(lia) A1 Hp E1) as (A2 & w & W1 & (z1 & _ & _ & F1 & F2 & F3 & F4) & Bw).
    specialize (F1 H1). specialize (F2 H2). specialize (F4 V1). specialize (Bw better H3).
    assert (Bx : B0 w).
    { unfold P in P1. cbn [fst snd] in P1. destruct o1 as [w1|].
      - destruct P1 as (P1 & P2 & P3). rewrite P1, P2 in Bw. unfold B0 in *. eapply Tr; eauto.
      - unfold B0. rewrite <- (mexp_ext _ _ P1), <- (ip_ext2 _ _ _ _ P1 P1). exact Bw. }
    split; [split; [exact A2|]|exists w; auto]. unfold P. rewrite W1.
    assert (I1 : ip ds (state (fst s1)) (state (fst s1)) = k1) by (rewrite (ip_ext2 _ _ _ _ F4 F4); exact F2).
    split; [|split; [exact I1|exact Bx]]. rewrite (mexp_ext _ _ F4), F1, F2. ring.
  - intros x1 o1 pos z1 [A1 P1] Hp E1. split; [exact (outc_inv _ _ _ _ (ad_canon_left qr svd Hqr ds v mr x1 pos Hv ltac:(lia) A1 Hp) E1)|]. exact (Pc x1 o1 z1 _ _ (proj1 A1) P1 E1).
  - intros x1 o1 pos z1 [A1 P1] Hp E1. split; [exact (outc_inv _ _ _ _ (ad_canon_right qr svd Hqr ds v mr x1 pos Hv ltac:(lia) A1 Hp) E1)|]. exact (Pc x1 o1 z1 _ _ (proj1 A1) P1 E1).
  - split; [exact Az|]. unfold P. cbn [fst snd]. intros is Hi. apply (canon_state x z _ _ is Hx Ez Hi).
  - exact Es.
  - destruct (Q ltac:(lia)) as (w & W1 & W2). rewrite Sv in W1. injection W1 as <-. exact W2.
Qed.
End Val.
