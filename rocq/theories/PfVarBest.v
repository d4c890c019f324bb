(** Variational compression: no local update moves the state away from the target
    when at most two sites are varied together. *)
From Coq Require Import Reals Lra.
From Verif Require Import PfQuasi PfTrunc2.
From Verif Require PfPovmArr.
From Verif Require Import PfEigVal.
From Verif Require Import PfCanon PfBounds PfUpdate PfFromArray PfCompress PropAux PfHistory.
Open Scope nat_scope.

Add Ring CSvb : (k_ring CS).

(** ** Specification *)
(** Squared distance of two vectors given by their amplitudes. *)
Definition vdist (ds : list nat) (f g : list nat -> CS) : CS := msum ds (fun is => (f is - g is) * kconj (f is - g is))%K.

Lemma vdist_expand ds f g : vdist ds f g = (ip ds f f - ip ds g f - ip ds f g + ip ds g g)%K.
Proof.
  unfold vdist, ip. rewrite <- !msum_sub, <- msum_add. apply msum_ext. intros is _. rewrite kconj_sub. ring.
Qed.
Lemma vdist_ext ds f g f' g' : (forall is, inr is ds -> f is = f' is) -> (forall is, inr is ds -> g is = g' is) -> vdist ds f g = vdist ds f' g'.
Proof. intros Hf Hg. apply msum_ext. intros is Hi. rewrite Hf, Hg by exact Hi. reflexivity. Qed.
Lemma vdist_same ds f : vdist ds f f = k0.
Proof. rewrite vdist_expand. ring. Qed.
Lemma vdist_nonneg ds f g : cnonneg (vdist ds f g).
Proof. apply PfPovmArr.cnonneg_msum. intros is _. apply cnonneg_sq. Qed.

(** ** States that agree outside the window *)
Lemma vdist_window (X1 us X3 : list (nd CS)) d1 d2 d3 la ra (T : list nat -> CS) : us <> [] -> mps_like X1 d1 -> mps_like us d2 -> mps_like X3 d3 ->
  bonds X1 1 la -> bonds us la ra -> bonds X3 ra 1 -> Forall left_iso X1 -> Forall right_iso X3 ->
  let t := proj_t d1 d2 d3 la ra X1 X3 T in
  vdist (d1 ++ d2 ++ d3) T (fun is => amp (X1 ++ us ++ X3) (singles is) 0 0) =
  (ip (d1 ++ d2 ++ d3) T T - ip (la :: d2 ++ [ra]) (get t) (get t) + vdist (la :: d2 ++ [ra]) (get t) (get (ltens_to_array us)))%K.
Proof.
  intros N M1 M2 M3 B1 B2 B3 I1 I3 t. rewrite !vdist_expand.
  set (y := fun is => amp (X1 ++ us ++ X3) (singles is) 0 0). set (w := get (ltens_to_array us)).
  assert (E1 : ip (d1 ++ d2 ++ d3) y T = ip (la :: d2 ++ [ra]) w (get t)).
  { unfold y. rewrite (ip_proj X1 us X3 d1 d2 d3 la ra T) by auto. unfold ip. apply msum_ext. intros r Hr. unfold t, proj_t. rewrite get_tab by exact Hr. reflexivity. }
  assert (E2 : ip (d1 ++ d2 ++ d3) y y = ip (la :: d2 ++ [ra]) w w).
  { unfold y. rewrite (ip_window X1 us us X3 d1 d2 d3 la ra) by auto. reflexivity. }
  assert (E3 : ip (d1 ++ d2 ++ d3) T y = ip (la :: d2 ++ [ra]) (get t) w).
  { rewrite <- (ip_conj (d1 ++ d2 ++ d3) y T), E1, ip_conj. reflexivity. }
  rewrite E1, E2, E3. ring.
Qed.

(** ** Two sites: the truncated SVD is the best approximation *)
Section Two.
Variable qr : nd CS -> res (nd CS * nd CS).
Hypothesis Hqr : qr_sound qr.
Variable svd : nd CS -> res (nd CS * list CS * nd CS).
Hypothesis Hsvd : svd_sound svd.
Hypothesis Hsort : svd_sorted svd.
Notation tsvd := (truncated_svd svd).

Lemma two_trunc (z c : ltens CS) la ra rk ov : chain_ok (lts z) la ra -> cform_wk z -> canon_true z -> llen z = 2 -> (2 - rcan z <= lcan z)%Z -> 0 < rk ->
  compress_svd qr svd tsvd z (Some rk) None DNone true = Ok (c, ov) ->
  exists y s k, sim la ra z y /\ chain_ok (lts c) la ra /\ mshape c = mshape z /\ truncation la ra (lts y) (lts c) 1 s k /\ sorted_values s /\ k = Nat.min (length s) rk /\
    ovl la ra (lts y) (lts y) = (ovl la ra (lts c) (lts c) + dweight (s, k))%K /\ ovl la ra (lts y) (lts c) = ovl la ra (lts c) (lts c).
Proof.
  intros HC HF HT Hn Hd Rp E. unfold compress_svd in E. rewrite Hn in E. cbn [Nat.eqb] in E. unfold canonical_form in E. cbn [bind] in E.
  destruct (Z.ltb_spec (lcan z) (Z.of_nat 2 - rcan z)) as [L|_]; [lia|].
  apply bind_eq in E. destruct E as [y [Ey E]]. pose proof (outc_inv _ _ _ _ (canon_r1 qr Hqr la ra z HC HF ltac:(lia)) Ey) as [Sm [W [_ Hr]]].
  pose proof (sim_len _ _ _ _ Sm) as Len. pose proof Sm as [S1 [S2 [S3 [S4 [S5 S6]]]]]. pose proof W as [W1 W2].
  apply bind_eq in E. destruct E as [[[z' ys] ov'] [E2 E]]. cbn [fst snd] in E. injection E as -> ->.
  pose proof (canon_tail y (S5 HT) Hr) as HI.
  assert (KA : exists ys0, compress_svd_r svd tsvd y rk (Some keep_all) = Ok (c, ys0, ov)).
  { unfold compress_svd_r in *. destruct (Nat.ltb_spec 0 rk); [|lia]. cbn [passert] in *. apply bind_eq in E2. destruct E2 as [[z2 ys2] [E2 E3]].
    destruct y as [[|t ts] cl cr]; [exfalso; apply (proj1 S1); reflexivity|]. unfold llen in *. cbn [lts length lcan] in *.
    rewrite pyrange_up in * by lia. replace (Z.to_nat (Z.of_nat (S (length ts)) - 1 - 0)) with (length ts) in * by lia.
    rewrite (map_ext (fun k => (0 + Z.of_nat k)%Z) (fun k => Z.of_nat (@length (nd CS) [] + k))) in * by reflexivity.
    destruct (loop_r_default svd Hsvd rk Rp la ra (length ts) [] t ts cl cr z2 ys2 eq_refl S1 ltac:(cbn; lia) E2) as [ys0 E0]. cbn [app] in E0. rewrite E0. cbn [bind fst snd] in *.
    apply bind_eq in E3. destruct E3 as [t3 [-> E3]]. cbn [bind]. injection E3 as <- _ <-. eauto. }
  clear E2 ys. destruct KA as [ys E2].
  assert (Hk : forall s : list CS, 0 < keep_all s) by (intros; unfold keep_all; lia).
  pose proof (outc_inv _ _ _ _ (compress_svd_r_spec svd tsvd Hsvd (truncated_svd_sound svd Hsvd) la ra rk (Some keep_all) y S1 ltac:(lia) Rp Hk ltac:(lia) ltac:(lia)) E2) as H. cbn beta in H.
  destruct H as [[C1 [C2 [_ [_ [_ [_ C7]]]]]] [_ [_ [_ [LY [_ [_ WW]]]]]]]. specialize (WW ltac:(discriminate) HI).
  unfold compress_svd_r in E2. destruct (Nat.ltb_spec 0 rk); [|lia]. cbn [passert] in E2. apply bind_eq in E2. destruct E2 as [[z2 ys2] [E2 E3]].
  apply bind_eq in E3. destruct E3 as [t3 [_ E3]]. cbn [fst snd] in E3. injection E3 as -> -> _.
  destruct y as [[|t [|t' [|]]] cl cr]; unfold llen in Len, E2, Hn; cbn [lts length tl] in *; try lia.
  rewrite pyrange_up in E2 by lia. change (Z.to_nat (Z.of_nat 2 - 1 - 0)) with 1 in E2.
  rewrite (map_ext (fun k => (0 + Z.of_nat k)%Z) (fun k => Z.of_nat (@length (nd CS) [] + k))) in E2 by reflexivity.
  destruct (csvd_r_sweep svd tsvd Hsvd (truncated_svd_sound svd Hsvd) sorted_values Hsort rk keep_all Rp Hk (ldim t') la ra 1 [] t [t'] cl cr c ys eq_refl S1 (Forall_nil _) HI
     ltac:(constructor; [lia|constructor]) ltac:(cbn [length lcan] in *; lia) E2) as [TS FK].
  cbn [length app Nat.add seq map] in TS. destruct ys as [|[s k] [|y1 ys]]; cbn [trunc_seq] in TS; try (destruct TS as (? & _ & _ & _ & []); fail); [contradiction|].
  destruct TS as (us & U1 & U2 & TR & <-). inversion FK as [|? ? [[K1 [K2 K3]] _] _]; subst. cbn [fst snd] in *.
  exists (mkLt [t; t'] cl cr), s, k. split; [exact Sm|]. split; [exact C1|]. split; [congruence|]. split; [exact TR|]. split; [exact K1|]. split; [unfold keep_all in K3; lia|].
  split; [|exact C7]. cbn [lts]. rewrite WW. unfold dweights. cbn [fold_right]. ring.
Qed.

(** Arrays of two sites with outer bonds as arrays of two composite sites. *)
Definition pair_of (f : list nat -> CS) (is : list (list nat)) : CS :=
  match is with [[a; i]; [j; b]] => f [a; i; j; b] | _ => k0 end.
Lemma pair_dist la e1 e2 ra f g : toC (adist [[la; e1]; [e2; ra]] (pair_of f) (pair_of g)) = vdist (la :: [e1; e2] ++ [ra]) f g.
Proof.
  unfold adist. rewrite <- csum_toC. transitivity (msums [[la; e1]; [e2; ra]] (fun is => (pair_of f is - pair_of g is) * kconj (pair_of f is - pair_of g is))%K).
  - rewrite msums_enum. apply csum_ext. intros is _. rewrite sq_conj. ring.
  - reflexivity.
Qed.
Lemma inr2_inv i a b : inr i [a; b] -> exists x y, i = [x; y] /\ x < a /\ y < b.
Proof.
  intros H. inversion H as [|x ? l ? Hx H1]; subst. inversion H1 as [|y ? l' ? Hy H2]; subst. inversion H2; subst. eauto.
Qed.
Lemma one_inv' i (sh : list nat) : valid_idx i [sh] -> exists x, i = [x] /\ inr x sh.
Proof. intros H. inversion H as [|x ? l ? Hx H1]; subst. inversion H1; subst. eauto. Qed.

Lemma two_cut (t : list nat -> CS) (ys us : list (nd CS)) la e1 e2 ra s k : map pdims ys = [[e1]; [e2]] ->
  (forall a i j b, a < la -> i < e1 -> j < e2 -> b < ra -> amp ys [[i]; [j]] a b = t [a; i; j; b]) ->
  truncation la ra ys us 1 s k ->
  cut_trunc [[la; e1]; [e2; ra]] (pair_of t) (pair_of (fun r => match r with [a; i; j; b] => amp us [[i]; [j]] a b | _ => k0 end)) 1 s k.
Proof.
  intros Em Ht [U [V [H1 [H2 [H3 H4]]]]].
  assert (F1 : map pdims (firstn 1 ys) = [[e1]]) by (rewrite <- firstn_map, Em; reflexivity).
  assert (F2 : map pdims (skipn 1 ys) = [[e2]]) by (rewrite <- skipn_map, Em; reflexivity).
  rewrite F1, F2 in *.
  exists (fun is c => match is with [[a; i]] => U [[i]] a c | _ => k0 end), (fun c is => match is with [[j; b]] => V c [[j]] b | _ => k0 end).
  cbn [firstn skipn]. split; [|split; [|split; [|exact H4]]].
  - intros is1 is2 V1 V2. destruct (one_inv' _ _ V1) as (p & -> & P1). destruct (one_inv' _ _ V2) as (q & -> & Q1).
    destruct (inr2_inv _ _ _ P1) as (a & i & -> & Ha & Hi). destruct (inr2_inv _ _ _ Q1) as (j & b & -> & Hj & Hb).
    cbn [app pair_of]. rewrite <- (Ht a i j b Ha Hi Hj Hb).
    assert (I1 : Forall2 inr [[i]] [[e1]]) by (repeat constructor; assumption).
    assert (I2 : Forall2 inr [[j]] [[e2]]) by (repeat constructor; assumption).
    exact (H1 [[i]] [[j]] a b I1 I2 Ha Hb).
  - intros c e Hc He. rewrite <- (H2 c e Hc He). reflexivity.
  - intros c e Hc He. rewrite <- (H3 c e Hc He). cbn [msums msum]. rewrite bigsum_swap. reflexivity.
Qed.

Lemma inr_win r la d2 ra : inr r (la :: d2 ++ [ra]) -> exists a i b, r = a :: i ++ [b] /\ a < la /\ inr i d2 /\ b < ra.
Proof.
  intros Hr. inversion Hr as [|a ? r1 ? Ha Hr1]; subst. destruct (Forall2_app_inv_r _ _ Hr1) as (i & b1 & Hi & Hb1 & ->).
  inversion Hb1 as [|b ? b2 ? Hb Hb2]; subst. inversion Hb2; subst. exists a, i, b. auto.
Qed.

Theorem two_best (t : nd CS) la e1 e2 ra rk us (X : list (nd CS)) : shp t = la :: [e1; e2] ++ [ra] -> ndwf t -> 0 < size (shp t) -> 0 < rk ->
  split_t qr svd 2 rk t = Ok us ->
  bonds X la ra -> mps_like X [e1; e2] -> Forall (fun k => k <= rk) (map ldim (tl X)) ->
  (Cre (vdist (la :: [e1; e2] ++ [ra]) (get t) (get (ltens_to_array us))) <= Cre (vdist (la :: [e1; e2] ++ [ra]) (get t) (get (ltens_to_array X))))%R.
Proof.
  intros Sh Wf Ps Rp E BX MX RX. set (d2 := [e1; e2]) in *. assert (Nd : d2 <> []) by discriminate.
  pose proof (outc_inv _ _ _ _ (split_spec qr Hqr svd Hsvd t la d2 ra 2 rk Sh Wf Ps eq_refl ltac:(lia) Rp) E) as (Cu & Mu & _ & Ou & _).
  unfold split_t in E. cbn [Nat.eqb] in E. apply bind_inv in E. destruct E as (z & E1 & E). apply bind_inv in E. destruct E as ([c ov] & E2 & E). injection E as <-. cbn [fst] in *.
  destruct (lt_ok_shape t la d2 ra Sh Wf) as (Lo & Ll & Lp & Lr).
  assert (Cc : concat (singles d2) = d2) by apply concat_singles.
  unfold from_array in E1. apply bind_inv in E1. destruct E1 as (ts & E0 & E1).
  assert (XX : outc (qr_fails qr) (extract_factors_int qr t 1) (fun ts =>
     chain_ok ts (ldim t) (rdim t) /\ map pdims ts = singles d2 /\ map ldim (tl ts) = qranks (ldim t) (singles d2) (rdim t) /\ Forall left_iso (removelast ts) /\
     forall is a b, Forall2 inr is (singles d2) -> a < ldim t -> b < rdim t -> amp ts is a b = ent t a (concat is) b)).
  { apply extract_int_spec; auto.
    all: try discriminate. all: repeat constructor. }
  pose proof (outc_inv _ _ _ _ XX E0) as (C & M & _ & LI & A). rewrite Ll, Lr in C, A.
  pose proof C as (Nz & Bz & Pz).
  rewrite (lt_init_ok ts la ra) in E1; [|exact Nz|exact Bz|destruct ts; [contradiction|]; unfold cf_ok; cbn [length]; lia]. injection E1 as <-.
  pose proof (left_form_mk ts Nz LI) as [Fz Tz]. set (z := mkLt ts _ _) in *.
  assert (Wz : cform_wk z) by (unfold cform_wk, llen; cbn [z lts lcan rcan]; destruct ts; [contradiction|]; cbn [length]; lia).
  assert (Lz : llen z = 2) by (unfold llen; cbn [z lts]; apply (f_equal (@length _)) in M; rewrite map_length in M; exact M).
  destruct (two_trunc z c la ra rk ov C Wz Tz Lz) as (y & s & k & Sy & Cz & Mc & TR & SV & Ek & WW & C7).
  { unfold z, llen in *. cbn [lts lcan rcan] in *. rewrite Lz. lia. } { exact Rp. } { exact E2. }
  destruct Sy as (Y1 & Y2 & _ & Y4 & _). pose proof Y1 as (Ny & By & _). pose proof Cu as (Nc & Bc & _).
  assert (My : map pdims (lts y) = [[e1]; [e2]]) by (transitivity (mshape z); [exact Y2|exact M]).
  assert (Ay : forall a i b, a < la -> inr i d2 -> b < ra -> amp (lts y) (singles i) a b = get t (a :: i ++ [b])).
  { intros a i b Ha Hi Hb. rewrite Y4; [|unfold mshape; cbn [z lts]; rewrite M; apply singles_valid; exact Hi|exact Ha|exact Hb].
    cbn [z lts]. rewrite A; [rewrite concat_singles; reflexivity|apply singles_valid; exact Hi|exact Ha|exact Hb]. }
  assert (Gy : forall r, inr r (la :: d2 ++ [ra]) -> get (ltens_to_array (lts y)) r = get t r).
  { intros r Hr. destruct (inr_win _ _ _ _ Hr) as (a & i & b & -> & Ha & Hi & Hb). rewrite (arr_amp (lts y) la ra d2) by (auto; exact My). apply Ay; auto. }
  (* the distance of the new window is the discarded weight *)
  assert (DW : vdist (la :: d2 ++ [ra]) (get t) (get (ltens_to_array (lts c))) = dweight (s, k)).
  { rewrite vdist_expand.
    assert (O1 : ovl la ra (lts y) (lts y) = ip (la :: d2 ++ [ra]) (get t) (get t)).
    { rewrite (ovl_local (lts y) (lts y) la ra d2 (get t) Ny By My Ay). apply msum_ext. intros r Hr. rewrite Gy by exact Hr. reflexivity. }
    assert (Ac : forall a i b, a < la -> inr i d2 -> b < ra -> amp (lts c) (singles i) a b = get (ltens_to_array (lts c)) (a :: i ++ [b])).
    { intros. symmetry. apply (arr_amp _ la ra d2); auto. }
    assert (O2 : ovl la ra (lts c) (lts c) = ip (la :: d2 ++ [ra]) (get (ltens_to_array (lts c))) (get (ltens_to_array (lts c)))).
    { exact (ovl_local (lts c) (lts c) la ra d2 _ Nc Bc Mu Ac). }
    assert (O3 : ovl la ra (lts y) (lts c) = ip (la :: d2 ++ [ra]) (get t) (get (ltens_to_array (lts c)))).
    { rewrite (ovl_local (lts y) (lts c) la ra d2 _ Ny By My Ac). apply msum_ext. intros r Hr. rewrite Gy by exact Hr. reflexivity. }
    rewrite <- O1, <- O3. rewrite C7, WW.
    change (msum (la :: d2 ++ [ra]) (fun r => kconj (get (ltens_to_array (lts c)) r) * get t r)%K) with (ip (la :: d2 ++ [ra]) (get (ltens_to_array (lts c))) (get t)) in Ou.
    rewrite Ou. fold (ip (la :: d2 ++ [ra]) (get (ltens_to_array (lts c))) (get (ltens_to_array (lts c)))). rewrite <- O2. ring. }
  rewrite DW.
  (* every window of the given rank is at least this far away *)
  destruct X as [|x1 [|x2 [|]]]; try discriminate. unfold mps_like in MX. cbn [map singles d2] in MX. injection MX as P1 P2.
  cbn [tl map] in RX. pose proof (Forall_inv RX) as RX1. cbn beta in RX1. clear RX.
  pose proof (two_cut (get t) (lts y) (lts c) la e1 e2 ra s k My ltac:(intros a i j b Ha Hi Hj Hb; exact (Ay a [i; j] b Ha (inr_cons _ _ _ _ Hi (inr_cons _ _ _ _ Hj (Forall2_nil _))) Hb)) TR) as CT.
  assert (CR : cut_rank [[la; e1]; [e2; ra]] (pair_of (get (ltens_to_array [x1; x2]))) 1 (ldim x2)).
  { exists (fun c is => match is with [[a; i]] => amp [x1] [[i]] a c | _ => k0 end), (fun c is => match is with [[j; b]] => amp [x2] [[j]] c b | _ => k0 end).
    cbn [firstn skipn]. intros is1 is2 V1 V2. destruct (one_inv' _ _ V1) as (p & -> & Q1). destruct (one_inv' _ _ V2) as (q & -> & Q2).
    destruct (inr2_inv _ _ _ Q1) as (a & i & -> & Ha & Hi). destruct (inr2_inv _ _ _ Q2) as (j & b & -> & Hj & Hb). cbn [app pair_of].
    change [a; i; j; b] with (a :: [i; j] ++ [b]). rewrite (arr_amp [x1; x2] la ra [e1; e2]); auto; [|discriminate|unfold mps_like; cbn [map singles]; rewrite P1, P2; reflexivity|repeat constructor; assumption].
    destruct BX as (B1 & B2 & B3). cbn [bonds] in B3. change [x1; x2] with ([x1] ++ [x2]). cbn [singles map].
    change [[i]; [j]] with ([[i]] ++ [[j]]). apply (amp_app [x1] [x2] [[i]] [[j]] a b la (ldim x2)); [reflexivity| |exact Ha]. cbn [bonds]. destruct B3 as (_ & B3 & _). auto. }
  apply Rle_trans with (adist [[la; e1]; [e2; ra]] (pair_of (get t)) (pair_of (get (ltens_to_array [x1; x2])))).
  - apply (cut_lower _ _ _ _ 1 s k (ldim x2) CT SV CR). lia.
  - unfold d2. rewrite <- pair_dist. cbn [Cre toC fst]. apply Rle_refl.
Qed.
End Two.
