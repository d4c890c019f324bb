(** Facts about special.py. *)
From Verif Require Export Special PfHam PfCompress.
Open Scope nat_scope.

(** ** inner_prod_mps *)
Section Inner.
Context {K : StarRing}.
Add Ring Kr : (k_ring K).

Definition site1 (t : nd K) (d : nat) : Prop := ndwf t /\ shp t = [1; d; 1].
Lemma dot_site_spec (t u : nd K) d a b : site1 t d -> ndwf u -> shp u = [a; d; b] ->
  exists m, dot_site t u = Ok m /\ shp m = [a; b] /\ ndwf m /\
    forall p q, p < a -> q < b -> get m [p; q] = bigsum d (fun i => kconj (ent t 0 [i] 0) * ent u p [i] q)%K.
Proof.
  intros [Wt St] Wu Su. unfold dot_site. rewrite St, Su. cbn [nth]. rewrite Nat.eqb_refl. cbn [praise_unless].
  eexists. split; [reflexivity|]. split; [reflexivity|]. split; [apply wf_tab|]. intros p q Hp Hq. rewrite get_tab by (apply inr2; assumption). reflexivity.
Qed.
Lemma dot2_spec (a b : nd K) m n k : shp a = [m; n] -> shp b = [n; k] ->
  exists c, dot2 a b = Ok c /\ shp c = [m; k] /\ ndwf c /\ forall i j, i < m -> j < k -> get c [i; j] = bigsum n (fun l => get a [i; l] * get b [l; j])%K.
Proof.
  intros Sa Sb. unfold dot2. rewrite Sa, Sb. cbn [nth]. rewrite Nat.eqb_refl. cbn [praise_unless]. eexists. split; [reflexivity|].
  split; [apply (shp_matdot a b [m] n n [k]); assumption|]. split; [apply wf_tensordot|]. intros i j Hi Hj.
  apply (get_matdot a b [m] n n [k] [i] [j]); [assumption|assumption|apply inr_single; assumption|apply inr_single; assumption].
Qed.
Lemma inner_loop_spec (ts : list (nd K)) : forall us ds r0 a l r, Forall2 site1 ts ds -> bonds us l r -> map pdims us = singles ds ->
  shp r0 = [a; l] -> ndwf r0 ->
  exists z, inner_loop r0 (combine ts us) = Ok z /\ shp z = [a; r] /\ ndwf z /\
    forall p q, p < a -> q < r -> get z [p; q] = bigsum l (fun c => get r0 [p; c] * msum ds (fun is => kconj (amp ts (singles is) 0 0) * amp us (singles is) c q))%K.
Proof.
  induction ts as [|t ts IH]; intros us ds r0 a l r HF HB HP S0 W0; inversion HF as [|? d ? ds' H1 H2]; subst.
  - destruct us; [|discriminate]. cbn in HB. subst r. exists r0. split; [reflexivity|]. split; [exact S0|]. split; [exact W0|]. intros p q Hp Hq. cbn [msum singles map amp].
    rewrite <- (bigsum_delta_r l q (fun c => get r0 [p; c]) Hq). apply bigsum_ext. intros c Hc. rewrite delta_conj. replace (delta (K:=K) 0 0) with (k1 (s:=K)) by reflexivity. ring.
  - destruct us as [|u us]; [discriminate|]. destruct HB as (Hu & El & HB). cbn [map singles] in HP. injection HP as Pu HP. pose proof (lt_ok_shp u Hu) as Su. rewrite Pu in Su. cbn [app] in Su. rewrite El in Su.
    destruct (dot_site_spec t u d l (rdim u) H1 (proj1 Hu) Su) as (m & Em & Sm & Wm & Gm). cbn [combine inner_loop fst snd]. rewrite Em. cbn [bind].
    destruct (dot2_spec r0 m a l (rdim u) S0 Sm) as (r1 & E1 & S1 & W1 & G1). rewrite E1. cbn [bind].
    destruct (IH us ds' r1 a (rdim u) r H2 HB HP S1 W1) as (z & Ez & Sz & Wz & Gz). exists z. split; [exact Ez|]. split; [exact Sz|]. split; [exact Wz|].
    intros p q Hp Hq. rewrite (Gz p q Hp Hq). destruct H1 as [Wt St]. assert (Rt : rdim t = 1) by (apply (rdim_mk t 1 [d] 1 St)).
    transitivity (bigsum (rdim u) (fun c => bigsum l (fun e => bigsum d (fun i => msum ds' (fun is => get r0 [p; e] * (kconj (ent t 0 [i] 0) * ent u e [i] c) * (kconj (amp ts (singles is) 0 0) * amp us (singles is) c q)))))%K).
    { apply bigsum_ext. intros c Hc. rewrite (G1 p c Hp Hc), <- bigsum_mul_r. apply bigsum_ext. intros e He. rewrite (Gm e c He Hc), <- bigsum_mul_l, <- bigsum_mul_r. apply bigsum_ext. intros i Hi. rewrite <- msum_mul_l. apply msum_ext. intros is _. reflexivity. }
    rewrite bigsum_swap. apply bigsum_ext. intros e He. rewrite bigsum_swap. cbn [msum]. rewrite <- bigsum_mul_l. apply bigsum_ext. intros i Hi.
    rewrite <- msum_bigsum_swap. rewrite <- msum_mul_l. apply msum_ext. intros is Hi'.
    change (singles (i :: is)) with ([i] :: singles is). rewrite !amp_cons, Rt. rewrite bigsum_1. rewrite <- !bigsum_mul_l. apply bigsum_ext. intros c Hc. rewrite (kconj_mul K). ring.
Qed.
Lemma rank1_sites (x : ltens K) ds : mpa_ok x -> mshape x = singles ds -> Forall (fun r => r = 1) (ranks x) -> Forall2 site1 (lts x) ds.
Proof.
  intros [Hne HB] Sx Hr. unfold mshape, ranks in *. revert ds Sx.
  assert (G : forall l ts ds, l = 1 -> bonds ts l 1 -> map pdims ts = singles ds -> Forall (fun r => r = 1) (map ldim (tl ts)) -> Forall2 site1 ts ds).
  { intros l ts. revert l. induction ts as [|t ts IH]; intros l ds El HB' Sx HF; destruct ds as [|d ds]; try discriminate; [constructor|].
    cbn [map singles] in Sx. injection Sx as Pt Sx. destruct HB' as (Ht & E1 & HB'). pose proof (lt_ok_shp t Ht) as St. rewrite Pt in St. cbn [app] in St.
    assert (Rt : rdim t = 1). { destruct ts as [|t' ts]; [exact HB'|]. destruct HB' as (_ & E2 & _). cbn [tl map] in HF. inversion HF. congruence. }
    constructor; [split; [exact (proj1 Ht)|congruence]|]. apply (IH (rdim t)); auto. cbn [tl] in HF. destruct ts; [constructor|]. cbn [map tl] in *. inversion HF; assumption. }
  intros ds Sx. apply (G 1); auto.
Qed.
Theorem inner_prod_mps_spec (x y : ltens K) : mpa_ok x -> mpa_ok y -> one_leg (mshape x) -> mshape y = mshape x -> Forall (fun r => r = 1) (ranks x) ->
  inner_prod_mps x y = Ok (inner_of x y).
Proof.
  intros Hx Hy H1 Sy Hr. unfold inner_prod_mps.
  replace (forallb (fun r => Nat.eqb r 1) (ranks x)) with true by (symmetry; apply forallb_forall; rewrite Forall_forall in Hr; intros r Hi; rewrite (Hr r Hi); reflexivity).
  rewrite (ndims_legs x 1 Hx H1 : forallb (fun d => (d =? 1)%Z) (ndims x) = true). rewrite (ndims_legs y 1 Hy ltac:(rewrite Sy; exact H1) : forallb (fun d => (d =? 1)%Z) (ndims y) = true). cbn [passert].
  set (ds := leg1 (mshape x)). assert (Sx : mshape x = singles ds) by (unfold ds; apply one_leg_singles; exact H1).
  pose proof (rank1_sites x ds Hx Sx Hr) as HF. assert (EN : forall (z : ltens K) is, mpa_ok z -> mshape z = singles ds -> inr is ds -> entry z (singles is) = amp (lts z) (singles is) 0 0).
  { intros z is Hz Sz Hi. apply entry_amp; [exact Hz|]. rewrite Sz. apply singles_valid. exact Hi. }
  assert (EI : inner_of x y = msum ds (fun is => kconj (amp (lts x) (singles is) 0 0) * amp (lts y) (singles is) 0 0)%K).
  { unfold inner_of. rewrite Sx, msums_singles. apply msum_ext. intros is Hi. rewrite !EN by (auto; congruence). reflexivity. }
  rewrite EI. clear EI EN. rewrite Sx in Sy. clearbody ds. clear Hr H1. destruct Hx as [Nx Bx]. destruct Hy as [Ny By]. unfold mshape in *.
  destruct (lts x) as [|t ts]; [congruence|]. destruct (lts y) as [|u us]; [congruence|]. clear Nx Ny Sx Bx.
  inversion HF as [|? d ? ds' H1 H2]; subst. destruct By as (Hu & El & HB). cbn [map singles] in Sy. injection Sy as Pu HP. pose proof (lt_ok_shp u Hu) as Su. rewrite Pu in Su. cbn [app] in Su. rewrite El in Su.
  destruct (dot_site_spec t u d 1 (rdim u) H1 (proj1 Hu) Su) as (m & Em & Sm & Wm & Gm). rewrite Em. cbn [bind].
  destruct (inner_loop_spec ts us ds' m 1 (rdim u) 1 H2 HB HP Sm Wm) as (z & Ez & Sz & Wz & Gz). rewrite Ez. cbn [bind]. f_equal. rewrite (Gz 0 0) by lia.
  destruct H1 as [Wt St]. assert (Rt : rdim t = 1) by (apply (rdim_mk t 1 [d] 1 St)). cbn [msum].
  transitivity (bigsum (rdim u) (fun c => bigsum d (fun i => msum ds' (fun is => (kconj (ent t 0 [i] 0) * ent u 0 [i] c) * (kconj (amp ts (singles is) 0 0) * amp us (singles is) c 0))))%K).
  { apply bigsum_ext. intros c Hc. rewrite (Gm 0 c) by lia. rewrite <- bigsum_mul_r. apply bigsum_ext. intros i Hi. rewrite <- msum_mul_l. reflexivity. }
  rewrite bigsum_swap. apply bigsum_ext. intros i Hi. rewrite <- msum_bigsum_swap. apply msum_ext. intros is Hi'.
  change (singles (i :: is)) with ([i] :: singles is). rewrite !amp_cons, Rt. rewrite bigsum_1. rewrite <- !bigsum_mul_l. apply bigsum_ext. intros c Hc. rewrite (kconj_mul K). ring.
Qed.
End Inner.

(** ** sumup *)
Lemma nth_flat (A : Type) (f : nat -> list A) p d : 0 < p -> (forall i, length (f i) = p) -> forall s a m, m < s * p ->
  nth m (flat_map f (seq a s)) d = nth (m mod p) (f (a + m / p)) d.
Proof.
  intros Hp Hl. induction s as [|s IH]; intros a m Hm; [lia|]. cbn [seq flat_map].
  destruct (Nat.lt_ge_cases m p) as [H|H].
  - rewrite app_nth1 by (rewrite Hl; exact H). rewrite Nat.mod_small, Nat.div_small, Nat.add_0_r by exact H. reflexivity.
  - rewrite app_nth2 by (rewrite Hl; exact H). rewrite Hl, IH by (cbn in Hm; lia).
    assert (E : m = (m - p) + 1 * p) by lia. rewrite E at 3 4. rewrite Nat.mod_add, Nat.div_add by lia. f_equal. f_equal. lia.
Qed.
Lemma concat_repeat_seq (A : Type) (l : list A) n a : concat (repeat l n) = flat_map (fun _ => l) (seq a n).
Proof. revert a. induction n as [|n IH]; intros a; [reflexivity|]. cbn. f_equal. apply IH. Qed.
Lemma mod_pair' f j nr : j < nr -> (f * nr + j) mod nr = j.
Proof. intros H. rewrite Nat.add_comm, Nat.mod_add by lia. apply Nat.mod_small. exact H. Qed.
Lemma div_pair' f j nr : j < nr -> (f * nr + j) / nr = f.
Proof. intros H. rewrite Nat.add_comm, Nat.div_add by lia. rewrite Nat.div_small by exact H. lia. Qed.
Lemma mul_lt f D j nr : f < D -> j < nr -> f * nr + j < D * nr.
Proof. intros. nia. Qed.

Section Sumup.
Context {K : StarRing}.
Add Ring Kr : (k_ring K).

Lemma local_add_sparse_spec (ls : list (list K)) D : ls <> [] -> Forall (fun l => length l = D) ls -> let nr := length ls in
  exists m, local_add_sparse ls = Ok m /\ shp m = [nr; D * nr] /\ ndwf m /\
    forall l f j, l < nr -> f < D -> j < nr -> get m [l; f * nr + j] = (if Nat.eqb j l then nth f (nth j ls []) k0 else k0).
Proof.
  intros Hne HF nr. assert (Hnr : 0 < nr) by (unfold nr; destruct ls; [congruence|cbn; lia]).
  assert (E : local_add_sparse ls = Ok (csc_dense (flat_map (fun d => map (fun l => nth d l k0) ls) (seq 0 D)) (concat (repeat (seq 0 nr) D)) (seq 0 (nr * D + 1)) nr (D * nr))).
  { unfold local_add_sparse. destruct ls as [|l0 ls']; [congruence|]. assert (L0 : length l0 = D) by (inversion HF; assumption). rewrite L0.
    replace (forallb (fun l => Nat.eqb (length l) D) (l0 :: ls')) with true; [reflexivity|]. symmetry. apply forallb_forall. rewrite Forall_forall in HF. intros l Hl. apply Nat.eqb_eq. auto. }
  rewrite E. eexists. split; [reflexivity|]. split; [reflexivity|]. split; [apply wf_tab|]. intros l f j Hl Hf Hj. pose proof (mul_lt f D j nr Hf Hj) as Hc.
  unfold csc_dense. rewrite get_tab by (apply inr2; assumption). cbn [nth]. rewrite !seq_nth by nia. replace (0 + S (f * nr + j) - (0 + (f * nr + j))) with 1 by lia.
  rewrite bigsum_1. rewrite Nat.add_0_r. cbn [Nat.add]. rewrite (concat_repeat_seq nat (seq 0 nr) D 0). rewrite (nth_flat nat _ nr 0 Hnr) by (try (intros; apply seq_length); exact Hc).
  rewrite (nth_flat K _ nr k0 Hnr) by (try (intros; apply map_length); exact Hc). rewrite mod_pair', div_pair' by exact Hj. rewrite seq_nth by exact Hj. cbn [Nat.add].
  destruct (Nat.eqb j l); [|reflexivity]. rewrite (nth_indep _ k0 (nth f [] k0)) by (rewrite map_length; exact Hj). apply (map_nth (fun l0 => nth f l0 k0) ls [] j).
Qed.
Lemma scale_sv_spec (sv : list K) (v : nd K) d n : shp v = [d; n] ->
  shp (scale_sv sv v) = [d; n] /\ ndwf (scale_sv sv v) /\ forall c j, c < d -> j < n -> get (scale_sv sv v) [c; j] = (nth c sv k0 * get v [c; j])%K.
Proof.
  intros Sv. unfold scale_sv. split; [exact Sv|]. split; [apply wf_tab|]. intros c j Hc Hj. rewrite get_tab by (rewrite Sv; apply inr2; assumption). reflexivity.
Qed.

Lemma reshape_to_ok (a : nd K) sh q : reshape_to sh q -> size q = size (shp a) -> reshape_py a sh = Ok (reshape a q).
Proof. intros R E. unfold reshape_py. rewrite <- E, (resolve_shape_spec _ _ R). reflexivity. Qed.

Variable svdfunc : nd K -> nat -> res (nd K * list K * nd K).
Hypothesis Hsvd : tsvd_sound svdfunc.
(** The number of singular values is the one asked for, as far as there are that many. *)
Definition tsvd_full : Prop := forall m n k a u s v, is_mat a m n -> 0 < k -> svdfunc a k = Ok (u, s, v) -> length s = Nat.min k (Nat.min m n).
Hypothesis Hfull : tsvd_full.

(** Flat entry [f] of the local tensor [k] of [x]. *)
Definition fval (x : ltens K) (k f : nat) : K := nth f (dat (nth k (lts x) (mkNd [] []))) k0.
Fixpoint fprod (x : ltens K) (k : nat) (fs : list nat) : K :=
  match fs with [] => k1 | f :: fs => (fval x k f * fprod x (S k) fs)%K end.
Section Loop.
Variable mpas : list (ltens K).
Variable sh : list (list nat).
Let nr := length mpas.
Let D (k : nat) := size (nth k sh []).
Let no := mkLt (K:=K) [] 0 0.
Hypothesis Hnr : 0 < nr.
Hypothesis Hdat : forall x k, In x mpas -> k < length sh -> length (dat (nth k (lts x) (mkNd [] []))) = D k.
Hypothesis HD : forall k, k < length sh -> 0 < D k.

Definition loop_post (rank : nat) (ks : list nat) (k0' prev : nat) (sv : list K) (v : nd K) (r : list (nd K) * list K * nd K) : Prop :=
  let '(ts, sv2, v2) := r in let d2 := length sv2 in
  shp v2 = [d2; nr] /\ ndwf v2 /\ 0 < d2 /\ bonds ts prev d2 /\ map pdims ts = map (fun k => [D k]) ks /\ Forall left_iso ts /\
  Forall (fun t => 0 < size (shp t)) ts /\ Forall (fun t => rdim t <= Nat.min rank nr) ts /\ (ks <> [] -> d2 <= Nat.min rank nr) /\ (ks = [] -> d2 = prev) /\
  (nr <= rank -> forall fs c j, Forall2 (fun f k => f < D k) fs ks -> c < prev -> j < nr ->
     bigsum d2 (fun e => amp ts (singles fs) c e * (nth e sv2 k0 * get v2 [e; j]))%K = (nth c sv k0 * get v [c; j] * fprod (nth j mpas no) k0' fs)%K) /\
  (forall e j, e < d2 -> j < nr ->
     (nth e sv2 k0 * get v2 [e; j])%K =
     bigsum prev (fun c => msum (map D ks) (fun fs => kconj (amp ts (singles fs) c e) * (nth c sv k0 * get v [c; j] * fprod (nth j mpas no) k0' fs)))%K).
(** One singular value decomposition in front of a chain that is already decomposed. *)
Lemma step_post rank kk m prev sv v cm k u s' v' ts sv2 v2 : kk < length sh -> 0 < prev -> 
  (forall a f j, a < prev -> f < D kk -> j < nr -> get cm [a * D kk + f; j] = (nth a sv k0 * get v [a; j] * fval (nth j mpas no) kk f)%K) ->
  tsvd_factors cm (prev * D kk) nr k u s' v' -> (nr <= rank -> nr <= k \/ prev * D kk <= k) -> length s' <= Nat.min rank nr ->
  loop_post rank (seq (S kk) m) (S kk) (length s') s' v' (ts, sv2, v2) ->
  loop_post rank (seq kk (S m)) kk prev sv v (reshape u [prev; D kk; length s'] :: ts, sv2, v2).
Proof.
  intros Hk Hp Gcm FF Hex Hrn P. assert (Dk := HD kk Hk). set (Dk0 := D kk) in *. set (rt := length s') in *.
  destruct FF as (F1 & F2 & F3 & F4 & F5 & F6 & F7 & F8 & F9 & F10 & F11 & F12 & F13 & F14). fold rt in F1, F2, F3, F4, F5, F7, F9, F10, F11, F12, F13, F14.
  destruct (lten_spec u prev [Dk0] (prev * Dk0) rt F5 F6 ltac:(rewrite size_single; reflexivity)) as (T1 & T2 & T3 & T4 & T5 & T6 & T7). cbn [app] in *.
  set (t := reshape u [prev; Dk0; rt]) in *.
  unfold loop_post in *. set (d2 := length sv2) in *. destruct P as (P1 & P2 & P3 & P4 & P5 & P6 & P7 & P8 & P9 & P9' & P10 & P11).
  split; [exact P1|]. split; [exact P2|]. split; [exact P3|]. split; [cbn [bonds]; rewrite T2, T4; auto|]. split; [cbn [map seq]; rewrite T3, P5; reflexivity|].
  split; [constructor; [apply T7; exact F9|exact P6]|]. split; [constructor; [rewrite T5; nia|exact P7]|]. split; [constructor; [rewrite T4; exact Hrn|exact P8]|].
  split. { intros _. destruct m as [|m]; [rewrite (P9' eq_refl); exact Hrn|apply P9; discriminate]. } split; [discriminate|].
  assert (Eu : forall a f e, a < prev -> f < Dk0 -> e < rt -> ent t a [f] e = get u [a * Dk0 + f; e]).
  { intros a f e Ha Hf He. rewrite T6 by (auto; apply inr_single; exact Hf). cbn [ravel]. rewrite !size_single, size_nil. f_equal. f_equal. lia. }
  assert (Erd : forall a f fs' b, amp (t :: ts) ([f] :: singles fs') a b = bigsum rt (fun e => ent t a [f] e * amp ts (singles fs') e b)%K) by (intros; rewrite amp_cons, T4; reflexivity).
  split.
  - intros Hle fs a j HF Ha Hj. cbn [seq] in HF. destruct fs as [|f fs']; [inversion HF|]. inversion_clear HF as [|? ? ? ? Hf HF']. change (singles (f :: fs')) with ([f] :: singles fs'). cbn [fprod].
    transitivity (bigsum rt (fun e => ent t a [f] e * bigsum d2 (fun b => amp ts (singles fs') e b * (nth b sv2 k0 * get v2 [b; j])))%K).
    { transitivity (bigsum d2 (fun b => bigsum rt (fun e => ent t a [f] e * amp ts (singles fs') e b * (nth b sv2 k0 * get v2 [b; j])))%K).
      - apply bigsum_ext. intros b _. rewrite Erd, <- bigsum_mul_r. reflexivity.
      - rewrite bigsum_swap. apply bigsum_ext. intros e _. rewrite <- bigsum_mul_l. apply bigsum_ext. intros b _. ring. }
    transitivity (bigsum rt (fun e => (get u [(a * Dk0 + f)%nat; e] * nth e s' k0 * get v' [e; j]) * fprod (nth j mpas no) (S kk) fs')%K).
    { apply bigsum_ext. intros e He. rewrite (P10 Hle fs' e j HF' He Hj). rewrite Eu by assumption. ring. }
    rewrite bigsum_mul_r. rewrite <- F14 by (first [specialize (Hex Hle); lia|exact Hj|apply mul_lt; assumption]). rewrite (Gcm a f j Ha Hf Hj). ring.
  - intros e j He Hj. rewrite (P11 e j He Hj). cbn [seq map]. change (D kk) with Dk0. cbn [msum fprod].
    transitivity (bigsum prev (fun c => bigsum Dk0 (fun f => msum (map D (seq (S kk) m)) (fun fs => bigsum rt (fun b =>
       kconj (amp ts (singles fs) b e) * (kconj (get u [(c * Dk0 + f)%nat; b]) * get cm [(c * Dk0 + f)%nat; j] * fprod (nth j mpas no) (S kk) fs))))))%K.
    2:{ apply bigsum_ext. intros c Hc. apply bigsum_ext. intros f Hf. apply msum_ext. intros fs _. change (singles (f :: fs)) with ([f] :: singles fs). rewrite Erd, bigsum_conj, <- bigsum_mul_r.
        apply bigsum_ext. intros b Hb. rewrite (kconj_mul K). rewrite Eu by assumption. rewrite (Gcm c f j Hc Hf Hj). ring. }
    transitivity (msum (map D (seq (S kk) m)) (fun fs => bigsum rt (fun b => bigsum prev (fun c => bigsum Dk0 (fun f =>
       kconj (amp ts (singles fs) b e) * (kconj (get u [(c * Dk0 + f)%nat; b]) * get cm [(c * Dk0 + f)%nat; j] * fprod (nth j mpas no) (S kk) fs))))))%K.
    + rewrite <- msum_bigsum_swap. apply msum_ext. intros fs _. apply bigsum_ext. intros b Hb. rewrite <- F12 by assumption.
      rewrite bigsum_prod by exact Dk. rewrite <- bigsum_mul_r. rewrite <- bigsum_mul_l. apply bigsum_ext. intros c Hc. rewrite <- bigsum_mul_r. rewrite <- bigsum_mul_l. reflexivity.
    + transitivity (msum (map D (seq (S kk) m)) (fun fs => bigsum prev (fun c => bigsum Dk0 (fun f => bigsum rt (fun b =>
       kconj (amp ts (singles fs) b e) * (kconj (get u [(c * Dk0 + f)%nat; b]) * get cm [(c * Dk0 + f)%nat; j] * fprod (nth j mpas no) (S kk) fs))))))%K.
      * apply msum_ext. intros fs _. rewrite bigsum_swap. apply bigsum_ext. intros c _. apply bigsum_swap.
      * rewrite msum_bigsum_swap. apply bigsum_ext. intros c _. apply msum_bigsum_swap.
Qed.
Lemma loop_spec rank : 0 < rank -> forall m k0' prev sv v, k0' + m <= length sh -> length sv = prev -> 0 < prev -> shp v = [prev; nr] -> ndwf v ->
  outc (tsvd_fails svdfunc) (sumup_loop svdfunc mpas rank (seq k0' m) prev sv v) (loop_post rank (seq k0' m) k0' prev sv v).
Proof.
  intros Hr. induction m as [|m IH]; intros kk prev sv v Hk Lsv Hp Sv Wv.
  - cbn [seq sumup_loop]. apply outc_ok. cbn beta iota. unfold loop_post. rewrite Lsv. split; [exact Sv|]. split; [exact Wv|]. split; [exact Hp|]. split; [reflexivity|]. split; [reflexivity|]. do 3 (split; [constructor|]).
    split; [congruence|]. split; [reflexivity|]. split.
    + intros _ fs c j HF Hc Hj. inversion HF; subst. cbn [singles map amp fprod]. rewrite (bigsum_delta_l (length sv) c (fun e => nth e sv k0 * get v [e; j])%K Hc). ring.
    + intros e j He Hj. cbn [map msum singles amp fprod]. symmetry.
      transitivity (bigsum prev (fun c => delta (K:=K) e c * (nth c sv k0 * get v [c; j])))%K; [|apply (bigsum_delta_l prev e (fun c => nth c sv k0 * get v [c; j])%K He)].
      apply bigsum_ext. intros c _. rewrite delta_conj, delta_sym. ring.
  - cbn [seq sumup_loop].
    set (ls := map dat (nsite mpas kk)). assert (Ll : length ls = nr) by (unfold ls, nsite; rewrite !map_length; reflexivity).
    assert (HL : Forall (fun l => length l = D kk) ls).
    { unfold ls, nsite. rewrite map_map, Forall_map. apply Forall_forall. intros x Hx. apply Hdat; [exact Hx|lia]. }
    assert (Nth : forall j f, j < nr -> nth f (nth j ls []) k0 = fval (nth j mpas no) kk f).
    { intros j f Hj. unfold ls, nsite. rewrite map_map. rewrite (nth_indep _ [] ((fun x => dat (nth kk (lts x) (mkNd [] []))) no)) by (rewrite map_length; exact Hj).
      rewrite (map_nth (fun x => dat (nth kk (lts x) (mkNd [] [])))). reflexivity. }
    assert (Dk := HD kk ltac:(lia)). set (Dk0 := D kk) in *.
    destruct (local_add_sparse_spec ls Dk0) as (sp & Esp & Ssp & Wsp & Gsp). { intros E. rewrite E in Ll. cbn in Ll. lia. } { exact HL. }
    rewrite Ll in Ssp, Gsp. fold nr. rewrite Esp. cbn [bind].
    destruct (scale_sv_spec sv v prev nr Sv) as (S1 & W1 & G1).
    destruct (dot2_spec (scale_sv sv v) sp prev nr (Dk0 * nr) S1 Ssp) as (c & Ec & Sc & Wc & Gc). rewrite Ec. cbn [bind].
    assert (RS : reshape_py c [-1; Z.of_nat nr]%Z = Ok (reshape c [prev * Dk0; nr])).
    { apply reshape_to_ok; [apply (RT_one [] (prev * Dk0) [nr]); [rewrite size_nil; lia|rewrite size_single; exact Hnr]|]. rewrite Sc, !size2. ring. }
    rewrite RS. cbn [bind]. set (cm := reshape c [prev * Dk0; nr]). cbn [shp reshape]. change (shp cm) with [prev * Dk0; nr]. cbn [nth].
    assert (Hcm : is_mat cm (prev * Dk0) nr) by (split; [reflexivity|]; split; [apply wf_reshape; [exact Wc|rewrite Sc, !size2; ring]|]; split; [nia|exact Hnr]).
    set (rt := Nat.min rank (Nat.min (prev * Dk0) nr)). assert (Hrt : 0 < rt) by (unfold rt; nia).
    assert (Gcm : forall a f j, a < prev -> f < Dk0 -> j < nr -> get cm [a * Dk0 + f; j] = (nth a sv k0 * get v [a; j] * fval (nth j mpas no) kk f)%K).
    { intros a f j Ha Hf Hj. unfold cm. rewrite (get_reshape' c [prev * Dk0; nr] _ [a; f * nr + j]) by (rewrite Sc; cbn [ravel]; rewrite !size_single, !size_nil; nia).
      rewrite Gc by (auto; apply mul_lt; assumption). rewrite <- (Nth j f Hj).
      transitivity (bigsum nr (fun l => delta (K:=K) j l * (nth a sv k0 * get v [a; l] * nth f (nth j ls []) k0))%K); [|rewrite bigsum_delta_l by exact Hj; reflexivity].
      apply bigsum_ext. intros l Hl. rewrite G1 by assumption. rewrite Gsp by assumption. unfold delta. destruct (Nat.eqb j l); ring. }
    destruct (tsvd_outc svdfunc _ _ rt cm Hsvd Hcm Hrt) as [(f & Ef & FF)|[Ef FF]].
    2:{ rewrite Ef. right. split; [reflexivity|exact FF]. }
    rewrite Ef. cbn [bind]. destruct f as [[u s'] v']. cbn [fst snd] in FF. pose proof (Hfull _ _ _ _ _ _ _ Hcm Hrt Ef) as Ls.
    replace (Nat.min rt (Nat.min (prev * Dk0) nr)) with rt in Ls by (unfold rt; lia).
    pose proof FF as (F1 & _ & _ & _ & F5 & F6 & F7 & F8 & _). rewrite Ls in F5, F7.
    assert (RU : reshape_py u [Z.of_nat prev; -1; Z.of_nat rt]%Z = Ok (reshape u [prev; Dk0; rt])).
    { apply reshape_to_ok; [apply (RT_one [prev] Dk0 [rt]); rewrite size_single; assumption|]. rewrite F5. rewrite !size_cons, !size_nil. ring. }
    rewrite RU. cbn [bind].
    eapply outc_bind; [apply (IH (S kk) rt s' v'); [lia|exact Ls|exact Hrt|exact F7|exact F8]|].
    intros [[ts sv2] v2] P. apply outc_ok. rewrite <- Ls in P |- *.
    apply (step_post rank kk m prev sv v cm rt u s' v' ts sv2 v2); auto; [lia|unfold rt; lia|rewrite Ls; unfold rt; lia].
Qed.
End Loop.

(** *** Sites of a product *)
Definition siteP (t : nd K) (p : list nat) : Prop := ndwf t /\ shp t = 1 :: p ++ [1].
Lemma rank1_sitesP (x : ltens K) : mpa_ok x -> Forall (fun r => r = 1) (ranks x) -> Forall2 siteP (lts x) (mshape x).
Proof.
  intros [Hne HB] Hr. unfold mshape, ranks in *.
  assert (G : forall ts l, l = 1 -> bonds ts l 1 -> Forall (fun r => r = 1) (map ldim (tl ts)) -> Forall2 siteP ts (map pdims ts)).
  { induction ts as [|t ts IH]; intros l El HB' HF; [constructor|].
    destruct HB' as (Ht & E1 & HB'). pose proof (lt_ok_shp t Ht) as St.
    assert (Rt : rdim t = 1). { destruct ts as [|t' ts]; [exact HB'|]. destruct HB' as (_ & E2 & _). cbn [tl map] in HF. inversion HF. congruence. }
    constructor; [split; [exact (proj1 Ht)|rewrite St, E1, El, Rt; reflexivity]|]. apply (IH (rdim t)); auto. cbn [tl] in HF. destruct ts; [constructor|]. cbn [map tl] in *. inversion HF; assumption. }
  apply (G _ 1); auto.
Qed.
Lemma siteP_ent t p i : siteP t p -> inr i p -> ent t 0 i 0 = nth (ravel p i) (dat t) k0 /\ rdim t = 1.
Proof.
  intros [W S] Hi. split; [|apply (rdim_mk t 1 p 1 S)]. unfold ent, get. rewrite S. change (0 :: i ++ [0]) with ((0 :: i) ++ [0]). change (1 :: p ++ [1]) with ((1 :: p) ++ [1]).
  rewrite ravel_app by (apply inr_cons; [lia|exact Hi]). cbn [ravel]. rewrite !size_single, size_nil. f_equal. lia.
Qed.
Lemma amp_fprod (x : ltens K) : forall ts ps is pre, lts x = pre ++ ts -> Forall2 siteP ts ps -> Forall2 inr is ps ->
  amp ts is 0 0 = fprod x (length pre) (zip2 ravel ps is).
Proof.
  induction ts as [|t ts IH]; intros ps is pre E H1 H2; destruct ps as [|p ps]; [|inversion H1|inversion H1|]; (destruct is as [|i is]; [|]; [try reflexivity; inversion H2|try solve [inversion H2]]).
  inversion_clear H1 as [|? ? ? ? A1 A2]. inversion_clear H2 as [|? ? ? ? B1 B2].
  cbn [zip2 fprod]. rewrite amp_cons. destruct (siteP_ent t _ _ A1 B1) as [E1 E2]. rewrite E2, bigsum_1, E1. f_equal.
  - unfold fval. rewrite E, app_nth2, Nat.sub_diag by lia. reflexivity.
  - rewrite (IH ps is (pre ++ [t])); auto; [rewrite app_length; cbn [length]; f_equal; lia|rewrite <- app_assoc; exact E].
Qed.
Lemma entry_fprod (x : ltens K) is : mpa_ok x -> Forall (fun r => r = 1) (ranks x) -> valid_idx is (mshape x) -> entry x is = fprod x 0 (zip2 ravel (mshape x) is).
Proof. intros Hx Hr Hi. rewrite entry_amp by assumption. apply (amp_fprod x (lts x) (mshape x) is []); auto. apply rank1_sitesP; assumption. Qed.

(** *** Concatenations *)
Lemma locate_ones n j : j < n -> locate (repeat 1 n) j = (j, 0).
Proof.
  revert j. induction n as [|n IH]; intros j Hj; [lia|]. cbn [repeat locate]. destruct j as [|j]; [reflexivity|].
  change (S j <? 1) with false. cbn iota. replace (S j - 1) with j by lia. rewrite IH by lia. reflexivity.
Qed.
Lemma sum_ones n : fold_right Nat.add 0 (repeat 1 n) = n.
Proof. induction n; cbn; lia. Qed.
Lemma concat_np_spec (ss : list (nd K)) p1 p2 : ss <> [] -> Forall (fun s => shp s = p1 ++ 1 :: p2) ss ->
  exists c, concat_np (length p1) ss = Ok c /\ shp c = p1 ++ length ss :: p2 /\ ndwf c /\
    forall i1 j i2, inr i1 p1 -> inr i2 p2 -> j < length ss -> get c (i1 ++ j :: i2) = get (nth j ss (mkNd [] [])) (i1 ++ 0 :: i2).
Proof.
  intros Hne HF. unfold concat_np. destruct ss as [|s0 ss']; [congruence|]. assert (E0 : shp s0 = p1 ++ 1 :: p2) by (inversion HF; assumption). set (ss := s0 :: ss') in *. clearbody ss. clear Hne.
  assert (Sz : map (fun s => nth (length p1) (shp s) 0) ss = repeat 1 (length ss)).
  { clear E0. induction HF as [|s l Hs HF IH]; [reflexivity|]. cbn [map repeat length]. rewrite IH, Hs, app_nth2, Nat.sub_diag by lia. reflexivity. }
  rewrite Sz, sum_ones, E0, !set_nth_at.
  replace (forallb (fun s => list_eqb (set_nth (length p1) 0 (shp s)) (p1 ++ 0 :: p2)) ss) with true.
  2:{ symmetry. apply forallb_forall. rewrite Forall_forall in HF. intros s Hs. rewrite (HF s Hs), set_nth_at. apply list_eqb_refl. }
  cbn [praise_unless]. eexists. split; [reflexivity|]. split; [reflexivity|]. split; [apply wf_tab|]. intros i1 j i2 H1 H2 Hj.
  assert (L : length i1 = length p1) by (apply (Forall2_len _ _ _ _ _ H1)).
  rewrite get_tab by (apply inr_app; [exact H1|apply inr_cons; assumption]). cbn zeta. rewrite <- L, app_nth2, Nat.sub_diag by lia. cbn [nth]. rewrite locate_ones by exact Hj. cbn [fst snd]. rewrite set_nth_at. reflexivity.
Qed.
Lemma F2_nth (A B : Type) (R : A -> B -> Prop) l m k d e : Forall2 R l m -> k < length m -> R (nth k l d) (nth k m e).
Proof. intros H. revert k. induction H; intros k Hk; [cbn in Hk; lia|]. destruct k; [assumption|]. cbn. apply IHForall2. cbn in Hk. lia. Qed.
Lemma msums_zip ps (g : list nat -> K) : msums ps (fun is => g (zip2 ravel ps is)) = msum (map size ps) g.
Proof.
  revert g. induction ps as [|p ps IH]; intros g; [reflexivity|]. cbn [msums map msum zip2]. rewrite msum_flat. apply bigsum_ext. intros f Hf.
  rewrite ravel_unravel by exact Hf. apply (IH (fun fs => g (f :: fs))).
Qed.
Lemma msums_ext' ps (f g : list (list nat) -> K) : (forall is, valid_idx is ps -> f is = g is) -> msums ps f = msums ps g.
Proof.
  revert f g. induction ps as [|p ps IH]; intros f g H; cbn [msums]; [apply H; constructor|]. apply msum_ext. intros i Hi. apply IH. intros is Hs. apply H. constructor; assumption.
Qed.
Lemma fprod_app x fs f : forall k, fprod x k (fs ++ [f]) = (fprod x k fs * fval x (k + length fs) f)%K.
Proof.
  induction fs as [|h fs IH]; intros k; cbn [app fprod length]; [rewrite Nat.add_0_r; ring|]. rewrite IH. replace (S k + length fs) with (k + S (length fs)) by lia. ring.
Qed.

(** *** The whole function *)
Section Whole.
Variable mpas : list (ltens K).
Variable sh : list (list nat).
Variable ws : option (list K).
Let nr := length mpas.
Let no := mkLt (K:=K) [] 0 0.
Hypothesis Hne : mpas <> [].
Hypothesis Hok : Forall mpa_ok mpas.
Hypothesis Hsh : Forall (fun x => mshape x = sh) mpas.
Hypothesis Hw : forall w, ws = Some w -> length w = nr.

(** The weighted sum of the arrays. *)
Definition wsum (is : list (list nat)) : K := bigsum nr (fun j => wt ws j * entry (nth j mpas no) is)%K.

Section Product.
Hypothesis Hr1 : Forall (fun x => Forall (fun r => r = 1) (ranks x)) mpas.
Hypothesis Hpos : Forall (fun p => 0 < size p) sh.
Hypothesis Hlen : 2 <= length sh.
Let D (k : nat) := size (nth k sh []).

Lemma nr_pos : 0 < nr.
Proof. unfold nr. destruct mpas; [congruence|cbn; lia]. Qed.
Lemma HD_ok k : k < length sh -> 0 < D k.
Proof. intros Hk. unfold D. rewrite Forall_forall in Hpos. apply Hpos. apply nth_In. exact Hk. Qed.
Lemma site_at x k : In x mpas -> k < length sh -> siteP (nth k (lts x) (mkNd [] [])) (nth k sh []).
Proof.
  intros Hx Hk. rewrite Forall_forall in Hok, Hsh, Hr1. pose proof (rank1_sitesP x (Hok x Hx) (Hr1 x Hx)) as H. rewrite (Hsh x Hx) in H.
  apply F2_nth; assumption.
Qed.
Lemma Hdat_ok x k : In x mpas -> k < length sh -> length (dat (nth k (lts x) (mkNd [] []))) = D k.
Proof. intros Hx Hk. destruct (site_at x k Hx Hk) as [W S]. unfold ndwf in W. rewrite W, S. unfold D. rewrite size_cons, size_app, size_single. lia. Qed.
Lemma in_mpas j : j < nr -> In (nth j mpas no) mpas.
Proof. intros Hj. apply nth_In. exact Hj. Qed.

Let wv : list K := match ws with Some w => w | None => repeat k1 nr end.
Lemma wv_len : length wv = nr.
Proof. unfold wv. destruct ws as [w|]; [apply (Hw w eq_refl)|apply repeat_length]. Qed.
Lemma wv_nth j : j < nr -> nth j wv k0 = wt ws j.
Proof. intros Hj. unfold wv, wt. destruct ws as [w|]; [reflexivity|]. apply nth_rep. exact Hj. Qed.

Lemma get_flat_site t p f : siteP t p -> f < size p -> nth f (dat t) k0 = get t (0 :: unravel p f ++ [0]).
Proof. intros H Hf. destruct (siteP_ent t p (unravel p f) H (unravel_inr p f Hf)) as [E _]. unfold ent in E. rewrite E, ravel_unravel by exact Hf. reflexivity. Qed.
Lemma first_site : let k0' := ndim (nth 0 (lts (hd no mpas)) (mkNd [] [])) - 1 in
  exists c, concat_np k0' (map (fun p => nscale (fst p) (snd p)) (combine wv (nsite mpas 0))) = Ok c /\
  reshape_py c [-1; Z.of_nat nr]%Z = Ok (reshape c [D 0; nr]) /\ is_mat (reshape c [D 0; nr]) (D 0) nr /\
  forall f j, f < D 0 -> j < nr -> get (reshape c [D 0; nr]) [f; j] = (wt ws j * fval (nth j mpas no) 0 f)%K.
Proof.
  intros k0'. set (p := nth 0 sh []). assert (Hh : In (hd no mpas) mpas) by (destruct mpas; [congruence|left; reflexivity]).
  assert (Ek : k0' = length (1 :: p)). { unfold k0', ndim. destruct (site_at _ 0 Hh ltac:(lia)) as [_ S]. rewrite S. fold p. cbn [length]. rewrite app_length. cbn [length]. lia. }
  set (ss := map (fun p => nscale (fst p) (snd p)) (combine wv (nsite mpas 0))).
  assert (Ls : length ss = nr). { unfold ss, nsite. rewrite map_length, combine_length, map_length, wv_len. unfold nr. lia. }
  assert (Ns : forall j, j < nr -> nth j ss (mkNd [] []) = nscale (wt ws j) (nth 0 (lts (nth j mpas no)) (mkNd [] []))).
  { intros j Hj. unfold ss. rewrite (nth_indep _ _ ((fun p => nscale (fst p) (snd p)) (k0, mkNd [] []))) by (fold ss; rewrite Ls; exact Hj).
    rewrite (map_nth (fun p => nscale (fst p) (snd p))). rewrite combine_nth by (unfold nsite; rewrite map_length; apply wv_len). cbn [fst snd]. rewrite wv_nth by exact Hj. f_equal.
    unfold nsite. rewrite (nth_indep _ _ ((fun x => nth 0 (lts x) (mkNd [] [])) no)) by (rewrite map_length; exact Hj). apply (map_nth (fun x => nth 0 (lts x) (mkNd [] []))). }
  assert (HF : Forall (fun s => shp s = (1 :: p) ++ 1 :: []) ss).
  { apply Forall_forall. intros s Hs. destruct (In_nth _ _ (mkNd [] []) Hs) as (j & Hj & <-). rewrite Ls in Hj. rewrite (Ns j Hj). cbn [shp nscale]. apply (site_at _ 0 (in_mpas j Hj) ltac:(lia)). }
  destruct (concat_np_spec ss (1 :: p) []) as (c & Ec & Sc & Wc & Gc). { intros E. rewrite E in Ls. pose proof nr_pos. cbn in Ls. lia. } { exact HF. }
  rewrite Ls in Sc, Gc. exists c. split; [rewrite Ek; exact Ec|]. pose proof nr_pos as Hn. assert (D0 := HD_ok 0 ltac:(lia)).
  assert (Sz : size (shp c) = D 0 * nr) by (rewrite Sc; cbn [app]; rewrite size_cons, size_app, size_single; unfold D; fold p; lia).
  split; [apply reshape_to_ok; [apply (RT_one [] (D 0) [nr]); [rewrite size_nil; lia|rewrite size_single; exact Hn]|rewrite Sz, size2; reflexivity]|].
  split; [split; [reflexivity|]; split; [apply wf_reshape; [exact Wc|rewrite Sz, size2; reflexivity]|]; auto|].
  intros f j Hf Hj. change (D 0) with (size p) in Hf. pose proof (unravel_inr p f Hf) as Hu. rewrite (get_reshape' c [D 0; nr] [f; j] ((0 :: unravel p f) ++ [j])).
  - rewrite (Gc (0 :: unravel p f) j []); [|apply inr_cons; [lia|exact Hu]|constructor|exact Hj]. rewrite Ns by exact Hj. rewrite get_nscale. f_equal. unfold fval. symmetry. apply get_flat_site; [apply (site_at _ 0 (in_mpas j Hj)); lia|exact Hf].
  - rewrite Sc. rewrite ravel_app by (apply inr_cons; [lia|exact Hu]). cbn [ravel]. rewrite ravel_unravel by exact Hf. rewrite !size_single, size_nil. lia.
Qed.
Lemma last_site : exists c, concat_np 0 (nsite mpas (length sh - 1)) = Ok c /\ let Dl := D (length sh - 1) in
  reshape_py c [Z.of_nat nr; -1]%Z = Ok (reshape c [nr; Dl]) /\ shp (reshape c [nr; Dl]) = [nr; Dl] /\
  forall f j, f < Dl -> j < nr -> get (reshape c [nr; Dl]) [j; f] = fval (nth j mpas no) (length sh - 1) f.
Proof.
  set (k := length sh - 1). assert (Hk : k < length sh) by (unfold k; lia). set (p := nth k sh []). set (ss := nsite mpas k). assert (Ls : length ss = nr) by (unfold ss, nsite; rewrite map_length; reflexivity).
  assert (Ns : forall j, j < nr -> nth j ss (mkNd [] []) = nth k (lts (nth j mpas no)) (mkNd [] [])).
  { intros j Hj. unfold ss, nsite. rewrite (nth_indep _ _ ((fun x => nth k (lts x) (mkNd [] [])) no)) by (rewrite map_length; exact Hj). apply (map_nth (fun x => nth k (lts x) (mkNd [] []))). }
  assert (HF : Forall (fun s => shp s = [] ++ 1 :: (p ++ [1])) ss).
  { apply Forall_forall. intros s Hs. destruct (In_nth _ _ (mkNd [] []) Hs) as (j & Hj & <-). rewrite Ls in Hj. rewrite (Ns j Hj). apply (site_at _ k (in_mpas j Hj) Hk). }
  destruct (concat_np_spec ss [] (p ++ [1])) as (c & Ec & Sc & Wc & Gc). { intros E. rewrite E in Ls. pose proof nr_pos. cbn in Ls. lia. } { exact HF. }
  rewrite Ls in Sc, Gc. cbn [length app] in *. exists c. split; [exact Ec|]. pose proof nr_pos as Hn. assert (D0 := HD_ok k Hk). cbn zeta.
  assert (Sz : size (shp c) = nr * D k) by (rewrite Sc; rewrite size_cons, size_app, size_single; unfold D; fold p; lia).
  split; [apply reshape_to_ok; [apply (RT_one [nr] (D k) []); [rewrite size_single; exact Hn|rewrite size_nil; lia]|rewrite Sz, size2; reflexivity]|].
  split; [reflexivity|].
  intros f j Hf Hj. change (D k) with (size p) in Hf. pose proof (unravel_inr p f Hf) as Hu. rewrite (get_reshape' c [nr; D k] [j; f] (j :: unravel p f ++ [0])).
  - change (j :: unravel p f ++ [0]) with ([] ++ j :: unravel p f ++ [0]); rewrite (Gc [] j (unravel p f ++ [0])); [|constructor|apply inr_app; [exact Hu|apply inr_single; lia]|exact Hj]. cbn [app]. rewrite Ns by exact Hj. unfold fval. symmetry. apply get_flat_site; [apply (site_at _ k (in_mpas j Hj) Hk)|exact Hf].
  - rewrite Sc. cbn [ravel]. rewrite ravel_app by exact Hu. cbn [ravel]. rewrite size_app, ravel_unravel by exact Hf. rewrite !size_single, size_nil. unfold D. fold p. lia.
Qed.

Lemma inr_F2D fs ks : inr fs (map D ks) -> Forall2 (fun f k => f < D k) fs ks.
Proof. revert ks. induction fs as [|f fs IH]; intros [|k ks] H; cbn [map] in H; inversion H; subst; constructor; auto. Qed.
Theorem special_sumup_spec rank : 0 < rank ->
  outc (tsvd_fails svdfunc) (special_sumup svdfunc mpas rank ws) (fun z =>
    mpa_ok z /\ mshape z = sh /\ canonical_form z = (Z.of_nat (length sh) - 1, Z.of_nat (length sh))%Z /\ canon_true z /\
    Forall (fun r => r <= Nat.min rank nr) (ranks z) /\
    (nr <= rank -> forall is, valid_idx is sh -> entry z is = wsum is) /\
    msums sh (fun is => kconj (entry z is) * wsum is)%K = norm2_of z).
Proof.
  intros Hr. pose proof nr_pos as Hn. set (n := length sh) in *. unfold special_sumup. fold nr. fold wv.
  assert (Hh : In (hd no mpas) mpas) by (destruct mpas; [congruence|left; reflexivity]).
  assert (LL : forall x, In x mpas -> llen x = n). { intros x Hx. rewrite Forall_forall in Hsh. rewrite <- mshape_length, (Hsh x Hx). reflexivity. }
  destruct first_site as (c0 & Ec0 & Rc0 & Mc0 & Gc0). destruct last_site as (cl & Ecl & Rcl & Scl & Gcl). cbn zeta in *. fold n in Ecl, Rcl, Scl, Gcl.
  assert (EH : exists x0 tl0, mpas = x0 :: tl0 /\ hd no mpas = x0) by (destruct mpas as [|a l]; [congruence|exists a, l; auto]). destruct EH as (x0 & tl0 & EH & EH').
  rewrite EH' in *. rewrite EH at 1. rewrite (LL x0 Hh).
  replace (forallb (fun x => Nat.eqb (llen x) n) mpas) with true by (symmetry; apply forallb_forall; intros x Hx; apply Nat.eqb_eq; auto).
  rewrite wv_len, Nat.eqb_refl. cbn [passert]. replace (n =? 1) with false by (symmetry; apply Nat.eqb_neq; lia).
  replace (forallb (fun x => Nat.eqb (fold_right Nat.max 0 (ranks x)) 1) mpas) with true.
  2:{ symmetry. apply forallb_forall. intros x Hx. apply Nat.eqb_eq. pose proof (LL x Hx) as Lx. rewrite Forall_forall in Hr1. pose proof (Hr1 x Hx) as H1. unfold ranks, llen in *. destruct (lts x) as [|t [|u us]]; [cbn in Lx; lia..|]. cbn [tl map] in *.
      clear - H1. inversion H1 as [|? ? E H2]; subst. cbn [fold_right]. rewrite E. clear - H2. induction H2 as [|r l E H IH]; [reflexivity|]. cbn [fold_right]. lia. }
  cbn [passert]. rewrite Ec0. cbn [bind]. rewrite Rc0. cbn [bind]. set (m0 := reshape c0 [D 0; nr]) in *.
  destruct (tsvd_outc svdfunc _ _ rank m0 Hsvd Mc0 Hr) as [(f & Ef & FF)|[Ef FF]].
  2:{ rewrite Ef. right. split; [reflexivity|exact FF]. }
  rewrite Ef. cbn [bind]. destruct f as [[u s'] v']. cbn [fst snd] in FF. pose proof FF as (F1 & F2 & F3 & _ & F5 & F6 & F7 & F8 & _).
  assert (D0 : 0 < D 0) by (apply HD_ok; fold n; lia).
  assert (RU : reshape_py u [1; -1; Z.of_nat (length s')]%Z = Ok (reshape u [1; D 0; length s'])).
  { apply reshape_to_ok; [apply (RT_one [1] (D 0) [length s']); rewrite size_single; lia|]. rewrite F5. rewrite !size_cons, !size_nil. ring. }
  rewrite RU. cbn [bind].
  eapply outc_bind; [apply (loop_spec mpas sh Hn Hdat_ok HD_ok rank Hr (n - 2) 1 (length s') s' v'); [fold n; lia|reflexivity|exact F1|exact F7|exact F8]|].
  intros [[ts sv2] v2] P0. set (v := tab [1; nr] (fun idx => wt ws (nth 1 idx 0%nat)) : nd K).
  assert (Gv : forall j, j < nr -> get v [0; j] = wt ws j) by (intros j Hj; unfold v; rewrite get_tab by (apply inr2; lia); reflexivity).
  assert (P : loop_post mpas sh rank (seq 0 (S (n - 2))) 0 1 [k1] v (reshape u [1; D 0; length s'] :: ts, sv2, v2)).
  { apply (step_post mpas sh Hn HD_ok rank 0 (n - 2) 1 [k1] v m0 rank u s' v' ts sv2 v2); auto; [fold n; lia| |fold (D 0); rewrite Nat.mul_1_l; exact FF|fold nr; lia].
    intros a f j Ha Hf Hj. replace a with 0 by lia. cbn [Nat.mul Nat.add nth]. rewrite Gv by exact Hj. rewrite Gc0 by assumption. fold no. ring. }
  clear P0. set (tsa := reshape u [1; D 0; length s'] :: ts) in *. change (reshape u [1; D 0; length s'] :: ts ++ ?q) with (tsa ++ q).
  unfold loop_post in P. fold nr in P. set (d2 := length sv2) in *. destruct P as (P1 & P2 & P3 & P4 & P5 & P6 & P7 & P8 & P9 & _ & P10 & P11).
  replace (S (n - 2)) with (n - 1) in * by lia. specialize (P9 ltac:(destruct (n - 1) eqn:E; [lia|discriminate])).
  assert (Lts : length tsa = n - 1) by (rewrite <- (map_length pdims), P5, map_length, seq_length; reflexivity).
  rewrite Ecl. cbn [bind]. rewrite Rcl. cbn [bind]. set (cm := reshape cl [nr; D (n - 1)]) in *. set (Dl := D (n - 1)) in *.
  destruct (scale_sv_spec sv2 v2 d2 nr P1) as (S1 & W1 & G1).
  destruct (dot2_spec (scale_sv sv2 v2) cm d2 nr Dl S1 Scl) as (L & EL & SL & WL & GL). rewrite EL. cbn [bind].
  assert (HDl : 0 < Dl) by (apply HD_ok; fold n; lia).
  assert (RL : reshape_py L [Z.of_nat d2; -1; 1]%Z = Ok (reshape L [d2; Dl; 1])).
  { apply reshape_to_ok; [apply (RT_one [d2] Dl [1]); rewrite size_single; lia|]. rewrite SL. rewrite !size_cons, !size_nil. ring. }
  rewrite RL. cbn [bind].
  destruct (rten_spec L [Dl] 1 d2 Dl SL WL ltac:(rewrite size_single; lia)) as (T1 & T2 & T3 & T4 & T5 & T6 & _). cbn [app] in *. set (tl := reshape L [d2; Dl; 1]) in *.
  assert (GT : forall e f, e < d2 -> f < Dl -> ent tl e [f] 0 = bigsum nr (fun j => (nth e sv2 k0 * get v2 [e; j]) * fval (nth j mpas no) (n - 1) f)%K).
  { intros e f He Hf. rewrite T6 by (auto; apply inr_single; exact Hf). cbn [app ravel]. rewrite !size_single, size_nil. replace (f * 1 + (0 * 1 + 0)) with f by lia. rewrite GL by assumption.
    apply bigsum_ext. intros j Hj. rewrite G1, Gcl by assumption. reflexivity. }
  set (lt := tsa ++ [tl]). assert (HB : bonds lt 1 1). { unfold lt. apply bonds_app. exists d2. split; [exact P4|]. cbn [bonds]. auto. }
  assert (Llt : length lt = n) by (unfold lt; rewrite app_length, Lts; cbn [length]; lia).
  assert (EI : lt_init lt (Some (Z.of_nat (length lt) - 1)%Z, None) = Ok (mkLt lt (Z.of_nat n - 1) (Z.of_nat n))).
  { unfold lt_init. cbn [fst snd]. rewrite Llt. replace (0 <? Z.of_nat n)%Z with true by (symmetry; apply Z.ltb_lt; lia). replace (0 <=? Z.of_nat n - 1)%Z with true by (symmetry; apply Z.leb_le; lia).
    replace (Z.of_nat n - 1 <? Z.of_nat n)%Z with true by (symmetry; apply Z.ltb_lt; lia). rewrite Z.leb_refl. cbn [andb passert]. rewrite (check_bonds_ok lt 1 1 HB). reflexivity. }
  rewrite EI. cbn [bind]. set (z0 := mkLt lt (Z.of_nat n - 1) (Z.of_nat n)).
  assert (Hz0 : mpa_ok z0) by (split; [cbn [lts z0]; unfold lt; destruct tsa; discriminate|exact HB]).
  assert (Cz0 : cform_ok z0) by (unfold cform_ok, cf_ok, llen; cbn [lts lcan rcan z0]; rewrite Llt; lia).
  assert (Tz0 : canon_true z0).
  { split; intros k Hk1 Hk2; unfold llen in Hk2; cbn [lts lcan rcan z0] in *; rewrite Llt in Hk2; [|lia]. unfold lt. rewrite app_nth1 by lia. rewrite Forall_forall in P6. apply P6. apply nth_In. lia. }
  set (ds := map D (seq 0 (n - 1)) ++ [Dl]). assert (Sz0 : mshape z0 = singles ds).
  { unfold mshape. cbn [lts z0]. unfold lt, ds, singles. rewrite !map_app, P5, map_map. cbn [map]. rewrite T3. reflexivity. }
  assert (Eds : ds = map size sh).
  { unfold ds. replace (map D (seq 0 (n - 1)) ++ [Dl]) with (map D (seq 0 n)); [|replace n with (n - 1 + 1) at 1 by lia; rewrite seq_app, map_app; reflexivity].
    apply (nth_ext _ _ 0 0); [rewrite !map_length, seq_length; reflexivity|]. intros k Hk. rewrite map_length, seq_length in Hk. rewrite (nth_indep _ 0 (D 0)) by (rewrite map_length, seq_length; exact Hk).
    rewrite (map_nth D), seq_nth by exact Hk. unfold D. cbn [Nat.add]. rewrite (nth_indep _ 0 (size [])) by (rewrite map_length; exact Hk). rewrite (map_nth size). reflexivity. }
  destruct (mreshape_spec z0 (RList (map (map Z.of_nat) sh)) sh Hz0 Cz0) as (z & Ez & Hz & Sz & Rz & Fz & Tz & Az).
  { cbn. destruct sh; [cbn in Hlen; lia|discriminate]. }
  { cbn [reshape_shapes]. apply F3_sites. change (map pdims (lts z0)) with (mshape z0). rewrite Sz0, <- Eds. unfold singles. rewrite map_map. rewrite <- (map_id ds) at 1. apply map_ext. intros d. rewrite size_single. reflexivity. }
  assert (E0 : mshape x0 = sh) by (rewrite Forall_forall in Hsh; auto). rewrite E0, Ez. apply outc_ok.
  split; [exact Hz|]. split; [exact Sz|]. split; [rewrite Fz; reflexivity|]. split; [auto|].
  split. { rewrite Rz. unfold ranks. cbn [lts z0]. destruct tsa as [|t1 tsr] eqn:Et; [cbn in Lts; lia|]. unfold lt. cbn [app List.tl]. clear - P4 P8 T2 P9.
    destruct P4 as (_ & _ & HB). inversion P8 as [|? ? H1 H2]; subst. clear P8. revert HB H1 H2. generalize (rdim t1). induction tsr as [|t tsr IH]; intros r HB H1 H2; cbn [app map].
    - constructor; [rewrite T2; exact P9|constructor]. 
    - destruct HB as (_ & E & HB). inversion H2; subst. constructor; [exact H1|]. apply (IH (rdim t)); auto. }
  assert (LE : forall is, valid_idx is sh -> exists fs f, zip2 ravel sh is = fs ++ [f] /\ Forall2 (fun f k => f < D k) fs (seq 0 (n - 1)) /\ f < Dl /\ inr (fs ++ [f]) ds).
  { intros is Hi. assert (Hin : inr (zip2 ravel sh is) ds). { rewrite Eds. clear - Hi. unfold valid_idx in Hi. induction Hi as [|i p is ps Hi H IH]; [constructor|]. cbn [zip2 map]. apply inr_cons; [apply ravel_lt; exact Hi|exact IH]. }
    unfold ds in Hin. destruct (inr_app_inv _ _ _ Hin) as (fs & f1 & Ei & H1 & H2). destruct f1 as [|f [|? ?]]; [inversion H2| |inversion H2 as [|? ? ? ? ? Hx]; inversion Hx].
    exists fs, f. split; [exact Ei|]. split; [|split; [inversion H2; assumption|unfold ds; apply inr_app; assumption]].
    clear - H1. revert H1. generalize (seq 0 (n - 1)). induction fs as [|f fs IH]; intros [|k ks] H; cbn [map] in H; inversion H; subst; constructor; auto. }
  assert (AZ : forall fs f, Forall2 (fun f k => f < D k) fs (seq 0 (n - 1)) -> f < Dl ->
     amp lt (singles (fs ++ [f])) 0 0 = bigsum d2 (fun e => amp tsa (singles fs) 0 e * ent tl e [f] 0)%K).
  { intros fs f H1 H2. assert (Lf : length fs = n - 1) by (rewrite (Forall2_len _ _ _ _ _ H1), seq_length; reflexivity).
    unfold singles. rewrite map_app. cbn [map]. unfold lt. rewrite (amp_app tsa [tl] _ _ 0 0 1 d2); [|rewrite map_length; lia|exact P4|lia].
    apply bigsum_ext. intros e He. f_equal. rewrite amp_cons, T4, bigsum_1. cbn [amp]. rewrite delta_eq. ring. }
  assert (EZ : forall is, valid_idx is sh -> entry z is = amp lt (singles (zip2 ravel sh is)) 0 0).
  { intros is Hi. rewrite entry_amp by (auto; rewrite Sz; exact Hi). apply (Az (singles (zip2 ravel sh is)) is); [|exact Hi|].
    - rewrite Sz0. apply singles_valid. destruct (LE is Hi) as (fs & f & -> & _ & _ & H). exact H.
    - rewrite Sz0. assert (LZ : length (zip2 ravel sh is) = length ds) by (destruct (LE is Hi) as (fs & f & -> & _ & _ & H); apply (Forall2_len _ _ _ _ _ H)).
      clear - LZ. revert LZ. generalize (zip2 ravel sh is). induction ds as [|d ds IH]; intros [|f fs] LZ; try discriminate; [reflexivity|]. cbn [singles map zip2 ravel]. rewrite size_nil. f_equal; [lia|]. apply IH. injection LZ as LZ. exact LZ. }
  assert (WS : forall is, valid_idx is sh -> wsum is = bigsum nr (fun j => wt ws j * fprod (nth j mpas no) 0 (zip2 ravel sh is))%K).
  { intros is Hi. unfold wsum. apply bigsum_ext. intros j Hj. f_equal. pose proof (in_mpas j Hj) as Hin. rewrite Forall_forall in Hok, Hsh, Hr1. rewrite entry_fprod by (auto; rewrite (Hsh _ Hin); exact Hi). rewrite (Hsh _ Hin). reflexivity. }
  split.
  - intros Hle is Hi. rewrite EZ, WS by exact Hi. destruct (LE is Hi) as (fs & f & -> & H1 & H2 & _). rewrite AZ by assumption.
    assert (Lf : length fs = n - 1) by (rewrite (Forall2_len _ _ _ _ _ H1), seq_length; reflexivity).
    transitivity (bigsum nr (fun j => bigsum d2 (fun e => amp tsa (singles fs) 0 e * (nth e sv2 k0 * get v2 [e; j])) * fval (nth j mpas no) (n - 1) f))%K.
    + transitivity (bigsum d2 (fun e => bigsum nr (fun j => amp tsa (singles fs) 0 e * (nth e sv2 k0 * get v2 [e; j]) * fval (nth j mpas no) (n - 1) f)))%K.
      * apply bigsum_ext. intros e He. rewrite GT by assumption. rewrite <- bigsum_mul_l. apply bigsum_ext. intros j _. ring.
      * rewrite bigsum_swap. apply bigsum_ext. intros j _. rewrite bigsum_mul_r. reflexivity.
    + apply bigsum_ext. intros j Hj. rewrite (P10 Hle fs 0 j H1 ltac:(lia) Hj). rewrite fprod_app, Lf, Gv by exact Hj. cbn [nth Nat.add]. fold no. ring.
  - set (Sf := fun g => bigsum nr (fun j => wt ws j * fprod (nth j mpas no) 0 g)%K).
    assert (GS : forall e f, e < d2 -> f < Dl -> ent tl e [f] 0 = msum (map D (seq 0 (n - 1))) (fun fs => kconj (amp tsa (singles fs) 0 e) * Sf (fs ++ [f]))%K).
    { intros e f He Hf. rewrite GT by assumption.
      transitivity (bigsum nr (fun j => msum (map D (seq 0 (n - 1))) (fun fs => kconj (amp tsa (singles fs) 0 e) * (wt ws j * fprod (nth j mpas no) 0 (fs ++ [f])))))%K.
      - apply bigsum_ext. intros j Hj. rewrite (P11 e j He Hj). rewrite bigsum_1. rewrite <- msum_mul_r. apply msum_ext. intros fs Hfs.
        assert (Lf : length fs = n - 1) by (rewrite (Forall2_len _ _ _ _ _ Hfs), map_length, seq_length; reflexivity). rewrite fprod_app, Lf, Gv by exact Hj. cbn [nth Nat.add]. fold no. ring.
      - rewrite <- msum_bigsum_swap. apply msum_ext. intros fs _. unfold Sf. rewrite <- bigsum_mul_l. reflexivity. }
    transitivity (bigsum d2 (fun e => bigsum Dl (fun f => kconj (ent tl e [f] 0) * ent tl e [f] 0)))%K.
    + transitivity (msum ds (fun g => kconj (amp lt (singles g) 0 0) * Sf g)%K).
      { rewrite Eds, <- msums_zip. apply msums_ext'. intros is Hi. rewrite EZ, WS by exact Hi. reflexivity. }
      unfold ds. rewrite msum_app. cbn [msum].
      transitivity (msum (map D (seq 0 (n - 1))) (fun fs => bigsum Dl (fun f => bigsum d2 (fun e => kconj (ent tl e [f] 0) * (kconj (amp tsa (singles fs) 0 e) * Sf (fs ++ [f]))))))%K.
      { apply msum_ext. intros fs Hfs. apply bigsum_ext. intros f Hf. rewrite AZ; [|apply inr_F2D; exact Hfs|exact Hf]. rewrite bigsum_conj, <- bigsum_mul_r. apply bigsum_ext. intros e _. rewrite (kconj_mul K). ring. }
      rewrite msum_bigsum_swap. rewrite (bigsum_swap d2 Dl). apply bigsum_ext. intros f Hf. rewrite msum_bigsum_swap. apply bigsum_ext. intros e He. rewrite msum_mul_l. f_equal. symmetry. apply (GS e f He Hf).
    + symmetry. transitivity (PfGram.gram lt lt 0 0 0 0).
      * unfold PfGram.gram. change (map pdims lt) with (mshape z0). rewrite Sz0, PfStates.msums_singles. rewrite Eds, <- msums_zip. unfold norm2_of, inner_of. rewrite Sz. apply msums_ext'. intros is Hi. rewrite EZ by exact Hi. reflexivity.
      * rewrite <- ovl_11. unfold lt. rewrite (ovl_left tsa [tl] [tl] 1 d2 1 P6 P4). rewrite <- T2, <- T4. rewrite ovl_one by auto. rewrite T2, T4. apply bigsum_ext. intros e He. rewrite bigsum_1. unfold egram. rewrite T3. reflexivity.
Qed.
End Product.

Lemma foldM_sum (S : list nat) (ts : list (nd K)) : forall t, shp t = S -> ndwf t -> Forall (fun u => shp u = S) ts ->
  exists r, foldM (fun acc t => nadd_py acc t) ts t = Ok r /\ shp r = S /\ ndwf r /\
    forall idx, inr idx S -> get r idx = bigsum (Datatypes.S (length ts)) (fun j => get (nth j (t :: ts) (mkNd [] [])) idx).
Proof.
  induction ts as [|u ts IH]; intros t St Wt HF.
  - exists t. split; [reflexivity|]. split; [exact St|]. split; [exact Wt|]. intros idx _. cbn [length]. rewrite bigsum_1. reflexivity.
  - inversion_clear HF as [|? ? Su HF']. cbn [foldM]. unfold nadd_py at 1. rewrite St, Su, list_eqb_refl. cbn [praise_unless bind].
    destruct (IH (nadd t u)) as (r & Er & Sr & Wr & Gr); [exact St|apply wf_nadd|exact HF'|]. exists r. split; [exact Er|]. split; [exact Sr|]. split; [exact Wr|].
    intros idx Hi. rewrite (Gr idx Hi). cbn [length]. rewrite !bigsum_shift. cbn [nth]. rewrite get_nadd by (rewrite St; exact Hi). ring.
Qed.
Theorem special_sumup_one rank : length sh = 1 ->
  exists z, special_sumup svdfunc mpas rank ws = Ok z /\ mpa_ok z /\ mshape z = sh /\ canonical_form z = (0, 1)%Z /\
    forall is, valid_idx is sh -> entry z is = wsum is.
Proof.
  intros H1. match goal with |- exists z, ?r = Ok z /\ @?P z => cut (outc False r P); [intros [H|[_ []]]; exact H|] end. unfold special_sumup. fold nr. set (wv := match ws with Some w => w | None => repeat k1 nr end).
  assert (Lw : length wv = nr) by (unfold wv; destruct ws as [w|]; [apply (Hw w eq_refl)|apply repeat_length]).
  assert (Nw : forall j, j < nr -> nth j wv k0 = wt ws j) by (intros j Hj; unfold wv, wt; destruct ws as [w|]; [reflexivity|apply nth_rep; exact Hj]).
  assert (LL : forall x, In x mpas -> llen x = 1). { intros x Hx. rewrite Forall_forall in Hsh. rewrite <- mshape_length, (Hsh x Hx). exact H1. }
  assert (EH : exists x0 tl0, mpas = x0 :: tl0) by (destruct mpas as [|a l]; [congruence|exists a, l; auto]). destruct EH as (x0 & tl0 & EH).
  assert (Hn : 0 < nr) by (unfold nr; rewrite EH; cbn; lia).
  rewrite EH at 1. rewrite (LL x0) by (rewrite EH; left; reflexivity).
  replace (forallb (fun x => Nat.eqb (llen x) 1) mpas) with true by (symmetry; apply forallb_forall; intros x Hx; apply Nat.eqb_eq; auto).
  rewrite Lw, Nat.eqb_refl. cbn [passert Nat.eqb].
  destruct sh as [|p [|? ?]] eqn:Esh; [discriminate| |discriminate]. 
  assert (ST : forall x, In x mpas -> exists t, lts x = [t] /\ siteP t p).
  { intros x Hx. rewrite Forall_forall in Hok, Hsh. destruct (Hok x Hx) as [_ B]. pose proof (Hsh x Hx) as Sx. unfold mshape in Sx. destruct (lts x) as [|t [|? ?]]; try discriminate. exists t. split; [reflexivity|].
    destruct B as (Ot & E1 & E2). cbn [bonds] in E2. injection Sx as Sx. split; [exact (proj1 Ot)|]. rewrite (lt_ok_shp t Ot), E1, E2, Sx. reflexivity. }
  set (ss := map (fun p => nscale (fst p) (snd p)) (combine wv (nsite mpas 0))).
  assert (Ls : length ss = nr). { unfold ss, nsite. rewrite map_length, combine_length, map_length, Lw. unfold nr. lia. }
  assert (Ns : forall j, j < nr -> nth j ss (mkNd [] []) = nscale (wt ws j) (nth 0 (lts (nth j mpas no)) (mkNd [] []))).
  { intros j Hj. unfold ss. rewrite (nth_indep _ _ ((fun p => nscale (fst p) (snd p)) (k0, mkNd [] []))) by (fold ss; rewrite Ls; exact Hj).
    rewrite (map_nth (fun p => nscale (fst p) (snd p))). rewrite combine_nth by (unfold nsite; rewrite map_length; exact Lw). cbn [fst snd]. rewrite Nw by exact Hj. f_equal.
    unfold nsite. rewrite (nth_indep _ _ ((fun x => nth 0 (lts x) (mkNd [] [])) no)) by (rewrite map_length; exact Hj). apply (map_nth (fun x => nth 0 (lts x) (mkNd [] []))). }
  assert (SP : forall j, j < nr -> exists t, lts (nth j mpas no) = [t] /\ siteP t p) by (intros j Hj; apply ST; apply nth_In; exact Hj).
  assert (HF : Forall (fun s => shp s = 1 :: p ++ [1] /\ ndwf s) ss).
  { apply Forall_forall. intros s Hs. destruct (In_nth _ _ (mkNd [] []) Hs) as (j & Hj & <-). rewrite Ls in Hj. rewrite (Ns j Hj). destruct (SP j Hj) as (t & -> & W & S). cbn [nth]. split; [exact S|apply wf_nscale; exact W]. }
  clearbody ss. destruct ss as [|s0 ss]; [cbn in Ls; lia|]. inversion_clear HF as [|? ? [S0 W0] HF'].
  destruct (foldM_sum (1 :: p ++ [1]) ss s0 S0 W0) as (r & Er & Sr & Wr & Gr). { eapply Forall_impl; [|exact HF']. cbn. tauto. }
  rewrite Er. cbn [bind]. assert (Or : lt_ok r) by (apply (lt_ok_mk r 1 p 1 Wr Sr)).
  destruct (mpa_new_chain [r]) as (z & Ez & Hz & Lz & C1 & C2); [discriminate| |].
  { cbn [bonds]. split; [exact Or|]. split; [apply (ldim_mk r 1 _ Sr)|apply (rdim_mk r 1 p 1 Sr)]. }
  rewrite Ez. apply outc_ok. split; [exact Hz|]. assert (Sz : mshape z = [p]) by (unfold mshape; rewrite Lz; cbn [map]; f_equal; apply (pdims_mk r 1 p 1 Sr)).
  split; [exact Sz|]. split; [unfold canonical_form; rewrite C1, C2; reflexivity|].
  intros is Hi. rewrite entry_amp by (auto; rewrite Sz; exact Hi). rewrite Lz. inversion Hi as [|i ? ? ? Hi1 Hi2]; subst. inversion Hi2; subst. unfold wsum.
  rewrite amp_cons. rewrite (rdim_mk r 1 p 1 Sr), bigsum_1. cbn [amp]. rewrite delta_eq.
  assert (Hx : inr (0 :: i ++ [0]) (1 :: p ++ [1])) by (apply inr_cons; [lia|apply inr_app; [exact Hi1|apply inr_single; lia]]).
  unfold ent. rewrite (Gr _ Hx). cbn [length] in Ls. rewrite Ls.
  match goal with |- (?a * k1)%K = _ => transitivity a; [ring|] end. apply bigsum_ext. intros j Hj. rewrite (Ns j Hj), get_nscale. f_equal.
  assert (Ij : In (nth j mpas no) mpas) by (apply nth_In; exact Hj). rewrite Forall_forall in Hok, Hsh. rewrite entry_amp by (auto; rewrite (Hsh _ Ij); exact Hi).
  destruct (SP j Hj) as (t & -> & W & S). cbn [nth]. rewrite amp_cons, (rdim_mk t 1 p 1 S), bigsum_1. cbn [amp]. rewrite delta_eq. unfold ent. ring.
Qed.
End Whole.

(** *** Inputs that are refused *)
Lemma special_sumup_empty rank ws : special_sumup svdfunc [] rank ws = Err IndexError.
Proof. reflexivity. Qed.
Lemma forallb_false (A : Type) (f : A -> bool) l : Exists (fun x => f x = false) l -> forallb f l = false.
Proof. induction 1 as [x l H|x l H IH]; cbn; [rewrite H; reflexivity|rewrite IH; apply andb_false_r]. Qed.
Theorem special_sumup_errors (x0 : ltens K) xs rank ws : 
  Exists (fun x => llen x <> llen x0) xs \/ (exists w, ws = Some w /\ length w <> length (x0 :: xs)) \/
  (2 <= llen x0 /\ Exists (fun x => fold_right Nat.max 0 (ranks x) <> 1) (x0 :: xs)) ->
  special_sumup svdfunc (x0 :: xs) rank ws = Err AssertionError.
Proof.
  intros H. unfold special_sumup. destruct (forallb (fun x => Nat.eqb (llen x) (llen x0)) (x0 :: xs)) eqn:E1; [|reflexivity]. cbn [passert].
  destruct (Nat.eqb (length (match ws with Some w => w | None => repeat k1 (length (x0 :: xs)) end)) (length (x0 :: xs))) eqn:E2; [|reflexivity]. cbn [passert].
  destruct H as [H|[(w & -> & H)|[H1 H2]]].
  - rewrite forallb_false in E1; [discriminate|]. right. eapply Exists_impl; [|exact H]. cbn. intros x Hx. apply Nat.eqb_neq. exact Hx.
  - apply Nat.eqb_eq in E2. congruence.
  - replace (Nat.eqb (llen x0) 1) with false by (symmetry; apply Nat.eqb_neq; lia). rewrite forallb_false; [reflexivity|]. eapply Exists_impl; [|exact H2]. cbn. intros x Hx. apply Nat.eqb_neq. exact Hx.
Qed.
End Sumup.

(** A vector whose overlap with [w] is its own norm: the distance by Pythagoras. *)
Section Proj.
Context {K : StarRing}.
Add Ring Kr2 : (k_ring K).
Lemma kmul_0_l (x : K) : (k0 * x)%K = k0.
Proof. ring. Qed.
Lemma projection_dist (sh : list (list nat)) (w : list (list nat) -> K) (z : ltens K) : mshape z = sh ->
  msums sh (fun is => kconj (entry z is) * w is)%K = norm2_of z ->
  msums sh (fun is => kconj (w is - entry z is) * (w is - entry z is))%K = (msums sh (fun is => kconj (w is) * w is) - norm2_of z)%K.
Proof.
  intros Sz H. assert (H' : msums sh (fun is => kconj (w is) * entry z is)%K = norm2_of z).
  { transitivity (kconj (norm2_of z)).
    - rewrite <- H, msums_conj. apply msums_ext'. intros is _. rewrite (kconj_mul K), (kconj_invol K). ring.
    - unfold norm2_of, inner_of. rewrite msums_conj. apply msums_ext'. intros is _. rewrite (kconj_mul K), (kconj_invol K). ring. }
  assert (N : norm2_of z = msums sh (fun is => kconj (entry z is) * entry z is)%K) by (unfold norm2_of, inner_of; rewrite Sz; reflexivity).
  transitivity (msums sh (fun is => kconj (w is) * w is + (- k1) * (kconj (w is) * entry z is) + (- k1) * (kconj (entry z is) * w is) + kconj (entry z is) * entry z is)%K).
  - apply msums_ext'. intros is _. replace (w is - entry z is)%K with (w is + (- k1) * entry z is)%K by ring. rewrite (kconj_add K), (kconj_mul K), kconj_opp, kconj_1. ring.
  - rewrite !msums_add, !msums_mul_l, H, H', <- N. ring.
Qed.
Lemma truncated_svd_full (svd : nd K -> res (nd K * list K * nd K)) : svd_sound svd -> tsvd_full (truncated_svd svd).
Proof.
  intros H m n k a u s v Ha Hk. unfold truncated_svd. specialize (H m n a Ha). destruct (svd a) as [[[u' s'] v']|e]; [|discriminate]. cbn [bind].
  intros E. injection E as _ E _. destruct H as (_ & _ & L & _). rewrite <- E, firstn_length, L. lia.
Qed.
End Proj.
