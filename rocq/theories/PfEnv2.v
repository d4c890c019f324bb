(** Environments of chains: sums over the physical indices of all added sites. *)
From Verif Require Export PfEnv PfStates PfGram.
Open Scope nat_scope.

(** One leg on every site, of the given dimensions. *)
Definition mps_like {K : StarRing} (ts : list (nd K)) (ds : list nat) : Prop := map pdims ts = singles ds.
(** Two legs (rows, columns). *)
Definition mpo_like {K : StarRing} (ts : list (nd K)) (ds es : list nat) : Prop :=
  map pdims ts = pairs ds es /\ length ds = length es.

Lemma app_split (A : Type) (a b c d : list A) : length a = length c -> a ++ b = c ++ d -> a = c /\ b = d.
Proof.
  revert c. induction a as [|x a IH]; intros [|y c] L H; try discriminate; [auto|].
  cbn in H. injection H as -> H. destruct (IH c) as [-> ->]; auto.
Qed.

Section Env.
Context {K : StarRing}.
Add Ring Kr : (k_ring K).

Lemma singles_app a b : singles (a ++ b) = singles a ++ singles b.
Proof. apply map_app. Qed.
Lemma singles_length a : length (singles a) = length a.
Proof. apply map_length. Qed.
Lemma mps_like_length (ts : list (nd K)) ds : mps_like ts ds -> length ts = length ds.
Proof. intros H. rewrite <- (map_length pdims), H. apply singles_length. Qed.
Lemma mpo_like_length (ts : list (nd K)) ds es : mpo_like ts ds es -> length ts = length ds.
Proof. intros [H E]. rewrite <- (map_length pdims), H. apply pairs_length. exact E. Qed.
Lemma mps_like_app (t1 t2 : list (nd K)) ds : mps_like (t1 ++ t2) ds ->
  exists d1 d2, ds = d1 ++ d2 /\ mps_like t1 d1 /\ mps_like t2 d2.
Proof.
  unfold mps_like. rewrite map_app. intros H. exists (firstn (length t1) ds), (skipn (length t1) ds).
  assert (E : length t1 + length t2 = length ds).
  { rewrite <- app_length, <- (map_length pdims (t1 ++ t2)), map_app, H. apply singles_length. }
  rewrite firstn_skipn. split; [reflexivity|].
  rewrite <- (firstn_skipn (length t1) ds), singles_app in H.
  apply app_split in H; [exact H|]. rewrite map_length, singles_length, firstn_length. lia.
Qed.
Lemma mps_like_join (t1 t2 : list (nd K)) d1 d2 : mps_like t1 d1 -> mps_like t2 d2 -> mps_like (t1 ++ t2) (d1 ++ d2).
Proof. unfold mps_like. intros H1 H2. rewrite map_app, singles_app, H1, H2. reflexivity. Qed.
Lemma mpo_like_join (t1 t2 : list (nd K)) d1 d2 e1 e2 : mpo_like t1 d1 e1 -> mpo_like t2 d2 e2 ->
  mpo_like (t1 ++ t2) (d1 ++ d2) (e1 ++ e2).
Proof.
  intros [H1 E1] [H2 E2]. split; [|rewrite !app_length; lia].
  rewrite map_app, pairs_app, H1, H2 by exact E1. reflexivity.
Qed.
Lemma mpo_like_app (t1 t2 : list (nd K)) ds es : mpo_like (t1 ++ t2) ds es ->
  exists d1 d2 e1 e2, ds = d1 ++ d2 /\ es = e1 ++ e2 /\ mpo_like t1 d1 e1 /\ mpo_like t2 d2 e2.
Proof.
  intros H. pose proof (mpo_like_length _ _ _ H) as L. destruct H as [H E]. rewrite map_app in H.
  set (n := length t1). rewrite app_length in L.
  exists (firstn n ds), (skipn n ds), (firstn n es), (skipn n es).
  rewrite !firstn_skipn. split; [reflexivity|]. split; [reflexivity|].
  rewrite <- (firstn_skipn n ds), <- (firstn_skipn n es) in H.
  assert (E1 : length (firstn n ds) = length (firstn n es)) by (rewrite !firstn_length; lia).
  rewrite pairs_app in H by exact E1.
  apply app_split in H; [|rewrite map_length, pairs_length, firstn_length by exact E1; unfold n; lia].
  destruct H as [H1 H2]. split; split; auto. rewrite !skipn_length. lia.
Qed.
Lemma mpo_like_legs (ts : list (nd K)) : two_legs (map pdims ts) <-> mpo_like ts (leg1 (map pdims ts)) (leg2 (map pdims ts)).
Proof.
  unfold mpo_like, two_legs, leg1, leg2. rewrite !map_length. split.
  - intros H. split; [|reflexivity]. induction H as [|p ps H _ IH]; [reflexivity|].
    destruct p as [|a [|b [|? ?]]]; try discriminate. cbn. f_equal. exact IH.
  - intros [H _]. rewrite H. clear H. generalize (map (fun p : list nat => nth 0 p 0) (map pdims ts)) (map (fun p : list nat => nth 1 p 0) (map pdims ts)).
    induction l as [|a l IH]; intros [|b m]; cbn; try constructor; [reflexivity|apply IH].
Qed.

(** ** Three layers *)
(** Bond indices are triples (state, operator, conjugated state). *)
Definition b3 (x : list nat) (k : nat) : nat := nth k x 0.
Definition env3 (ds es : list nat) (ws ts us : list (nd K)) (x y : list nat) : K :=
  msum ds (fun is => msum es (fun js =>
    amp ts (singles js) (b3 x 0) (b3 y 0) * amp ws (pairs is js) (b3 x 1) (b3 y 1) *
    kconj (amp us (singles is) (b3 x 2) (b3 y 2))))%K.

Lemma sum3 m n p (f g h : nat -> K) :
  (bigsum m f * bigsum n g * kconj (bigsum p h))%K =
  msum [m; n; p] (fun x => f (b3 x 0) * g (b3 x 1) * kconj (h (b3 x 2)))%K.
Proof.
  cbn [msum]. unfold b3. cbn [nth]. rewrite bigsum_conj, bigsum_mul, <- bigsum_mul_r. apply bigsum_ext. intros a _.
  rewrite <- bigsum_mul_r. apply bigsum_ext. intros b _. rewrite <- bigsum_mul_l. reflexivity.
Qed.

Lemma env3_app ds1 es1 ws1 ts1 us1 ds2 es2 ws2 ts2 us2 lw la lb rw ra rb x y :
  length ds1 = length ws1 -> length es1 = length ws1 -> length ts1 = length ws1 -> length us1 = length ws1 ->
  bonds ws1 lw rw -> bonds ts1 la ra -> bonds us1 lb rb -> inr x [la; lw; lb] ->
  env3 (ds1 ++ ds2) (es1 ++ es2) (ws1 ++ ws2) (ts1 ++ ts2) (us1 ++ us2) x y =
  msum [ra; rw; rb] (fun z => env3 ds1 es1 ws1 ts1 us1 x z * env3 ds2 es2 ws2 ts2 us2 z y)%K.
Proof.
  intros L1 L2 L3 L4 BW BT BU Hx. unfold env3.
  assert (Hx' : b3 x 0 < la /\ b3 x 1 < lw /\ b3 x 2 < lb).
  { inversion Hx as [|a ? r1 ? Ha Hr1]; subst. inversion Hr1 as [|b ? r2 ? Hb Hr2]; subst. inversion Hr2; subst. cbn. auto. }
  destruct Hx' as (Ha & Hw & Hb).
  transitivity (msum ds1 (fun i1 => msum ds2 (fun i2 => msum es1 (fun j1 => msum es2 (fun j2 => msum [ra; rw; rb] (fun z =>
    (amp ts1 (singles j1) (b3 x 0) (b3 z 0) * amp ws1 (pairs i1 j1) (b3 x 1) (b3 z 1) * kconj (amp us1 (singles i1) (b3 x 2) (b3 z 2))) *
    (amp ts2 (singles j2) (b3 z 0) (b3 y 0) * amp ws2 (pairs i2 j2) (b3 z 1) (b3 y 1) * kconj (amp us2 (singles i2) (b3 z 2) (b3 y 2))))))))%K).
  { rewrite msum_app. apply msum_ext. intros i1 H1. apply msum_ext. intros i2 H2.
    rewrite msum_app. apply msum_ext. intros j1 G1. apply msum_ext. intros j2 G2.
    apply inr_length in H1. apply inr_length in G1.
    rewrite !singles_app, pairs_app by lia.
    rewrite (amp_app ts1 ts2 _ _ (b3 x 0) _ la ra), (amp_app ws1 ws2 _ _ (b3 x 1) _ lw rw), (amp_app us1 us2 _ _ (b3 x 2) _ lb rb);
      rewrite ?singles_length, ?pairs_length by lia; auto; try lia.
    rewrite sum3. apply msum_ext. intros z _. rewrite (kconj_mul K). ring. }
  transitivity (msum [ra; rw; rb] (fun z => msum ds1 (fun i1 => msum ds2 (fun i2 => msum es1 (fun j1 => msum es2 (fun j2 =>
    (amp ts1 (singles j1) (b3 x 0) (b3 z 0) * amp ws1 (pairs i1 j1) (b3 x 1) (b3 z 1) * kconj (amp us1 (singles i1) (b3 x 2) (b3 z 2))) *
    (amp ts2 (singles j2) (b3 z 0) (b3 y 0) * amp ws2 (pairs i2 j2) (b3 z 1) (b3 y 1) * kconj (amp us2 (singles i2) (b3 z 2) (b3 y 2))))))))%K).
  { symmetry. rewrite msum_swap. apply msum_ext. intros i1 _. rewrite msum_swap. apply msum_ext. intros i2 _.
    rewrite msum_swap. apply msum_ext. intros j1 _. rewrite msum_swap. reflexivity. }
  apply msum_ext. intros z _. rewrite <- msum_mul_r. apply msum_ext. intros i1 _.
  rewrite msum_swap, <- msum_mul_r. apply msum_ext. intros j1 _.
  rewrite <- msum_mul_l. apply msum_ext. intros i2 _. rewrite <- msum_mul_l. apply msum_ext. intros j2 _. reflexivity.
Qed.

Lemma env3_nil x y : env3 [] [] [] [] [] x y = (delta (b3 x 0) (b3 y 0) * delta (b3 x 1) (b3 y 1) * delta (b3 x 2) (b3 y 2))%K.
Proof. unfold env3. cbn. rewrite delta_conj. reflexivity. Qed.

Lemma env3_one d e (W A B : nd K) x y : pdims W = [d; e] -> nth 1 (shp W) 0 = d -> nth 2 (shp W) 0 = e ->
  b3 y 0 < rdim A -> b3 y 1 < rdim W -> b3 y 2 < rdim B ->
  env3 [d] [e] [W] [A] [B] x y = site3 W A B (b3 x 0) (b3 x 1) (b3 x 2) (b3 y 0) (b3 y 1) (b3 y 2).
Proof.
  intros HW E1 E2 H0 H1 H2. unfold env3, site3. rewrite E1, E2. cbn [msum].
  apply bigsum_ext. intros i Hi. apply bigsum_ext. intros j Hj.
  unfold singles, pairs. cbn [map zip2]. rewrite !amp_one by assumption. reflexivity.
Qed.

Lemma inr3 x a b c : inr x [a; b; c] -> exists i j k, x = [i; j; k] /\ i < a /\ j < b /\ k < c.
Proof.
  intros Hx. inversion Hx as [|i ? r1 ? Hi Hr1]; subst. inversion Hr1 as [|j ? r2 ? Hj Hr2]; subst.
  inversion Hr2 as [|k ? r3 ? Hk Hr3]; subst. inversion Hr3; subst. exists i, j, k. auto.
Qed.
Lemma inr2 x a b : inr x [a; b] -> exists i j, x = [i; j] /\ i < a /\ j < b.
Proof.
  intros Hx. inversion Hx as [|i ? r1 ? Hi Hr1]; subst. inversion Hr1 as [|j ? r2 ? Hj Hr2]; subst.
  inversion Hr2; subst. exists i, j. auto.
Qed.

(** Shapes of the local tensors. *)
Lemma shp_mps (t : nd K) d : lt_ok t -> pdims t = [d] -> shp t = [ldim t; d; rdim t].
Proof. intros H E. rewrite (lt_ok_shp t H), E. reflexivity. Qed.
Lemma shp_mpo (t : nd K) d e : lt_ok t -> pdims t = [d; e] -> shp t = [ldim t; d; e; rdim t].
Proof. intros H E. rewrite (lt_ok_shp t H), E. reflexivity. Qed.

(** One site is added to an environment. *)
Lemma leftvec_add_env lv W A B d e : lt_ok W -> lt_ok A -> lt_ok B -> pdims W = [d; e] -> pdims A = [e] -> pdims B = [d] ->
  shp lv = [ldim A; ldim W; ldim B] ->
  exists o, eig_leftvec_add lv W A (Some B) = Ok o /\ ndwf o /\ shp o = [rdim A; rdim W; rdim B] /\
  forall y, inr y (shp o) -> get o y = msum (shp lv) (fun x => get lv x * env3 [d] [e] [W] [A] [B] x y)%K.
Proof.
  intros HW HA HB PW PA PB Sl. pose proof (shp_mpo W d e HW PW) as SW. pose proof (shp_mps A e HA PA) as SA.
  pose proof (shp_mps B d HB PB) as SB.
  destruct (leftvec_add_spec lv W A B _ _ _ _ _ _ d e Sl SW SA SB) as (o & E & Wo & So & G).
  exists o. split; [exact E|]. split; [exact Wo|]. split; [exact So|]. intros y Hy. rewrite So in Hy.
  destruct (inr3 _ _ _ _ Hy) as (a' & w' & b' & -> & Ha & Hw & Hb). rewrite G by assumption. rewrite Sl. cbn [msum].
  apply bigsum_ext. intros a _. apply bigsum_ext. intros w _. apply bigsum_ext. intros b _.
  rewrite (env3_one d e W A B) by (auto; rewrite SW; reflexivity). reflexivity.
Qed.
Lemma rightvec_add_env rv W A d : lt_ok W -> lt_ok A -> pdims W = [d; d] -> pdims A = [d] ->
  shp rv = [rdim A; rdim W; rdim A] ->
  exists o, eig_rightvec_add rv W A = Ok o /\ ndwf o /\ shp o = [ldim A; ldim W; ldim A] /\
  forall x, inr x (shp o) -> get o x = msum (shp rv) (fun y => env3 [d] [d] [W] [A] [A] x y * get rv y)%K.
Proof.
  intros HW HA PW PA Sl. pose proof (shp_mpo W d d HW PW) as SW. pose proof (shp_mps A d HA PA) as SA.
  destruct (rightvec_add_spec rv W A _ _ _ _ d Sl SW SA) as (o & E & Wo & So & G).
  exists o. split; [exact E|]. split; [exact Wo|]. split; [exact So|]. intros y Hy. rewrite So in Hy.
  destruct (inr3 _ _ _ _ Hy) as (a' & w' & b' & -> & Ha & Hw & Hb). rewrite G by assumption. rewrite Sl. cbn [msum].
  apply bigsum_ext. intros a La. apply bigsum_ext. intros w Lw. apply bigsum_ext. intros b Lb.
  rewrite (env3_one d d W A A) by (auto; rewrite SW; reflexivity). reflexivity.
Qed.

(** ** Two layers *)
Lemma egram_site2 (S T : nd K) d s t s' t' : lt_ok S -> pdims S = [d] -> egram S T s t s' t' = site2 S T s t s' t'.
Proof.
  intros HS PS. unfold egram, site2. rewrite PS, (shp_mps S d HS PS). reflexivity.
Qed.
Definition gram2 (S T : list (nd K)) (x y : list nat) : K := gram S T (b3 x 0) (b3 x 1) (b3 y 0) (b3 y 1).
Lemma gram2_app S1 T1 S2 T2 ls lt rs rt x y :
  bonds S1 ls rs -> bonds T1 lt rt -> map pdims S1 = map pdims T1 -> inr x [ls; lt] ->
  gram2 (S1 ++ S2) (T1 ++ T2) x y = msum [rs; rt] (fun z => gram2 S1 T1 x z * gram2 S2 T2 z y)%K.
Proof.
  intros B1 B2 E Hx. destruct (inr2 _ _ _ Hx) as (s & t & -> & Hs & Ht). unfold gram2, b3. cbn [nth msum].
  apply (gram_app S1 T1 S2 T2 ls rs lt rt); auto.
Qed.
Lemma gram_one (S T : nd K) s t s' t' : s' < rdim S -> t' < rdim T -> gram [S] [T] s t s' t' = egram S T s t s' t'.
Proof.
  intros Hs Ht. unfold gram, egram. cbn [map msums]. apply msum_ext. intros i _. rewrite !amp_one by assumption. reflexivity.
Qed.
Lemma leftvec_add_mps_env lv S T d : lt_ok S -> lt_ok T -> pdims S = [d] -> pdims T = [d] ->
  shp lv = [ldim S; ldim T] ->
  exists o, eig_leftvec_add_mps lv S T = Ok o /\ ndwf o /\ shp o = [rdim S; rdim T] /\
  forall y, inr y (shp o) -> get o y = msum (shp lv) (fun x => get lv x * gram2 [S] [T] x y)%K.
Proof.
  intros HS HT PS PT Sl. destruct (leftvec_add_mps_spec lv S T _ _ _ _ d Sl (shp_mps _ _ HS PS) (shp_mps _ _ HT PT)) as (o & E & Wo & So & G).
  exists o. split; [exact E|]. split; [exact Wo|]. split; [exact So|]. intros y Hy. rewrite So in Hy.
  destruct (inr2 _ _ _ Hy) as (s & t & -> & Hs & Ht). rewrite G by assumption. rewrite Sl. cbn [msum].
  apply bigsum_ext. intros a _. apply bigsum_ext. intros b _. unfold gram2, b3. cbn [nth].
  rewrite gram_one by assumption. rewrite (egram_site2 S T d) by assumption. reflexivity.
Qed.
Lemma rightvec_add_mps_env rv S T d : lt_ok S -> lt_ok T -> pdims S = [d] -> pdims T = [d] ->
  shp rv = [rdim S; rdim T] ->
  exists o, eig_rightvec_add_mps rv S T = Ok o /\ ndwf o /\ shp o = [ldim S; ldim T] /\
  forall x, inr x (shp o) -> get o x = msum (shp rv) (fun y => gram2 [S] [T] x y * get rv y)%K.
Proof.
  intros HS HT PS PT Sl. destruct (rightvec_add_mps_spec rv S T _ _ _ _ d Sl (shp_mps _ _ HS PS) (shp_mps _ _ HT PT)) as (o & E & Wo & So & G).
  exists o. split; [exact E|]. split; [exact Wo|]. split; [exact So|]. intros y Hy. rewrite So in Hy.
  destruct (inr2 _ _ _ Hy) as (s & t & -> & Hs & Ht). rewrite G by assumption. rewrite Sl. cbn [msum].
  apply bigsum_ext. intros a La. apply bigsum_ext. intros b Lb. unfold gram2, b3. cbn [nth].
  rewrite gram_one by assumption. rewrite (egram_site2 S T d) by assumption. reflexivity.
Qed.
(** The environments of variational compression have the axes (compressed, target). *)
Definition gram2' (C T : list (nd K)) (x y : list nat) : K := gram T C (b3 x 1) (b3 x 0) (b3 y 1) (b3 y 0).
Lemma gram2'_app C1 T1 C2 T2 lc lt rc rt x y :
  bonds C1 lc rc -> bonds T1 lt rt -> map pdims C1 = map pdims T1 -> inr x [lc; lt] ->
  gram2' (C1 ++ C2) (T1 ++ T2) x y = msum [rc; rt] (fun z => gram2' C1 T1 x z * gram2' C2 T2 z y)%K.
Proof.
  intros B1 B2 E Hx. destruct (inr2 _ _ _ Hx) as (s & t & -> & Hs & Ht). unfold gram2', b3. cbn [nth msum].
  rewrite (gram_app T1 C1 T2 C2 lt rt lc rc) by auto. apply bigsum_swap.
Qed.
Lemma adapt_add_l_env lv C T d : lt_ok C -> lt_ok T -> pdims C = [d] -> pdims T = [d] ->
  shp lv = [ldim C; ldim T] ->
  exists o, adapt_add_l lv C T = Ok o /\ ndwf o /\ shp o = [rdim C; rdim T] /\
  forall y, inr y (shp o) -> get o y = msum (shp lv) (fun x => get lv x * gram2' [C] [T] x y)%K.
Proof.
  intros HS HT PS PT Sl. destruct (adapt_add_l_spec lv C T _ _ _ _ d Sl (shp_mps _ _ HS PS) (shp_mps _ _ HT PT)) as (o & E & Wo & So & G).
  exists o. split; [exact E|]. split; [exact Wo|]. split; [exact So|]. intros y Hy. rewrite So in Hy.
  destruct (inr2 _ _ _ Hy) as (s & t & -> & Hs & Ht). rewrite G by assumption. rewrite Sl. cbn [msum].
  apply bigsum_ext. intros a _. apply bigsum_ext. intros b _. unfold gram2', b3. cbn [nth].
  rewrite gram_one by assumption. rewrite (egram_site2 T C d) by assumption. reflexivity.
Qed.
Lemma adapt_add_r_env rv C T d : lt_ok C -> lt_ok T -> pdims C = [d] -> pdims T = [d] ->
  shp rv = [rdim C; rdim T] ->
  exists o, adapt_add_r rv C T = Ok o /\ ndwf o /\ shp o = [ldim C; ldim T] /\
  forall x, inr x (shp o) -> get o x = msum (shp rv) (fun y => gram2' [C] [T] x y * get rv y)%K.
Proof.
  intros HS HT PS PT Sl. destruct (adapt_add_r_spec rv C T _ _ _ _ d Sl (shp_mps _ _ HS PS) (shp_mps _ _ HT PT)) as (o & E & Wo & So & G).
  exists o. split; [exact E|]. split; [exact Wo|]. split; [exact So|]. intros y Hy. rewrite So in Hy.
  destruct (inr2 _ _ _ Hy) as (s & t & -> & Hs & Ht). rewrite G by assumption. rewrite Sl. cbn [msum].
  apply bigsum_ext. intros a La. apply bigsum_ext. intros b Lb. unfold gram2', b3. cbn [nth].
  rewrite gram_one by assumption. rewrite (egram_site2 T C d) by assumption. reflexivity.
Qed.

(** ** sandwich *)
Lemma leftvec_chain ws : forall ts us ds es lw la lb rw ra rb lv,
  mpo_like ws ds es -> mps_like ts es -> mps_like us ds ->
  bonds ws lw rw -> bonds ts la ra -> bonds us lb rb -> ndwf lv -> shp lv = [la; lw; lb] ->
  exists o, foldM (fun arr p => eig_leftvec_add arr (fst (fst p)) (snd (fst p)) (Some (snd p)))
                  (combine (combine ws ts) us) lv = Ok o /\ ndwf o /\ shp o = [ra; rw; rb] /\
  forall y, inr y (shp o) -> get o y = msum (shp lv) (fun x => get lv x * env3 ds es ws ts us x y)%K.
Proof.
  induction ws as [|W ws IH]; intros ts us ds es lw la lb rw ra rb lv [M E] HT HU BW BT BU Wl Sl.
  - destruct ds as [|d ds], es as [|e es]; try discriminate.
    destruct ts; [|discriminate]. destruct us; [|discriminate]. cbn in BW, BT, BU. subst.
    exists lv. split; [reflexivity|]. split; [exact Wl|]. split; [exact Sl|]. intros y Hy.
    rewrite Sl in Hy. rewrite Sl, (msum_single _ y); [|exact Hy|].
    + rewrite env3_nil, !delta_eq. ring.
    + intros x Hx Hn. destruct (inr3 _ _ _ _ Hx) as (i & j & k & -> & _). destruct (inr3 _ _ _ _ Hy) as (i' & j' & k' & -> & _).
      rewrite env3_nil. unfold b3. cbn [nth].
      destruct (Nat.eq_dec i i') as [->|N1]; [|rewrite (delta_neq i i') by auto; ring].
      destruct (Nat.eq_dec j j') as [->|N2]; [|rewrite (delta_neq j j') by auto; ring].
      destruct (Nat.eq_dec k k') as [->|N3]; [congruence|rewrite (delta_neq k k') by auto; ring].
  - destruct ds as [|d ds], es as [|e es]; try discriminate. injection E as E.
    destruct ts as [|A ts]; [discriminate|]. destruct us as [|B us]; [discriminate|].
    cbn [map pairs zip2] in M. injection M as PW M. unfold mps_like in HT, HU. cbn [map singles] in HT, HU.
    injection HT as PA HT. injection HU as PB HU.
    destruct BW as (OW & LW & BW), BT as (OA & LA & BT), BU as (OB & LB & BU). subst lw la lb.
    destruct (leftvec_add_env lv W A B d e OW OA OB PW PA PB Sl) as (o & Eo & Wo & So & Go).
    cbn [combine foldM fst snd]. rewrite Eo. cbn [bind].
    destruct (IH ts us ds es _ _ _ rw ra rb o (conj M E) HT HU BW BT BU Wo So) as (z & Ez & Wz & Sz & Gz).
    exists z. split; [exact Ez|]. split; [exact Wz|]. split; [exact Sz|]. intros y Hy. rewrite Gz by exact Hy.
    transitivity (msum (shp o) (fun z0 => msum (shp lv) (fun x => get lv x * (env3 [d] [e] [W] [A] [B] x z0 * env3 ds es ws ts us z0 y))))%K.
    { apply msum_ext. intros z0 Hz0. rewrite (Go z0 Hz0), <- msum_mul_r. apply msum_ext. intros x _. ring. }
    rewrite msum_swap. apply msum_ext. intros x Hx. rewrite msum_mul_l. f_equal. symmetry. rewrite So.
    apply (env3_app [d] [e] [W] [A] [B] ds es ws ts us (ldim W) (ldim A) (ldim B)); try reflexivity;
      try (cbn; auto; fail). rewrite <- Sl. exact Hx.
Qed.

(** The matrix element. *)
Definition melem (ds es : list nat) (M : list nat -> list nat -> K) (u t : list nat -> K) : K :=
  msum ds (fun is => msum es (fun js => kconj (u is) * M is js * t js))%K.

Lemma wf_np_ones n : ndwf (np_ones (K:=K) n).
Proof. unfold ndwf, np_ones. cbn. induction n as [|n IH]; [reflexivity|]. cbn [repeat]. rewrite size_cons. lia. Qed.

Theorem sandwich_spec (w x y : ltens K) ds es :
  mpa_ok w -> mpa_ok x -> mpa_ok y -> mshape w = pairs ds es -> length ds = length es ->
  mshape x = singles es -> mshape y = singles ds ->
  sandwich w x (Some y) = Ok (melem ds es (fun is js => entry w (pairs is js)) (fun is => entry y (singles is)) (fun js => entry x (singles js))).
Proof.
  intros Hw Hx Hy Sw L Sx Sy. unfold sandwich. destruct Hw as [Nw Bw], Hx as [Nx Bx], Hy as [Ny By].
  destruct (leftvec_chain (lts w) (lts x) (lts y) ds es 1 1 1 1 1 1 (np_ones 3)) as (o & E & Wo & So & G); auto.
  { split; auto. } { apply wf_np_ones. }
  change (foldM _ _ _) with (foldM (fun arr p => eig_leftvec_add arr (fst (fst p)) (snd (fst p)) (Some (snd p)))
                  (combine (combine (lts w) (lts x)) (lts y)) (np_ones 3)).
  rewrite E. cbn [bind]. rewrite So. cbn [size fold_right]. change (Nat.eqb (size [1; 1; 1]) 1) with true. cbn [passert].
  f_equal. specialize (G [0; 0; 0]). rewrite So in G.
  assert (Hi : inr [0; 0; 0] [1; 1; 1]) by (repeat (apply inr_cons; [lia|]); constructor).
  change (nth 0 (dat o) k0) with (nth (ravel [1; 1; 1] [0; 0; 0]) (dat o) k0). rewrite <- So at 1.
  change (nth (ravel (shp o) [0; 0; 0]) (dat o) k0) with (get o [0; 0; 0]). rewrite G by exact Hi.
  cbn [np_ones shp repeat msum]. rewrite !bigsum_1.
  change (get (np_ones 3) [0; 0; 0]) with (k1 : K). unfold env3, b3, melem. cbn [nth].
  rewrite <- msum_mul_l. apply msum_ext. intros is Hi1. rewrite <- msum_mul_l. apply msum_ext. intros js Hj1.
  assert (V1 : Forall2 inr (pairs is js) (pairs ds es)).
  { clear - Hi1 Hj1 L. revert es L js Hj1. induction Hi1; intros [|e es] L js Hj; try discriminate; inversion Hj; subst; cbn; constructor; auto.
    repeat (apply inr_cons; [assumption|]). constructor. }
  rewrite !entry_amp; try (split; assumption); unfold valid_idx; rewrite ?Sw, ?Sx, ?Sy; try apply singles_valid; auto. ring.
Qed.
End Env.
