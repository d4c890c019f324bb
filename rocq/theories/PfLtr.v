(** The left-to-right contraction of a POVM with a PMPS (mppovm.py 412-462). *)
From Verif Require Export PfMpPovm.
Open Scope nat_scope.

Lemma perm03412 : is_perm [0; 3; 4; 1; 2].
Proof. unfold is_perm. cbn. apply NoDup_Permutation; [repeat constructor; cbn; lia|repeat constructor; cbn; lia|cbn; intros; tauto]. Qed.

Section Ltr.
Context {K : StarRing}.
Add Ring Kr : (k_ring K).

(** Probabilities of the chains [vs] (POVM) and [ts] (PMPS) with open right bonds *)
Definition pto (hs : list nat) (vs ts : list (nd K)) (ks : list nat) (b c c' : nat) : K :=
  msum hs (fun is => msum hs (fun js => amp vs (triples ks is js) 0 b * dmo ts js is c c'))%K.

Lemma ltr_step_spec (p v t : nd K) P mv m n s A rv r : ndwf p -> shp p = [P; mv; m; m] -> ndwf t -> shp t = [m; s; A; r] -> ndwf v -> shp v = [mv; n; s; s; rv] ->
  exists o, ltr_step p (v, t) = Ok o /\ ndwf o /\ shp o = [P * n; rv; r; r] /\
  forall I k b c c', I < P -> k < n -> b < rv -> c < r -> c' < r ->
    get o [I * n + k; b; c; c'] =
    bigsum mv (fun b0 => bigsum s (fun j => bigsum s (fun i =>
      bigsum m (fun a' => bigsum A (fun z => bigsum m (fun a => get p [I; b0; a; a'] * ent t a [j; z] c) * kconj (ent t a' [i; z] c')))
      * ent v b0 [k; i; j] b)))%K.
Proof.
  intros Wp Sp Wt St Wv Sv. unfold ltr_step. unfold ndim at 1 2. rewrite St, Sv. cbn [length Nat.eqb andb praise_unless].
  rewrite Sp. unfold ldim. rewrite St. cbn [nth hd]. rewrite Nat.eqb_refl. cbn [praise_unless]. cbv zeta.
  set (p1 := tensordot p t [2] [0]).
  assert (S1 : shp p1 = [P; mv; m; s; A; r]) by (unfold p1; rewrite shp_tensordot; unfold ndim; rewrite Sp, St; reflexivity).
  assert (N1 : forall I b0 a' j z c, I < P -> b0 < mv -> a' < m -> j < s -> z < A -> c < r ->
            get p1 [I; b0; a'; j; z; c] = bigsum m (fun a => get p [I; b0; a; a'] * ent t a [j; z] c)%K).
  { intros. unfold p1. change [I; b0; a'; j; z; c] with ([I; b0; a'] ++ [j; z; c]). rewrite get_tensordot.
    - unfold ndim. rewrite Sp, St. cbn [gather map nth msum]. apply bigsum_ext. intros a _. reflexivity.
    - unfold ndim. rewrite Sp. change (inr [I; b0; a'] [P; mv; m]). repeat (apply inr_cons; [lia|]). constructor.
    - unfold ndim. rewrite St. change (inr [j; z; c] [s; A; r]). repeat (apply inr_cons; [lia|]). constructor. }
  assert (Sc : shp (nconj t) = [m; s; A; r]) by exact St.
  rewrite S1, Sc. change (gather [2; 4] [P; mv; m; s; A; r]) with [m; A]. change (gather [0; 2] [m; s; A; r]) with [m; A]. rewrite (list_eqb_refl [m; A]). cbn [praise_unless].
  set (p2 := tensordot p1 (nconj t) [2; 4] [0; 2]).
  assert (S2 : shp p2 = [P; mv; s; r; s; r]) by (unfold p2; rewrite shp_tensordot; unfold ndim; rewrite S1, Sc; reflexivity).
  assert (N2 : forall I b0 j c i c', I < P -> b0 < mv -> j < s -> c < r -> i < s -> c' < r ->
            get p2 [I; b0; j; c; i; c'] = bigsum m (fun a' => bigsum A (fun z => get p1 [I; b0; a'; j; z; c] * kconj (ent t a' [i; z] c')))%K).
  { intros. unfold p2. change [I; b0; j; c; i; c'] with ([I; b0; j; c] ++ [i; c']). rewrite get_tensordot.
    - unfold ndim. rewrite S1, Sc. cbn [gather map nth msum]. apply bigsum_ext. intros a Ha. apply bigsum_ext. intros z Hz.
      f_equal. rewrite get_nconj. reflexivity.
    - unfold ndim. rewrite S1. change (inr [I; b0; j; c] [P; mv; s; r]). repeat (apply inr_cons; [lia|]). constructor.
    - unfold ndim. rewrite Sc. change (inr [i; c'] [s; r]). repeat (apply inr_cons; [lia|]). constructor. }
  rewrite S2. change (gather [1; 2; 4] [P; mv; s; r; s; r]) with [mv; s; s]. change (gather [0; 3; 2] [mv; n; s; s; rv]) with [mv; s; s]. rewrite (list_eqb_refl [mv; s; s]). cbn [praise_unless].
  set (p3 := tensordot p2 v [1; 2; 4] [0; 3; 2]).
  assert (S3 : shp p3 = [P; r; r; n; rv]) by (unfold p3; rewrite shp_tensordot; unfold ndim; rewrite S2, Sv; reflexivity).
  assert (N3 : forall I c c' k b, I < P -> c < r -> c' < r -> k < n -> b < rv ->
            get p3 [I; c; c'; k; b] = bigsum mv (fun b0 => bigsum s (fun j => bigsum s (fun i => get p2 [I; b0; j; c; i; c'] * ent v b0 [k; i; j] b)))%K).
  { intros. unfold p3. change [I; c; c'; k; b] with ([I; c; c'] ++ [k; b]). rewrite get_tensordot.
    - unfold ndim. rewrite S2, Sv. cbn [gather map nth msum]. apply bigsum_ext. intros b0 Hb0. apply bigsum_ext. intros j Hj. apply bigsum_ext. intros i Hi. reflexivity.
    - unfold ndim. rewrite S2. change (inr [I; c; c'] [P; r; r]). repeat (apply inr_cons; [lia|]). constructor.
    - unfold ndim. rewrite Sv. change (inr [k; b] [n; rv]). repeat (apply inr_cons; [lia|]). constructor. }
  assert (S4 : shp (transpose p3 [0; 3; 4; 1; 2]) = [P; n; rv; r; r]) by (rewrite shp_transpose, S3; reflexivity).
  rewrite S4. cbn [nth]. eexists. split; [reflexivity|]. split; [|split; [reflexivity|]].
  - apply wf_reshape; [apply wf_transpose|]. rewrite S4. rewrite !size_cons, !size_nil. ring.
  - intros I k b c c' HI Hk Hb Hc Hc'. rewrite (get_reshape' _ _ _ [I; k; b; c; c']).
    2:{ rewrite S4. cbn [ravel]. rewrite !size_cons, size_nil. ring. }
    change [I; k; b; c; c'] with (gather [0; 3; 4; 1; 2] [I; c; c'; k; b]). rewrite get_transpose_gather.
    + rewrite N3 by assumption. apply bigsum_ext. intros b0 Hb0. apply bigsum_ext. intros j Hj. apply bigsum_ext. intros i Hi.
      rewrite N2 by assumption. f_equal. apply bigsum_ext. intros a' Ha'. apply bigsum_ext. intros z Hz. rewrite N1 by assumption. reflexivity.
    + apply perm03412.
    + unfold ndim. rewrite S3. reflexivity.
    + rewrite S3. repeat (apply inr_cons; [lia|]). constructor.
Qed.

Lemma pto_snoc hs (vs ts : list (nd K)) v t m mv ks k b c c' n s A : bonds vs 1 mv -> bonds ts 1 m -> two_legs (map pdims ts) -> pdims t = [s; A] -> pdims v = [n; s; s] ->
  length hs = length ts -> length vs = length ts -> length ks = length ts -> b < rdim v -> c < rdim t -> c' < rdim t ->
  pto (hs ++ [s]) (vs ++ [v]) (ts ++ [t]) (ks ++ [k]) b c c' =
  bigsum mv (fun b0 => bigsum s (fun j => bigsum s (fun i =>
      bigsum m (fun a' => bigsum A (fun z => bigsum m (fun a => pto hs vs ts ks b0 a a' * ent t a [j; z] c) * kconj (ent t a' [i; z] c')))
      * ent v b0 [k; i; j] b)))%K.
Proof.
  intros Bv Bt T2 Pt Pv Lh Lv Lk Hb Hc Hc'. unfold pto at 1. rewrite msum_app. cbn [msum].
  transitivity (msum hs (fun is => msum hs (fun js => bigsum mv (fun b0 => bigsum s (fun j => bigsum s (fun i =>
     amp vs (triples ks is js) 0%nat b0 * bigsum m (fun a' => bigsum A (fun z => bigsum m (fun a => dmo ts js is a a' * ent t a [j; z] c) * kconj (ent t a' [i; z] c')))
      * ent v b0 [k; i; j] b))))))%K.
  - apply msum_ext. intros is Hi. pose proof (inr_length _ _ Hi) as Li.
    transitivity (bigsum s (fun i => msum hs (fun js => bigsum s (fun j =>
       amp (vs ++ [v]) (triples (ks ++ [k]) (is ++ [i]) (js ++ [j])) 0%nat b * dmo (ts ++ [t]) (js ++ [j]) (is ++ [i]) c c'))))%K.
    { apply bigsum_ext. intros i _. rewrite msum_app. reflexivity. }
    rewrite <- msum_bigsum_swap. apply msum_ext. intros js Hj. pose proof (inr_length _ _ Hj) as Lj.
    rewrite (bigsum_swap s s). rewrite (bigsum_swap mv s). apply bigsum_ext. intros j Hjs. rewrite (bigsum_swap mv s). apply bigsum_ext. intros i His.
    rewrite (triples_app ks is js [k] [i] [j]) by congruence. change (triples [k] [i] [j]) with [[k; i; j]].
    rewrite (amp_app vs [v] _ _ 0 _ 1 mv); [|unfold triples; rewrite zip2_length; rewrite ?pairs_length; congruence|exact Bv|lia].
    rewrite (dmo_snoc ts t m js is j i c c' s A) by (auto; congruence).
    rewrite <- bigsum_mul_r. apply bigsum_ext. intros b0 Hb0. rewrite amp_one by exact Hb. ring.
  - transitivity (bigsum mv (fun b0 => bigsum s (fun j => bigsum s (fun i => msum hs (fun is => msum hs (fun js =>
     amp vs (triples ks is js) 0%nat b0 * bigsum m (fun a' => bigsum A (fun z => bigsum m (fun a => dmo ts js is a a' * ent t a [j; z] c) * kconj (ent t a' [i; z] c')))
      * ent v b0 [k; i; j] b))))))%K.
    + transitivity (msum hs (fun is => bigsum mv (fun b0 => bigsum s (fun j => bigsum s (fun i => msum hs (fun js => 
     amp vs (triples ks is js) 0%nat b0 * bigsum m (fun a' => bigsum A (fun z => bigsum m (fun a => dmo ts js is a a' * ent t a [j; z] c) * kconj (ent t a' [i; z] c')))
      * ent v b0 [k; i; j] b))))))%K.
      * apply msum_ext. intros is _. rewrite msum_bigsum_swap. apply bigsum_ext. intros b0 _. rewrite msum_bigsum_swap. apply bigsum_ext. intros j _. rewrite msum_bigsum_swap. reflexivity.
      * rewrite msum_bigsum_swap. apply bigsum_ext. intros b0 _. rewrite msum_bigsum_swap. apply bigsum_ext. intros j _. rewrite msum_bigsum_swap. reflexivity.
    + apply bigsum_ext. intros b0 _. apply bigsum_ext. intros j _. apply bigsum_ext. intros i _.
      transitivity (msum hs (fun is => msum hs (fun js => bigsum m (fun a' => bigsum A (fun z => bigsum m (fun a =>
         amp vs (triples ks is js) 0%nat b0 * dmo ts js is a a' * ent t a [j; z] c) * kconj (ent t a' [i; z] c'))))) * ent v b0 [k; i; j] b)%K.
      { rewrite <- msum_mul_r. apply msum_ext. intros is _. rewrite <- msum_mul_r. apply msum_ext. intros js _. f_equal.
        rewrite <- bigsum_mul_l. apply bigsum_ext. intros a' _. rewrite <- bigsum_mul_l. apply bigsum_ext. intros z _.
        rewrite <- !bigsum_mul_r, <- bigsum_mul_l. apply bigsum_ext. intros a _. ring. }
      f_equal. unfold pto.
      transitivity (msum hs (fun is => bigsum m (fun a' => bigsum A (fun z => bigsum m (fun a => msum hs (fun js =>
         amp vs (triples ks is js) 0%nat b0 * dmo ts js is a a') * ent t a [j; z] c) * kconj (ent t a' [i; z] c')))))%K.
      { apply msum_ext. intros is _. rewrite msum_bigsum_swap. apply bigsum_ext. intros a' _. rewrite msum_bigsum_swap. apply bigsum_ext. intros z _.
        rewrite msum_mul_r. f_equal. rewrite msum_bigsum_swap. apply bigsum_ext. intros a _. rewrite msum_mul_r. reflexivity. }
      rewrite msum_bigsum_swap. apply bigsum_ext. intros a' _. rewrite msum_bigsum_swap. apply bigsum_ext. intros z _.
      rewrite msum_mul_r. f_equal. rewrite msum_bigsum_swap. apply bigsum_ext. intros a _. rewrite msum_mul_r. reflexivity.
Qed.

Lemma shape_v (v : nd K) n s : lt_ok v -> pdims v = [n; s; s] -> shp v = [ldim v; n; s; s; rdim v].
Proof. intros H E. rewrite (lt_ok_shp v H), E. reflexivity. Qed.

Theorem ltr_loop ns' : forall hs' us ws ns hs (vs ts : list (nd K)) mv m mv2 m2 p,
  bonds vs 1 mv -> bonds ts 1 m -> bonds us mv mv2 -> bonds ws m m2 ->
  length ns = length hs -> length vs = length hs -> length ts = length hs -> length ns' = length hs' ->
  map pdims us = tshape ns' hs' -> two_legs (map pdims (ts ++ ws)) -> leg1 (map pdims ws) = hs' ->
  ndwf p -> shp p = [size ns; mv; m; m] ->
  (forall ks b c c', inr ks ns -> b < mv -> c < m -> c' < m -> get p [ravel ns ks; b; c; c'] = pto hs vs ts ks b c c') ->
  exists o, foldM ltr_step (combine us ws) p = Ok o /\ ndwf o /\ shp o = [size (ns ++ ns'); mv2; m2; m2] /\
  forall ks b c c', inr ks (ns ++ ns') -> b < mv2 -> c < m2 -> c' < m2 ->
    get o [ravel (ns ++ ns') ks; b; c; c'] = pto (hs ++ hs') (vs ++ us) (ts ++ ws) ks b c c'.
Proof.
  induction ns' as [|n ns' IH]; intros [|s hs'] us ws ns hs vs ts mv m mv2 m2 p Bv Bt Bu Bw L Lv Lt L' Eu T2 Ew Wp Sp N; try discriminate.
  - destruct us as [|? ?]; [|discriminate]. destruct ws as [|? ?]; [|discriminate]. cbn [bonds] in Bu, Bw. subst mv2 m2. rewrite !app_nil_r. exists p. cbn [combine foldM]. auto.
  - destruct us as [|v us]; [discriminate|]. destruct ws as [|t ws]; [discriminate|]. cbn [map tshape zip2 leg1] in Eu, Ew. injection Eu as Pv Eu. 
    rewrite map_app in T2. apply two_legs_app in T2. destruct T2 as [T2 T2']. cbn [map] in T2'. destruct (two_legs_cons _ _ T2') as (s' & A & Pt & T3).
    rewrite Pt in Ew. cbn [nth] in Ew. injection Ew as -> Ew.
    cbn [bonds] in Bu, Bw. destruct Bu as (Ov & Lmv & Bu), Bw as (Ot & Lm & Bw).
    pose proof (shape_v v n s Ov Pv) as Sv. destruct (shape4_ok t s A Ot Pt) as [St _]. rewrite Lmv in Sv. rewrite Lm in St.
    destruct (ltr_step_spec p v t (size ns) mv m n s A (rdim v) (rdim t) Wp Sp (proj1 Ot) St (proj1 Ov) Sv) as (o & Eo & Wo & So & No).
    cbn [combine foldM]. rewrite Eo. cbn [bind].
    assert (Bv' : bonds (vs ++ [v]) 1 (rdim v)) by (apply bonds_app; exists mv; cbn [bonds]; auto).
    assert (Bt' : bonds (ts ++ [t]) 1 (rdim t)) by (apply bonds_app; exists m; cbn [bonds]; auto).
    destruct (IH hs' us ws (ns ++ [n]) (hs ++ [s]) (vs ++ [v]) (ts ++ [t]) (rdim v) (rdim t) mv2 m2 o Bv' Bt' Bu Bw) as (o' & Eo' & Wo' & So' & No').
    + rewrite !app_length. cbn. lia.
    + rewrite !app_length. cbn. lia.
    + rewrite !app_length. cbn. lia.
    + cbn in L'. lia.
    + exact Eu.
    + rewrite !map_app. cbn [map]. apply two_legs_app. split; [apply two_legs_app; split; [exact T2|]|exact T3]. constructor; [rewrite Pt; reflexivity|constructor].
    + exact Ew.
    + exact Wo.
    + rewrite So, size_app, size_cons, size_nil. f_equal. lia.
    + intros ks b c c' Hk Hb Hc Hc'. apply Forall2_app_inv_r in Hk. destruct Hk as (ks1 & k1' & Hk1 & Hk2 & ->).
      apply inr_cons_inv in Hk2. destruct Hk2 as (k & ? & -> & Hk & X). inversion X; subst. clear X.
      rewrite ravel_app by exact Hk1. cbn [ravel]. rewrite size_cons, size_nil.
      replace (ravel ns ks1 * (n * 1) + (k * 1 + 0)) with (ravel ns ks1 * n + k) by ring.
      rewrite No by (auto; apply ravel_lt; exact Hk1). rewrite (pto_snoc hs vs ts v t (ldim t) (ldim v) ks1 k b c c' n s A) by (auto; try congruence; rewrite (inr_length _ _ Hk1); congruence).
      apply bigsum_ext. intros b0 Hb0. apply bigsum_ext. intros j Hj. apply bigsum_ext. intros i Hi. f_equal. apply bigsum_ext. intros a' Ha'. apply bigsum_ext. intros z Hz.
      f_equal. apply bigsum_ext. intros a Ha. f_equal. apply N; assumption.
    + exists o'. rewrite <- !app_assoc in *. cbn [app] in *. auto.
Qed.
Theorem ltr_chain (us ws : list (nd K)) ns hs mv m : bonds us 1 mv -> bonds ws 1 m -> length ns = length hs ->
  map pdims us = tshape ns hs -> two_legs (map pdims ws) -> leg1 (map pdims ws) = hs ->
  exists o, foldM ltr_step (combine us ws) (mkNd [1; 1; 1; 1] [k1]) = Ok o /\ ndwf o /\ shp o = [size ns; mv; m; m] /\
  forall ks b c c', inr ks ns -> b < mv -> c < m -> c' < m -> get o [ravel ns ks; b; c; c'] = pto hs us ws ks b c c'.
Proof.
  intros Bu Bw L Eu T2 Ew.
  destruct (ltr_loop ns hs us ws [] [] [] [] 1 1 mv m (mkNd [1; 1; 1; 1] [k1])) as (o & Eo & Wo & So & No); auto; try reflexivity.
  - intros ks b c c' Hk Hb Hc Hc'. inversion Hk; subst. assert (b = 0 /\ c = 0 /\ c' = 0) as (-> & -> & ->) by lia. cbn. unfold pto, dmo. cbn. rewrite kconj_1. ring.
  - exists o. auto.
Qed.

(** ** All probabilities *)
Lemma ravel_big1 ds : forall is, inr is ds -> Forall (fun d => 0 < d) ds -> ravel ds is = ravel (bigd ds) (bigi ds is) /\ size ds = size (bigd ds).
Proof.
  induction ds as [|d ds IH]; intros is Hi Hp.
  - inversion Hi; subst. split; reflexivity.
  - apply inr_cons_inv in Hi. destruct Hi as (i & is' & -> & Hi & Hi'). apply Forall_cons_iff in Hp. destruct Hp as [Hp Hps]. destruct (IH is' Hi' Hps) as [E1 E2].
    unfold bigi, bigd. cbn [combine filter map fst]. fold (bigd ds). destruct (Nat.ltb_spec 1 d) as [Hd|Hd].
    + cbn [map snd]. fold (bigi ds is'). cbn [ravel]. rewrite !size_cons, E1, E2. auto.
    + assert (d = 1) by lia. subst d. assert (i = 0) by lia. subst i. fold (bigi ds is'). cbn [ravel]. rewrite size_cons, E1, E2. split; ring.
Qed.
Lemma size_big ds : Forall (fun d => 0 < d) ds -> size ds = size (bigd ds).
Proof.
  intros H. induction H as [|d ds Hd H IH]; [reflexivity|]. unfold bigd. cbn [filter]. fold (bigd ds). destruct (Nat.ltb_spec 1 d); rewrite !size_cons, IH; [reflexivity|]. assert (d = 1) by lia. subst. ring.
Qed.
Lemma povm_pos (x : ltens K) ns hs : povm_ok x ns hs -> Forall (fun n => 0 < n) ns /\ Forall (fun n => 0 < n) hs.
Proof.
  intros H. pose proof (povm_dims _ _ _ H) as (D1 & D2 & _). pose proof H as ([Hx HP] & _ & L & S & _). 
  assert (G : Forall (fun t => exists n h, shp t = [ldim t; n; h; h; rdim t] /\ 0 < n /\ 0 < h) (lts x)).
  { rewrite Forall_forall in *. intros t Ht. assert (Hin : In (pdims t) (tshape ns hs)) by (rewrite <- S; apply in_map; exact Ht).
    assert (exists n h, pdims t = [n; h; h]) as (n & h & E).
    { clear - Hin. revert hs Hin. induction ns as [|n ns IH]; intros [|h hs] Hin; cbn in Hin; try contradiction. destruct Hin as [E|Hin]; [eauto|eapply IH; exact Hin]. }
    exists n, h. specialize (HP t Ht). rewrite (lt_ok_shp t) in * by (eapply bonds_in; [apply Hx|exact Ht]). rewrite E in *. split; [reflexivity|]. cbn [app] in HP. rewrite !size_cons, size_nil in HP. nia. }
  rewrite <- D1, <- D2. unfold outdims, hdims. rewrite !Forall_map. split; (eapply Forall_impl; [|exact G]); intros t (n & h & E & H1 & H2); rewrite E; cbn; assumption.
Qed.
Lemma dmo_dmat (x : ltens K) is js : mpa_ok x -> two_legs (mshape x) -> inr is (leg1 (mshape x)) -> inr js (leg1 (mshape x)) -> dmo (lts x) is js 0 0 = dmat x is js.
Proof.
  intros Hx H Hi Hj. unfold dmo, dmat. change (map pdims (lts x)) with (mshape x). apply msum_ext. intros cs Hc. rewrite !entry_amp; auto; apply pairs_valid; auto.
Qed.
Lemma pto_born (x st : ltens K) ns hs ks : povm_ok x ns hs -> mpa_ok st -> two_legs (mshape st) -> leg1 (mshape st) = hs -> inr ks ns ->
  pto hs (lts x) (lts st) ks 0 0 0 = mborn x (dmat st) ks.
Proof.
  intros Hp Hst T2 E Hk. pose proof (povm_dims _ _ _ Hp) as (D1 & D2 & _). pose proof Hp as ([Hx HP] & _ & L & S & _).
  unfold pto, mborn. rewrite D2. apply msum_ext. intros is Hi. apply msum_ext. intros js Hj. rewrite dmo_dmat by (auto; rewrite E; assumption).
  rewrite entry_amp; [reflexivity|exact Hx|]. unfold valid_idx. rewrite S. apply triples_valid; assumption.
Qed.
(** The array of probabilities over the non-singleton outcomes *)
Definition is_pmf_arr (x : ltens K) (rho : list nat -> list nat -> K) (p : nd K) : Prop :=
  ndwf p /\ shp p = nsoutdims x /\ forall ks, inr ks (outdims x) -> get p (bigi (outdims x) ks) = mborn x rho ks.

Theorem pmf_ltr_spec (x st : ltens K) ns hs : povm_ok x ns hs -> mpa_ok st -> two_legs (mshape st) -> leg1 (mshape st) = hs ->
  exists p, pmf_ltr x st = Ok p /\ is_pmf_arr x (dmat st) p.
Proof.
  intros Hp Hst T2 E. pose proof (povm_dims _ _ _ Hp) as (D1 & D2 & _). pose proof Hp as ([Hx HP] & _ & L & S & _). pose proof (povm_pos _ _ _ Hp) as [P1 P2].
  unfold pmf_ltr, ltr_partial.
  destruct (ltr_chain (lts x) (lts st) ns hs 1 1) as (o & Eo & Wo & So & No); auto; [apply Hx|apply Hst|].
  rewrite Eo. cbn [bind]. unfold is_pmf_arr, nsoutdims. rewrite D1. fold (bigd ns). rewrite So, (size_big ns P1), list_eqb_refl. cbn [passert].
  eexists. split; [reflexivity|]. split; [|split; [reflexivity|]].
  - apply wf_reshape; [exact Wo|]. rewrite So, (size_big ns P1), !size_cons, size_nil. ring.
  - intros ks Hk. destruct (ravel_big1 ns ks Hk P1) as [R1 R2]. rewrite (get_reshape' _ _ _ [ravel ns ks; 0; 0; 0]).
    + rewrite No by (auto; lia). apply pto_born with (ns := ns); assumption.
    + rewrite So, <- R1. cbn [ravel]. rewrite !size_cons, size_nil. ring.
Qed.

(** ** Both ends *)
Lemma msum_rev ds : forall (f : list nat -> K), msum (rev ds) f = msum ds (fun is => f (rev is)).
Proof.
  induction ds as [|d ds IH]; intros f; [reflexivity|]. cbn [rev]. rewrite msum_app, IH. cbn [msum]. rewrite msum_bigsum_swap. reflexivity.
Qed.
(** Probabilities of chains with open left bonds *)
Definition ptr (hs : list nat) (vs ts : list (nd K)) (ks : list nat) (b c c' : nat) : K :=
  msum hs (fun is => msum hs (fun js => amp vs (triples ks is js) b 0 *
    msum (leg2 (map pdims ts)) (fun cs => amp ts (pairs js cs) c 0 * kconj (amp ts (pairs is cs) c' 0))))%K.
Lemma pto_split hs1 hs2 (vs1 vs2 ts1 ts2 : list (nd K)) mv m ks1 ks2 : bonds vs1 1 mv -> bonds ts1 1 m ->
  length hs1 = length ts1 -> length vs1 = length ts1 -> length ks1 = length ts1 -> two_legs (map pdims ts1) ->
  pto (hs1 ++ hs2) (vs1 ++ vs2) (ts1 ++ ts2) (ks1 ++ ks2) 0 0 0 =
  bigsum mv (fun b => bigsum m (fun c => bigsum m (fun c' => pto hs1 vs1 ts1 ks1 b c c' * ptr hs2 vs2 ts2 ks2 b c c')))%K.
Proof.
  intros Bv Bt Lh Lv Lk T2. unfold pto at 1. rewrite msum_app.
  transitivity (msum hs1 (fun i1 => msum hs2 (fun i2 => msum hs1 (fun j1 => msum hs2 (fun j2 =>
    bigsum mv (fun b => bigsum m (fun c => bigsum m (fun c' => (amp vs1 (triples ks1 i1 j1) 0%nat b * dmo ts1 j1 i1 c c') *
      (amp vs2 (triples ks2 i2 j2) b 0%nat * msum (leg2 (map pdims ts2)) (fun cs => amp ts2 (pairs j2 cs) c 0%nat * kconj (amp ts2 (pairs i2 cs) c' 0%nat)))))))))))%K.
  - apply msum_ext. intros i1 Hi1. apply msum_ext. intros i2 _. rewrite msum_app. apply msum_ext. intros j1 Hj1. apply msum_ext. intros j2 _.
    pose proof (inr_length _ _ Hi1) as Li. pose proof (inr_length _ _ Hj1) as Lj.
    rewrite triples_app by congruence. rewrite (amp_app vs1 vs2 _ _ 0 0 1 mv); [|unfold triples; rewrite zip2_length; rewrite ?pairs_length; congruence|exact Bv|lia].
    rewrite <- bigsum_mul_r. apply bigsum_ext. intros b _.
    unfold dmo. rewrite map_app, leg2_app, msum_app.
    transitivity (amp vs1 (triples ks1 i1 j1) 0%nat b * amp vs2 (triples ks2 i2 j2) b 0%nat *
      (bigsum m (fun c => bigsum m (fun c' => msum (leg2 (map pdims ts1)) (fun cs => amp ts1 (pairs j1 cs) 0%nat c * kconj (amp ts1 (pairs i1 cs) 0%nat c')) *
         msum (leg2 (map pdims ts2)) (fun cs => amp ts2 (pairs j2 cs) c 0%nat * kconj (amp ts2 (pairs i2 cs) c' 0%nat))))))%K.
    + f_equal. transitivity (msum (leg2 (map pdims ts1)) (fun c1 => bigsum m (fun c => bigsum m (fun c' => (amp ts1 (pairs j1 c1) 0%nat c * kconj (amp ts1 (pairs i1 c1) 0%nat c')) *
         msum (leg2 (map pdims ts2)) (fun cs => amp ts2 (pairs j2 cs) c 0%nat * kconj (amp ts2 (pairs i2 cs) c' 0%nat))))))%K.
      * apply msum_ext. intros c1 Hc1. pose proof (len_leg2 _ _ Hc1) as Lc.
        transitivity (msum (leg2 (map pdims ts2)) (fun c2 => bigsum m (fun c => bigsum m (fun c' => (amp ts1 (pairs j1 c1) 0%nat c * kconj (amp ts1 (pairs i1 c1) 0%nat c')) *
          (amp ts2 (pairs j2 c2) c 0%nat * kconj (amp ts2 (pairs i2 c2) c' 0%nat))))))%K.
        { apply msum_ext. intros c2 _. rewrite !pairs_app by congruence. rewrite !(amp_app ts1 ts2 _ _ 0 0 1 m); try exact Bt; try lia; try (rewrite pairs_length; congruence).
          rewrite bigsum_conj, bigsum_mul. apply bigsum_ext. intros c _. apply bigsum_ext. intros c' _. rewrite (kconj_mul K). ring. }
        rewrite msum_bigsum_swap. apply bigsum_ext. intros c _. rewrite msum_bigsum_swap. apply bigsum_ext. intros c' _. rewrite msum_mul_l. reflexivity.
      * rewrite msum_bigsum_swap. apply bigsum_ext. intros c _. rewrite msum_bigsum_swap. apply bigsum_ext. intros c' _. rewrite msum_mul_r. reflexivity.
    + rewrite <- bigsum_mul_l. apply bigsum_ext. intros c _. rewrite <- bigsum_mul_l. apply bigsum_ext. intros c' _. ring.
  - transitivity (bigsum mv (fun b => bigsum m (fun c => bigsum m (fun c' => 
      msum hs1 (fun i1 => msum hs1 (fun j1 => msum hs2 (fun i2 => msum hs2 (fun j2 => (amp vs1 (triples ks1 i1 j1) 0%nat b * dmo ts1 j1 i1 c c') *
      (amp vs2 (triples ks2 i2 j2) b 0%nat * msum (leg2 (map pdims ts2)) (fun cs => amp ts2 (pairs j2 cs) c 0%nat * kconj (amp ts2 (pairs i2 cs) c' 0%nat)))))))))))%K.
    + transitivity (msum hs1 (fun i1 => msum hs1 (fun j1 => msum hs2 (fun i2 => msum hs2 (fun j2 => bigsum mv (fun b => bigsum m (fun c => bigsum m (fun c' => (amp vs1 (triples ks1 i1 j1) 0%nat b * dmo ts1 j1 i1 c c') *
      (amp vs2 (triples ks2 i2 j2) b 0%nat * msum (leg2 (map pdims ts2)) (fun cs => amp ts2 (pairs j2 cs) c 0%nat * kconj (amp ts2 (pairs i2 cs) c' 0%nat)))))))))))%K.
      * apply msum_ext. intros i1 _. apply msum_swap.
      * generalize (fun i1 j1 i2 j2 b c c' => (amp vs1 (triples ks1 i1 j1) 0%nat b * dmo ts1 j1 i1 c c') *
      (amp vs2 (triples ks2 i2 j2) b 0%nat * msum (leg2 (map pdims ts2)) (fun cs => amp ts2 (pairs j2 cs) c 0%nat * kconj (amp ts2 (pairs i2 cs) c' 0%nat))))%K as F.
        assert (G : forall m' (f : list nat -> list nat -> list nat -> list nat -> nat -> K), msum hs1 (fun i1 => msum hs1 (fun j1 => msum hs2 (fun i2 => msum hs2 (fun j2 => bigsum m' (f i1 j1 i2 j2))))) =
           bigsum m' (fun b => msum hs1 (fun i1 => msum hs1 (fun j1 => msum hs2 (fun i2 => msum hs2 (fun j2 => f i1 j1 i2 j2 b)))))).
        { intros m' f. rewrite <- msum_bigsum_swap. apply msum_ext. intros i1 _. rewrite <- msum_bigsum_swap. apply msum_ext. intros j1 _. rewrite <- msum_bigsum_swap. apply msum_ext. intros i2 _. rewrite <- msum_bigsum_swap. reflexivity. }
        intros F'. rewrite G. apply bigsum_ext. intros b _. rewrite G. apply bigsum_ext. intros c _. rewrite G. reflexivity.
    + apply bigsum_ext. intros b _. apply bigsum_ext. intros c _. apply bigsum_ext. intros c' _. unfold pto, ptr.
      rewrite <- msum_mul_r. apply msum_ext. intros i1 _. rewrite <- msum_mul_r. apply msum_ext. intros j1 _. rewrite <- msum_mul_l. apply msum_ext. intros i2 _. rewrite <- msum_mul_l. reflexivity.
Qed.

Lemma zip2_snoc {A B C : Type} (f : A -> B -> C) l1 : forall l2 a b, length l1 = length l2 -> zip2 f (l1 ++ [a]) (l2 ++ [b]) = zip2 f l1 l2 ++ [f a b].
Proof. induction l1 as [|x l1 IH]; intros [|y l2] a b L; try discriminate; [reflexivity|]. cbn. f_equal. apply IH. cbn in L; lia. Qed.
Lemma zip2_rev {A B C : Type} (f : A -> B -> C) l1 : forall l2, length l1 = length l2 -> zip2 f (rev l1) (rev l2) = rev (zip2 f l1 l2).
Proof. induction l1 as [|x l1 IH]; intros [|y l2] L; try discriminate; [reflexivity|]. cbn [rev zip2]. rewrite zip2_snoc by (rewrite !rev_length; cbn in L; lia). rewrite IH by (cbn in L; lia). reflexivity. Qed.
Lemma pto_rev hs (vs ts : list (nd K)) ns mv m ks b c c' : bonds vs mv 1 -> bonds ts m 1 -> length ns = length hs -> map pdims vs = tshape ns hs -> two_legs (map pdims ts) -> leg1 (map pdims ts) = hs ->
  inr ks ns -> b < mv -> c < m -> c' < m ->
  pto (rev hs) (map local_reverse (rev vs)) (map local_reverse (rev ts)) (rev ks) b c c' = ptr hs vs ts ks b c c'.
Proof.
  intros Bv Bt L Ev T2 Et Hk Hb Hc Hc'. pose proof (reverse_chain _ _ _ Bv) as RV. cbn zeta in RV. destruct RV as (RV1 & RV2 & RV3).
  pose proof (reverse_chain _ _ _ Bt) as RT. cbn zeta in RT. destruct RT as (RT1 & RT2 & RT3).
  unfold pto, ptr. rewrite msum_rev. apply msum_ext. intros is Hi. rewrite msum_rev. apply msum_ext. intros js Hj.
  pose proof (inr_length _ _ Hi) as Li. pose proof (inr_length _ _ Hj) as Lj. pose proof (inr_length _ _ Hk) as Lk. f_equal.
  - unfold triples, pairs. rewrite (zip2_rev _ is js) by congruence. rewrite zip2_rev by (rewrite zip2_length; congruence). apply RV3; [|exact Hb|lia]. rewrite Ev. apply triples_valid; assumption.
  - unfold dmo. rewrite RT2. unfold leg2 at 1. rewrite map_rev. fold (leg2 (map pdims ts)). rewrite msum_rev. apply msum_ext. intros cs Hcs. pose proof (inr_length _ _ Hcs) as Lc.
    unfold leg2 in Lc. rewrite map_length in Lc. assert (Lt : length hs = length (map pdims ts)) by (rewrite <- Et; unfold leg1; rewrite map_length; reflexivity).
    unfold pairs. rewrite !zip2_rev by congruence. rewrite !RT3; try assumption; try lia; try reflexivity; apply pairs_valid; auto; rewrite Et; assumption.
Qed.

Lemma povm_checks_chain (x : ltens K) l r ns hs : bonds (lts x) l r -> length ns = length hs -> mshape x = tshape ns hs -> Forall (fun n => n <= 255) ns -> povm_checks x = Ok x.
Proof.
  intros Bx L S H. unfold povm_checks. pose proof (tshape_three ns hs L) as H3. rewrite <- S in H3.
  assert (G : Forall (fun t => exists n h, shp t = [ldim t; n; h; h; rdim t]) (lts x)).
  { rewrite Forall_forall. intros t Ht. assert (Hin : In (pdims t) (tshape ns hs)) by (rewrite <- S; apply in_map; exact Ht).
    assert (exists n h, pdims t = [n; h; h]) as (n & h & E).
    { clear - Hin. revert hs Hin. induction ns as [|n ns IH]; intros [|h hs] Hin; cbn in Hin; try contradiction. destruct Hin as [E|Hin]; [eauto|eapply IH; exact Hin]. }
    exists n, h. rewrite (lt_ok_shp t) by (eapply bonds_in; [exact Bx|exact Ht]). rewrite E. reflexivity. }
  assert (N : forallb (fun d => (d =? 3)%Z) (ndims x) = true).
  { apply forallb_forall. intros d Hd. unfold ndims in Hd. apply in_map_iff in Hd. destruct Hd as (t & <- & Ht). rewrite Forall_forall in G. destruct (G t Ht) as (n & h & E). unfold ndim. rewrite E. reflexivity. }
  rewrite N. cbn [passert].
  assert (E : forallb (fun p => Nat.eqb (nth 1 p 0) (nth 2 p 0)) (mshape x) = true).
  { rewrite S. apply forallb_forall. intros p Hp. unfold tshape in Hp. clear - Hp. revert hs Hp. induction ns as [|n ns IH]; intros [|h hs] Hp; cbn in Hp; try contradiction. destruct Hp as [<-|Hp]; [apply Nat.eqb_refl|eapply IH; exact Hp]. }
  rewrite E. cbn [passert].
  assert (D : outdims x = ns).
  { rewrite <- (tshape_leg1 ns hs L), <- S. unfold outdims, leg1, mshape. rewrite map_map. apply map_ext_in. intros t Ht. rewrite Forall_forall in G. destruct (G t Ht) as (n & h & Es). unfold pdims. rewrite Es. reflexivity. }
  rewrite D. assert (E2 : forallb (fun d => Nat.leb d 255) ns = true). { apply forallb_forall. intros n Hn. rewrite Forall_forall in H. apply Nat.leb_le. apply H. exact Hn. }
  rewrite E2. reflexivity.
Qed.
Lemma mppovm_new_chain (ts : list (nd K)) l r ns hs : ts <> [] -> bonds ts l r -> length ns = length hs -> map pdims ts = tshape ns hs -> Forall (fun n => n <= 255) ns ->
  mppovm_new ts = Ok (mkLt ts 0 (Z.of_nat (length ts))).
Proof.
  intros Hn B L S H. unfold mppovm_new. rewrite (mpa_new_ok ts l r Hn B). cbn [bind]. apply (povm_checks_chain _ l r ns hs); assumption.
Qed.
Lemma Forall2_rev' {A B : Type} (R : A -> B -> Prop) l1 l2 : Forall2 R l1 l2 -> Forall2 R (rev l1) (rev l2).
Proof. induction 1; cbn; [constructor|]. apply Forall2_app; [assumption|]. constructor; [assumption|constructor]. Qed.
Lemma bigd_app a b : bigd (a ++ b) = bigd a ++ bigd b. Proof. apply filter_app. Qed.
Lemma bigd_rev a : bigd (rev a) = rev (bigd a).
Proof. induction a as [|d a IH]; [reflexivity|]. cbn [rev]. rewrite bigd_app, IH. unfold bigd at 2 3. cbn [filter]. destruct (Nat.ltb 1 d); cbn [rev]; [reflexivity|apply app_nil_r]. Qed.
Lemma combine_app' {A B : Type} (a a' : list A) : forall (b b' : list B), length a = length b -> combine (a ++ a') (b ++ b') = combine a b ++ combine a' b'.
Proof. induction a as [|x a IH]; intros [|y b] b' L; try discriminate; [reflexivity|]. cbn. f_equal. apply IH. cbn in L; lia. Qed.
Lemma bigi_app a : forall is b js, length a = length is -> bigi (a ++ b) (is ++ js) = bigi a is ++ bigi b js.
Proof. intros is b js L. unfold bigi. rewrite combine_app' by exact L. rewrite filter_app, map_app. reflexivity. Qed.
Lemma bigi_rev a : forall is, length a = length is -> bigi (rev a) (rev is) = rev (bigi a is).
Proof.
  induction a as [|d a IH]; intros [|i is] L; try discriminate; [reflexivity|]. cbn [rev]. rewrite bigi_app by (rewrite !rev_length; cbn in L; lia). rewrite IH by (cbn in L; lia).
  unfold bigi at 2 3. cbn [combine filter map fst]. destruct (Nat.ltb 1 d); cbn [map snd rev]; [reflexivity|apply app_nil_r].
Qed.
Lemma seq_gather_rev (l : list nat) : gather (rev (seq 0 (length l))) l = rev l.
Proof. unfold gather. rewrite map_rev. f_equal. induction l as [|a l IH]; [reflexivity|]. cbn [length seq map nth]. f_equal. rewrite <- seq_shift, map_map. exact IH. Qed.
Lemma rev_is_perm n : is_perm (rev (seq 0 n)).
Proof. unfold is_perm. rewrite rev_length, seq_length. apply Permutation_sym, Permutation_rev. Qed.

Lemma bigsum3_ravel mv m (f : nat -> K) (g : nat -> nat -> nat -> K) : (forall b c c', b < mv -> c < m -> c' < m -> f ((b * m + c) * m + c') = g b c c') ->
  bigsum (mv * m * m) f = bigsum mv (fun b => bigsum m (fun c => bigsum m (fun c' => g b c c'))).
Proof.
  intros H. replace (mv * m * m) with (mv * (m * m)) by ring. rewrite (bigsum_prod mv (m * m)). apply bigsum_ext. intros b Hb. rewrite (bigsum_prod m m). apply bigsum_ext. intros c Hc. apply bigsum_ext. intros c' Hc'.
  rewrite <- H by assumption. f_equal. ring.
Qed.

Theorem symm_at_spec (x st : ltens K) ns hs n : povm_ok x ns hs -> mpa_pos st -> two_legs (mshape st) -> leg1 (mshape st) = hs -> 0 < n < llen x ->
  exists p, symm_at n x st = Ok p /\ is_pmf_arr x (dmat st) p.
Proof.
  intros Hp [Hst Pst] T2 E Hn. pose proof (povm_dims _ _ _ Hp) as (D1 & D2 & D3). pose proof Hp as ([Hx HP] & _ & L & S & H255). pose proof (povm_pos _ _ _ Hp) as [P1 P2].
  assert (Lx : length (lts x) = length hs) by (change (length (lts x)) with (llen x); congruence).
  assert (Lst : length (lts st) = length hs) by (rewrite <- E; unfold leg1, mshape; rewrite !map_length; reflexivity).
  pose proof Hx as [Hx1 Bx]. pose proof Hst as [Hst1 Bst].
  pose proof (mpa_pos_bonds _ (conj Hx HP)) as Qx. pose proof (mpa_pos_bonds _ (conj Hst Pst)) as Qst. unfold bonds_pos in Qx, Qst.
  unfold symm_at. rewrite D1. unfold mshape in S, T2, E. unfold llen in D3, Hn.
  set (vs1 := firstn n (lts x)) in *. set (vs2 := skipn n (lts x)) in *. set (ts1 := firstn n (lts st)) in *. set (ts2 := skipn n (lts st)) in *.
  set (ns1 := firstn n ns). set (ns2 := skipn n ns). set (hs1 := firstn n hs). set (hs2 := skipn n hs).
  assert (Ev : lts x = vs1 ++ vs2) by (symmetry; apply firstn_skipn). assert (Et : lts st = ts1 ++ ts2) by (symmetry; apply firstn_skipn).
  assert (En : ns = ns1 ++ ns2) by (symmetry; apply firstn_skipn). assert (Eh : hs = hs1 ++ hs2) by (symmetry; apply firstn_skipn).
  assert (Lv1 : length vs1 = n) by (unfold vs1; rewrite firstn_length; lia). assert (Lt1 : length ts1 = n) by (unfold ts1; rewrite firstn_length; lia).
  assert (Ln1 : length ns1 = n) by (unfold ns1; rewrite firstn_length; lia). assert (Lh1 : length hs1 = n) by (unfold hs1; rewrite firstn_length; lia).
  assert (Lv2 : length vs2 = length hs2) by (unfold vs2, hs2; rewrite !skipn_length; lia). assert (Lt2 : length ts2 = length hs2) by (unfold ts2, hs2; rewrite !skipn_length; lia).
  assert (Ln2 : length ns2 = length hs2) by (unfold ns2, hs2; rewrite !skipn_length; lia). assert (Lh2 : 0 < length hs2) by (unfold hs2; rewrite skipn_length; lia).
  clearbody vs1 vs2 ts1 ts2 ns1 ns2 hs1 hs2.
  rewrite Ev in Bx, Qx, S. rewrite Et in Bst, Qst, T2, E. rewrite map_app in S, T2, E. rewrite leg1_app in E. apply two_legs_app in T2. destruct T2 as [T2a T2b].
  rewrite En, Eh, tshape_app in S by lia. apply app_inj_len in S; [|rewrite map_length, tshape_length; lia]. destruct S as [S1 S2].
  rewrite Eh in E. apply app_inj_len in E; [|unfold leg1; rewrite !map_length; lia]. destruct E as [E1 E2].
  apply bonds_app in Bx. destruct Bx as (mv & Bv1 & Bv2). apply bonds_app in Bst. destruct Bst as (m & Bt1 & Bt2).
  rewrite En in H255. apply Forall_app in H255. destruct H255 as [F1 F2]. rewrite En in P1. apply Forall_app in P1. destruct P1 as [P1a P1b].
  assert (Nv1 : vs1 <> []) by (intros C; rewrite C in Lv1; cbn in Lv1; lia). assert (Nv2 : vs2 <> []) by (intros C; rewrite C in Lv2; cbn in Lv2; lia). assert (Nt2 : ts2 <> []) by (intros C; rewrite C in Lt2; cbn in Lt2; lia).
  assert (Pmv : 0 < mv). { apply Forall_app in Qx. destruct Qx as [_ Qx]. destruct vs2 as [|v vs2']; [congruence|]. inversion Qx as [|? ? [Q _] _]. destruct Bv2 as (_ & Q' & _). lia. }
  assert (Pm : 0 < m). { apply Forall_app in Qst. destruct Qst as [_ Qx']. destruct ts2 as [|v ts2']; [congruence|]. inversion Qx' as [|? ? [Q _] _]. destruct Bt2 as (_ & Q' & _). lia. }
  (* left *)
  rewrite (mppovm_new_chain vs1 1 mv ns1 hs1) by (auto; lia). cbn [bind]. unfold ltr_partial at 1. cbn [lts].
  replace (combine vs1 (lts st)) with (combine vs1 ts1).
  2:{ rewrite Et. rewrite <- (app_nil_r vs1) at 2. rewrite combine_app' by lia. cbn. rewrite app_nil_r. reflexivity. }
  destruct (ltr_chain vs1 ts1 ns1 hs1 mv m Bv1 Bt1) as (pl & Epl & Wpl & Spl & Npl); auto; [lia|]. rewrite Epl. cbn [bind]. rewrite Spl. cbn [nth].
  assert (Epl2 : reshape_py pl [Z.of_nat (size ns1); (-1)%Z] = Ok (reshape pl [size ns1; mv * m * m])).
  { unfold reshape_py. rewrite Spl. replace (size [size ns1; mv; m; m]) with (size ([size ns1] ++ (mv * m * m) :: [])) by (cbn [app]; rewrite !size_cons, size_nil; ring).
    rewrite (resolve_shape_spec _ ([size ns1] ++ (mv * m * m) :: [])); [reflexivity|].
    apply (RT_one [size ns1] (mv * m * m) []); [|rewrite size_nil; lia]. rewrite size_cons, size_nil. pose proof (size_pos ns1 P1a). lia. }
  rewrite Epl2. cbn [bind].
  (* right *)
  rewrite (mppovm_new_chain vs2 mv 1 ns2 hs2) by auto. cbn [bind]. unfold mreverse at 1. cbn [lts].
  pose proof (reverse_chain _ _ _ Bv2) as RV. cbn zeta in RV. destruct RV as (RV1 & RV2 & RV3).
  pose proof (reverse_chain _ _ _ Bt2) as RT. cbn zeta in RT. destruct RT as (RT1 & RT2 & RT3).
  assert (SR : map pdims (map local_reverse (rev vs2)) = tshape (rev ns2) (rev hs2)) by (rewrite RV2, S2; unfold tshape; rewrite zip2_rev by exact Ln2; reflexivity).
  rewrite (mpa_new_ok _ 1 mv); [|intros C; apply map_eq_nil in C; apply (f_equal (@rev (nd K))) in C; rewrite rev_involutive in C; cbn in C; congruence|exact RV1]. cbn [bind].
  rewrite (povm_checks_chain _ 1 mv (rev ns2) (rev hs2)); [|exact RV1|rewrite !rev_length; exact Ln2|exact SR|apply Forall_rev; exact F2]. cbn [bind].
  rewrite (mpa_new_ok ts2 m 1 Nt2 Bt2). cbn [bind]. unfold mreverse. cbn [lts].
  rewrite (mpa_new_ok _ 1 m); [|intros C; apply map_eq_nil in C; apply (f_equal (@rev (nd K))) in C; rewrite rev_involutive in C; cbn in C; congruence|exact RT1]. cbn [bind].
  unfold ltr_partial. cbn [lts].
  destruct (ltr_chain _ _ (rev ns2) (rev hs2) mv m RV1 RT1) as (pr & Epr & Wpr & Spr & Npr); auto.
  { rewrite !rev_length. exact Ln2. }
  { rewrite RT2. unfold two_legs in *. apply Forall_rev. exact T2b. }
  { rewrite RT2. unfold leg1. rewrite map_rev. f_equal. exact E2. }
  rewrite Epr. cbn [bind]. rewrite Spr. cbn [nth]. fold (bigd (rev ns2)).
  assert (P1r : Forall (fun d => 0 < d) (rev ns2)) by (apply Forall_rev; exact P1b).
  rewrite (size_big (rev ns2) P1r), Nat.eqb_refl. cbn [passert].
  assert (Epr2 : reshape_py pr (map Z.of_nat (bigd (rev ns2)) ++ [(-1)%Z]) = Ok (reshape pr (bigd (rev ns2) ++ [mv * m * m]))).
  { unfold reshape_py. rewrite Spr. replace (size [size (rev ns2); mv; m; m]) with (size (bigd (rev ns2) ++ (mv * m * m) :: [])) by (rewrite size_app, (size_big (rev ns2) P1r), !size_cons, size_nil; ring).
    rewrite (resolve_shape_spec _ (bigd (rev ns2) ++ (mv * m * m) :: [])); [reflexivity|].
    apply (RT_one (bigd (rev ns2)) (mv * m * m) []); [|rewrite size_nil; lia]. rewrite <- (size_big (rev ns2) P1r). pose proof (size_pos (rev ns2) P1r). lia. }
  rewrite Epr2. cbn [bind].
  set (pr2 := reshape pr (bigd (rev ns2) ++ [mv * m * m])).
  assert (Spr2 : shp pr2 = rev (mv * m * m :: bigd ns2)) by (unfold pr2; cbn [reshape shp rev]; rewrite bigd_rev; reflexivity).
  set (pr3 := transpose pr2 (rev (seq 0 (ndim pr2)))).
  assert (Spr3 : shp pr3 = mv * m * m :: bigd ns2). { unfold pr3. rewrite shp_transpose. unfold ndim. rewrite seq_gather_rev, Spr2, rev_involutive. reflexivity. }
  rewrite Spr3. cbn [reshape shp nth]. rewrite Nat.eqb_refl. cbn [praise_unless].
  set (pl2 := reshape pl [size ns1; mv * m * m]). set (td := tensordot pl2 pr3 [1] [0]).
  assert (Std : shp td = size ns1 :: bigd ns2).
  { unfold td. rewrite shp_tensordot. unfold ndim. rewrite Spr3. cbn [pl2 reshape shp length]. change (freeaxes 2 [1]) with [0]. cbn [gather map nth app]. f_equal.
    rewrite freeaxes_first. apply gather_seq_tail. }
  assert (Ereh : reshape_py td (map Z.of_nat (nsoutdims x)) = Ok (reshape td (nsoutdims x))).
  { unfold reshape_py. rewrite Std. unfold nsoutdims. rewrite D1. fold (bigd ns). rewrite En, bigd_app. replace (size (size ns1 :: bigd ns2)) with (size (bigd ns1 ++ bigd ns2)) by (rewrite size_cons, size_app, <- (size_big ns1 P1a); reflexivity).
    rewrite (resolve_shape_spec _ (bigd ns1 ++ bigd ns2) (RT_all _)). reflexivity. }
  rewrite Ereh. eexists. split; [reflexivity|].
  assert (Ens : nsoutdims x = bigd ns1 ++ bigd ns2) by (unfold nsoutdims; rewrite D1; fold (bigd ns); rewrite En; apply bigd_app).
  split; [|split; [reflexivity|]].
  { apply wf_reshape; [apply wf_tensordot|]. rewrite Std, Ens, size_cons, size_app, <- (size_big ns1 P1a). reflexivity. }
  rewrite D1. intros ks Hk. rewrite <- (pto_born x st ns hs ks); [|exact Hp|exact Hst| |unfold mshape; rewrite Et, map_app, leg1_app, E1, E2; symmetry; exact Eh|exact Hk].
  2:{ unfold mshape. rewrite Et, map_app. apply two_legs_app; auto. }
  rewrite En in Hk. apply inr_app_inv in Hk. destruct Hk as (ks1 & ks2 & -> & Hk1 & Hk2). pose proof (inr_length _ _ Hk1) as Lk1. pose proof (inr_length _ _ Hk2) as Lk2.
  rewrite En, bigi_app by congruence. rewrite Ens. destruct (ravel_big1 ns1 ks1 Hk1 P1a) as [R1 R1'].
  rewrite (get_reshape' _ _ _ (ravel ns1 ks1 :: bigi ns2 ks2)).
  2:{ rewrite Std, ravel_app by (apply bigi_inr; exact Hk1). cbn [ravel]. rewrite R1. reflexivity. }
  rewrite Ev, Et, Eh. rewrite (pto_split hs1 hs2 vs1 vs2 ts1 ts2 mv m ks1 ks2) by (auto; congruence).
  unfold td. change (ravel ns1 ks1 :: bigi ns2 ks2) with ([ravel ns1 ks1] ++ bigi ns2 ks2).
  pose proof (bigi_inr ns2 ks2 Hk2) as Hbi.
  assert (Fr : gather (freeaxes (ndim pr3) [0]) (shp pr3) = bigd ns2).
  { unfold ndim. rewrite Spr3. cbn [length]. rewrite freeaxes_first. apply gather_seq_tail. }
  rewrite get_tensordot.
  2:{ unfold ndim. cbn [pl2 reshape shp length]. change (freeaxes 2 [1]) with [0]. cbn [gather map nth]. apply inr_cons; [apply ravel_lt; exact Hk1|constructor]. }
  2:{ rewrite Fr. exact Hbi. }
  cbn [pl2 reshape shp gather map nth msum]. apply bigsum3_ravel. intros b c c' Hb Hc Hc'. f_equal.
  - change (scatter (freeaxes (ndim pl2) [1] ++ [1]) ([ravel ns1 ks1] ++ [(b * m + c) * m + c'])) with [ravel ns1 ks1; (b * m + c) * m + c'].
    unfold pl2. rewrite (get_reshape' _ _ _ [ravel ns1 ks1; b; c; c']); [apply Npl; assumption|]. rewrite Spl. cbn [ravel]. rewrite !size_cons, size_nil. ring.
  - set (q := (b * m + c) * m + c').
    assert (Hq : q < mv * m * m) by (unfold q; nia).
    assert (Es : scatter ([0] ++ freeaxes (ndim pr3) [0]) ([q] ++ bigi ns2 ks2) = q :: bigi ns2 ks2).
    { unfold ndim. rewrite Spr3. cbn [length]. rewrite freeaxes_first. change ([0] ++ seq 1 (length (bigd ns2))) with (seq 0 (Datatypes.S (length (bigd ns2)))). apply scatter_seq. cbn. rewrite (inr_length _ _ Hbi). reflexivity. }
    rewrite Es. unfold pr3.
    assert (Eg : q :: bigi ns2 ks2 = gather (rev (seq 0 (ndim pr2))) (rev (q :: bigi ns2 ks2))).
    { replace (ndim pr2) with (length (rev (q :: bigi ns2 ks2))). 2:{ unfold ndim. rewrite Spr2, !rev_length. cbn. rewrite (inr_length _ _ Hbi). reflexivity. }
      rewrite seq_gather_rev, rev_involutive. reflexivity. }
    rewrite Eg, get_transpose_gather.
    + cbn [rev]. rewrite <- bigi_rev by congruence. unfold pr2.
      rewrite (get_reshape' _ _ _ [ravel (rev ns2) (rev ks2); b; c; c']).
      * assert (Hkr : inr (rev ks2) (rev ns2)) by (apply Forall2_rev'; exact Hk2).
        rewrite Npr by assumption. apply (pto_rev hs2 vs2 ts2 ns2 mv m); auto.
      * assert (Hkr : inr (rev ks2) (rev ns2)) by (apply Forall2_rev'; exact Hk2). destruct (ravel_big1 (rev ns2) (rev ks2) Hkr P1r) as [R2 _].
        rewrite Spr, ravel_app by (apply bigi_inr; exact Hkr). rewrite <- R2. cbn [ravel]. rewrite !size_cons, size_nil. unfold q. ring.
    + apply rev_is_perm.
    + rewrite rev_length, seq_length. reflexivity.
    + rewrite Spr2. apply Forall2_rev'. apply inr_cons; assumption.
Qed.
End Ltr.
