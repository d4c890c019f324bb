(** Partial traces of PMPS: [reductions_pmps], [pmps_reduction] (mpsmpo.py 195-317). *)
From Verif Require Export PfStates LinSum.

Section RedPmps.
Context {K : StarRing}.
Add Ring Kr : (k_ring K).

(** ** Isometric ends *)
Lemma lgram1 (p : list (nd K)) l m e e' : Forall left_iso p -> bonds p l m -> e < m -> e' < m ->
  bigsum l (fun a => gram p p a a e e') = delta e e'.
Proof.
  intros Hi Hb He He'. pose proof (lgram_iso p [] [] l m e e' Hi Hb) as H. rewrite app_nil_r in H. rewrite H.
  rewrite (bigsum_ext _ _ (fun c => delta e c * delta c e')%K).
  - apply (bigsum_delta_l m e (fun c => delta c e')). auto.
  - intros c _. rewrite gram_nil. rewrite (delta_sym e c). reflexivity.
Qed.

Lemma amp_pairs_app (p w : list (nd K)) l m ks is cs1 cs2 a b :
  bonds p l m -> a < l -> length ks = length p -> length cs1 = length p ->
  amp (p ++ w) (pairs (ks ++ is) (cs1 ++ cs2)) a b = bigsum m (fun c => amp p (pairs ks cs1) a c * amp w (pairs is cs2) c b)%K.
Proof.
  intros Hb Ha L1 L2. rewrite pairs_app by congruence. apply amp_app with (l := l); auto.
  rewrite pairs_length; congruence.
Qed.

Lemma sum_sq (m : nat) (P W Q V : nat -> K) :
  (bigsum m (fun e => P e * W e) * kconj (bigsum m (fun e => Q e * V e)))%K =
  bigsum m (fun e => bigsum m (fun e' => (kconj (Q e') * P e) * (W e * kconj (V e'))))%K.
Proof.
  rewrite bigsum_conj, bigsum_mul. apply bigsum_ext. intros e _. apply bigsum_ext. intros e' _.
  rewrite (kconj_mul K). ring.
Qed.

Lemma len_leg1 (ts : list (nd K)) is : inr is (leg1 (map pdims ts)) -> length is = length ts.
Proof. intros H. apply inr_length in H. unfold leg1 in H. rewrite !map_length in H. exact H. Qed.
Lemma len_leg2 (ts : list (nd K)) is : inr is (leg2 (map pdims ts)) -> length is = length ts.
Proof. intros H. apply inr_length in H. unfold leg2 in H. rewrite !map_length in H. exact H. Qed.

Lemma dmc_left (p w : list (nd K)) l m r is js : Forall left_iso p -> bonds p l m -> two_legs (map pdims p) ->
  msum (leg1 (map pdims p)) (fun ks => dmc (p ++ w) l r (ks ++ is) (ks ++ js)) = dmc w m r is js.
Proof.
  intros Hi Hb H2.
  set (S1 := fun F : list nat * (nat * list nat) -> K =>
     msum (leg1 (map pdims p)) (fun ks => bigsum l (fun a => msum (leg2 (map pdims p)) (fun c1 => F (ks, (a, c1)))))).
  set (S2 := fun F : nat * list nat -> K => bigsum r (fun b => msum (leg2 (map pdims w)) (fun c2 => F (b, c2)))).
  assert (L1 : linf S1).
  { apply (lin_pair (msum (leg1 (map pdims p))) (fun _ F => bigsum l (fun a => msum (leg2 (map pdims p)) (fun c1 => F (a, c1))))).
    - apply lin_msum.
    - intros _. apply (lin_pair (bigsum l) (fun _ => msum (leg2 (map pdims p)))); [apply lin_bigsum|intros; apply lin_msum]. }
  assert (L2 : linf S2).
  { apply (lin_pair (bigsum r) (fun _ => msum (leg2 (map pdims w)))); [apply lin_bigsum|intros; apply lin_msum]. }
  set (X := fun (i : list nat * (nat * list nat)) e e' =>
     (kconj (amp p (pairs (fst i) (snd (snd i))) (fst (snd i)) e') * amp p (pairs (fst i) (snd (snd i))) (fst (snd i)) e)%K).
  set (Y := fun (j : nat * list nat) e e' => (amp w (pairs is (snd j)) e (fst j) * kconj (amp w (pairs js (snd j)) e' (fst j)))%K).
  transitivity (S1 (fun i => S2 (fun j => bigsum m (fun e => bigsum m (fun e' => X i e e' * Y j e e')))))%K.
  { unfold S1, S2, X, Y. apply msum_ext. intros ks Hk. unfold dmc. apply bigsum_ext. intros a Ha.
    rewrite map_app, leg2_app.
    rewrite (bigsum_ext _ _ (fun b => msum (leg2 (map pdims p)) (fun c1 => msum (leg2 (map pdims w)) (fun c2 =>
        amp (p ++ w) (pairs (ks ++ is) (c1 ++ c2)) a b * kconj (amp (p ++ w) (pairs (ks ++ js) (c1 ++ c2)) a b)))))%K
      by (intros b Hb'; apply msum_app).
    rewrite <- msum_bigsum_swap. apply msum_ext. intros c1 Hc1. apply bigsum_ext. intros b Hb'. apply msum_ext. intros c2 Hc2.
    apply len_leg1 in Hk. apply len_leg2 in Hc1.
    rewrite !(amp_pairs_app p w l m) by auto. rewrite sum_sq. reflexivity. }
  rewrite (lin_join S1 S2 m X Y L1 L2).
  rewrite (bigsum_ext _ _ (fun e => S2 (fun j => Y j e e))).
  - unfold S2, Y, dmc. cbn [fst snd]. reflexivity.
  - intros e He. rewrite (bigsum_ext _ _ (fun e' => S2 (fun j => Y j e e') * delta e' e)%K).
    + apply (bigsum_delta_r m e (fun e' => S2 (fun j => Y j e e'))). auto.
    + intros e' He'. rewrite <- (lgram1 p l m e' e Hi Hb He' He).
      enough (E : S1 (fun i => X i e e') = bigsum l (fun a => gram p p a a e' e)) by (rewrite E; ring).
      unfold S1, X. cbn [fst snd]. rewrite msum_bigsum_swap. apply bigsum_ext. intros a _.
      unfold gram. rewrite msums_pairs by auto. reflexivity.
Qed.

Lemma dmc_right (w q : list (nd K)) l m r is js : Forall right_iso q -> bonds w l m -> bonds q m r ->
  length is = length w -> length js = length w -> two_legs (map pdims q) ->
  msum (leg1 (map pdims q)) (fun ms => dmc (w ++ q) l r (is ++ ms) (js ++ ms)) = dmc w l m is js.
Proof.
  intros Hi Hw Hb Li Lj H2.
  set (S1 := fun F : list nat * (nat * list nat) -> K =>
     msum (leg1 (map pdims q)) (fun ks => bigsum r (fun a => msum (leg2 (map pdims q)) (fun c1 => F (ks, (a, c1)))))).
  set (S2 := fun F : nat * list nat -> K => bigsum l (fun b => msum (leg2 (map pdims w)) (fun c2 => F (b, c2)))).
  assert (L1 : linf S1).
  { apply (lin_pair (msum (leg1 (map pdims q))) (fun _ F => bigsum r (fun a => msum (leg2 (map pdims q)) (fun c1 => F (a, c1))))).
    - apply lin_msum.
    - intros _. apply (lin_pair (bigsum r) (fun _ => msum (leg2 (map pdims q)))); [apply lin_bigsum|intros; apply lin_msum]. }
  assert (L2 : linf S2).
  { apply (lin_pair (bigsum l) (fun _ => msum (leg2 (map pdims w)))); [apply lin_bigsum|intros; apply lin_msum]. }
  set (X := fun (i : list nat * (nat * list nat)) e e' =>
     (kconj (amp q (pairs (fst i) (snd (snd i))) e' (fst (snd i))) * amp q (pairs (fst i) (snd (snd i))) e (fst (snd i)))%K).
  set (Y := fun (j : nat * list nat) e e' => (amp w (pairs is (snd j)) (fst j) e * kconj (amp w (pairs js (snd j)) (fst j) e'))%K).
  transitivity (S1 (fun i => S2 (fun j => bigsum m (fun e => bigsum m (fun e' => X i e e' * Y j e e')))))%K.
  { unfold S1, S2, X, Y. cbn [fst snd]. apply msum_ext. intros ms Hm. unfold dmc. rewrite bigsum_swap. apply bigsum_ext. intros b Hb'.
    rewrite map_app, leg2_app.
    rewrite msum_bigsum_swap. apply bigsum_ext. intros a Ha. rewrite msum_app, msum_swap.
    apply msum_ext. intros c1 Hc1. apply msum_ext. intros c2 Hc2.
    apply len_leg1 in Hm. apply len_leg2 in Hc1, Hc2.
    rewrite !(amp_pairs_app w q l m) by auto. rewrite sum_sq. apply bigsum_ext. intros e _. apply bigsum_ext. intros e' _. ring. }
  rewrite (lin_join S1 S2 m X Y L1 L2).
  transitivity (bigsum m (fun e => S2 (fun j => Y j e e))).
  - apply bigsum_ext. intros e He. rewrite (bigsum_ext _ _ (fun e' => S2 (fun j => Y j e e') * delta e' e)%K).
    + apply (bigsum_delta_r m e (fun e' => S2 (fun j => Y j e e'))). auto.
    + intros e' He'. rewrite <- (rgram_iso q r m e' e Hi Hb He' He).
      enough (E : S1 (fun i => X i e e') = bigsum r (fun a => gram q q e' e a a)) by (rewrite E; ring).
      unfold S1, X. cbn [fst snd]. rewrite msum_bigsum_swap. apply bigsum_ext. intros a _.
      unfold gram. rewrite msums_pairs by auto. reflexivity.
  - unfold S2, Y, dmc. cbn [fst snd]. rewrite bigsum_swap. reflexivity.
Qed.

(** ** First and last site of the window *)
Definition first_site (t : nd K) (l s A r : nat) : nd K := reshape (transpose t [1; 0; 2; 3]) [1; s; l * A; r].
Definition last_site (t : nd K) (l s A r : nat) : nd K := reshape t [l; s; A * r; 1].
Lemma perm1023 : is_perm [1; 0; 2; 3].
Proof. unfold is_perm. cbn. apply perm_swap. Qed.
Lemma first_site_spec (t : nd K) l s A r : ndwf t -> shp t = [l; s; A; r] ->
  let t' := first_site t l s A r in
  lt_ok t' /\ shp t' = [1; s; l * A; r] /\ ldim t' = 1 /\ rdim t' = r /\ pdims t' = [s; l * A] /\
  forall a i c b, a < l -> i < s -> c < A -> b < r -> ent t' 0 [i; a * A + c] b = ent t a [i; c] b.
Proof.
  intros Hw E t'.
  assert (Es : shp (transpose t [1; 0; 2; 3]) = [s; l; A; r]) by (rewrite shp_transpose, E; reflexivity).
  assert (Ew : ndwf t').
  { unfold t', first_site. apply wf_reshape; [apply wf_transpose|]. rewrite Es, !size_cons, size_nil. lia. }
  split; [apply (lt_ok_mk t' 1 [s; l * A] r Ew eq_refl)|]. repeat (split; [reflexivity|]).
  intros a i c b Ha Hi Hc Hb. unfold ent, t', first_site.
  rewrite (get_reshape' _ _ _ [i; a; c; b]).
  - change [i; a; c; b] with (gather [1; 0; 2; 3] (a :: [i; c] ++ [b])).
    rewrite get_transpose_gather; [reflexivity|apply perm1023|unfold ndim; rewrite E; reflexivity|].
    rewrite E. repeat constructor; auto.
  - rewrite Es. cbn [ravel app]. rewrite !size_cons, !size_nil. lia.
Qed.
Lemma last_site_spec (t : nd K) l s A r : ndwf t -> shp t = [l; s; A; r] ->
  let t' := last_site t l s A r in
  lt_ok t' /\ shp t' = [l; s; A * r; 1] /\ ldim t' = l /\ rdim t' = 1 /\ pdims t' = [s; A * r] /\
  forall a i c b, a < l -> i < s -> c < A -> b < r -> ent t' a [i; c * r + b] 0 = ent t a [i; c] b.
Proof.
  intros Hw E t'.
  assert (Ew : ndwf t').
  { unfold t', last_site. apply wf_reshape; [exact Hw|]. rewrite E, !size_cons, size_nil. lia. }
  split; [apply (lt_ok_mk t' l [s; A * r] 1 Ew eq_refl)|]. repeat (split; [reflexivity|]).
  intros a i c b Ha Hi Hc Hb. unfold ent, t', last_site.
  apply get_reshape'. rewrite E. cbn [ravel app]. rewrite !size_cons, !size_nil. lia.
Qed.

Lemma dmc_first (t : nd K) ts l s A m r i is j js : ndwf t -> shp t = [l; s; A; m] -> i < s -> j < s ->
  dmc (first_site t l s A m :: ts) 1 r (i :: is) (j :: js) = dmc (t :: ts) l r (i :: is) (j :: js).
Proof.
  intros Hw E Hi Hj. destruct (first_site_spec t l s A m Hw E) as (O & _ & _ & Er & Ep & En).
  assert (Et : pdims t = [s; A]) by (apply (pdims_mk t l [s; A] m E)).
  assert (Er' : rdim t = m) by (apply (rdim_mk t l [s; A] m E)).
  unfold dmc. cbn [bigsum map leg2]. rewrite Ep, Et. cbn [nth]. fold (leg2 (map pdims ts)).
  cbn [msum].
  transitivity (bigsum r (fun b => bigsum l (fun a => bigsum A (fun c => msum (leg2 (map pdims ts)) (fun cs =>
    amp (t :: ts) (pairs (i :: is) (c :: cs)) a b * kconj (amp (t :: ts) (pairs (j :: js) (c :: cs)) a b))))))%K.
  - match goal with |- (k0 + ?x)%K = _ => replace (k0 + x)%K with x by ring end.
    apply bigsum_ext. intros b Hb. rewrite bigsum_prod.
    apply bigsum_ext. intros a Ha. apply bigsum_ext. intros c Hc. apply msum_ext. intros cs _.
    cbn [pairs zip2]. rewrite !amp_cons, Er, Er'.
    f_equal; [|f_equal]; apply bigsum_ext; intros e He; rewrite En by auto; reflexivity.
  - rewrite bigsum_swap. reflexivity.
Qed.
Lemma dmc_last (u : nd K) us l m s A r i is j js : bonds us l m -> ndwf u -> shp u = [m; s; A; r] -> i < s -> j < s ->
  length is = length us -> length js = length us ->
  dmc (us ++ [last_site u m s A r]) l 1 (is ++ [i]) (js ++ [j]) = dmc (us ++ [u]) l r (is ++ [i]) (js ++ [j]).
Proof.
  intros Hus Hw E Hi Hj Li Lj. destruct (last_site_spec u m s A r Hw E) as (O & _ & El & Er & Ep & En).
  assert (Et : pdims u = [s; A]) by (apply (pdims_mk u m [s; A] r E)).
  assert (Er' : rdim u = r) by (apply (rdim_mk u m [s; A] r E)).
  unfold dmc. apply bigsum_ext. intros a Ha. rewrite bigsum_1. rewrite !map_app, !leg2_app. cbn [map leg2].
  rewrite Ep, Et. cbn [nth]. rewrite msum_app.
  rewrite <- (msum_bigsum_swap _ r). rewrite msum_app. apply msum_ext. intros cs Hc. apply len_leg2 in Hc. cbn [msum].
  rewrite bigsum_prod. apply bigsum_ext. intros c Hc'. apply bigsum_ext. intros b Hb.
  rewrite !(amp_pairs_app us _ l m) by auto. cbn [pairs zip2].
  f_equal; [|f_equal]; apply bigsum_ext; intros e He; rewrite !amp_one by (rewrite ?Er, ?Er'; lia); rewrite En by auto; reflexivity.
Qed.

(** ** The window *)
(** The density matrix with the system sites before [s] and from [e] on traced out. *)
Definition dm_reduced (x : ltens K) (s e : nat) (is js : list nat) : K :=
  msum (firstn s (leg1 (mshape x))) (fun ks => msum (skipn e (leg1 (mshape x))) (fun ms =>
    dmat x (ks ++ is ++ ms) (ks ++ js ++ ms))).

Lemma dmat_same (x y : ltens K) is js : mshape y = mshape x -> to_array y = to_array x -> dmat y is js = dmat x is js.
Proof. intros E1 E2. unfold dmat, entry. rewrite E1, E2. reflexivity. Qed.

Lemma clamp_in n z : z <= n -> pyclamp n (Z.of_nat z) = z.
Proof.
  intros H. unfold pyclamp. rewrite (proj2 (Z.ltb_ge _ _)) by lia.
  destruct (Z.ltb_spec (Z.of_nat n) (Z.of_nat z)); lia.
Qed.
Lemma pyslice_mid (A : Type) (a b c : list A) s e : s = length a -> e = length a + length b ->
  pyslice (a ++ b ++ c) (Z.of_nat s) (Z.of_nat e) = b.
Proof.
  intros -> ->. unfold pyslice. rewrite !clamp_in by (rewrite !app_length; lia).
  rewrite skipn_app, skipn_all, Nat.sub_diag. cbn [skipn app]. replace (length a + length b - length a) with (length b) by lia.
  rewrite firstn_app, Nat.sub_diag, firstn_all. cbn. apply app_nil_r.
Qed.
Lemma list_window (A : Type) (ts : list A) s e : s < e <= length ts ->
  exists p t w q, ts = p ++ t :: w ++ q /\ length p = s /\ S (length w) = e - s.
Proof.
  intros H. exists (firstn s ts). pose proof (firstn_skipn s ts) as E1.
  destruct (skipn s ts) as [|t r] eqn:E2.
  { apply (f_equal (@length A)) in E2. rewrite skipn_length in E2. cbn in E2. lia. }
  exists t, (firstn (e - s - 1) r), (skipn (e - s - 1) r).
  assert (length r = length ts - s - 1) by (apply (f_equal (@length A)) in E2; rewrite skipn_length in E2; cbn in E2; lia).
  rewrite firstn_skipn. split; [congruence|]. rewrite !firstn_length. lia.
Qed.
Lemma shape4_ok (t : nd K) s a : lt_ok t -> pdims t = [s; a] -> shp t = [ldim t; s; a; rdim t] /\ shape4 t = Ok (ldim t, s, a, rdim t).
Proof. intros H E. pose proof (lt_ok_shp t H) as S. rewrite E in S. cbn [app] in S. split; [exact S|]. unfold shape4. rewrite S. reflexivity. Qed.
Lemma two_leg (t : nd K) : length (pdims t) = 2 -> exists s a, pdims t = [s; a].
Proof. destruct (pdims t) as [|s [|a [|? ?]]]; try discriminate. intros _. eauto. Qed.
Lemma leg1_firstn n ps : leg1 (firstn n ps) = firstn n (leg1 ps). Proof. unfold leg1. symmetry. apply firstn_map. Qed.

(** The code after canonicalization. *)
Definition window_sites (ts : list (nd K)) (w : Z * Z) : res (list (nd K)) :=
  do t <- pyget ts (fst w);
  do s <- shape4 t;
  let '(l, sys, anc, r) := s in
  let t' := reshape (transpose t [1; 0; 2; 3]) [1; sys; l * anc; r] in
  let us := t' :: pyslice ts (fst w + 1) (snd w) in
  do u <- pyget us (-1);
  do s' <- shape4 u;
  let '(l', sys', anc', r') := s' in
  let u' := reshape u [l'; sys'; anc' * r'; 1] in
  Ok (set_nth (List.length us - 1) u' us).
Lemma red_pmps_window_eq qr (x : ltens K) w :
  red_pmps_window qr x w = do y <- canonicalize qr x (CAInt (fst w)) (CAInt (snd w));
    do us <- window_sites (lts y) w; do z <- mpa_new us; Ok (z, y).
Proof.
  unfold red_pmps_window, window_sites. destruct (canonicalize qr x _ _) as [y|]; [|reflexivity]. cbn [bind].
  destruct (pyget (lts y) (fst w)) as [t|]; [|reflexivity]. cbn [bind].
  destruct (shape4 t) as [[[[l sys] anc] r]|]; [|reflexivity]. cbn [bind].
  destruct (pyget _ _) as [u|]; [|reflexivity]. cbn [bind].
  destruct (shape4 u) as [[[[l' sys'] anc'] r']|]; reflexivity.
Qed.

Lemma inr_cons_inv is d ds : inr is (d :: ds) -> exists i is', is = i :: is' /\ i < d /\ inr is' ds.
Proof. intros H. inversion H; subst. eauto. Qed.

Lemma window_core (p w q : list (nd K)) t s e : bonds (p ++ t :: w ++ q) 1 1 ->
  pos (p ++ t :: w ++ q) -> two_legs (map pdims (p ++ t :: w ++ q)) -> Forall left_iso p -> Forall right_iso q ->
  s = length p -> e = length p + S (length w) ->
  exists us, window_sites (p ++ t :: w ++ q) (Z.of_nat s, Z.of_nat e) = Ok us /\
    us <> [] /\ bonds us 1 1 /\ pos us /\ two_legs (map pdims us) /\ leg1 (map pdims us) = leg1 (map pdims (t :: w)) /\
    map ldim (tl us) = map ldim w /\ length us = S (length w) /\
    forall is js, inr is (leg1 (map pdims (t :: w))) -> inr js (leg1 (map pdims (t :: w))) ->
      dmc us 1 1 is js =
      msum (leg1 (map pdims p)) (fun ks => msum (leg1 (map pdims q)) (fun ms =>
        dmc (p ++ t :: w ++ q) 1 1 (ks ++ is ++ ms) (ks ++ js ++ ms))).
Proof.
  intros Hb Hp H2 Lp Rq Es Ee.
  apply bonds_app in Hb. destruct Hb as (m & Hbp & Hb). change (t :: w ++ q) with ((t :: w) ++ q) in Hb.
  apply bonds_app in Hb. destruct Hb as (m' & Hbw & Hbq).
  rewrite map_app in H2. apply two_legs_app in H2. destruct H2 as [H2p H2]. change (t :: w ++ q) with ((t :: w) ++ q) in H2.
  rewrite map_app in H2. apply two_legs_app in H2. destruct H2 as [H2w H2q].
  pose proof H2w as H2w'. cbn [map] in H2w. apply Forall_cons_iff in H2w. destruct H2w as [H2t H2w].
  destruct (two_leg t H2t) as (sy & an & Ept).
  pose proof Hbw as Hbw'. cbn [bonds] in Hbw. destruct Hbw as (Ot & El & Hbw).
  destruct (shape4_ok t sy an Ot Ept) as (Sht & S4t).
  set (t' := first_site t (ldim t) sy an (rdim t)).
  destruct (first_site_spec t (ldim t) sy an (rdim t) (proj1 Ot) Sht) as (O' & Sh' & L' & R' & P' & _). fold t' in O', Sh', L', R', P'.
  assert (Hb' : bonds (t' :: w) 1 m') by (cbn [bonds]; rewrite R'; auto).
  destruct (exists_last (l := t' :: w) ltac:(discriminate)) as (v & u & Ev).
  assert (H2' : two_legs (map pdims (t' :: w))) by (cbn [map]; constructor; [rewrite P'; reflexivity|exact H2w]).
  assert (Hpw : pos (t' :: w)).
  { unfold pos in *. rewrite Forall_app in Hp. destruct Hp as [_ Hp]. apply Forall_cons_iff in Hp. destruct Hp as [Hp1 Hp2].
    rewrite Forall_app in Hp2. destruct Hp2 as [Hp2 _]. constructor; [|exact Hp2]. rewrite Sh'. rewrite Sht in Hp1.
    rewrite !size_cons, !size_nil in *. lia. }
  assert (Hb2 := Hb'). rewrite Ev in Hb2. apply bonds_app in Hb2. destruct Hb2 as (m2 & Hbv & Hbu).
  cbn [bonds] in Hbu. destruct Hbu as (Ou & Elu & Eru).
  assert (H3 := H2'). rewrite Ev, map_app in H3. apply two_legs_app in H3. destruct H3 as [H3v H3u].
  cbn [map] in H3u. apply Forall_cons_iff in H3u. destruct H3u as [H3u _].
  destruct (two_leg u H3u) as (su & au & Epu).
  destruct (shape4_ok u su au Ou Epu) as (Shu & S4u).
  destruct (last_site_spec u (ldim u) su au (rdim u) (proj1 Ou) Shu) as (O2 & Sh2 & L2 & R2 & P2 & _).
  set (u' := last_site u (ldim u) su au (rdim u)) in *.
  exists (v ++ [u']).
  assert (Lv : length v = length w).
  { apply (f_equal (@length (nd K))) in Ev. rewrite app_length in Ev. cbn in Ev. lia. }
  split.
  { unfold window_sites. cbn [fst snd]. rewrite (pyget_at _ p t (w ++ q) s Es). cbn [bind]. rewrite S4t. cbn [bind].
    change (reshape (transpose t [1; 0; 2; 3]) [1; sy; ldim t * an; rdim t]) with t'.
    replace (pyslice (p ++ t :: w ++ q) (Z.of_nat s + 1) (Z.of_nat e)) with w.
    2:{ replace (Z.of_nat s + 1)%Z with (Z.of_nat (S s)) by lia.
        replace (p ++ t :: w ++ q) with ((p ++ [t]) ++ w ++ q) by (rewrite <- app_assoc; reflexivity).
        symmetry. apply pyslice_mid; rewrite app_length; cbn [length]; lia. }
    rewrite Ev. rewrite pyget_last. cbn [bind]. rewrite S4u. cbn [bind].
    change (reshape u [ldim u; su; au * rdim u; 1]) with u'. f_equal. apply set_nth_last.
    rewrite app_length. cbn [length]. lia. }
  split; [destruct v; discriminate|].
  split. { apply bonds_app. exists m2. split; [exact Hbv|]. cbn [bonds]. rewrite R2, L2. auto. }
  split. { unfold pos in *. rewrite Ev, Forall_app in Hpw. destruct Hpw as [Hpv Hpu]. apply Forall_app. split; [exact Hpv|].
    constructor; [|constructor]. apply Forall_cons_iff in Hpu. destruct Hpu as [Hpu _]. rewrite Sh2. rewrite Shu in Hpu.
    rewrite !size_cons, !size_nil in *. lia. }
  split. { rewrite map_app. apply two_legs_app. split; [exact H3v|]. cbn [map]. constructor; [rewrite P2; reflexivity|constructor]. }
  assert (El1 : leg1 (map pdims (v ++ [u'])) = leg1 (map pdims (t :: w))).
  { transitivity (leg1 (map pdims (v ++ [u]))).
    - rewrite !map_app, !leg1_app. f_equal. cbn [map leg1]. rewrite P2, Epu. reflexivity.
    - rewrite <- Ev. cbn [map leg1]. rewrite P', Ept. reflexivity. }
  split; [exact El1|]. split.
  { transitivity (map ldim (tl (v ++ [u]))); [|rewrite <- Ev; reflexivity].
    destruct v as [|v0 v]; cbn [app tl]; [reflexivity|]. rewrite !map_app. cbn [map]. rewrite L2. reflexivity. }
  split; [rewrite app_length; cbn [length]; lia|].
  intros is js Hi Hj.
  assert (Li : length is = S (length w)) by (apply len_leg1 in Hi; exact Hi).
  assert (Lj : length js = S (length w)) by (apply len_leg1 in Hj; exact Hj).
  transitivity (dmc (t :: w) m m' is js).
  - transitivity (dmc (t' :: w) 1 m' is js).
    + rewrite Ev. destruct (exists_last (l := is)) as (is' & i & Eis); [destruct is; discriminate|].
      destruct (exists_last (l := js)) as (js' & j & Ejs); [destruct js; discriminate|].
      rewrite Eis, app_length in Li. rewrite Ejs, app_length in Lj. cbn [length] in Li, Lj.
      rewrite <- El1, map_app, leg1_app, Eis in Hi. rewrite <- El1, map_app, leg1_app, Ejs in Hj.
      assert (E1 : leg1 (map pdims [u']) = [su]) by (cbn [map leg1]; rewrite P2; reflexivity).
      rewrite E1 in Hi, Hj.
      apply Forall2_app_inv_l in Hi. destruct Hi as (A1 & A2 & HA1 & HA2 & EA).
      apply Forall2_app_inv_l in Hj. destruct Hj as (B1 & B2 & HB1 & HB2 & EB).
      apply (f_equal (@rev nat)) in EA, EB. rewrite !rev_app_distr in EA, EB.
      inversion HA2 as [|? ? ? ? Hi' HA2' X1 X2]; subst. inversion HA2'; subst. inversion HB2 as [|? ? ? ? Hj' HB2' X1 X2]; subst. inversion HB2'; subst.
      cbn in EA, EB. injection EA as EA _. injection EB as EB _. subst.
      apply dmc_last; auto; try lia. exact (proj1 Ou).
    + cbn [map leg1] in Hi, Hj. rewrite Ept in Hi, Hj. cbn [nth] in Hi, Hj.
      apply inr_cons_inv in Hi. destruct Hi as (i & is' & -> & Hi & _).
      apply inr_cons_inv in Hj. destruct Hj as (j & js' & -> & Hj & _).
      subst t'. rewrite <- El. apply dmc_first; auto. exact (proj1 Ot).
  - symmetry.
    rewrite (msum_ext _ _ (fun ks => dmc (p ++ t :: w) 1 m' (ks ++ is) (ks ++ js))).
    + apply dmc_left; auto.
    + intros ks Hk. apply len_leg1 in Hk.
      rewrite (msum_ext _ _ (fun ms => dmc ((p ++ t :: w) ++ q) 1 1 ((ks ++ is) ++ ms) ((ks ++ js) ++ ms)))
        by (intros ms _; rewrite <- !app_assoc; reflexivity).
      apply dmc_right; auto; try (rewrite !app_length; cbn [length]; lia).
      apply bonds_app. exists m. auto.
Qed.

(** ** reductions_pmps *)
Definition zwin (w : nat * nat) : Z * Z := (Z.of_nat (fst w), Z.of_nat (snd w)).
Definition win_ok (n : nat) (w : nat * nat) : Prop := fst w < snd w <= n.
(** [z] is a PMPS of the state [x] reduced to the sites [s, e). *)
Definition is_reduction (x : ltens K) (w : nat * nat) (z : ltens K) : Prop :=
  let s := fst w in let e := snd w in
  mpa_pos z /\ llen z = e - s /\ two_legs (mshape z) /\
  leg1 (mshape z) = firstn (e - s) (skipn s (leg1 (mshape x))) /\
  canonical_form z = (0%Z, Z.of_nat (e - s)) /\
  forall is js, inr is (leg1 (mshape z)) -> inr js (leg1 (mshape z)) -> dmat z is js = dm_reduced x s e is js.

Lemma firstn_len_app (A : Type) (a b : list A) n : n = length a -> firstn n (a ++ b) = a.
Proof. intros ->. rewrite firstn_app, Nat.sub_diag, firstn_all. cbn. apply app_nil_r. Qed.
Lemma skipn_len_app (A : Type) (a b : list A) n : n = length a -> skipn n (a ++ b) = b.
Proof. intros ->. rewrite skipn_app, Nat.sub_diag, skipn_all. reflexivity. Qed.

Section QR.
Variable qr : nd K -> res (nd K * nd K).
Hypothesis Hqr : qr_sound qr.

Theorem red_pmps_window_spec (x : ltens K) w : mpa_pos x -> cform_wk x -> canon_true x -> two_legs (mshape x) ->
  win_ok (llen x) w ->
  outc (qr_fails qr) (red_pmps_window qr x (zwin w))
    (fun p => is_reduction x w (fst p) /\ sim 1 1 x (snd p) /\ cform_wk (snd p) /\
       ranks (fst p) = firstn (snd w - fst w - 1) (skipn (fst w) (ranks (snd p)))).
Proof.
  destruct w as [s e]. intros Hx Hc Ht H2 [Hw1 Hw2]. cbn [fst snd] in *.
  rewrite red_pmps_window_eq. unfold zwin. cbn [fst snd].
  pose proof (pos_chain x Hx) as Hch.
  eapply outc_bind.
  { apply (canonicalize_spec qr Hqr 1 1 x (CAInt (Z.of_nat s)) (CAInt (Z.of_nat e)) Hch Hc).
    - intros [E _]. discriminate.
    - cbn. rewrite (proj2 (Z.ltb_ge _ _)) by lia. lia.
    - cbn. rewrite !(proj2 (Z.ltb_ge _ _)) by lia. lia.
    - cbn. rewrite (proj2 (Z.ltb_ge _ _)) by lia. lia. }
  cbn [left_target right_target]. rewrite !(proj2 (Z.ltb_ge _ 0)) by lia.
  intros y (Sy & Cy & _ & Ly & Ry).
  destruct (sim_dense x y (proj1 Hx) Sy) as (Py & My & Ky & Ay & Ty & _). specialize (Ty Ht).
  assert (Ely : llen y = llen x).
  { apply (f_equal (@length (list nat))) in My. unfold mshape in My. rewrite !map_length in My. exact My. }
  assert (Hl : (Z.of_nat s <= lcan y)%Z).
  { rewrite Ly. destruct (Z.ltb_spec (Z.of_nat e) (rcan x)); lia. }
  assert (Hr : (rcan y <= Z.of_nat e)%Z).
  { rewrite Ry. destruct (Z.ltb_spec (Z.of_nat e) (rcan x)); [lia|]. destruct (Z.ltb_spec (lcan x) (Z.of_nat s)); lia. }
  destruct (list_window _ (lts y) s e) as (p & t & wi & q & Ets & Lp & Lw). { change (s < e <= llen y). lia. }
  destruct Ty as [TL TR].
  assert (Hp : Forall left_iso p).
  { replace p with (firstn s (lts y)) by (rewrite Ets; apply firstn_len_app; auto).
    apply Forall_firstn_nth; [change (s <= llen y); lia|]. intros k Hk. apply TL; lia. }
  assert (Hq : Forall right_iso q).
  { replace q with (skipn e (lts y)).
    2:{ rewrite Ets. change (p ++ t :: wi ++ q) with (p ++ (t :: wi) ++ q). rewrite app_assoc. apply skipn_len_app.
        rewrite app_length. cbn [length]. lia. }
    apply Forall_skipn_nth. intros k Hk Hk'. apply TR; [lia|]. unfold llen. lia. }
  destruct Py as [[_ Hby] Hpy].
  rewrite Ets in Hby, Hpy.
  assert (H2y : two_legs (map pdims (p ++ t :: wi ++ q))) by (rewrite <- Ets; change (two_legs (mshape y)); rewrite My; exact H2).
  destruct (window_core p wi q t s e Hby Hpy H2y Hp Hq) as (us & Eus & Hne & Hbu & Hpu & H2u & L1u & Rku & Lu & Du); [lia|lia|].
  rewrite Ets, Eus. cbn [bind].
  destruct (mpa_new_chain us Hne Hbu) as (z & Ez & Hz & Tz & Lz & Rz). rewrite Ez. cbn [bind].
  apply outc_ok. cbn [fst snd].
  assert (L1 : leg1 (mshape x) = leg1 (map pdims p) ++ leg1 (map pdims (t :: wi)) ++ leg1 (map pdims q)).
  { rewrite <- My. unfold mshape. rewrite Ets. change (p ++ t :: wi ++ q) with (p ++ (t :: wi) ++ q). rewrite !map_app, !leg1_app. reflexivity. }
  assert (Lleg : forall us : list (nd K), length (leg1 (map pdims us)) = length us) by (intros; unfold leg1; rewrite !map_length; reflexivity).
  assert (Lz1 : leg1 (mshape z) = leg1 (map pdims (t :: wi))) by (unfold mshape; rewrite Tz; exact L1u).
  assert (H2z : two_legs (mshape z)) by (unfold mshape; rewrite Tz; exact H2u).
  split; [|split; [exact Sy|split; [exact Cy|]]].
  - split; [split; [exact Hz|rewrite Tz; exact Hpu]|]. cbn [fst snd].
    split. { unfold llen. rewrite Tz. lia. }
    split; [exact H2z|].
    split. { rewrite Lz1, L1. rewrite skipn_len_app by (rewrite Lleg; lia). symmetry. apply firstn_len_app. rewrite Lleg. cbn [length]. lia. }
    split. { unfold canonical_form. rewrite Lz, Rz, Lu. f_equal. lia. }
    intros is js Hi Hj. rewrite dmat_dmc by auto. rewrite Tz. rewrite Lz1 in Hi, Hj. rewrite (Du is js Hi Hj).
    unfold dm_reduced. rewrite L1 at 1. rewrite firstn_len_app by (rewrite Lleg; lia).
    replace (skipn e (leg1 (mshape x))) with (leg1 (map pdims q)).
    2:{ rewrite L1, app_assoc. symmetry. apply skipn_len_app. rewrite app_length, !Lleg. cbn [length]. lia. }
    apply msum_ext. intros ks Hk. apply msum_ext. intros ms Hm.
    rewrite <- (dmat_same x y) by auto. rewrite <- Ets.
    assert (V : forall is, inr is (leg1 (map pdims (t :: wi))) -> inr (ks ++ is ++ ms) (leg1 (mshape y))).
    { intros is0 Hi0. rewrite My, L1. apply inr_app; [exact Hk|]. apply inr_app; [exact Hi0|exact Hm]. }
    symmetry. apply dmat_dmc; auto.
    + split; [rewrite Ets; destruct p; discriminate|rewrite Ets; exact Hby].
    + rewrite My; exact H2.
  - unfold ranks. rewrite Tz, Rku, Ets. clear -Lp Lw. rewrite map_tl', map_app. cbn [map]. rewrite map_app.
    destruct p as [|p0 p]; cbn [map app tl length] in *.
    + subst s. cbn [skipn]. symmetry. apply firstn_len_app. rewrite map_length. lia.
    + replace (map ldim p ++ ldim t :: map ldim wi ++ map ldim q) with ((map ldim p ++ [ldim t]) ++ map ldim wi ++ map ldim q)
        by (rewrite <- app_assoc; reflexivity).
      rewrite skipn_len_app by (rewrite app_length, map_length; cbn [length]; lia).
      symmetry. apply firstn_len_app. rewrite map_length. lia.
Qed.

Lemma is_reduction_sim (x y : ltens K) w z : mpa_ok x -> sim 1 1 x y -> is_reduction y w z -> is_reduction x w z.
Proof.
  intros Hx S (A & B & C & D & E & F). destruct (sim_dense x y Hx S) as (_ & My & _ & Ay & _).
  split; [exact A|]. split; [exact B|]. split; [exact C|]. split; [rewrite <- My; exact D|]. split; [exact E|].
  intros is js Hi Hj. rewrite F by auto. unfold dm_reduced. rewrite My. apply msum_ext. intros ks _. apply msum_ext. intros ms _.
  apply dmat_same; auto.
Qed.

Theorem red_pmps_loop_spec ws : forall x : ltens K, mpa_pos x -> cform_wk x -> canon_true x -> two_legs (mshape x) ->
  Forall (win_ok (llen x)) ws ->
  outc (qr_fails qr) (red_pmps_loop qr x (map zwin ws))
    (fun p => Forall2 (is_reduction x) ws (fst p) /\ sim 1 1 x (snd p) /\ cform_wk (snd p)).
Proof.
  induction ws as [|w ws IH]; intros x Hx Hc Ht H2 Hw; cbn [map red_pmps_loop].
  { apply outc_ok. split; [constructor|]. split; [|exact Hc]. apply sim_refl. apply pos_chain; auto. }
  apply Forall_cons_iff in Hw. destruct Hw as [Hw Hws].
  eapply outc_bind; [apply red_pmps_window_spec; auto|].
  intros [z y] (Rz & Sy & Cy & _). cbn [fst snd] in *.
  destruct (sim_dense x y (proj1 Hx) Sy) as (Py & My & _ & Ay & Ty & _).
  assert (Ely : llen y = llen x).
  { apply (f_equal (@length (list nat))) in My. unfold mshape in My. rewrite !map_length in My. exact My. }
  eapply outc_bind; [apply (IH y); auto; [rewrite My; auto|rewrite Ely; auto]|].
  intros [zs y'] (Rzs & Sy' & Cy'). cbn [fst snd] in *. apply outc_ok. cbn [fst snd].
  split; [|split; [eapply sim_trans; eauto|exact Cy']].
  constructor; [exact Rz|]. eapply Forall2_weaken; [|exact Rzs]. intros w' z' R. eapply is_reduction_sim; eauto. apply Hx.
Qed.
End QR.

(** The windows of the arguments [width], [startsites], [stopsites]. *)
Lemma windows_width n w : 0 < w <= n ->
  check_reductions_args n (Some (Z.of_nat w)) None None = Ok (map zwin (map (fun s => (s, s + w)) (seq 0 (n - w + 1)))).
Proof.
  intros H. unfold check_reductions_args. rewrite pyrange_up by lia. f_equal. rewrite !map_map.
  replace (Z.to_nat (Z.of_nat n - Z.of_nat w + 1 - 0)) with (n - w + 1) by lia.
  apply map_ext. intros s. unfold zwin. cbn [fst snd]. f_equal; lia.
Qed.
Lemma windows_starts n w ss :
  check_reductions_args n (Some (Z.of_nat w)) (Some (map Z.of_nat ss)) None = Ok (map zwin (map (fun s => (s, s + w)) ss)).
Proof.
  unfold check_reductions_args. f_equal. rewrite !map_map. apply map_ext. intros s. unfold zwin. cbn [fst snd]. f_equal; lia.
Qed.
Lemma windows_stops n ws :
  check_reductions_args n None (Some (map Z.of_nat (map fst ws))) (Some (map Z.of_nat (map snd ws))) = Ok (map zwin ws).
Proof.
  unfold check_reductions_args. f_equal. induction ws as [|[s e] ws IH]; [reflexivity|]. cbn. rewrite IH. reflexivity.
Qed.
End RedPmps.
