(** inner and partialdot. *)
From Verif Require Export Dense.

Section Inner.
Context {K : StarRing}.
Add Ring Kr : (k_ring K).

Definition rav (t : nd K) : nd K := rphys [size (pdims t)] t.

Lemma local_ravel_eq (t : nd K) : lt_ok t -> 0 < ldim t /\ 0 < rdim t -> local_ravel t = Ok (rav t).
Proof. intros Ht H. apply site_reshape_eq; [exact Ht|]. apply ravel_site; exact H. Qed.

Lemma rav_spec (t : nd K) : lt_ok t ->
  same_bonds t (rav t) /\ pdims (rav t) = [size (pdims t)] /\
  forall a i b, a < ldim t -> b < rdim t -> inr i (pdims t) -> ent (rav t) a [ravel (pdims t) i] b = ent t a i b.
Proof.
  intros Ht. destruct (rphys_spec [size (pdims t)] t Ht (size_single _)) as [R1 [R2 [R3 _]]].
  split; [exact R1|]. split; [exact R2|]. intros a i b Ha Hb Hi. apply R3; auto.
  - apply inr_single. apply ravel_lt; exact Hi.
  - cbn. rewrite size_nil. lia.
Qed.

Lemma rav_chain (ts : list (nd K)) l r : bonds ts l r ->
  bonds (map rav ts) l r /\ map pdims (map rav ts) = map (fun t => [size (pdims t)]) ts /\ map ldim (map rav ts) = map ldim ts /\
  forall is a b, Forall2 inr is (map pdims ts) -> a < l -> b < r ->
    amp (map rav ts) (zip2 (fun p i => [ravel p i]) (map pdims ts) is) a b = amp ts is a b.
Proof.
  intros Hb. assert (F : Forall2 same_bonds ts (map rav ts)).
  { apply Forall2_map_r. intros t Ht. apply rav_spec. eapply bonds_in; eassumption. }
  split; [eapply bonds_same; eassumption|]. split.
  { rewrite map_map. apply map_ext_in. intros t Ht. apply rav_spec. eapply bonds_in; eassumption. }
  split; [apply ranks_same; exact F|].
  intros is a b Hi Ha Hlt. apply (amp_same ts _ is _) with (l := l) (r := r); auto.
  pose proof (bonds_ok _ _ _ Hb) as Ho. clear -Ho Hi. revert is Hi.
  induction Ho as [|t ts Ht Ho IH]; intros is Hi; inversion Hi as [|i ? is' ? Hi1 Hi2]; subst; cbn [map zip2]; constructor.
  - apply rav_spec; exact Ht.
  - intros a b Ha Hb. apply rav_spec; assumption.
  - apply IH; exact Hi2.
Qed.

Lemma msums_ravel ps (f : list (list nat) -> K) :
  msums (map (fun p => [size p]) ps) f = msums ps (fun is => f (zip2 (fun p i => [ravel p i]) ps is)).
Proof.
  revert f; induction ps as [|p ps IH]; intros f; cbn [map msums zip2]; [reflexivity|].
  rewrite (msum_ravel p [size p]) by (symmetry; apply size_single). apply msum_ext. intros i Hi.
  rewrite IH. f_equal.
  replace (unravel [size p] (ravel p i)) with [ravel p i]; [reflexivity|].
  rewrite <- (unravel_ravel [size p] [ravel p i]) at 1.
  - f_equal. cbn. rewrite size_nil. lia.
  - apply inr_single. apply ravel_lt; exact Hi.
Qed.

(** The inner product of the represented arrays. *)
Theorem minner_spec (x y : ltens K) :
  mpa_ok x -> mpa_ok y -> bonds_pos x -> bonds_pos y -> mshape x = mshape y ->
  exists a, minner x y = Ok a /\ shp a = [] /\ ndwf a /\
    get a [] = msums (mshape x) (fun is => kconj (amp (lts x) is 0 0) * amp (lts y) is 0 0)%K.
Proof.
  intros [Nx Bx] [Ny By] Px Py Es.
  assert (El : llen x = llen y) by (rewrite <- !mshape_length, Es; reflexivity).
  unfold minner. rewrite El, Nat.eqb_refl. cbn [passert].
  destruct (rav_chain _ _ _ Bx) as [Rx [Sx [Lx Ax]]]. destruct (rav_chain _ _ _ By) as [Ry [Sy [Ly Ay]]].
  set (xs := map nconj (map rav (lts x))). set (ys := map rav (lts y)) in *.
  assert (Bxs : bonds xs 1 1).
  { eapply bonds_same; [exact Rx|]. apply Forall2_map_r. intros t Ht. apply same_bonds_nconj. exact (bonds_in _ _ _ _ Rx Ht). }
  assert (Sxs : map pdims xs = map (fun p => [size p]) (mshape x)).
  { unfold xs. rewrite map_map. rewrite (map_ext _ pdims) by (intros; reflexivity). rewrite Sx. unfold mshape. rewrite map_map. reflexivity. }
  assert (Sys : map pdims ys = map (fun p => [size p]) (mshape y)).
  { rewrite Sy. unfold mshape. rewrite map_map. reflexivity. }
  assert (HC : Forall2 (dot_compat [0%Z] [0%Z]) (map pdims xs) (map pdims ys)).
  { rewrite Sxs, Sys, <- Es. clear. induction (mshape x) as [|p ps IH]; cbn [map]; constructor; auto.
    split; [apply keep_first|]. split; [apply keep_first|reflexivity]. }
  destruct (amp_dots (AInt 0 0) xs ys 1 1 1 1 Bxs Ry HC) as [us [E [B [P [_ A]]]]]. cbn [user_axes fst snd] in *.
  assert (Em : mapM (fun p => do a <- local_ravel (fst p); do b <- local_ravel (snd p); local_dot (nconj a) b ([1%Z], [1%Z]))
                 (combine (lts x) (lts y)) = Ok us).
  { rewrite <- E. unfold xs, ys. apply bonds_ok in Bx, By. unfold bonds_pos in Px, Py. clear -Bx By Px Py.
    revert By Py. generalize (lts y). induction (lts x) as [|t ts IH]; intros vs Hv Pv; [reflexivity|].
    destruct vs as [|v vs]; [reflexivity|]. inversion Bx; inversion Px; inversion Hv; inversion Pv; subst.
    cbn [combine map mapM fst snd]. rewrite !local_ravel_eq by assumption. cbn [bind].
    rewrite IH by assumption. reflexivity. }
  rewrite Em. cbn [bind].
  assert (P' : map pdims us = map (fun _ => []) (mshape x)).
  { rewrite P, Sxs, Sys, <- Es. clear. induction (mshape x) as [|p ps IH]; [reflexivity|]. cbn [map zip2]. rewrite IH.
    rewrite (proj1 (keep_first (size p) [])). reflexivity. }
  assert (Hne : us <> []).
  { intros ->. cbn in P'. unfold mshape in P'. destruct (lts x); [congruence|discriminate]. }
  destruct (ltens_to_array_spec us 1 1 Hne B) as [H1 [_ [_ [H4 H5]]]].
  destruct (strip_virt_lt _ H1) as [S1 S2].
  assert (Ec : concat (map pdims us) = []).
  { rewrite P'. clear. induction (mshape x); [reflexivity|exact IHl]. }
  eexists. split; [reflexivity|]. split; [rewrite S1, H4; exact Ec|]. split; [apply wf_tab|].
  rewrite S2 by (rewrite H4, Ec; constructor).
  assert (Hi0 : Forall2 inr (map (fun _ : list nat => @nil nat) (mshape x)) (map pdims us)).
  { rewrite P'. clear. induction (mshape x); cbn; constructor; [constructor|assumption]. }
  pose proof (H5 0 (map (fun _ => []) (mshape x)) 0 (Nat.lt_0_1) Hi0 (Nat.lt_0_1)) as G.
  assert (Ec2 : concat (map (fun _ : list nat => @nil nat) (mshape x)) = []).
  { clear. induction (mshape x); [reflexivity|exact IHl]. }
  rewrite Ec2 in G. rewrite G.
  specialize (A (map (fun _ => []) (mshape x)) (map (fun _ => []) (mshape x)) 0 0 0 0 Nat.lt_0_1 Nat.lt_0_1 Nat.lt_0_1 Nat.lt_0_1).
  assert (Ez : zip2 (@app nat) (map (fun _ : list nat => []) (mshape x)) (map (fun _ => []) (mshape x)) = map (fun _ => []) (mshape x)).
  { clear. induction (mshape x); [reflexivity|]. cbn. rewrite IHl. reflexivity. }
  rewrite Ez in A. cbn [Nat.mul Nat.add] in A. rewrite A.
  - rewrite <- (map_map pdims (pick [0%Z])), Sxs, Sys, map_map.
    rewrite (map_ext _ (fun p => [size p])) by (intros; apply keep_first).
    rewrite msums_ravel. apply msums_ext. intros is Hi.
    assert (Z1 : forall ps js, Forall2 inr js ps -> zip3 (site_idx [0%Z]) (map (fun p => [size p]) ps) (map (fun _ => []) ps)
                 (zip2 (fun p i => [ravel p i]) ps js) = zip2 (fun p i => [ravel p i]) ps js).
    { clear. induction 1 as [|i p js ps Hi H IH]; [reflexivity|]. cbn [map zip2 zip3]. rewrite IH, site_idx_first by reflexivity. reflexivity. }
    rewrite <- Es, Z1 by exact Hi. rewrite <- (Ax is 0 0), <- (Ay is 0 0); auto.
    + unfold xs. rewrite amp_nconj. f_equal. fold (mshape x). f_equal. f_equal. fold (mshape y). congruence.
    + fold (mshape y). rewrite <- Es. exact Hi.
  - rewrite <- (map_map pdims (keep [0%Z])), Sxs, map_map.
    clear. induction (mshape x); cbn; constructor; [constructor|assumption].
  - rewrite <- (map_map pdims (keep [0%Z])), Sys, map_map, <- Es.
    clear. induction (mshape x); cbn; constructor; [constructor|assumption].
Qed.

(** ** partialdot *)
Lemma take_pad_fit (A : Type) n s (l : list A) : s + length l <= n ->
  take_pad n (repeat None s ++ map Some l) = repeat None s ++ map Some l ++ repeat None (n - s - length l).
Proof.
  revert s l; induction n as [|n IH]; intros s l H.
  - destruct s; [|cbn in H; lia]. destruct l; [reflexivity|cbn in H; lia].
  - destruct s as [|s]; cbn [repeat app take_pad].
    + destruct l as [|a l]; cbn [map app take_pad length].
      * specialize (IH 0 [] ltac:(cbn; lia)). cbn [repeat app map length] in IH. rewrite IH, !Nat.sub_0_r. reflexivity.
      * cbn in H. specialize (IH 0 l ltac:(cbn; lia)). cbn [repeat app] in IH. rewrite IH, !Nat.sub_0_r. reflexivity.
    + rewrite IH by lia. reflexivity.
Qed.

Lemma combine_app (A B : Type) (l1 l2 : list A) (m1 m2 : list B) : length l1 = length m1 ->
  combine (l1 ++ l2) (m1 ++ m2) = combine l1 m1 ++ combine l2 m2.
Proof. revert m1; induction l1 as [|a l1 IH]; intros [|b m1] H; cbn in *; try lia; [reflexivity|]. f_equal. apply IH. lia. Qed.

Lemma mapM_app (A B : Type) (f : A -> res B) l m l' m' : mapM f l = Ok l' -> mapM f m = Ok m' -> mapM f (l ++ m) = Ok (l' ++ m').
Proof.
  revert l'; induction l as [|a l IH]; intros l' H1 H2; cbn in *; [injection H1 as <-; exact H2|].
  destruct (f a) as [b|]; [|discriminate]. cbn in *. destruct (mapM f l) as [l0|] eqn:E; [|discriminate]. injection H1 as <-.
  rewrite (IH l0 eq_refl H2). reflexivity.
Qed.

Lemma pdot_long_left ax (ts : list (nd K)) n : length ts = n -> mapM (pdot_site ax) (combine (map Some ts) (repeat None n)) = Ok ts.
Proof.
  revert n; induction ts as [|t ts IH]; intros [|n] H; cbn in *; try lia; [reflexivity|]. rewrite IH by lia. reflexivity.
Qed.
Lemma pdot_long_right ax (ts : list (nd K)) n : length ts = n -> mapM (pdot_site ax) (combine (repeat None n) (map Some ts)) = Ok ts.
Proof.
  revert n; induction ts as [|t ts IH]; intros [|n] H; cbn in *; try lia; [reflexivity|]. rewrite IH by lia. reflexivity.
Qed.
Lemma pdot_both ax (ts vs : list (nd K)) : length ts = length vs ->
  mapM (pdot_site ax) (combine (map Some ts) (map Some vs)) = mapM (fun p => local_dot (fst p) (snd p) ax) (combine ts vs).
Proof.
  revert vs; induction ts as [|t ts IH]; intros [|v vs] H; cbn in *; try lia; [reflexivity|]. rewrite IH by lia. reflexivity.
Qed.

Lemma split3 (A : Type) s m (l : list A) : s + m <= length l ->
  exists l1 l2 l3, l = l1 ++ l2 ++ l3 /\ length l1 = s /\ length l2 = m /\ length l3 = length l - s - m.
Proof.
  intros H. exists (firstn s l), (firstn m (skipn s l)), (skipn m (skipn s l)).
  rewrite !firstn_skipn. rewrite !firstn_length, !skipn_length. repeat split; lia.
Qed.

(** The longer chain [w] consists of the sites before, in and after the window. *)
Definition sites_of (w : ltens K) (w1 w2 w3 : list (nd K)) : Prop := lts w = w1 ++ w2 ++ w3.

Theorem partialdot_left_spec (x y : ltens K) s ax x1 x2 x3 :
  let za := fst (user_axes ax) in let zb := snd (user_axes ax) in
  mpa_ok x -> mpa_ok y -> llen y <= llen x ->
  sites_of x x1 x2 x3 -> length x1 = s -> length x2 = llen y ->
  Forall2 (dot_compat za zb) (map pdims x2) (mshape y) ->
  exists z, partialdot x y s ax = Ok z /\ mpa_ok z /\
    mshape z = map pdims x1 ++ zip2 (fun p q => keep za p ++ keep zb q) (map pdims x2) (mshape y) ++ map pdims x3 /\
    canonical_form z = (0%Z, Z.of_nat (llen x)) /\
    forall i1 is js i3, Forall2 inr i1 (map pdims x1) -> Forall2 inr is (map (keep za) (map pdims x2)) ->
      Forall2 inr js (map (keep zb) (mshape y)) -> Forall2 inr i3 (map pdims x3) ->
      amp (lts z) (i1 ++ zip2 (@app nat) is js ++ i3) 0 0 =
      msums (map (pick za) (map pdims x2))
        (fun cs => amp (lts x) (i1 ++ zip3 (site_idx za) (map pdims x2) is cs ++ i3) 0 0 *
                   amp (lts y) (zip3 (site_idx zb) (mshape y) js cs) 0 0)%K.
Proof.
  intros za zb [Nx Bx] [Ny By] Hl Hs L1 L2 HC. unfold sites_of in Hs. pose proof Bx as Bx'. rewrite Hs in Bx'.
  apply bonds_app in Bx'. destruct Bx' as [m1 [B1 B23]]. apply bonds_app in B23. destruct B23 as [m2 [B2 B3]].
  destruct (amp_dots ax x2 (lts y) m1 m2 1 1 B2 By HC) as [us [E [B [P [_ A]]]]]. fold za in P, A; fold zb in P, A.
  rewrite !Nat.mul_1_r in B.
  assert (Lx : llen x = s + llen y + length x3) by (unfold llen at 1; rewrite Hs, !app_length; lia).
  assert (Em : mapM (pdot_site (true_axes ax)) (combine (map Some (lts x)) (take_pad (llen x) (repeat None s ++ map Some (lts y)))) = Ok (x1 ++ us ++ x3)).
  { rewrite take_pad_fit by (unfold llen in *; lia). rewrite Hs, !map_app.
    rewrite combine_app by (rewrite map_length, repeat_length; exact L1).
    rewrite combine_app by (rewrite !map_length; exact L2).
    apply mapM_app; [apply pdot_long_left; exact L1|]. apply mapM_app; [rewrite pdot_both by exact L2; exact E|].
    apply pdot_long_left. unfold llen in *. lia. }
  assert (Lus : length us = length x2).
  { rewrite <- (map_length pdims us), P, zip2_length, map_length; [reflexivity|exact (Forall2_len _ _ _ _ _ HC)]. }
  assert (Bz : bonds (x1 ++ us ++ x3) 1 1).
  { apply bonds_app. exists m1. split; [exact B1|]. apply bonds_app. exists m2. split; assumption. }
  assert (Hne : x1 ++ us ++ x3 <> []).
  { intros H0. assert (length (x1 ++ us ++ x3) = 0) by (rewrite H0; reflexivity). rewrite !app_length in H.
    apply Nx. destruct (lts x) eqn:Ex; [reflexivity|]. apply (f_equal (@length _)) in Hs. rewrite !app_length in Hs. cbn in Hs. lia. }
  destruct (mpa_new_chain _ Hne Bz) as [z [Ez [Hz [Lz [Cl Cr]]]]].
  exists z. split.
  { unfold partialdot. destruct (Nat.ltb_spec (llen x) (llen y)); [lia|]. rewrite Em. exact Ez. }
  split; [exact Hz|]. split; [unfold mshape; rewrite Lz, !map_app, P; reflexivity|].
  split; [unfold canonical_form; rewrite Cl, Cr, !app_length; f_equal; unfold llen in *; lia|].
  intros i1 is js i3 H1 H2 H3 H4. rewrite Lz.
  assert (E1 := Forall2_len _ _ _ _ _ H1). rewrite map_length in E1.
  assert (E2 : length (zip2 (@app nat) is js) = length us).
  { assert (T1 := Forall2_len _ _ _ _ _ H2). assert (T2 := Forall2_len _ _ _ _ _ H3). rewrite !map_length in T1. rewrite !map_length in T2. unfold mshape in T2; rewrite map_length in T2.
    rewrite zip2_length; unfold llen in *; lia. }
  rewrite (amp_app x1 (us ++ x3) i1 _ 0 0 1 m1) by (auto; lia).
  transitivity (bigsum m1 (fun c => amp x1 i1 0 c * bigsum m2 (fun d => 
      msums (map (pick za) (map pdims x2)) (fun cs => amp x2 (zip3 (site_idx za) (map pdims x2) is cs) c d *
                   amp (lts y) (zip3 (site_idx zb) (mshape y) js cs) 0 0)%K * amp x3 i3 d 0)))%K.
  { apply bigsum_ext. intros c Hc. f_equal. rewrite (amp_app us x3 _ i3 c 0 m1 m2) by (auto; lia).
    apply bigsum_ext. intros d Hd. f_equal.
    specialize (A is js c 0 d 0 Hc Nat.lt_0_1 Hd Nat.lt_0_1). rewrite !Nat.mul_1_r, !Nat.add_0_r in A.
    rewrite map_map. apply A.
    - rewrite map_map in H2; exact H2.
    - unfold mshape in H3. rewrite map_map in H3. exact H3. }
  transitivity (msums (map (pick za) (map pdims x2)) (fun cs => bigsum m1 (fun c => bigsum m2 (fun d =>
     amp x1 i1 0 c * (amp x2 (zip3 (site_idx za) (map pdims x2) is cs) c d * amp x3 i3 d 0))) * amp (lts y) (zip3 (site_idx zb) (mshape y) js cs) 0 0)%K)%K.
  { transitivity (bigsum m1 (fun c => msums (map (pick za) (map pdims x2)) (fun cs => bigsum m2 (fun d => 
      amp x1 i1 0 c * (amp x2 (zip3 (site_idx za) (map pdims x2) is cs) c d * amp x3 i3 d 0)) * amp (lts y) (zip3 (site_idx zb) (mshape y) js cs) 0 0)%K)).
    - apply bigsum_ext. intros c Hc. rewrite <- bigsum_mul_l.
      transitivity (msums (map (pick za) (map pdims x2)) (fun cs => bigsum m2 (fun d => (amp x1 i1 0 c * (amp x2 (zip3 (site_idx za) (map pdims x2) is cs) c d * amp x3 i3 d 0)) * amp (lts y) (zip3 (site_idx zb) (mshape y) js cs) 0 0)))%K.
      + rewrite <- bigsum_msums_swap. apply bigsum_ext. intros d Hd. rewrite <- msums_mul_r, <- msums_mul_l. apply msums_ext. intros cs Hcs. ring.
      + apply msums_ext. intros cs Hcs. apply bigsum_mul_r.
    - rewrite bigsum_msums_swap. apply msums_ext. intros cs Hcs. apply bigsum_mul_r. }
  apply msums_ext. intros cs Hcs. f_equal. rewrite Hs.
  assert (E3 : length (zip3 (site_idx za) (map pdims x2) is cs) = length x2).
  { assert (T1 := Forall2_len _ _ _ _ _ H2). assert (T2 := Forall2_len _ _ _ _ _ Hcs). rewrite !map_length in T1. rewrite !map_length in T2.
    clear -T1 T2. revert is cs T1 T2. induction x2 as [|t ts IH]; intros [|i is] [|c cs] T1 T2; cbn in *; try lia. rewrite IH by lia. reflexivity. }
  rewrite (amp_app x1 (x2 ++ x3) i1 _ 0 0 1 m1) by (auto; lia). apply bigsum_ext. intros c Hc.
  rewrite (amp_app x2 x3 _ i3 c 0 m1 m2) by (auto; lia). rewrite <- bigsum_mul_l. reflexivity.
Qed.

Theorem partialdot_right_spec (x y : ltens K) s ax y1 y2 y3 :
  let za := fst (user_axes ax) in let zb := snd (user_axes ax) in
  mpa_ok x -> mpa_ok y -> llen x < llen y ->
  sites_of y y1 y2 y3 -> length y1 = s -> length y2 = llen x ->
  Forall2 (dot_compat za zb) (mshape x) (map pdims y2) ->
  exists z, partialdot x y s ax = Ok z /\ mpa_ok z /\
    mshape z = map pdims y1 ++ zip2 (fun p q => keep za p ++ keep zb q) (mshape x) (map pdims y2) ++ map pdims y3 /\
    canonical_form z = (0%Z, Z.of_nat (llen y)) /\
    forall i1 is js i3, Forall2 inr i1 (map pdims y1) -> Forall2 inr is (map (keep za) (mshape x)) ->
      Forall2 inr js (map (keep zb) (map pdims y2)) -> Forall2 inr i3 (map pdims y3) ->
      amp (lts z) (i1 ++ zip2 (@app nat) is js ++ i3) 0 0 =
      msums (map (pick za) (mshape x))
        (fun cs => amp (lts x) (zip3 (site_idx za) (mshape x) is cs) 0 0 *
                   amp (lts y) (i1 ++ zip3 (site_idx zb) (map pdims y2) js cs ++ i3) 0 0)%K.
Proof.
  intros za zb [Nx Bx] [Ny By] Hl Hs L1 L2 HC. unfold sites_of in Hs. pose proof By as By'. rewrite Hs in By'.
  apply bonds_app in By'. destruct By' as [m1 [B1 B23]]. apply bonds_app in B23. destruct B23 as [m2 [B2 B3]].
  destruct (amp_dots ax (lts x) y2 1 1 m1 m2 Bx B2 HC) as [us [E [B [P [_ A]]]]]. fold za in P, A; fold zb in P, A.
  rewrite !Nat.mul_1_l in B.
  assert (Ly : llen y = s + llen x + length y3) by (unfold llen at 1; rewrite Hs, !app_length; lia).
  assert (Em : mapM (pdot_site (true_axes ax)) (combine (take_pad (llen y) (repeat None s ++ map Some (lts x))) (map Some (lts y))) = Ok (y1 ++ us ++ y3)).
  { rewrite take_pad_fit by (unfold llen in *; lia). rewrite Hs, !map_app.
    rewrite combine_app by (rewrite map_length, repeat_length; symmetry; exact L1).
    rewrite combine_app by (rewrite !map_length; symmetry; exact L2).
    apply mapM_app; [apply pdot_long_right; exact L1|]. apply mapM_app; [rewrite pdot_both by (symmetry; exact L2); exact E|].
    apply pdot_long_right. unfold llen in *. lia. }
  assert (Lus : length us = length y2).
  { rewrite <- (map_length pdims us), P, zip2_length, map_length; [symmetry; exact L2|exact (Forall2_len _ _ _ _ _ HC)]. }
  assert (Bz : bonds (y1 ++ us ++ y3) 1 1).
  { apply bonds_app. exists m1. split; [exact B1|]. apply bonds_app. exists m2. split; assumption. }
  assert (Hne : y1 ++ us ++ y3 <> []).
  { intros H0. assert (length (y1 ++ us ++ y3) = 0) by (rewrite H0; reflexivity). rewrite !app_length in H.
    apply Ny. destruct (lts y) eqn:Ex; [reflexivity|]. apply (f_equal (@length _)) in Hs. rewrite !app_length in Hs. cbn in Hs. lia. }
  destruct (mpa_new_chain _ Hne Bz) as [z [Ez [Hz [Lz [Cl Cr]]]]].
  exists z. split.
  { unfold partialdot. destruct (Nat.ltb_spec (llen x) (llen y)); [|lia]. rewrite Em. exact Ez. }
  split; [exact Hz|]. split; [unfold mshape; rewrite Lz, !map_app, P; reflexivity|].
  split; [unfold canonical_form; rewrite Cl, Cr, !app_length; f_equal; unfold llen in *; lia|].
  intros i1 is js i3 H1 H2 H3 H4. rewrite Lz.
  assert (E1 := Forall2_len _ _ _ _ _ H1). rewrite map_length in E1.
  assert (E2 : length (zip2 (@app nat) is js) = length us).
  { assert (T1 := Forall2_len _ _ _ _ _ H2). assert (T2 := Forall2_len _ _ _ _ _ H3). unfold mshape in T1. rewrite !map_length in T1. rewrite !map_length in T2.
    rewrite zip2_length; unfold llen in *; lia. }
  rewrite (amp_app y1 (us ++ y3) i1 _ 0 0 1 m1) by (auto; lia).
  transitivity (bigsum m1 (fun c => amp y1 i1 0 c * bigsum m2 (fun d => 
      msums (map (pick za) (mshape x)) (fun cs => amp (lts x) (zip3 (site_idx za) (mshape x) is cs) 0 0 *
                   amp y2 (zip3 (site_idx zb) (map pdims y2) js cs) c d)%K * amp y3 i3 d 0)))%K.
  { apply bigsum_ext. intros c Hc. f_equal. rewrite (amp_app us y3 _ i3 c 0 m1 m2) by (auto; lia).
    apply bigsum_ext. intros d Hd. f_equal.
    specialize (A is js 0 c 0 d Nat.lt_0_1 Hc Nat.lt_0_1 Hd). rewrite !Nat.mul_0_l, !Nat.add_0_l in A.
    unfold mshape. rewrite map_map. apply A.
    - unfold mshape in H2. rewrite map_map in H2; exact H2.
    - rewrite map_map in H3. exact H3. }
  transitivity (msums (map (pick za) (mshape x)) (fun cs => amp (lts x) (zip3 (site_idx za) (mshape x) is cs) 0 0 * bigsum m1 (fun c => bigsum m2 (fun d =>
     amp y1 i1 0 c * (amp y2 (zip3 (site_idx zb) (map pdims y2) js cs) c d * amp y3 i3 d 0))))%K)%K.
  { transitivity (bigsum m1 (fun c => msums (map (pick za) (mshape x)) (fun cs => amp (lts x) (zip3 (site_idx za) (mshape x) is cs) 0 0 * bigsum m2 (fun d => 
      amp y1 i1 0 c * (amp y2 (zip3 (site_idx zb) (map pdims y2) js cs) c d * amp y3 i3 d 0)))%K)).
    - apply bigsum_ext. intros c Hc. rewrite <- bigsum_mul_l.
      transitivity (msums (map (pick za) (mshape x)) (fun cs => bigsum m2 (fun d => amp (lts x) (zip3 (site_idx za) (mshape x) is cs) 0 0 * (amp y1 i1 0 c * (amp y2 (zip3 (site_idx zb) (map pdims y2) js cs) c d * amp y3 i3 d 0)))))%K.
      + rewrite <- bigsum_msums_swap. apply bigsum_ext. intros d Hd. rewrite <- msums_mul_r, <- msums_mul_l. apply msums_ext. intros cs Hcs. ring.
      + apply msums_ext. intros cs Hcs. apply bigsum_mul_l.
    - rewrite bigsum_msums_swap. apply msums_ext. intros cs Hcs. apply bigsum_mul_l. }
  apply msums_ext. intros cs Hcs. f_equal. rewrite Hs.
  assert (E3 : length (zip3 (site_idx zb) (map pdims y2) js cs) = length y2).
  { assert (T1 := Forall2_len _ _ _ _ _ H3). assert (T2 := Forall2_len _ _ _ _ _ Hcs). rewrite !map_length in T1. unfold mshape in T2. rewrite !map_length in T2.
    assert (T3 : length cs = length y2) by (unfold llen in *; lia).
    clear -T1 T3. revert js cs T1 T3. induction y2 as [|t ts IH]; intros [|i is] [|c cs] T1 T2; cbn in *; try lia. rewrite IH by lia. reflexivity. }
  rewrite (amp_app y1 (y2 ++ y3) i1 _ 0 0 1 m1) by (auto; lia). apply bigsum_ext. intros c Hc.
  rewrite (amp_app y2 y3 _ i3 c 0 m1 m2) by (auto; lia). rewrite <- bigsum_mul_l. reflexivity.
Qed.
End Inner.
