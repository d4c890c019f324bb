(** group_sites, vleg2leg, leg2vleg, split, reverse, pad_ranks. *)
From Verif Require Export PfTrace.

Section Sites.
Context {K : StarRing}.
Add Ring Kr : (k_ring K).

(** ** group_sites *)
Lemma bonds_split (ts us : list (nd K)) l r : bonds (ts ++ us) l r -> exists m, bonds ts l m /\ bonds us m r.
Proof. apply bonds_app. Qed.

Lemma group_chain (gs : list (list (nd K))) : forall l r, Forall (fun g => g <> []) gs -> bonds (concat gs) l r ->
  let us := map ltens_to_array gs in
  bonds us l r /\ map pdims us = map (fun g => concat (map pdims g)) gs /\
  forall iss a b, Forall2 (fun is g => Forall2 inr is (map pdims g)) iss gs -> a < l -> b < r ->
    amp us (map (@concat nat) iss) a b = amp (concat gs) (concat iss) a b.
Proof.
  induction gs as [|g gs IH]; intros l r HF Hb us.
  - split; [exact Hb|]. split; [reflexivity|]. intros iss a b H _ _. inversion H; subst. reflexivity.
  - inversion HF as [|? ? Hg HF']; subst. cbn [concat] in Hb. apply bonds_split in Hb. destruct Hb as [m [B1 B2]].
    destruct (IH m r HF' B2) as [I1 [I2 I3]]. destruct (ltens_to_array_spec g l m Hg B1) as [H1 [H2 [H3 [H4 H5]]]].
    subst us. cbn [map]. split; [cbn [bonds]; rewrite H3; auto|]. split; [rewrite I2, H4; reflexivity|].
    intros iss a b Hi Ha Hlb. inversion_clear Hi as [|is ? iss' ? Hi1 Hi2]. cbn [map concat amp]. rewrite H3.
    rewrite (amp_app g (concat gs) is (concat iss') a b l m); auto.
    + apply bigsum_ext. intros c Hc. rewrite (I3 iss' c b) by auto. f_equal. apply H5; auto.
    + rewrite (Forall2_len _ _ _ _ _ Hi1). apply map_length.
Qed.

Lemma chunks_groups (A : Type) (n : nat) (gs : list (list A)) : forall fuel, 0 < n -> Forall (fun g => length g = n) gs ->
  length (concat gs) <= fuel -> chunks fuel n (concat gs) = gs.
Proof.
  induction gs as [|g gs IH]; intros fuel Hn HF Hf.
  - destruct fuel; reflexivity.
  - inversion HF as [|? ? Hg HF']; subst. cbn [concat] in *. rewrite app_length in Hf.
    destruct fuel as [|fuel]; [lia|]. destruct g as [|y g]; [cbn in Hn; lia|].
    change (chunks (S fuel) (length (y :: g)) ((y :: g) ++ concat gs)) with
      (firstn (length (y :: g)) ((y :: g) ++ concat gs) :: chunks fuel (length (y :: g)) (skipn (length (y :: g)) ((y :: g) ++ concat gs))).
    rewrite firstn_app, Nat.sub_diag, firstn_all, firstn_O, app_nil_r, skipn_app, Nat.sub_diag, skipn_all. cbn [app skipn].
    rewrite IH; auto. cbn [length] in Hf. lia.
Qed.

Lemma grouping_exists (A : Type) (n : nat) : 0 < n -> forall k (l : list A), length l = k * n ->
  exists gs, concat gs = l /\ Forall (fun g => length g = n) gs.
Proof.
  intros Hn. induction k as [|k IH]; intros l Hl.
  - destruct l; [|discriminate]. exists []. split; [reflexivity|constructor].
  - destruct (IH (skipn n l)) as [gs [E F]]; [rewrite skipn_length; lia|].
    exists (firstn n l :: gs). split; [cbn [concat]; rewrite E; apply firstn_skipn|]. constructor; [|exact F].
    apply firstn_length_le. nia.
Qed.

Lemma regroup (A B : Type) (f : A -> B) (n : nat) (gs : list (list A)) (hs : list (list B)) :
  Forall (fun g => length g = n) gs -> Forall (fun h => length h = n) hs -> 0 < n -> concat hs = map f (concat gs) -> hs = map (map f) gs.
Proof.
  intros HG HH Hn. revert hs HH; induction HG as [|g gs Hg HG IH]; intros hs HH E.
  - destruct HH as [|h hs Hh HH]; [reflexivity|]. cbn in E. destruct h; [cbn in Hh; lia|discriminate].
  - cbn [concat map] in E. destruct HH as [|h hs Hh HH].
    + rewrite map_app in E. destruct g; [cbn in Hg; lia|discriminate].
    + cbn [concat] in E. rewrite map_app in E. apply app_inj_len in E; [|rewrite map_length; congruence].
      destruct E as [-> E]. cbn [map]. f_equal. apply IH; assumption.
Qed.

(** Merging sites does not change the array; the legs of a group are concatenated. *)
Theorem group_sites_spec (x : ltens K) n gs : mpa_ok x -> 0 < n ->
  concat gs = mshape x -> Forall (fun g => length g = n) gs ->
  exists z, group_sites x n = Ok z /\ mpa_ok z /\ mshape z = map (@concat nat) gs /\ to_array z = to_array x.
Proof.
  intros [Hne Hb] Hn Eg HF.
  assert (Len : llen x = length gs * n).
  { rewrite <- mshape_length, <- Eg. clear -HF. induction HF as [|g gs Hg HF IH]; [reflexivity|]. cbn [concat length]. rewrite app_length, IH, Hg. lia. }
  unfold group_sites. destruct (Nat.eqb_spec n 0); [lia|].
  replace (llen x mod n) with 0 by (rewrite Len, Nat.mod_mul; lia). cbn [Nat.eqb praise_unless].
  destruct (grouping_exists _ n Hn (length gs) (lts x) Len) as [ts [Et Ft]].
  assert (Egs : gs = map (map pdims) ts) by (apply (regroup _ _ pdims n ts gs Ft HF Hn); rewrite Et; exact Eg).
  assert (Ft' : Forall (fun g : list (nd K) => g <> []) ts).
  { clear -Ft Hn. induction Ft as [|g ts Hg Ft IH]; constructor; auto. intros ->. cbn in Hg. lia. }
  destruct (Nat.eqb_spec n 1) as [->|Hn1].
  - exists x. split; [reflexivity|]. split; [split; assumption|]. split; [|reflexivity].
    rewrite <- Eg. clear -HF. induction HF as [|g gs Hg HF IH]; [reflexivity|]. cbn [concat map]. rewrite IH. clear IH.
    destruct g as [|p [|q g]]; try discriminate. cbn [concat]. rewrite app_nil_r. reflexivity.
  - replace (chunks (llen x) n (lts x)) with ts by (rewrite <- Et; symmetry; apply chunks_groups; [exact Hn|exact Ft|rewrite Et; apply Nat.le_refl]).
    rewrite <- Et in Hb. destruct (group_chain ts 1 1 Ft' Hb) as [B [P A]].
    assert (Hne2 : map ltens_to_array ts <> []) by (intros E0; apply map_eq_nil in E0; subst ts; cbn in Et; congruence).
    destruct (mpa_new_chain _ Hne2 B) as [z [Ez [Hz [Lz _]]]]. exists z. split; [exact Ez|]. split; [exact Hz|].
    assert (Sz : mshape z = map (@concat nat) gs) by (unfold mshape; rewrite Lz, P, Egs, map_map; reflexivity).
    split; [exact Sz|].
    apply to_array_ext; [exact Hz|apply wf_to_array| |].
    { rewrite shp_to_array by (split; [exact Hne|rewrite <- Et; exact Hb]). rewrite <- Eg, Sz. clear. induction gs as [|g gs IH]; [reflexivity|]. cbn [concat map]. rewrite concat_app, IH. reflexivity. }
    intros js Hj. rewrite Lz. unfold idx_ok in Hj. rewrite Lz, P in Hj.
    assert (G : exists iss, js = map (@concat nat) iss /\ Forall2 (fun is g => Forall2 inr is (map pdims g)) iss ts).
    { clear -Hj. revert js Hj. induction ts as [|g ts IH]; intros js Hj; inversion Hj as [|j ? js' ? H1 H2]; subst.
      - exists []. split; [reflexivity|constructor].
      - apply inr_concat_inv in H1. destruct H1 as [is [-> H1]]. destruct (IH _ H2) as [iss [-> H3]]. exists (is :: iss). split; [reflexivity|constructor; assumption]. }
    destruct G as [iss [-> Hi]]. rewrite A by auto.
    replace (concat (map (concat (A:=nat)) iss)) with (concat (concat iss)).
    2:{ clear. induction iss as [|i iss IH]; [reflexivity|]. cbn [concat map]. rewrite concat_app, IH. reflexivity. }
    rewrite get_to_array; [rewrite <- Et; reflexivity|split; [exact Hne|rewrite <- Et; exact Hb]|].
    unfold idx_ok. rewrite <- Et. clear -Hi. induction Hi as [|is g iss ts H1 H2 IH]; [constructor|]. cbn [concat]. rewrite map_app. apply Forall2_app; assumption.
Qed.

Theorem group_sites_error (x : ltens K) n : 0 < n -> llen x mod n <> 0 -> group_sites x n = Err ValueError.
Proof.
  intros Hn H. unfold group_sites. destruct (Nat.eqb_spec n 0); [lia|]. destruct (Nat.eqb_spec (llen x mod n) 0); [congruence|reflexivity].
Qed.

(** ** vleg2leg *)
Lemma newaxis_last_spec (t : nd K) : lt_ok t ->
  lt_ok (newaxis_last t) /\ ldim (newaxis_last t) = ldim t /\ rdim (newaxis_last t) = 1 /\ pdims (newaxis_last t) = pdims t ++ [rdim t] /\
  forall a i c, a < ldim t -> inr i (pdims t) -> c < rdim t -> ent (newaxis_last t) a (i ++ [c]) 0 = ent t a i c.
Proof.
  intros Ht. pose proof (lt_ok_shp _ Ht) as E.
  assert (E2 : shp (newaxis_last t) = ldim t :: (pdims t ++ [rdim t]) ++ [1]) by (unfold newaxis_last, reshape; cbn [shp]; rewrite E; reflexivity).
  assert (Sz : size (shp t ++ [1]) = size (shp t)) by (rewrite size_app, size_single; lia).
  split; [eapply lt_ok_mk; [apply wf_reshape; [apply Ht|exact Sz]|exact E2]|]. split; [eapply ldim_mk; exact E2|]. split; [eapply rdim_mk; exact E2|].
  split; [eapply pdims_mk; exact E2|]. intros a i c Ha Hi Hc. unfold ent, newaxis_last. apply get_reshape'.
  change (a :: (i ++ [c]) ++ [0]) with ((a :: i ++ [c]) ++ [0]). rewrite ravel_app by (apply inr_ent; assumption). rewrite size_single. cbn. lia.
Qed.

Lemma newaxis_first_spec (t : nd K) : lt_ok t ->
  lt_ok (newaxis_first t) /\ ldim (newaxis_first t) = 1 /\ rdim (newaxis_first t) = rdim t /\ pdims (newaxis_first t) = ldim t :: pdims t /\
  forall c i b, c < ldim t -> inr i (pdims t) -> b < rdim t -> ent (newaxis_first t) 0 (c :: i) b = ent t c i b.
Proof.
  intros Ht. pose proof (lt_ok_shp _ Ht) as E.
  assert (E2 : shp (newaxis_first t) = 1 :: (ldim t :: pdims t) ++ [rdim t]) by (unfold newaxis_first, reshape; cbn [shp]; rewrite E; reflexivity).
  assert (Sz : size (1 :: shp t) = size (shp t)) by (rewrite size_cons; lia).
  split; [eapply lt_ok_mk; [apply wf_reshape; [apply Ht|exact Sz]|exact E2]|]. split; [eapply ldim_mk; exact E2|]. split; [eapply rdim_mk; exact E2|].
  split; [eapply pdims_mk; exact E2|]. intros c i b Hc Hi Hb. unfold ent, newaxis_first. apply get_reshape'. cbn [app]. reflexivity.
Qed.

Lemma take_last0_spec (t : nd K) p d : lt_ok t -> pdims t = p ++ [d] -> 0 < rdim t ->
  let u := take_last0 t in
  lt_ok u /\ ldim u = ldim t /\ rdim u = d /\ pdims u = p /\
  forall a i c, a < ldim t -> inr i p -> c < d -> ent u a i c = ent t a (i ++ [c]) 0.
Proof.
  intros Ht Ep Hr u. pose proof (lt_ok_shp _ Ht) as E.
  assert (E2 : shp u = ldim t :: p ++ [d]).
  { unfold u, take_last0. rewrite shp_tab, E, Ep. change (ldim t :: (p ++ [d]) ++ [rdim t]) with ((ldim t :: p ++ [d]) ++ [rdim t]). apply removelast_last. }
  split; [eapply lt_ok_mk; [apply wf_tab|exact E2]|]. split; [eapply ldim_mk; exact E2|]. split; [eapply rdim_mk; exact E2|].
  split; [eapply pdims_mk; exact E2|]. intros a i c Ha Hi Hc. unfold ent at 1, u, take_last0. rewrite get_tab; [reflexivity|].
  unfold u, take_last0 in E2. rewrite shp_tab in E2. rewrite E2. apply inr_cons; [exact Ha|]. apply inr_app; [exact Hi|apply inr_single; exact Hc].
Qed.

Lemma take_first_spec (t : nd K) p d : lt_ok t -> pdims t = d :: p -> 0 < ldim t ->
  let u := take_first 0 t in
  lt_ok u /\ ldim u = d /\ rdim u = rdim t /\ pdims u = p /\
  forall c i b, c < d -> inr i p -> b < rdim t -> ent u c i b = ent t 0 (c :: i) b.
Proof.
  intros Ht Ep Hr u. pose proof (lt_ok_shp _ Ht) as E.
  assert (E2 : shp u = d :: p ++ [rdim t]).
  { unfold u, take_first. rewrite shp_tab, E, Ep. reflexivity. }
  split; [eapply lt_ok_mk; [apply wf_tab|exact E2]|]. split; [eapply ldim_mk; exact E2|]. split; [eapply rdim_mk; exact E2|].
  split; [eapply pdims_mk; exact E2|]. intros a i c Ha Hi Hc. unfold ent at 1, u, take_first. rewrite get_tab; [reflexivity|].
  unfold u, take_first in E2. rewrite shp_tab in E2. rewrite E2. apply inr_cons; [exact Ha|]. apply inr_app; [exact Hi|apply inr_single; exact Hc].
Qed.

Lemma set_nth_at (A : Type) (l1 : list A) x y l2 : set_nth (length l1) y (l1 ++ x :: l2) = l1 ++ y :: l2.
Proof. induction l1 as [|z l1 IH]; [reflexivity|]. cbn. rewrite IH. reflexivity. Qed.
Lemma list_update_at (A : Type) (l1 : list A) x l2 f n : n = length l1 ->
  list_update (l1 ++ x :: l2) (Z.of_nat n) f = Ok (l1 ++ f x :: l2).
Proof.
  intros ->. unfold list_update. rewrite pyidx_in by (rewrite app_length; cbn; lia). rewrite nth_error_app2, Nat.sub_diag by lia. cbn [nth_error].
  rewrite set_nth_at. reflexivity.
Qed.
Lemma pyget_at (A : Type) (l1 : list A) x l2 n : n = length l1 -> pyget (l1 ++ x :: l2) (Z.of_nat n) = Ok x.
Proof.
  intros ->. rewrite (pyget_in _ _ _ x) by (rewrite app_length; cbn; lia). rewrite app_nth2, Nat.sub_diag by lia. reflexivity.
Qed.
Lemma firstn_at (A : Type) (l m : list A) : firstn (length l) (l ++ m) = l.
Proof. rewrite firstn_app, Nat.sub_diag, firstn_all. apply app_nil_r. Qed.
Lemma skipn_at (A : Type) (l : list A) y m : skipn (S (length l)) (l ++ y :: m) = m.
Proof. rewrite skipn_app, skipn_all2 by lia. replace (S (length l) - length l) with 1 by lia. reflexivity. Qed.
(** The two updates of [vleg2leg]/[leg2vleg]. *)
Lemma list_update2 (A : Type) (l1 : list A) x y l2 f h n : n = length l1 ->
  (do ts1 <- list_update (l1 ++ x :: y :: l2) (Z.of_nat n) f; list_update ts1 (Z.of_nat n + 1) h) = Ok (l1 ++ f x :: h y :: l2).
Proof.
  intros En. rewrite (list_update_at _ l1 x (y :: l2) f n En). cbn [bind].
  replace (Z.of_nat n + 1)%Z with (Z.of_nat (S n)) by lia. replace (l1 ++ f x :: y :: l2) with ((l1 ++ [f x]) ++ y :: l2) by (rewrite <- app_assoc; reflexivity).
  rewrite (list_update_at _ (l1 ++ [f x]) y l2 h (S n)) by (rewrite app_length; cbn; lia). rewrite <- app_assoc. reflexivity.
Qed.

Lemma nth_around (A : Type) (l1 : list A) x y x' y' l2 k d : k < length l1 \/ length l1 + 2 <= k ->
  nth k (l1 ++ x' :: y' :: l2) d = nth k (l1 ++ x :: y :: l2) d.
Proof.
  intros [H|H].
  - rewrite !app_nth1 by exact H. reflexivity.
  - rewrite !app_nth2 by lia. destruct (k - length l1) as [|[|j]] eqn:E; try lia. reflexivity.
Qed.
Lemma around_len (A : Type) (l1 : list A) x y x' y' l2 : length (l1 ++ x' :: y' :: l2) = length (l1 ++ x :: y :: l2).
Proof. rewrite !app_length. reflexivity. Qed.

Lemma canon_around (x1 x2 : list (nd K)) t u t' u' l r l' r' :
  canon_true (mkLt (x1 ++ t :: u :: x2) l r) ->
  (l' <= Z.min l (Z.of_nat (length x1)))%Z -> (Z.max r (Z.of_nat (length x1) + 2) <= r')%Z ->
  canon_true (mkLt (x1 ++ t' :: u' :: x2) l' r').
Proof.
  intros [HL HR] Hl Hr. unfold canon_true, llen in *. cbn [lts lcan rcan] in *. split; intros k Hk Hlen.
  - rewrite (nth_around _ x1 t u t' u' x2 k) by lia. rewrite (around_len _ x1 t u) in Hlen. apply HL; [lia|exact Hlen].
  - rewrite (nth_around _ x1 t u t' u' x2 k) by lia. rewrite (around_len _ x1 t u) in Hlen. apply HR; [lia|exact Hlen].
Qed.

Lemma bonds_two (x1 x2 : list (nd K)) t u l r : bonds (x1 ++ t :: u :: x2) l r ->
  bonds x1 l (ldim t) /\ lt_ok t /\ lt_ok u /\ ldim u = rdim t /\ bonds x2 (rdim u) r.
Proof. intros H. apply bonds_app in H. destruct H as [m [B1 [Ht [E [Hu [E2 B2]]]]]]. subst m. auto. Qed.
Lemma bonds_two_mk (x1 x2 : list (nd K)) t u l r : bonds x1 l (ldim t) -> lt_ok t -> lt_ok u -> ldim u = rdim t -> bonds x2 (rdim u) r ->
  bonds (x1 ++ t :: u :: x2) l r.
Proof. intros. apply bonds_app. exists (ldim t). split; [assumption|]. cbn [bonds]. auto. Qed.

Lemma amp_two (x1 x2 : list (nd K)) t u i1 i j i2 l b : length i1 = length x1 -> bonds x1 l (ldim t) -> 0 < l ->
  amp (x1 ++ t :: u :: x2) (i1 ++ i :: j :: i2) 0 b =
  bigsum (ldim t) (fun a => amp x1 i1 0 a * bigsum (rdim t) (fun c => ent t a i c * bigsum (rdim u) (fun d => ent u c j d * amp x2 i2 d b)))%K.
Proof. intros Hl Hb H0. rewrite (amp_app x1 _ i1 _ 0 b l (ldim t)); auto. Qed.

(** Parts of the chain left and right of a cut. *)
Definition lpart (x1 : list (nd K)) (t : nd K) (i1 : list (list nat)) (i : list nat) (c : nat) : K := amp (x1 ++ [t]) (i1 ++ [i]) 0 c.
Definition rpart (u : nd K) (x2 : list (nd K)) (j : list nat) (i2 : list (list nat)) (c : nat) : K := amp (u :: x2) (j :: i2) c 0.

Theorem vleg2leg_spec (x : ltens K) p x1 t u x2 : mpa_ok x -> cform_ok x ->
  lts x = x1 ++ t :: u :: x2 -> length x1 = p ->
  exists z, vleg2leg x (Z.of_nat p) = Ok z /\ mpa_ok z /\ cform_ok z /\
    lts z = x1 ++ newaxis_last t :: newaxis_first u :: x2 /\
    mshape z = map pdims x1 ++ (pdims t ++ [rdim t]) :: (rdim t :: pdims u) :: map pdims x2 /\
    ranks z = firstn p (ranks x) ++ 1 :: skipn (S p) (ranks x) /\
    canonical_form z = (Z.min (lcan x) (Z.of_nat p), Z.max (rcan x) (Z.of_nat p + 2))%Z /\
    (canon_true x -> canon_true z) /\
    (forall i1 i c d j i2, Forall2 inr i1 (map pdims x1) -> inr i (pdims t) -> inr j (pdims u) -> Forall2 inr i2 (map pdims x2) ->
       c < rdim t -> d < rdim t ->
       amp (lts z) (i1 ++ (i ++ [c]) :: (d :: j) :: i2) 0 0 = (lpart x1 t i1 i c * rpart u x2 j i2 d)%K) /\
    (forall i1 i j i2, Forall2 inr i1 (map pdims x1) -> inr i (pdims t) -> inr j (pdims u) -> Forall2 inr i2 (map pdims x2) ->
       bigsum (rdim t) (fun c => lpart x1 t i1 i c * rpart u x2 j i2 c)%K = amp (lts x) (i1 ++ i :: j :: i2) 0 0).
Proof.
  intros [Hne Hb] Hc E Lp. rewrite E in Hb. destruct (bonds_two _ _ _ _ _ _ Hb) as [B1 [Ht [Hu [Eu B2]]]].
  destruct (newaxis_last_spec t Ht) as [T1 [T2 [T3 [T4 T5]]]]. destruct (newaxis_first_spec u Hu) as [U1 [U2 [U3 [U4 U5]]]].
  set (us := x1 ++ newaxis_last t :: newaxis_first u :: x2).
  assert (Bz : bonds us 1 1) by (apply bonds_two_mk; [rewrite T2; exact B1|exact T1|exact U1|congruence|rewrite U3; exact B2]).
  assert (Nz : us <> []) by (unfold us; destruct x1; discriminate).
  assert (Lz : length us = llen x) by (unfold llen, us; rewrite E; apply around_len).
  assert (Lx : llen x = p + 2 + length x2) by (unfold llen; rewrite E, app_length; cbn [length]; lia).
  destruct Hc as [C1 C2].
  assert (Cz : cf_ok (length us) (Z.min (lcan x) (Z.of_nat p)) (Z.max (rcan x) (Z.of_nat p + 2))) by (rewrite Lz; unfold cf_ok; lia).
  exists (mkLt us (Z.min (lcan x) (Z.of_nat p)) (Z.max (rcan x) (Z.of_nat p + 2))).
  split.
  { unfold vleg2leg. rewrite E. pose proof (list_update2 _ x1 t u x2 newaxis_last newaxis_first p (eq_sym Lp)) as LU.
    destruct (list_update (x1 ++ t :: u :: x2) (Z.of_nat p) newaxis_last) as [ts1|e]; cbn [bind] in *; [|discriminate]. rewrite LU. cbn [bind].
    apply (lt_init_ok _ 1 1); assumption. }
  split; [split; assumption|]. split; [exact Cz|]. split; [reflexivity|].
  split. { unfold mshape, us. cbn [lts]. rewrite map_app. cbn [map]. rewrite T4, U4, Eu. reflexivity. }
  split. { unfold ranks, us. cbn [lts]. rewrite E. rewrite <- Lp. clear -T2 U2 E. destruct x1 as [|v x1].
    - cbn [app tl map firstn skipn length]. rewrite U2. reflexivity.
    - cbn [app tl length]. replace (x1 ++ t :: u :: x2) with ((x1 ++ [t]) ++ u :: x2) by (rewrite <- app_assoc; reflexivity).
      replace (S (length x1)) with (length (map ldim (x1 ++ [t]))) by (rewrite map_length, app_length; cbn; lia).
      rewrite !map_app with (l := x1 ++ [t]). rewrite firstn_at. cbn [map]. rewrite skipn_at. rewrite !map_app. cbn [map]. rewrite T2, U2, <- app_assoc. reflexivity. }
  split; [reflexivity|].
  split. { intros HT. apply (canon_around x1 x2 t u _ _ (lcan x) (rcan x)); [|rewrite Lp; lia|rewrite Lp; lia].
    unfold canon_true, llen in HT. rewrite E in HT. exact HT. }
  split.
  - intros i1 i c d j i2 H1 H2 H3 H4 Hcc Hd. cbn [lts]. unfold us.
    assert (L1 : length i1 = length x1) by (rewrite (Forall2_len _ _ _ _ _ H1); apply map_length).
    rewrite (amp_two _ _ _ _ _ _ _ _ 1) by (rewrite ?T2; auto). unfold lpart, rpart.
    rewrite (amp_app x1 [t] i1 [i] 0 c 1 (ldim t)) by auto. rewrite T2, T3, <- bigsum_mul_r. apply bigsum_ext. intros a Ha.
    rewrite bigsum_1, T5 by auto. rewrite U3, amp_one by exact Hcc. cbn [amp].
    rewrite (bigsum_ext _ (fun e => ent (newaxis_first u) 0 (d :: j) e * amp x2 i2 e 0)%K (fun e => ent u d j e * amp x2 i2 e 0)%K); [ring|].
    intros e He. rewrite U5 by (auto; congruence). reflexivity.
  - intros i1 i j i2 H1 H2 H3 H4. rewrite E. unfold lpart, rpart.
    assert (L1 : length i1 = length x1) by (rewrite (Forall2_len _ _ _ _ _ H1); apply map_length).
    replace (x1 ++ t :: u :: x2) with ((x1 ++ [t]) ++ u :: x2) by (rewrite <- app_assoc; reflexivity).
    replace (i1 ++ i :: j :: i2) with ((i1 ++ [i]) ++ j :: i2) by (rewrite <- app_assoc; reflexivity).
    rewrite (amp_app (x1 ++ [t]) (u :: x2) _ _ 0 0 1 (rdim t)); auto.
    + rewrite !app_length, L1. reflexivity.
    + apply bonds_app. exists (ldim t). split; [exact B1|]. cbn [bonds]. auto.
Qed.

Theorem vleg2leg_last_error (x : ltens K) : lts x <> [] -> vleg2leg x (Z.of_nat (llen x) - 1) = Err IndexError.
Proof.
  intros Hne. unfold vleg2leg.
  assert (L : 0 < llen x) by (unfold llen; destruct (lts x); [congruence|cbn; lia]).
  replace (Z.of_nat (llen x) - 1)%Z with (Z.of_nat (llen x - 1)) by lia.
  unfold list_update at 1. fold (llen x). rewrite pyidx_in by lia. destruct (nth_error (lts x) (llen x - 1)) eqn:E; [|reflexivity].
  cbn [bind]. unfold list_update. assert (SL : forall (A : Type) n (y : A) l, length (set_nth n y l) = length l).
  { clear. intros A n y l. revert n. induction l as [|z l IH]; intros [|n]; cbn; auto. }
  rewrite SL. fold (llen x). replace (Z.of_nat (llen x - 1) + 1)%Z with (Z.of_nat (llen x)) by lia.
  unfold pyidx. destruct (Z.leb_spec 0 (Z.of_nat (llen x))); [|lia]. destruct (Z.ltb_spec (Z.of_nat (llen x)) (Z.of_nat (llen x))); [lia|]. reflexivity.
Qed.

Lemma list_update_len (A : Type) (l : list A) z f l' : list_update l z f = Ok l' -> length l' = length l.
Proof.
  unfold list_update. destruct (pyidx (length l) z); [|discriminate]. destruct (nth_error l n); [|discriminate]. intros E; injection E as <-.
  revert n. induction l as [|y l IH]; intros [|n]; cbn; auto.
Qed.
(** A negative position is never accepted. *)
Theorem vleg2leg_negative (x : ltens K) pos : (pos < 0)%Z -> cform_ok x -> exists e, vleg2leg x pos = Err e.
Proof.
  intros Hp Hc. unfold vleg2leg. destruct (list_update (lts x) pos newaxis_last) as [t1|e] eqn:E1; [|cbn; eauto]. cbn [bind].
  destruct (list_update t1 (pos + 1) newaxis_first) as [t2|e] eqn:E2; [|cbn; eauto]. cbn [bind].
  unfold lt_init. cbn [fst snd]. destruct (0 <? _)%Z; [|cbn; eauto]. cbn [passert].
  replace ((0 <=? Z.min (lcan x) pos)%Z) with false by (symmetry; apply Z.leb_gt; lia). cbn. eauto.
Qed.

(** ** leg2vleg *)
Theorem leg2vleg_spec (x : ltens K) p x1 t u x2 pt pu d : mpa_ok x -> cform_ok x ->
  lts x = x1 ++ t :: u :: x2 -> length x1 = p -> rdim t = 1 -> pdims t = pt ++ [d] -> pdims u = d :: pu ->
  exists z, leg2vleg x (Z.of_nat p) = Ok z /\ mpa_ok z /\ cform_ok z /\
    lts z = x1 ++ take_last0 t :: take_first 0 u :: x2 /\
    mshape z = map pdims x1 ++ pt :: pu :: map pdims x2 /\
    canonical_form z = (Z.min (lcan x) (Z.of_nat p), Z.max (rcan x) (Z.of_nat p + 1))%Z /\
    (canon_true x -> (Z.of_nat p + 2 <= rcan x)%Z -> canon_true z) /\
    (forall i1 i j i2, Forall2 inr i1 (map pdims x1) -> inr i pt -> inr j pu -> Forall2 inr i2 (map pdims x2) ->
       amp (lts z) (i1 ++ i :: j :: i2) 0 0 =
       bigsum d (fun c => amp (lts x) (i1 ++ (i ++ [c]) :: (c :: j) :: i2) 0 0)).
Proof.
  intros [Hne Hb] Hc E Lp R1 Pt Pu. rewrite E in Hb. destruct (bonds_two _ _ _ _ _ _ Hb) as [B1 [Ht [Hu [Eu B2]]]].
  destruct (take_last0_spec t pt d Ht Pt ltac:(lia)) as [T1 [T2 [T3 [T4 T5]]]].
  destruct (take_first_spec u pu d Hu Pu ltac:(lia)) as [U1 [U2 [U3 [U4 U5]]]].
  set (us := x1 ++ take_last0 t :: take_first 0 u :: x2).
  assert (Bz : bonds us 1 1) by (apply bonds_two_mk; [rewrite T2; exact B1|exact T1|exact U1|congruence|rewrite U3; exact B2]).
  assert (Nz : us <> []) by (unfold us; destruct x1; discriminate).
  assert (Lz : length us = llen x) by (unfold llen, us; rewrite E; apply around_len).
  assert (Lx : llen x = p + 2 + length x2) by (unfold llen; rewrite E, app_length; cbn [length]; lia).
  destruct Hc as [C1 C2].
  assert (Cz : cf_ok (length us) (Z.min (lcan x) (Z.of_nat p)) (Z.max (rcan x) (Z.of_nat p + 1))) by (rewrite Lz; unfold cf_ok; lia).
  exists (mkLt us (Z.min (lcan x) (Z.of_nat p)) (Z.max (rcan x) (Z.of_nat p + 1))).
  split.
  { unfold leg2vleg. rewrite E. rewrite (pyget_at _ x1 t (u :: x2) p (eq_sym Lp)). cbn [bind]. rewrite shape_last_lt by exact Ht. cbn [bind].
    rewrite R1. change (1 =? 1) with true. cbn [passert]. replace (Z.of_nat p + 1)%Z with (Z.of_nat (S p)) at 1 by lia.
    replace (x1 ++ t :: u :: x2) with ((x1 ++ [t]) ++ u :: x2) at 1 by (rewrite <- app_assoc; reflexivity).
    rewrite (pyget_at _ (x1 ++ [t]) u x2 (S p)) by (rewrite app_length; cbn; lia). cbn [bind]. rewrite shape0_lt by exact Hu. cbn [bind].
    rewrite Eu, R1. change (1 =? 1) with true. cbn [passert].
    pose proof (list_update2 _ x1 t u x2 take_last0 (take_first 0) p (eq_sym Lp)) as LU.
    destruct (list_update (x1 ++ t :: u :: x2) (Z.of_nat p) take_last0) as [ts1|e]; cbn [bind] in *; [|discriminate]. rewrite LU. cbn [bind].
    apply (lt_init_ok _ 1 1); assumption. }
  split; [split; assumption|]. split; [exact Cz|]. split; [reflexivity|].
  split. { unfold mshape, us. cbn [lts]. rewrite map_app. cbn [map]. rewrite T4, U4. reflexivity. }
  split; [reflexivity|].
  split. { intros HT Hr. apply (canon_around x1 x2 t u _ _ (lcan x) (rcan x)); [|rewrite Lp; lia|rewrite Lp; lia].
    unfold canon_true, llen in HT. rewrite E in HT. exact HT. }
  intros i1 i j i2 H1 H2 H3 H4. cbn [lts]. unfold us. rewrite E.
  assert (L1 : length i1 = length x1) by (rewrite (Forall2_len _ _ _ _ _ H1); apply map_length).
  rewrite (amp_two _ _ _ _ _ _ _ _ 1) by (rewrite ?T2; auto). rewrite T2, T3, U3.
  transitivity (bigsum d (fun c => bigsum (ldim t) (fun a => amp x1 i1 0 a * (ent t a (i ++ [c]) 0 * bigsum (rdim u) (fun e => ent u 0 (c :: j) e * amp x2 i2 e 0))))%K).
  - rewrite bigsum_swap. apply bigsum_ext. intros a Ha. rewrite bigsum_mul_l. f_equal. apply bigsum_ext. intros c Hcc. rewrite T5 by auto. f_equal.
    apply bigsum_ext. intros e He. rewrite U5 by auto. reflexivity.
  - apply bigsum_ext. intros c Hcc. rewrite (amp_two x1 x2 t u _ _ _ _ 1) by auto. rewrite R1. apply bigsum_ext. intros a Ha. rewrite bigsum_1. reflexivity.
Qed.

(** The round trip restores the local tensors. *)
Theorem leg2vleg_vleg2leg (x y : ltens K) p : mpa_ok x -> cform_ok x -> S p < llen x -> vleg2leg x (Z.of_nat p) = Ok y ->
  exists z, leg2vleg y (Z.of_nat p) = Ok z /\ lts z = lts x /\
    canonical_form z = (Z.min (lcan x) (Z.of_nat p), Z.max (rcan x) (Z.of_nat p + 2))%Z /\ (canon_true x -> canon_true z).
Proof.
  intros Hx Hc Hp EV.
  assert (D : exists x1 t u x2, lts x = x1 ++ t :: u :: x2 /\ length x1 = p).
  { exists (firstn p (lts x)). unfold llen in Hp. destruct (skipn p (lts x)) as [|t [|u x2]] eqn:E.
    - apply (f_equal (@length _)) in E. rewrite skipn_length in E. cbn in E. lia.
    - apply (f_equal (@length _)) in E. rewrite skipn_length in E. cbn in E. lia.
    - exists t, u, x2. split; [rewrite <- E; symmetry; apply firstn_skipn|apply firstn_length_le; lia]. }
  destruct D as [x1 [t [u [x2 [E Lp]]]]].
  destruct (vleg2leg_spec x p x1 t u x2 Hx Hc E Lp) as [y' [Ey [Hy [Cy [Ly [_ [_ [Fy [Ty _]]]]]]]]]. rewrite EV in Ey. injection Ey as <-.
  destruct Hx as [Hne Hb]. pose proof Hb as Hb'. rewrite E in Hb'. destruct (bonds_two _ _ _ _ _ _ Hb') as [B1 [Ht [Hu [Eu B2]]]].
  destruct (newaxis_last_spec t Ht) as [T1 [T2 [T3 [T4 T5]]]]. destruct (newaxis_first_spec u Hu) as [U1 [U2 [U3 [U4 U5]]]].
  rewrite Eu in U4. destruct (leg2vleg_spec y p x1 _ _ x2 (pdims t) (pdims u) (rdim t) Hy Cy Ly Lp T3 T4 U4) as [z [Ez [Hz [Cz [Lz [_ [Fz [Tz _]]]]]]]].
  injection Fy as Fy1 Fy2. exists z. split; [exact Ez|].
  destruct (take_last0_spec _ _ _ T1 T4 ltac:(lia)) as [V1 [V2 [V3 [V4 V5]]]]. destruct (take_first_spec _ _ _ U1 U4 ltac:(lia)) as [W1 [W2 [W3 [W4 W5]]]].
  split.
  - rewrite Lz, E. f_equal. f_equal; [|f_equal].
    + apply lt_eq; auto; try congruence. intros a i b Ha Hi Hlb. rewrite V2, T2 in Ha. rewrite V4 in Hi. rewrite V3 in Hlb. rewrite V5, T5 by (rewrite ?T2; auto). reflexivity.
    + apply lt_eq; auto; try congruence. intros a i b Ha Hi Hlb. rewrite W2 in Ha. rewrite W4 in Hi. rewrite W3, U3 in Hlb. rewrite W5, U5 by (rewrite ?U3; auto; congruence). reflexivity.
  - split; [rewrite Fz, Fy1, Fy2; f_equal; lia|]. intros HT. apply Tz; [apply Ty; exact HT|lia].
Qed.

(** ** split *)
Theorem msplit_spec (x : ltens K) p x1 t u x2 : mpa_ok x -> cform_ok x ->
  lts x = x1 ++ t :: u :: x2 -> length x1 = p ->
  exists za zb, msplit x (Z.of_nat p) = Ok (Some za, Some zb) /\ mpa_ok za /\ mpa_ok zb /\
    mshape za = map pdims x1 ++ [pdims t ++ [rdim t]] /\ mshape zb = (rdim t :: pdims u) :: map pdims x2 /\
    cform_ok za /\ cform_ok zb /\ (canon_true x -> canon_true za /\ canon_true zb) /\
    (forall i1 i j i2, Forall2 inr i1 (map pdims x1) -> inr i (pdims t) -> inr j (pdims u) -> Forall2 inr i2 (map pdims x2) ->
       amp (lts x) (i1 ++ i :: j :: i2) 0 0 =
       bigsum (rdim t) (fun c => amp (lts za) (i1 ++ [i ++ [c]]) 0 0 * amp (lts zb) ((c :: j) :: i2) 0 0)%K).
Proof.
  intros Hx Hc E Lp. destruct (vleg2leg_spec x p x1 t u x2 Hx Hc E Lp) as [y [Ey [Hy [Cy [Ly [_ [_ [Fy [Ty [_ Ay]]]]]]]]]].
  destruct Hx as [Hne Hb]. pose proof Hb as Hb'. rewrite E in Hb'. destruct (bonds_two _ _ _ _ _ _ Hb') as [B1 [Ht [Hu [Eu B2]]]].
  destruct (newaxis_last_spec t Ht) as [T1 [T2 [T3 [T4 T5]]]]. destruct (newaxis_first_spec u Hu) as [U1 [U2 [U3 [U4 U5]]]].
  injection Fy as Fy1 Fy2. assert (Lx : llen x = p + 2 + length x2) by (unfold llen; rewrite E, app_length; cbn [length]; lia).
  destruct Hc as [C1 C2].
  set (ta := x1 ++ [newaxis_last t]). set (tb := newaxis_first u :: x2).
  assert (Ba : bonds ta 1 1) by (apply bonds_app; exists (ldim t); split; [exact B1|cbn [bonds]; rewrite T3; auto]).
  assert (Bb : bonds tb 1 1) by (unfold tb; cbn [bonds]; rewrite U3; auto).
  assert (La : length ta = p + 1) by (unfold ta; rewrite app_length; cbn; lia).
  assert (Lb : length tb = 1 + length x2) by reflexivity.
  assert (Sa : firstn (p + 1) (lts y) = ta).
  { rewrite Ly. replace (x1 ++ newaxis_last t :: newaxis_first u :: x2) with (ta ++ tb) by (unfold ta, tb; rewrite <- app_assoc; reflexivity).
    rewrite <- La, firstn_app, Nat.sub_diag, firstn_all. apply app_nil_r. }
  assert (Sb : skipn (p + 1) (lts y) = tb).
  { rewrite Ly. replace (x1 ++ newaxis_last t :: newaxis_first u :: x2) with (ta ++ tb) by (unfold ta, tb; rewrite <- app_assoc; reflexivity).
    rewrite <- La, skipn_app, Nat.sub_diag, skipn_all. reflexivity. }
  set (la := Z.min (lcan y) (Z.of_nat p)). set (ra := Z.min (rcan y) (Z.of_nat p + 1)).
  set (lb := Z.max 0 (lcan y - Z.of_nat p)). set (rb := Z.max 0 (rcan y - Z.of_nat p - 1)).
  assert (Ca : cf_ok (length ta) la ra) by (unfold cf_ok, la, ra; rewrite La, Fy1, Fy2; lia).
  assert (Cb : cf_ok (length tb) lb rb) by (unfold cf_ok, lb, rb; rewrite Lb, Fy1, Fy2; lia).
  exists (mkLt ta la ra), (mkLt tb lb rb). split.
  { unfold msplit. destruct (Z.ltb_spec (Z.of_nat p) 0); [lia|]. destruct (Z.leb_spec (Z.of_nat (llen x)) (Z.of_nat p)); [lia|].
    rewrite Ey. cbn [bind]. rewrite Nat2Z.id, Sa, Sb. fold la ra lb rb.
    rewrite (lt_init_ok ta 1 1) by (auto; unfold ta; destruct x1; discriminate). cbn [bind].
    rewrite (lt_init_ok tb 1 1) by (auto; unfold tb; discriminate). reflexivity. }
  split; [split; [unfold ta; destruct x1; discriminate|exact Ba]|]. split; [split; [unfold tb; discriminate|exact Bb]|].
  split; [unfold mshape, ta; cbn [lts]; rewrite map_app; cbn [map]; rewrite T4; reflexivity|].
  split; [unfold mshape, tb; cbn [lts map]; rewrite U4, Eu; reflexivity|]. split; [exact Ca|]. split; [exact Cb|].
  split.
  { intros HT. specialize (Ty HT). destruct Ty as [TL TR]. unfold canon_true, llen in *. rewrite Ly in TL, TR. cbn [lts lcan rcan].
    assert (Al : length (x1 ++ newaxis_last t :: newaxis_first u :: x2) = p + 2 + length x2) by (rewrite app_length; cbn [length]; lia). rewrite Al in TL, TR.
    split; split; intros k Hk Hlen.
    - rewrite La in Hlen. unfold ta. unfold la in Hk. rewrite app_nth1 by lia. specialize (TL k). rewrite app_nth1 in TL by lia. apply TL; lia.
    - exfalso. unfold ra in Hk. lia.
    - exfalso. unfold lb in Hk. lia.
    - rewrite Lb in Hlen. unfold rb in Hk. specialize (TR (k + p + 1)). rewrite app_nth2 in TR by lia. replace (k + p + 1 - length x1) with (S k) in TR by lia.
      cbn [nth] in TR. unfold tb. apply TR; lia. }
  intros i1 i j i2 H1 H2 H3 H4. rewrite <- Ay by assumption. apply bigsum_ext. intros c Hcc. cbn [lts].
  assert (L1 : length i1 = length x1) by (rewrite (Forall2_len _ _ _ _ _ H1); apply map_length).
  f_equal.
  - unfold lpart, ta. rewrite !(amp_app x1 _ i1 _ 0 _ 1 (ldim t)) by auto. apply bigsum_ext. intros a Ha. rewrite !amp_one by (auto; lia). rewrite T5 by auto. reflexivity.
  - unfold rpart, tb. cbn [amp]. rewrite U3. apply bigsum_ext. intros e He. rewrite U5 by (auto; congruence). reflexivity.
Qed.

Theorem msplit_outside (x : ltens K) pos :
  ((pos < 0)%Z -> msplit x pos = Ok (None, Some x)) /\
  ((Z.of_nat (llen x) <= pos)%Z -> msplit x pos = Ok (Some x, None)).
Proof.
  unfold msplit. split; intros H; destruct (Z.ltb_spec pos 0); try lia; auto. destruct (Z.leb_spec (Z.of_nat (llen x)) pos); [reflexivity|lia].
Qed.
(** The last site is neither outside nor a cut: IndexError. *)
Theorem msplit_last_error (x : ltens K) : lts x <> [] -> msplit x (Z.of_nat (llen x) - 1) = Err IndexError.
Proof.
  intros Hne. assert (L : 0 < llen x) by (unfold llen; destruct (lts x); [congruence|cbn; lia]).
  unfold msplit. destruct (Z.ltb_spec (Z.of_nat (llen x) - 1) 0); [lia|]. destruct (Z.leb_spec (Z.of_nat (llen x)) (Z.of_nat (llen x) - 1)); [lia|].
  rewrite vleg2leg_last_error by exact Hne. reflexivity.
Qed.

(** ** reverse *)
Lemma rev_perm n : is_perm (S n :: seq 1 n ++ [0]).
Proof.
  unfold is_perm. cbn [length]. rewrite app_length, seq_length. cbn [length]. rewrite Nat.add_1_r.
  change (seq 0 (S (S n))) with (0 :: seq 1 (S n)). rewrite seq_S. cbn [Nat.add].
  eapply Permutation_trans; [apply Permutation_cons_append|]. rewrite <- app_assoc. cbn [app].
  apply Permutation_sym. apply Permutation_cons_app. apply Permutation_refl.
Qed.

Lemma gather_rev_shape (a b : nat) (p : list nat) : gather (S (length p) :: seq 1 (length p) ++ [0]) (a :: p ++ [b]) = b :: p ++ [a].
Proof.
  unfold gather. cbn [map]. rewrite map_app. cbn [map nth]. f_equal; [rewrite app_nth2, Nat.sub_diag by lia; reflexivity|].
  f_equal. exact (gather_seq_mid [a] p [b]).
Qed.

Lemma local_reverse_spec (t : nd K) : lt_ok t ->
  let u := local_reverse t in
  lt_ok u /\ ldim u = rdim t /\ rdim u = ldim t /\ pdims u = pdims t /\
  forall a i b, a < ldim t -> inr i (pdims t) -> b < rdim t -> ent u b i a = ent t a i b.
Proof.
  intros Ht u. pose proof (lt_ok_shp _ Ht) as E.
  assert (Eo : (ndim t - 1) :: seq 1 (ndim t - 2) ++ [0] = S (length (pdims t)) :: seq 1 (length (pdims t)) ++ [0]).
  { rewrite (ndim_lt _ Ht). f_equal. f_equal. f_equal. lia. }
  assert (E2 : shp u = rdim t :: pdims t ++ [ldim t]).
  { unfold u, local_reverse. rewrite shp_transpose, Eo, E. apply gather_rev_shape. }
  split; [eapply lt_ok_mk; [apply wf_transpose|exact E2]|]. split; [eapply ldim_mk; exact E2|]. split; [eapply rdim_mk; exact E2|].
  split; [eapply pdims_mk; exact E2|]. intros a i b Ha Hi Hb. unfold ent, u, local_reverse. rewrite Eo.
  assert (Er : b :: i ++ [a] = gather (S (length (pdims t)) :: seq 1 (length (pdims t)) ++ [0]) (a :: i ++ [b])).
  { rewrite <- (inr_length _ _ Hi). symmetry. apply gather_rev_shape. }
  rewrite Er. apply get_transpose_gather; [apply rev_perm|cbn [length]; rewrite app_length, seq_length, (ndim_lt _ Ht); cbn; lia|].
  apply inr_ent; assumption.
Qed.

Lemma reverse_chain (ts : list (nd K)) : forall l r, bonds ts l r ->
  let us := map local_reverse (rev ts) in
  bonds us r l /\ map pdims us = rev (map pdims ts) /\
  forall is a b, Forall2 inr is (map pdims ts) -> a < l -> b < r -> amp us (rev is) b a = amp ts is a b.
Proof.
  induction ts as [|t ts IH]; intros l r Hb us.
  - cbn in Hb. subst. split; [reflexivity|]. split; [reflexivity|]. intros is a b H _ _. inversion H; subst. cbn. apply delta_sym.
  - destruct Hb as [Ht [El Hb]]. destruct (IH _ _ Hb) as [I1 [I2 I3]]. pose proof (local_reverse_spec t Ht) as HS. cbn zeta in HS. destruct HS as [S1 [S2 [S3 [S4 S5]]]].
    subst us. cbn [rev]. rewrite !map_app. cbn [map]. split; [apply bonds_app; exists (rdim t); split; [exact I1|cbn [bonds]; rewrite S2, S3; auto]|].
    split; [cbn [rev]; rewrite I2, S4; reflexivity|].
    intros is a b H Ha Hlb. inversion H as [|i ? is' ? H1 H2]; subst. cbn [rev].
    rewrite (amp_app _ [local_reverse t] (rev is') [i] b a r (rdim t)); auto.
    + cbn [amp]. rewrite S3. apply bigsum_ext. intros c Hc. rewrite I3 by auto. rewrite bigsum_delta_r by exact Ha. rewrite S5 by auto. ring.
    + rewrite rev_length, map_length, rev_length. rewrite (Forall2_len _ _ _ _ _ H2). apply map_length.
Qed.

Theorem mreverse_spec (x : ltens K) : mpa_ok x ->
  exists z, mreverse x = Ok z /\ mpa_ok z /\ mshape z = rev (mshape x) /\ ranks z = rev (ranks x) /\
    canonical_form z = (0%Z, Z.of_nat (llen x)) /\
    forall is, Forall2 inr is (mshape x) -> amp (lts z) (rev is) 0 0 = amp (lts x) is 0 0.
Proof.
  intros [Hne Hb]. pose proof (reverse_chain _ _ _ Hb) as HS. cbn zeta in HS. destruct HS as [B [P A]].
  assert (Hne2 : map local_reverse (rev (lts x)) <> []).
  { intros E. apply (f_equal (@length _)) in E. rewrite map_length, rev_length in E. destruct (lts x); [congruence|discriminate]. }
  destruct (mpa_new_chain _ Hne2 B) as [z [Ez [Hz [Lz [C1 C2]]]]]. exists z. split; [exact Ez|]. split; [exact Hz|].
  split; [unfold mshape; rewrite Lz; exact P|]. split.
  { unfold ranks. rewrite Lz. clear -Hb Hne. set (n := 1) in Hb at 2. clearbody n. set (m := 1) in Hb. clearbody m.
    revert m Hb. induction (lts x) as [|t ts IH]; intros m Hb; [congruence|]. destruct Hb as [Ht [El Hb]].
    destruct ts as [|u ts]; [reflexivity|]. pose proof Hb as [Hu [Eu _]]. specialize (IH ltac:(discriminate) _ Hb).
    cbn [tl] in *. change (rev (t :: u :: ts)) with (rev (u :: ts) ++ [t]).
    assert (N : rev (u :: ts) <> []) by (intros E; apply (f_equal (@length _)) in E; rewrite rev_length in E; discriminate).
    destruct (rev (u :: ts)) as [|v vs] eqn:Er; [congruence|]. cbn [app map tl] in *. rewrite map_app, map_app, IH. cbn [map rev].
    pose proof (local_reverse_spec t Ht) as HS. cbn zeta in HS. destruct HS as [_ [S2 _]]. rewrite S2, Eu. reflexivity. }
  split; [unfold canonical_form; rewrite C1, C2, map_length, rev_length; reflexivity|].
  intros is Hi. rewrite Lz. apply A; auto.
Qed.

(** ** pad_ranks *)
Definition pad_site (t u : nd K) : Prop :=
  lt_ok u /\ pdims u = pdims t /\ ldim t <= ldim u /\ rdim t <= rdim u /\
  forall a i b, a < ldim u -> inr i (pdims t) -> b < rdim u ->
    ent u a i b = if Nat.ltb a (ldim t) && Nat.ltb b (rdim t) then ent t a i b else k0.

Lemma pad_chain ts us : Forall2 pad_site ts us -> forall l r is a b, bonds ts l r -> Forall2 inr is (map pdims ts) ->
  a < l -> b < r -> amp us is a b = amp ts is a b.
Proof.
  induction 1 as [|t u ts us [H1 [H2 [H3 [H4 H5]]]] HF IH]; intros l r is a b Hb Hi Ha Hlb; [inversion Hi; reflexivity|].
  inversion Hi as [|i ? is' ? Hi1 Hi2]; subst. destruct Hb as [Ht [El Hb]]. cbn [amp].
  replace (rdim u) with (rdim t + (rdim u - rdim t)) by lia. rewrite bigsum_split.
  rewrite (bigsum_zero (rdim u - rdim t)).
  - transitivity (bigsum (rdim t) (fun c => ent t a i c * amp ts is' c b))%K; [|reflexivity].
    match goal with |- (?A + _ = ?B)%K => transitivity A; [ring|] end.
    apply bigsum_ext. intros c Hc. rewrite H5 by (auto; lia). destruct (Nat.ltb_spec a (ldim t)); [|lia]. destruct (Nat.ltb_spec c (rdim t)); [|lia].
    cbn [andb]. rewrite (IH _ _ is' c b Hb) by auto. reflexivity.
  - intros c Hc. rewrite H5 by (auto; lia). destruct (Nat.ltb_spec (rdim t + c) (rdim t)); [lia|]. rewrite andb_false_r. ring.
Qed.

Lemma npad_site lp rp (t : nd K) : lt_ok t -> pad_site t (npad lp rp t) /\ ldim (npad lp rp t) = ldim t + lp /\ rdim (npad lp rp t) = rdim t + rp.
Proof.
  intros Ht. set (u := npad lp rp t). assert (E : shp u = (ldim t + lp) :: pdims t ++ [rdim t + rp]) by reflexivity.
  assert (E1 := ldim_mk _ _ _ E). assert (E2 := rdim_mk _ _ _ _ E). split; [|auto].
  split; [eapply lt_ok_mk; [apply wf_tab|exact E]|]. split; [eapply pdims_mk; exact E|]. split; [lia|]. split; [lia|].
  intros a i b Ha Hi Hb. unfold ent at 1, u, npad. rewrite get_tab.
  2:{ apply inr_cons; [lia|]. apply inr_app; [exact Hi|apply inr_single; lia]. }
  cbn [hd]. change (a :: i ++ [b]) with ((a :: i) ++ [b]). rewrite last_snoc. reflexivity.
Qed.

(** Padding list [pad] (one entry per inner bond); [l0] is the padding of the left end. *)
Lemma npad_chain ts : forall l r l0 pad, ts <> [] -> bonds ts l r -> length pad = length ts - 1 ->
  let us := map (fun p => npad (fst (fst p)) (snd (fst p)) (snd p)) (combine (combine (l0 :: pad) (pad ++ [0])) ts) in
  Forall2 pad_site ts us /\ bonds us (l + l0) r /\ map ldim us = zip2 Nat.add (map ldim ts) (l0 :: pad).
Proof.
  induction ts as [|t ts IH]; intros l r l0 pad Hne Hb Hl us; [congruence|]. destruct Hb as [Ht [El Hb]].
  destruct pad as [|p pad].
  - destruct ts; [|cbn in Hl; lia]. cbn in us. subst us. destruct (npad_site l0 0 t Ht) as [N1 [N2 N3]].
    split; [constructor; [exact N1|constructor]|]. split; [|cbn [map zip2]; rewrite N2; reflexivity]. cbn [bonds] in *. split; [apply N1|]. split; lia.
  - destruct ts as [|u0 ts]; [cbn in Hl; lia|]. specialize (IH (rdim t) r p pad ltac:(discriminate) Hb ltac:(cbn in *; lia)). cbn zeta in IH.
    destruct IH as [I1 [I2 I3]]. subst us. cbn [app combine map fst snd] in *. destruct (npad_site l0 p t Ht) as [N1 [N2 N3]].
    split; [constructor; assumption|]. split; [|rewrite I3, N2; reflexivity]. cbn [bonds] in *. split; [apply N1|]. split; [lia|]. rewrite N3. exact I2.
Qed.

Lemma pad_shapes ts us : Forall2 pad_site ts us -> map pdims us = map pdims ts.
Proof. induction 1 as [|t u ts us [_ [H _]] HF IH]; [reflexivity|]. cbn [map]. rewrite H, IH. reflexivity. Qed.

(** Requested ranks. *)
Definition pad_target (x : ltens K) (rk : nat) (force : bool) : list nat :=
  if force then map (fun _ => rk) (ranks x) else map (fun f => Nat.min f rk) (full_rank (mshape x)).

Lemma full_rank_length sh : length (full_rank sh) = length sh - 1.
Proof. unfold full_rank. rewrite map_length, seq_length. reflexivity. Qed.

Lemma ranks_length (x : ltens K) : length (ranks x) = llen x - 1.
Proof. unfold ranks, llen. rewrite map_length. destruct (lts x); cbn; lia. Qed.

Theorem pad_ranks_spec (x : ltens K) rank force rk : mpa_ok x ->
  (rank = Some rk \/ (rank = None /\ ranks x <> [] /\ rk = fold_right Nat.max 0 (ranks x))) ->
  exists z, pad_ranks x rank force = Ok z /\ mpa_ok z /\ mshape z = mshape x /\
    ranks z = zip2 Nat.max (ranks x) (pad_target x rk force) /\ to_array z = to_array x.
Proof.
  intros Hx Hr. pose proof Hx as [Hne Hb].
  set (pad := map (fun p => Nat.max (fst p) (snd p) - fst p) (combine (ranks x) (pad_target x rk force))).
  assert (Lp : length pad = length (lts x) - 1).
  { unfold pad. rewrite map_length, combine_length, ranks_length. unfold pad_target. destruct force; rewrite map_length; [rewrite ranks_length|rewrite full_rank_length, mshape_length]; unfold llen; lia. }
  pose proof (npad_chain (lts x) 1 1 0 pad Hne Hb Lp) as HS. cbn zeta in HS.
  set (us := map (fun p => npad (fst (fst p)) (snd (fst p)) (snd p)) (combine (combine (0 :: pad) (pad ++ [0])) (lts x))) in *.
  destruct HS as [F [B R]]. assert (Hne2 : us <> []) by (intros E; rewrite E in F; inversion F; congruence).
  destruct (mpa_new_chain us Hne2 B) as [z [Ez [Hz [Lz _]]]]. exists z. split.
  { unfold pad_ranks. replace (match rank with Some r => Ok r | None => _ end) with (Ok rk : res nat); [exact Ez|].
    destruct Hr as [->|[-> [Hn ->]]]; [reflexivity|]. destruct (ranks x) as [|r rs]; [congruence|]. f_equal. cbn [fold_right].
    clear. revert r. induction rs as [|s rs IH]; intros r; cbn [fold_right]; [lia|]. specialize (IH r); lia. }
  split; [exact Hz|]. assert (Sz : mshape z = mshape x) by (unfold mshape; rewrite Lz; apply pad_shapes; exact F). split; [exact Sz|]. split.
  - unfold ranks at 1. rewrite Lz. replace (map ldim (tl us)) with (tl (map ldim us)) by (destruct us; reflexivity). rewrite R.
    unfold pad. assert (Lt : length (pad_target x rk force) = length (ranks x)).
    { unfold pad_target. destruct force; rewrite map_length; [reflexivity|]. rewrite full_rank_length, mshape_length, ranks_length. reflexivity. }
    destruct (lts x) as [|t ts] eqn:E; [congruence|]. cbn [map zip2 tl]. change (map ldim ts) with (ranks (mkLt (t :: ts) 0 0)).
    replace (ranks (mkLt (t :: ts) 0 0)) with (ranks x) by (unfold ranks; rewrite E; reflexivity).
    clear -Lt. revert Lt. generalize (pad_target x rk force) as q. induction (ranks x) as [|r rs IH]; intros [|q qs] Lt; try discriminate; [reflexivity|].
    cbn [combine map zip2 fst snd]. rewrite IH by (cbn in Lt; lia). f_equal. lia.
  - apply to_array_eq; auto. intros is Hi. unfold idx_ok in Hi. rewrite Lz in *. rewrite (pad_shapes _ _ F) in Hi. apply (pad_chain _ _ F 1 1); auto.
Qed.

(** [max] of no ranks: a one-site MPArray needs an explicit rank. *)
Theorem pad_ranks_error (x : ltens K) force : ranks x = [] -> pad_ranks x None force = Err ValueError.
Proof. intros E. unfold pad_ranks. rewrite E. reflexivity. Qed.
End Sites.
