(** MPPovm (povm/mppovm.py): the probability map and the Born probabilities. *)
From Verif Require Export MpPovm PfVar4 PfStates2.
Open Scope nat_scope.

(** ** Three legs per site *)
(** Shape of a POVM with outcome dimensions [ns] and Hilbert space dimensions [hs]. *)
Definition tshape (ns hs : list nat) : list (list nat) := zip2 (fun n d => [n; d; d]) ns hs.
(** Outcome, row and column indices of all sites *)
Definition triples (ks is js : list nat) : list (list nat) := zip2 (fun k p => k :: p) ks (pairs is js).

Lemma tshape_leg1 ns : forall hs, length ns = length hs -> leg1 (tshape ns hs) = ns.
Proof. induction ns as [|n ns IH]; intros [|h hs] L; try discriminate; [reflexivity|]. cbn. f_equal. apply IH. cbn in L; lia. Qed.
Lemma tshape_leg2 ns : forall hs, length ns = length hs -> leg2 (tshape ns hs) = hs.
Proof. induction ns as [|n ns IH]; intros [|h hs] L; try discriminate; [reflexivity|]. cbn. f_equal. apply IH. cbn in L; lia. Qed.
Lemma tshape_length ns : forall hs, length ns = length hs -> length (tshape ns hs) = length ns.
Proof. intros hs L. unfold tshape. apply zip2_length. exact L. Qed.
Lemma tshape_app n1 : forall h1 n2 h2, length n1 = length h1 -> tshape (n1 ++ n2) (h1 ++ h2) = tshape n1 h1 ++ tshape n2 h2.
Proof. induction n1 as [|n n1 IH]; intros [|h h1] n2 h2 L; try discriminate; [reflexivity|]. cbn. f_equal. apply IH. cbn in L; lia. Qed.
Lemma triples_cons k ks i is j js : triples (k :: ks) (i :: is) (j :: js) = [k; i; j] :: triples ks is js.
Proof. reflexivity. Qed.
Lemma triples_app k1 : forall i1 j1 k2 i2 j2, length i1 = length k1 -> length j1 = length k1 ->
  triples (k1 ++ k2) (i1 ++ i2) (j1 ++ j2) = triples k1 i1 j1 ++ triples k2 i2 j2.
Proof.
  induction k1 as [|k k1 IH]; intros [|i i1] [|j j1] k2 i2 j2 L1 L2; try discriminate; [reflexivity|]. cbn [app]. rewrite !triples_cons. cbn [app]. f_equal. apply IH; cbn in *; lia.
Qed.
Lemma triples_valid ns : forall hs ks is js, length ns = length hs -> inr ks ns -> inr is hs -> inr js hs -> Forall2 inr (triples ks is js) (tshape ns hs).
Proof.
  induction ns as [|n ns IH]; intros [|h hs] ks is js L H1 H2 H3; try discriminate.
  - inversion H1; inversion H2; inversion H3; subst. constructor.
  - inversion H1 as [|k ? ks' ? Hk H1']; inversion H2 as [|i ? is' ? Hi H2']; inversion H3 as [|j ? js' ? Hj H3']; subst. rewrite triples_cons. cbn [tshape zip2]. constructor; [repeat constructor; assumption|].
    apply IH; auto.
Qed.
Lemma tshape_three ns hs : length ns = length hs -> Forall (fun p => length p = 3) (tshape ns hs).
Proof. revert hs. induction ns as [|n ns IH]; intros [|h hs] L; try discriminate; [constructor|]. cbn. constructor; [reflexivity|]. apply IH. cbn in L; lia. Qed.

Section MPP.
Context {K : StarRing}.
Add Ring Kr : (k_ring K).

(** A POVM that passed the constructor *)
Definition povm_ok (x : ltens K) (ns hs : list nat) : Prop :=
  mpa_pos x /\ cform_ok x /\ length ns = length hs /\ mshape x = tshape ns hs /\ Forall (fun n => n <= 255) ns.

Lemma outdims_leg1 (x : ltens K) : mpa_ok x -> Forall (fun p => length p = 3) (mshape x) -> outdims x = leg1 (mshape x) /\ hdims x = leg2 (mshape x).
Proof.
  intros [_ Hb] H3. unfold outdims, hdims, leg1, leg2, mshape in *. rewrite !map_map. rewrite Forall_map in H3. rewrite Forall_forall in H3. split; apply map_ext_in; intros t Ht;
    rewrite (lt_ok_shp t) by (eapply bonds_in; eassumption); specialize (H3 t Ht); destruct (pdims t) as [|a [|b [|c [|d q]]]]; try discriminate; reflexivity.
Qed.
Lemma povm_dims x ns hs : povm_ok x ns hs -> outdims x = ns /\ hdims x = hs /\ llen x = length ns.
Proof.
  intros ((Hx & _) & _ & L & S & _). destruct (outdims_leg1 x Hx) as [E1 E2]; [rewrite S; apply tshape_three; exact L|].
  rewrite E1, E2, S, tshape_leg1, tshape_leg2 by exact L. repeat split. rewrite <- mshape_length, S. apply tshape_length. exact L.
Qed.
Lemma povm_len x ns hs : povm_ok x ns hs -> 0 < length hs.
Proof.
  intros H. destruct (povm_dims _ _ _ H) as (_ & _ & E). destruct H as (((Hn & _) & _) & _ & L & _). unfold llen in E. destruct (lts x); [congruence|]. cbn in E. lia.
Qed.
Lemma povm_checks_ok (x : ltens K) ns hs : mpa_ok x -> length ns = length hs -> mshape x = tshape ns hs -> Forall (fun n => n <= 255) ns -> povm_checks x = Ok x.
Proof.
  intros Hx L S H. unfold povm_checks. assert (H3 : Forall (fun p => length p = 3) (mshape x)) by (rewrite S; apply tshape_three; exact L).
  pose proof (ndims_legs x 3 Hx H3) as N. change (Z.of_nat 3) with 3%Z in N. rewrite N. cbn [passert].
  assert (E : forallb (fun p => Nat.eqb (nth 1 p 0) (nth 2 p 0)) (mshape x) = true).
  { rewrite S. apply forallb_forall. intros p Hp. unfold tshape in Hp. clear - Hp. revert hs Hp. induction ns as [|n ns IH]; intros [|h hs] Hp; cbn in Hp; try contradiction. destruct Hp as [<-|Hp]; [apply Nat.eqb_refl|eapply IH; exact Hp]. }
  rewrite E. cbn [passert]. destruct (outdims_leg1 x Hx H3) as [-> _]. rewrite S, tshape_leg1 by exact L.
  assert (E2 : forallb (fun d => Nat.leb d 255) ns = true). { apply forallb_forall. intros n Hn. rewrite Forall_forall in H. apply Nat.leb_le. apply H. exact Hn. }
  rewrite E2. reflexivity.
Qed.
Lemma povm_checks_inv (x y : ltens K) : mpa_ok x -> povm_checks x = Ok y -> y = x /\ exists ns hs, length ns = length hs /\ mshape x = tshape ns hs /\ Forall (fun n => n <= 255) ns.
Proof.
  intros Hx. unfold povm_checks.
  destruct (forallb (fun d => (d =? 3)%Z) (ndims x)) eqn:E1; [|discriminate]. cbn [passert].
  destruct (forallb (fun p => Nat.eqb (nth 1 p 0) (nth 2 p 0)) (mshape x)) eqn:E2; [|discriminate]. cbn [passert].
  destruct (forallb (fun d => Nat.leb d 255) (outdims x)) eqn:E3; [|discriminate]. cbn [passert]. intros E. injection E as <-. split; [reflexivity|].
  assert (H3 : Forall (fun p => length p = 3) (mshape x)).
  { pose proof (ndims_all x 3 Hx) as N. change (Z.of_nat 3) with 3%Z in N. rewrite N in E1. rewrite Forall_forall. rewrite forallb_forall in E1. intros p Hp. apply Nat.eqb_eq. apply E1. exact Hp. }
  exists (leg1 (mshape x)), (leg2 (mshape x)). split; [unfold leg1, leg2; rewrite !map_length; reflexivity|]. split.
  - rewrite forallb_forall in E2. rewrite Forall_forall in H3. unfold tshape, leg1, leg2. clear - H3 E2. induction (mshape x) as [|p ps IH]; [reflexivity|]. cbn [map zip2].
    rewrite <- IH by (intros; first [apply H3|apply E2]; right; assumption). f_equal. specialize (H3 p (or_introl eq_refl)). specialize (E2 p (or_introl eq_refl)). destruct p as [|a [|b [|c [|d q]]]]; try discriminate. cbn in *. apply Nat.eqb_eq in E2. congruence.
  - destruct (outdims_leg1 x Hx H3) as [<- _]. rewrite Forall_forall. rewrite forallb_forall in E3. intros n Hn. apply Nat.leb_le. apply E3. exact Hn.
Qed.

Lemma bonds_pos_of_ranks (x y : ltens K) : mpa_ok x -> mpa_ok y -> ranks y = ranks x -> bonds_pos x -> bonds_pos y.
Proof.
  intros Hx Hy R Px. apply (bonds_pos_ranks (lts y) 1 1); [apply Hy|lia|lia|]. change (Forall (fun d => 0 < d) (ranks y)). rewrite R.
  unfold ranks, bonds_pos in *. destruct (lts x) as [|t ts]; [constructor|]. inversion Px; subst. cbn [tl]. rewrite Forall_map. eapply Forall_impl; [|eassumption]. intros ? [? _]. assumption.
Qed.

(** ** probability_map *)
Lemma transpose_triples ns : forall hs, length ns = length hs -> map (fun p => gather (leg_perm (Some [0; 2; 1]%Z) (length p)) p) (tshape ns hs) = tshape ns hs.
Proof. induction ns as [|n ns IH]; intros [|h hs] L; try discriminate; [reflexivity|]. cbn [tshape zip2 map]. f_equal. apply IH. cbn in L; lia. Qed.
Lemma transpose_idx ks : forall is js, length is = length ks -> length js = length ks ->
  map (fun i => gather (leg_perm (Some [0; 2; 1]%Z) (length i)) i) (triples ks js is) = triples ks is js.
Proof. induction ks as [|k ks IH]; intros [|i is] [|j js] L1 L2; try discriminate; [reflexivity|]. rewrite !triples_cons. cbn [map]. f_equal. apply IH; cbn in *; lia. Qed.
(** The combined index of row and column *)
Definition ravs (hs is js : list nat) : list nat := zip2 (fun h p => ravel [h; h] p) hs (pairs is js).
Lemma ravs_cons h hs i is j js : ravs (h :: hs) (i :: is) (j :: js) = ravel [h; h] [i; j] :: ravs hs is js.
Proof. reflexivity. Qed.
Lemma ravs_inr hs : forall is js, inr is hs -> inr js hs -> inr (ravs hs is js) (map (fun h => h * h) hs).
Proof.
  induction hs as [|h hs IH]; intros is js H1 H2; inversion H1 as [|i ? is' ? Hi H1']; inversion H2 as [|j ? js' ? Hj H2']; subst; [constructor|].
  rewrite ravs_cons. cbn [map]. constructor; [|apply IH; assumption]. pose proof (ravel_lt [i; j] [h; h] ltac:(repeat constructor; assumption)) as Q. rewrite !size_cons, size_nil in Q. lia.
Qed.
Lemma pmap_ravel ns : forall hs ks is js, length ns = length hs -> inr ks ns -> inr is hs -> inr js hs ->
  zip2 ravel (zip2 (fun n h => [n; h * h]) ns hs) (pairs ks (ravs hs is js)) = zip2 ravel (tshape ns hs) (triples ks is js).
Proof.
  induction ns as [|n ns IH]; intros [|h hs] ks is js L H1 H2 H3; try discriminate.
  - inversion H1; subst. reflexivity.
  - inversion H1 as [|k ? ks' ? Hk H1']; inversion H2 as [|i ? is' ? Hi H2']; inversion H3 as [|j ? js' ? Hj H3']; subst.
    rewrite ravs_cons, triples_cons. cbn [tshape zip2 pairs]. f_equal; [|apply IH; auto].
    cbn [ravel]. rewrite !size_cons, !size_nil. ring.
Qed.
Theorem probability_map_spec x ns hs : povm_ok x ns hs ->
  exists m, probability_map x = Ok m /\ mpa_ok m /\ bonds_pos m /\ mshape m = zip2 (fun n h => [n; h * h]) ns hs /\ ranks m = ranks x /\
    forall ks is js, inr ks ns -> inr is hs -> inr js hs -> amp (lts m) (pairs ks (ravs hs is js)) 0 0 = amp (lts x) (triples ks js is) 0 0.
Proof.
  intros (Hp & Hc & L & S & H255). pose proof Hp as [Hx HP]. unfold probability_map.
  destruct (mtranspose_spec x (Some [0; 2; 1]%Z) Hx Hc) as (y & Ey & Hy & Sy & Ry & Fy & _ & Ay).
  { intros p Hin. rewrite S in Hin. pose proof (tshape_three ns hs L) as T. rewrite Forall_forall in T. rewrite (T p Hin). cbn. apply perm_skip. apply perm_swap. }
  rewrite Ey. cbn [bind]. rewrite S, transpose_triples in Sy by exact L.
  rewrite (povm_checks_ok y ns hs Hy L Sy H255). cbn [bind].
  assert (Lx : llen x = llen y) by (rewrite <- !mshape_length; congruence).
  assert (Hcy : cform_ok y). { unfold cform_ok in *. unfold canonical_form in Fy. injection Fy as -> ->. rewrite <- Lx. exact Hc. }
  pose proof (mpa_pos_bonds x Hp) as Bx.
  pose proof (bonds_pos_of_ranks x y Hx Hy Ry Bx) as By.
  set (qs := zip2 (fun n h => [n; h * h]) ns hs).
  destruct (mreshape_spec y (RList (map (fun p => [Z.of_nat (nth 0 p 0); (-1)%Z]) (mshape x))) qs Hy Hcy) as (m & Em & Hm & Sm & Rm & Fm & _ & Am).
  { cbn. rewrite S. destruct Hx as [Hne _]. unfold mshape in S. intros C. apply map_eq_nil in C. rewrite C in S. destruct (lts x); [congruence|discriminate]. }
  { cbn [reshape_shapes]. rewrite S. assert (P0 : Forall (fun n => 0 < n) ns).
    { assert (E1 : outdims x = ns) by (apply (povm_dims x ns hs); exact (conj Hp (conj Hc (conj L (conj S H255))))). rewrite <- E1. unfold outdims. rewrite Forall_map. rewrite Forall_forall in *. intros t Ht. specialize (HP t Ht).
      assert (H3 : length (pdims t) = 3). { pose proof (tshape_three ns hs L) as T. rewrite <- S, Forall_forall in T. apply T. apply in_map. exact Ht. }
      rewrite (lt_ok_shp t) in HP |- * by (eapply bonds_in; [apply Hx|exact Ht]). destruct (pdims t) as [|a q]; [discriminate|]. cbn [nth app] in *. rewrite !size_cons in HP. destruct a; [rewrite Nat.mul_0_l, Nat.mul_0_r in HP; lia|lia]. }
    unfold mshape in Sy. unfold qs. unfold bonds_pos in By. clear - L Sy By P0. revert ns hs L Sy P0. induction (lts y) as [|t ts IH]; intros [|n ns] [|h hs] L Sy P0; try discriminate; cbn [tshape zip2 map] in *; [constructor|].
    injection Sy as S1 S2. inversion By as [|? ? B1 B2]; inversion P0 as [|? ? P1 P2]; subst. constructor; [|apply IH; auto].
    cbn [nth]. split; [rewrite S1, !size_cons, size_nil; lia|]. split; [|right; exact B1].
    apply (RT_one [n] (h * h) []); rewrite ?size_cons, ?size_nil; lia. }
  exists m. split; [exact Em|]. split; [exact Hm|]. split.
  { apply (bonds_pos_of_ranks y m); auto. }
  split; [exact Sm|]. split; [congruence|].
  intros ks is js H1 H2 H3. pose proof (inr_length _ _ H1) as L1. pose proof (inr_length _ _ H2) as L2. pose proof (inr_length _ _ H3) as L3.
  rewrite (Am (triples ks is js)).
  - rewrite <- (transpose_idx ks is js) by congruence. apply Ay. rewrite S. apply triples_valid; assumption.
  - rewrite Sy. apply triples_valid; assumption.
  - unfold qs. pose proof (ravs_inr hs is js H2 H3) as Q. unfold pairs. revert Q. generalize (ravs hs is js) as rs. clear - L H1. revert ns hs L H1. induction ks as [|k ks IH]; intros ns hs L H1 rs Q; inversion H1 as [|? n ? ns' Hk H1']; subst; destruct hs as [|h hs]; try discriminate.
    + cbn. constructor.
    + cbn [map] in Q. destruct rs as [|q rs]; inversion Q; subst. cbn [zip2]. constructor; [repeat constructor; assumption|]. apply IH; auto.
  - unfold qs. rewrite Sy. apply pmap_ravel; assumption.
Qed.

(** ** Contraction with a density matrix *)
Lemma pairs_inr ds : forall es is js, length ds = length es -> inr is ds -> inr js es -> Forall2 inr (pairs is js) (pairs ds es).
Proof.
  induction ds as [|d ds IH]; intros [|e es] is js L H1 H2; try discriminate; inversion H1; inversion H2; subst; cbn; constructor; auto.
  repeat (apply inr_cons; [assumption|]). constructor.
Qed.
Lemma dot_vec_spec (w x : ltens K) ds es : mpa_ok w -> mpa_ok x -> mshape w = pairs ds es -> length ds = length es -> mshape x = singles es ->
  exists z, mdot w x (AInt (-1) 0) = Ok z /\ mpa_ok z /\ mshape z = singles ds /\ ranks z = zip2 Nat.mul (ranks w) (ranks x) /\
    canonical_form z = (0%Z, Z.of_nat (llen w)) /\
    forall is, inr is ds -> entry z (singles is) = msum es (fun js => entry w (pairs is js) * entry x (singles js))%K.
Proof.
  intros Hw Hx Sw L Sx.
  destruct (mdot_spec w x (AInt (-1) 0) Hw Hx) as (z & Ez & Hz & Sz & Rz & Fz & Az).
  { cbn [user_axes fst snd]. rewrite Sw, Sx. clear - L. revert es L. induction ds as [|d ds IH]; intros [|e es] L; try discriminate; cbn; constructor; auto.
    split; [|split]; [| |reflexivity].
    - apply (keep_last [d] e).
    - apply (keep_first e []). }
  cbn [user_axes fst snd] in *.
  destruct (mpo_pick ds es L) as [Kw Qw]. destruct (mps_pick es) as [Kx Qx].
  assert (Sz' : mshape z = singles ds).
  { rewrite Sz, Sw, Sx. clear - L. revert es L. induction ds as [|d ds IH]; intros [|e es] L; try discriminate; [reflexivity|].
    cbn [pairs zip2 singles map]. f_equal. apply IH. auto. }
  exists z. repeat (split; [assumption|]). intros is Hi. pose proof (inr_length _ _ Hi) as Li.
  rewrite entry_amp by (auto; unfold valid_idx; rewrite Sz'; apply singles_valid; exact Hi).
  rewrite Sw in Az. rewrite Sx in Az. rewrite Kw, Kx, Qw in Az.
  specialize (Az (singles is) (map (fun _ => []) es)).
  assert (E0 : zip2 (@app nat) (singles is) (map (fun _ => []) es) = singles is).
  { clear - Li L. assert (L' : length is = length es) by lia. clear - L'. revert es L'. induction is as [|i is IH]; intros [|e es] L'; try discriminate; [reflexivity|].
    cbn [singles map zip2 app]. f_equal. apply IH; auto. }
  rewrite E0 in Az. rewrite Az.
  - rewrite msums_singles. apply msum_ext. intros js Hj. pose proof (inr_length _ _ Hj) as Lj.
    rewrite mpo_site_idx, mps_site_idx by lia.
    rewrite <- !entry_amp; auto; unfold valid_idx; rewrite ?Sw, ?Sx; [apply singles_valid; exact Hj|apply pairs_inr; auto].
  - apply singles_valid. exact Hi.
  - clear. induction es; cbn; constructor; auto. constructor.
Qed.
Definition squares (hs : list nat) : list (list nat) := map (fun h => [h; h]) hs.
Lemma squares_legs hs : two_legs (squares hs) /\ leg1 (squares hs) = hs /\ leg2 (squares hs) = hs.
Proof.
  unfold two_legs, squares, leg1, leg2. rewrite Forall_map, !map_map. cbn. rewrite map_id. repeat split. apply Forall_forall. reflexivity.
Qed.
Lemma squares_sizes hs : map (fun p => [size p]) (squares hs) = singles (map (fun h => h * h) hs).
Proof. unfold squares, singles. rewrite !map_map. apply map_ext. intros h. rewrite !size_cons, size_nil. f_equal. lia. Qed.
Lemma squares_ravs hs : forall is js, length is = length hs -> length js = length hs ->
  zip2 (fun p i => [ravel p i]) (squares hs) (pairs is js) = singles (ravs hs is js).
Proof.
  induction hs as [|h hs IH]; intros [|i is] [|j js] L1 L2; try discriminate; [reflexivity|]. rewrite ravs_cons. cbn [squares map pairs zip2 singles]. f_equal. apply IH; cbn in *; lia.
Qed.
(** The Born rule: trace of element [ks] times the matrix [rho]. *)
Definition mborn (x : ltens K) (rho : list nat -> list nat -> K) (ks : list nat) : K :=
  msum (hdims x) (fun is => msum (hdims x) (fun js => entry x (triples ks is js) * rho js is))%K.
Definition den (rho : ltens K) (is js : list nat) : K := entry rho (pairs is js).

Theorem dot_pmap_spec (x pm rho : ltens K) ns hs : povm_ok x ns hs -> probability_map x = Ok pm ->
  mpa_ok rho -> cform_ok rho -> bonds_pos rho -> mshape rho = squares hs ->
  exists z, dot_pmap pm rho = Ok z /\ mpa_ok z /\ bonds_pos z /\ mshape z = singles ns /\ ranks z = zip2 Nat.mul (ranks x) (ranks rho) /\
    canonical_form z = (0%Z, Z.of_nat (llen x)) /\
    forall ks, inr ks ns -> entry z (singles ks) = mborn x (den rho) ks.
Proof.
  intros Hp Epm Hr Hc Br Sr. pose proof (povm_dims _ _ _ Hp) as (D1 & D2 & D3). destruct (probability_map_spec x ns hs Hp) as (m & Em & Hm & Bm & Sm & Rm & Am).
  rewrite Epm in Em. injection Em as <-. pose proof Hp as ((Hx & _) & _ & L & S & _). unfold dot_pmap.
  destruct (mravel_spec rho Hr Hc Br) as (r & Er & Hr' & Sr' & Rr & _ & _ & Ar & _). rewrite Er. cbn [bind].
  rewrite Sr, squares_sizes in Sr'. set (es := map (fun h => h * h) hs) in *.
  assert (Sm' : mshape pm = pairs ns es). { rewrite Sm. unfold es. clear - L. revert hs L. induction ns as [|n ns IH]; intros [|h hs] L; try discriminate; [reflexivity|]. cbn. f_equal. apply IH. cbn in L; lia. }
  assert (Le : length ns = length es) by (unfold es; rewrite map_length; exact L).
  destruct (dot_vec_spec pm r ns es Hm Hr' Sm' Le Sr') as (z & Ez & Hz & Sz & Rz & Fz & Az).
  exists z. split; [exact Ez|]. split; [exact Hz|].
  assert (F : forall v : ltens K, bonds_pos v -> Forall (fun d => 0 < d) (ranks v)).
  { intros v Pv. unfold ranks, bonds_pos in *. destruct (lts v) as [|t ts]; [constructor|]. inversion Pv; subst. cbn [tl].
    apply Forall_map. eapply Forall_impl; [|eassumption]. cbn. tauto. }
  split.
  { apply (bonds_pos_ranks (lts z) 1 1); [apply Hz|lia|lia|]. change (Forall (fun d => 0 < d) (ranks z)). rewrite Rz, Rr.
    pose proof (F pm Bm) as F1. pose proof (F rho Br) as F2. clear - F1 F2. revert F2. generalize (ranks rho).
    induction F1 as [|a l Ha F1 IH]; intros [|b q] F2; cbn; constructor; inversion F2; subst; [nia|auto]. }
  split; [exact Sz|]. split; [congruence|]. split.
  { rewrite Fz. do 2 f_equal. rewrite <- (mshape_length pm), Sm', pairs_length by exact Le. symmetry. exact D3. }
  intros ks Hk. rewrite Az by exact Hk. unfold mborn. rewrite D2.
  transitivity (msums (singles es) (fun q => entry pm (zip2 (fun k q => k :: q) ks q) * entry r q)%K).
  { rewrite msums_singles. apply msum_ext. intros js _. do 2 f_equal. clear. revert js. induction ks as [|k ks IH]; intros [|j js]; cbn; [reflexivity..|]. f_equal. apply IH. }
  unfold es. rewrite <- squares_sizes, msums_ravel. destruct (squares_legs hs) as (Q1 & Q2 & Q3). rewrite (msums_pairs _ _ Q1), Q2, Q3, msum_swap.
  apply msum_ext. intros is Hi. apply msum_ext. intros js Hj. pose proof (inr_length _ _ Hi) as Li. pose proof (inr_length _ _ Hj) as Lj. pose proof (inr_length _ _ Hk) as Lk.
  rewrite squares_ravs by assumption.
  replace (zip2 (fun k q => k :: q) ks (singles (ravs hs js is))) with (pairs ks (ravs hs js is)).
  2:{ generalize (ravs hs js is). clear. induction ks as [|k ks IH]; intros [|j l]; cbn; [reflexivity..|]. f_equal. apply IH. }
  pose proof (ravs_inr hs js is Hj Hi) as Hq. fold es in Hq. f_equal.
  - rewrite !entry_amp; auto.
    + unfold valid_idx. rewrite S. apply triples_valid; assumption.
    + unfold valid_idx. rewrite Sm'. apply pairs_inr; assumption.
  - unfold den. rewrite !entry_amp; auto.
    + rewrite <- (squares_ravs hs js is) by assumption. rewrite <- Sr. apply Ar. rewrite Sr. destruct (squares_legs hs) as (T1 & T2 & T3). apply pairs_valid; rewrite ?T2, ?T3; assumption.
    + unfold valid_idx. rewrite Sr. destruct (squares_legs hs) as (T1 & T2 & T3). apply pairs_valid; rewrite ?T2, ?T3; assumption.
    + unfold valid_idx. rewrite Sr'. apply singles_valid. exact Hq.
Qed.

(** ** Expectations on all windows *)
(** The matrix [rho] of a chain with dimensions [ds], the sites before [s] and from [e] on traced out *)
Definition mred (ds : list nat) (rho : list nat -> list nat -> K) (s e : nat) (is js : list nat) : K :=
  msum (firstn s ds) (fun ks => msum (skipn e ds) (fun ms => rho (ks ++ is ++ ms) (ks ++ js ++ ms))).
(** The POVM fits on every window. *)
Definition fits (hs ds : list nat) : Prop := forall s, s + length hs <= length ds -> firstn (length hs) (skipn s ds) = hs.
(** What is yielded for the window that begins at [s] *)
Definition is_exp (x : ltens K) (ds : list nat) (rho : list nat -> list nat -> K) (s : nat) (z : ltens K) : Prop :=
  mpa_ok z /\ bonds_pos z /\ mshape z = singles (outdims x) /\ canonical_form z = (0%Z, Z.of_nat (llen x)) /\
  forall ks, inr ks (outdims x) -> entry z (singles ks) = mborn x (mred ds rho s (s + llen x)) ks.

Lemma mborn_ext (x : ltens K) f g ks : (forall is js, inr is (hdims x) -> inr js (hdims x) -> f is js = g is js) -> mborn x f ks = mborn x g ks.
Proof. intros H. unfold mborn. apply msum_ext. intros is Hi. apply msum_ext. intros js Hj. rewrite H by assumption. reflexivity. Qed.
Lemma pos_ranks (v : ltens K) : bonds_pos v -> Forall (fun d => 0 < d) (ranks v).
Proof.
  intros Pv. unfold ranks, bonds_pos in *. destruct (lts v) as [|t ts]; [constructor|]. inversion Pv; subst. cbn [tl].
  apply Forall_map. eapply Forall_impl; [|eassumption]. cbn. tauto.
Qed.
Lemma ranks_pos (v : ltens K) : mpa_ok v -> Forall (fun d => 0 < d) (ranks v) -> bonds_pos v.
Proof. intros Hv H. apply (bonds_pos_ranks (lts v) 1 1); [apply Hv|lia|lia|exact H]. Qed.

(** A reduced PMPS *)
Lemma exp_pmps (x pm st z : ltens K) ns hs s : povm_ok x ns hs -> probability_map x = Ok pm -> fits hs (leg1 (mshape st)) -> s + llen x <= llen st ->
  is_reduction st (s, s + llen x) z ->
  exists o, (do rho <- pmps_to_mpo z; dot_pmap pm rho) = Ok o /\ is_exp x (leg1 (mshape st)) (dmat st) s o.
Proof.
  intros Hp Epm Hf Hs (Hz & Lz & Tz & D & _ & A). cbn [fst snd] in *. replace (s + llen x - s) with (llen x) in * by lia.
  pose proof (povm_dims _ _ _ Hp) as (D1 & D2 & D3). pose proof Hp as (_ & _ & L & _).
  assert (Eh : leg1 (mshape z) = hs). { rewrite D, D3, L. apply Hf. unfold leg1. rewrite map_length, mshape_length. lia. }
  destruct (pmps_to_mpo_spec z (proj1 Hz) Tz) as (m & Em & Hm & Sm & Rm & Fm & Am). rewrite Em. cbn [bind]. rewrite Eh in Sm. fold (squares hs) in Sm.
  destruct (dot_pmap_spec x pm m ns hs Hp Epm Hm) as (o & Eo & Ho & Bo & So & _ & Fo & Ao); auto.
  - unfold cform_ok. unfold canonical_form in Fm. injection Fm as -> ->. rewrite <- (mshape_length m), Sm, Lz, D3, L. unfold squares. rewrite map_length. unfold cf_ok. pose proof (povm_len _ _ _ Hp). lia.
  - apply ranks_pos; [exact Hm|]. rewrite Rm. rewrite Forall_map. eapply Forall_impl; [|apply pos_ranks; apply mpa_pos_bonds; exact Hz]. cbn beta. intros; nia.
  - exists o. split; [exact Eo|]. split; [exact Ho|]. split; [exact Bo|]. rewrite D1. split; [exact So|]. split; [exact Fo|].
    intros ks Hk. rewrite Ao by exact Hk. apply mborn_ext. rewrite D2. intros is js Hi Hj. unfold den. rewrite Am by (rewrite Eh; assumption). rewrite A by (rewrite Eh; assumption). reflexivity.
Qed.
(** A partial trace of an MPO *)
Lemma pairs_win ks is js ms : length is = length js -> pairs ks ks ++ pairs is js ++ pairs ms ms = pairs (ks ++ is ++ ms) (ks ++ js ++ ms).
Proof. intros H. rewrite !pairs_app by auto. reflexivity. Qed.
Lemma exp_mpdo (x pm st z : ltens K) ns hs ds s : povm_ok x ns hs -> probability_map x = Ok pm -> mshape st = squares ds -> bonds_pos st -> fits hs ds ->
  s + llen x <= llen st -> is_ptrace st (s, s + llen x) z ->
  exists o, dot_pmap pm z = Ok o /\ is_exp x ds (den st) s o.
Proof.
  intros Hp Epm Sst Bst Hf Hs (Hz & Sz & Rz & Fz & A). cbn [fst snd] in *. replace (s + llen x - s) with (llen x) in * by lia.
  pose proof (povm_dims _ _ _ Hp) as (D1 & D2 & D3). pose proof Hp as (_ & _ & L & _).
  assert (Ld : length ds = llen st) by (rewrite <- mshape_length, Sst; unfold squares; rewrite map_length; reflexivity).
  assert (Eh : mshape z = squares hs). { rewrite Sz, Sst. unfold squares. rewrite skipn_map, firstn_map. f_equal. rewrite D3, L. apply Hf. lia. }
  destruct (dot_pmap_spec x pm z ns hs Hp Epm Hz) as (o & Eo & Ho & Bo & So & _ & Fo & Ao); auto.
  - unfold cform_ok. unfold canonical_form in Fz. injection Fz as -> ->. rewrite <- (mshape_length z), Eh, D3, L. unfold squares. rewrite map_length. unfold cf_ok. pose proof (povm_len _ _ _ Hp). lia.
  - apply ranks_pos; [exact Hz|]. rewrite Rz. apply pos_ranks in Bst. rewrite Forall_forall in *. intros d Hd. apply Bst. eapply in_firstn_skipn. exact Hd.
  - exists o. split; [exact Eo|]. split; [exact Ho|]. split; [exact Bo|]. rewrite D1. split; [exact So|]. split; [exact Fo|].
    intros ks Hk. rewrite Ao by exact Hk. apply mborn_ext. rewrite D2. intros is js Hi Hj. unfold den. rewrite A.
    + rewrite Sst. change (diagd (squares ds)) with (diagd (map (fun d => [d; d]) ds)). rewrite diagd_dd. unfold mred. apply msum_ext. intros ls _. apply msum_ext. intros ms _.
      rewrite pairs_win by (rewrite (inr_length _ _ Hi), (inr_length _ _ Hj); reflexivity). reflexivity.
    + unfold valid_idx. rewrite Eh. destruct (squares_legs hs) as (T1 & T2 & T3). apply pairs_valid; rewrite ?T2, ?T3; assumption.
Qed.

Lemma mapM_windows (f : ltens K -> res (ltens K)) (P : nat * nat -> ltens K -> Prop) (Q : nat -> ltens K -> Prop) w n zs :
  Forall2 P (map (fun s => (s, s + w)) (seq 0 n)) zs ->
  (forall s z, s < n -> P (s, s + w) z -> exists o, f z = Ok o /\ Q s o) -> exists os, mapM f zs = Ok os /\ Forall2 Q (seq 0 n) os.
Proof.
  intros F H. assert (G : forall ss, (forall s, In s ss -> s < n) -> forall zs, Forall2 P (map (fun s => (s, s + w)) ss) zs -> exists os, mapM f zs = Ok os /\ Forall2 Q ss os).
  { induction ss as [|s ss IH]; intros Hs zs' F'; cbn [map] in F'; inversion F' as [|? z ? zs'' Hz F'']; subst; [exists []; split; [reflexivity|constructor]|].
    destruct (H s z) as (o & Eo & Ho); [apply Hs; left; reflexivity|exact Hz|]. destruct (IH (fun t Ht => Hs t (or_intror Ht)) _ F'') as (os & Eos & Hos).
    exists (o :: os). split; [cbn [mapM]; rewrite Eo; cbn [bind]; rewrite Eos; reflexivity|]. constructor; assumption. }
  apply G; [|exact F]. intros s Hs. apply in_seq in Hs. lia.
Qed.
Lemma ndims_one (x : ltens K) : mpa_ok x -> one_leg (mshape x) -> forallb (fun d => (d =? 1)%Z) (ndims x) = true.
Proof. intros Hx H. exact (ndims_legs x 1 Hx H). Qed.
Lemma ndims_two (x : ltens K) : mpa_ok x -> two_legs (mshape x) -> forallb (fun d => (d =? 1)%Z) (ndims x) = false /\ forallb (fun d => (d =? 2)%Z) (ndims x) = true.
Proof.
  intros Hx H. split; [|exact (ndims_legs x 2 Hx H)]. pose proof (ndims_all x 1 Hx) as E. change (Z.of_nat 1) with 1%Z in E. rewrite E.
  destruct Hx as [Hn _]. unfold mshape in *. destruct (lts x) as [|t ts]; [congruence|]. cbn [map] in *. inversion H as [|? ? H1 _]; subst. cbn [forallb]. rewrite H1. reflexivity.
Qed.
(** The matrix of a pure state *)
Definition pure (x : ltens K) (is js : list nat) : K := (entry x (singles is) * kconj (entry x (singles js)))%K.

Section QR.
Variable qr : nd K -> res (nd K * nd K).
Hypothesis Hqr : qr_sound qr.
Theorem expectations_mpdo (x st : ltens K) ns hs ds m : povm_ok x ns hs -> mpa_ok st -> bonds_pos st -> mshape st = squares ds -> fits hs ds ->
  llen x <= llen st -> m = EMpdo \/ m = EAuto ->
  exists zs, expectations qr x st m = Ok (zs, st) /\ Forall2 (is_exp x ds (den st)) (seq 0 (llen st - llen x + 1)) zs.
Proof.
  intros Hp Hst Bst Sst Hf Hl Hm. destruct (probability_map_spec x ns hs Hp) as (pm & Epm & _). pose proof (squares_legs ds) as (T1 & _). rewrite <- Sst in T1.
  unfold expectations. rewrite (proj2 (Nat.leb_le _ _) Hl). cbn [passert]. rewrite Epm. cbn [bind].
  destruct (ndims_two st Hst T1) as [N1 N2]. rewrite N1, N2.
  assert (W : 0 < llen x <= llen st) by (pose proof (povm_len _ _ _ Hp); destruct (povm_dims _ _ _ Hp) as (_ & _ & D3); destruct Hp as (_ & _ & L & _); lia).
  destruct (reductions_mpo_spec st (Some (Z.of_nat (llen x))) None None (map (fun s => (s, s + llen x)) (seq 0 (llen st - llen x + 1)))) as (zs & Ez & Fz); auto.
  { apply windows_width. exact W. }
  { apply Forall_forall. intros p Hip. apply in_map_iff in Hip. destruct Hip as (s & <- & Hs). apply in_seq in Hs. unfold win_ok. cbn. lia. }
  destruct (mapM_windows (dot_pmap pm) (is_ptrace st) (is_exp x ds (den st)) (llen x) _ zs Fz) as (os & Eos & Hos).
  { intros s z Hs Hz. apply (exp_mpdo x pm st z ns hs ds s); auto. lia. }
  exists os. split; [|exact Hos]. destruct Hm; subst m; cbn match; rewrite Ez; cbn [bind]; rewrite Eos; reflexivity.
Qed.
Theorem expectations_pmps (x st : ltens K) ns hs : povm_ok x ns hs -> mpa_pos st -> cform_wk st -> canon_true st -> two_legs (mshape st) ->
  fits hs (leg1 (mshape st)) -> llen x <= llen st ->
  outc (qr_fails qr) (expectations qr x st EPmps) (fun r =>
    Forall2 (is_exp x (leg1 (mshape st)) (dmat st)) (seq 0 (llen st - llen x + 1)) (fst r) /\
    mpa_pos (snd r) /\ mshape (snd r) = mshape st /\ to_array (snd r) = to_array st /\ canon_true (snd r) /\ cform_wk (snd r)).
Proof.
  intros Hp Hst Hc Ht T1 Hf Hl. destruct (probability_map_spec x ns hs Hp) as (pm & Epm & _).
  unfold expectations. rewrite (proj2 (Nat.leb_le _ _) Hl). cbn [passert]. rewrite Epm. cbn [bind].
  assert (W : 0 < llen x <= llen st) by (pose proof (povm_len _ _ _ Hp); destruct (povm_dims _ _ _ Hp) as (_ & _ & D3); destruct Hp as (_ & _ & L & _); lia).
  unfold reductions_pmps. rewrite windows_width by exact W. cbn [bind].
  eapply outc_bind; [apply (red_pmps_loop_spec qr Hqr _ st); auto|].
  - apply Forall_forall. intros p Hip. apply in_map_iff in Hip. destruct Hip as (s & <- & Hs). apply in_seq in Hs. unfold win_ok. cbn. lia.
  - intros [zs y] (A & S & C). cbn [fst snd] in *. destruct (state_after st y Hst Ht S) as (A1 & A2 & A3 & A4).
    destruct (mapM_windows (fun p => do rho <- pmps_to_mpo p; dot_pmap pm rho) (is_reduction st) (is_exp x (leg1 (mshape st)) (dmat st)) (llen x) _ zs A) as (os & Eos & Hos).
    { intros s z Hs Hz. apply (exp_pmps x pm st z ns hs s); auto. lia. }
    rewrite Eos. cbn [bind]. apply outc_ok. cbn [fst snd]. auto 10.
Qed.
Theorem expectations_mps (x st : ltens K) ns hs m : povm_ok x ns hs -> mpa_pos st -> one_leg (mshape st) -> fits hs (leg1 (mshape st)) -> llen x <= llen st ->
  m = EMps \/ m = EAuto ->
  outc (qr_fails qr) (expectations qr x st m) (fun r =>
    Forall2 (is_exp x (leg1 (mshape st)) (pure st)) (seq 0 (llen st - llen x + 1)) (fst r) /\ snd r = st).
Proof.
  intros Hp Hst H1 Hf Hl Hm. destruct (probability_map_spec x ns hs Hp) as (pm & Epm & _).
  unfold expectations. rewrite (proj2 (Nat.leb_le _ _) Hl). cbn [passert]. rewrite Epm. cbn [bind].
  rewrite (ndims_one st (proj1 Hst) H1).
  assert (W : 0 < llen x <= llen st) by (pose proof (povm_len _ _ _ Hp); destruct (povm_dims _ _ _ Hp) as (_ & _ & D3); destruct Hp as (_ & _ & L & _); lia).
  assert (G : outc (qr_fails qr) (do ps <- reductions_mps_as_pmps qr st (Some (Z.of_nat (llen x))) None None;
            do out <- mapM (fun p => do rho <- pmps_to_mpo p; dot_pmap pm rho) ps; Ok (out, st)) (fun r =>
    Forall2 (is_exp x (leg1 (mshape st)) (pure st)) (seq 0 (llen st - llen x + 1)) (fst r) /\ snd r = st)).
  2: destruct Hm; subst m; exact G.
  destruct (mps_to_pmps_spec st (proj1 Hst) H1) as (p & Ep & Hpp & Mp & _ & Cp & _ & Pp).
  unfold reductions_mps_as_pmps. rewrite Ep. cbn [bind].
  assert (Lp : llen p = llen st) by (rewrite <- !mshape_length, Mp; unfold leg1; rewrite !map_length; reflexivity).
  destruct (full_canon p Hpp) as [Wp Tp]; [rewrite Cp, Lp; reflexivity|].
  unfold reductions_pmps. rewrite windows_width by (rewrite Lp; exact W). cbn [bind].
  assert (G : outc (qr_fails qr) (red_pmps_loop qr p (map zwin (map (fun s => (s, s + llen x)) (seq 0 (llen p - llen x + 1)))))
    (fun r => Forall2 (is_reduction p) (map (fun s => (s, s + llen x)) (seq 0 (llen p - llen x + 1))) (fst r))).
  { eapply outc_weaken; [apply (red_pmps_loop_spec qr Hqr _ p); auto|auto|].
    - rewrite Mp. apply two_legs_pad.
    - apply Forall_forall. intros q Hip. apply in_map_iff in Hip. destruct Hip as (s & <- & Hs). apply in_seq in Hs. unfold win_ok. cbn. lia.
    - intros r (A & _). exact A. }
  destruct G as [(r & Er & A)|[Er HF]]; rewrite Er; cbn [bind]; [|right; split; [reflexivity|exact HF]].
  destruct (mapM_windows (fun p => do rho <- pmps_to_mpo p; dot_pmap pm rho) (is_reduction p) (is_exp x (leg1 (mshape p)) (dmat p)) (llen x) _ (fst r) A) as (os & Eos & Hos).
  { intros s z Hs Hz. apply (exp_pmps x pm p z ns hs s); auto; [rewrite Mp, leg1_pad; exact Hf|lia]. }
  rewrite Eos. cbn [bind]. apply outc_ok. cbn [fst snd]. split; [|reflexivity]. rewrite Lp in Hos. rewrite Mp, leg1_pad in Hos.
  assert (Hr : forall s, In s (seq 0 (llen st - llen x + 1)) -> s + llen x <= llen st) by (intros s Hs; apply in_seq in Hs; lia). revert Hr.
  clear - Hos Hp Hst H1 Ep Hf. induction Hos as [|s z ss zs Hz _ IH]; intros Hr; constructor; [|apply IH; intros t Ht; apply Hr; right; exact Ht].
  destruct Hz as (Z1 & Z2 & Z3 & Z4 & Z5). split; [exact Z1|]. split; [exact Z2|]. split; [exact Z3|]. split; [exact Z4|].
  intros ks Hk. rewrite Z5 by exact Hk. apply mborn_ext. intros is js Hi Hj. unfold mred. apply msum_ext. intros ls Hls. apply msum_ext. intros ms Hms.
  unfold pure. specialize (Hr s (or_introl eq_refl)).
  destruct (povm_dims _ _ _ Hp) as (_ & D2 & D3). pose proof Hp as (_ & _ & L & _). rewrite D2 in Hi, Hj.
  assert (Ef : firstn (s + llen x - s) (skipn s (leg1 (mshape st))) = hs).
  { replace (s + llen x - s) with (length hs) by lia. apply Hf. unfold leg1. rewrite map_length, mshape_length. lia. }
  apply dmat_mps; auto; [apply Hst| |]; apply (inr_window _ s (s + llen x)); auto; try lia; rewrite Ef; assumption.
Qed.
Theorem expectations_errors (x st : ltens K) m : 
  (llen st < llen x -> expectations qr x st m = Err AssertionError) /\
  (forall ns hs, povm_ok x ns hs -> llen x <= llen st -> mpa_ok st -> ~ one_leg (mshape st) -> ~ two_legs (mshape st) -> expectations qr x st EAuto = Err ValueError) /\
  (forall ns hs, povm_ok x ns hs -> llen x <= llen st -> expectations qr x st EOther = Err ValueError).
Proof.
  split; [|split].
  - intros H. unfold expectations. rewrite (proj2 (Nat.leb_gt _ _) H). reflexivity.
  - intros ns hs Hp Hl Hst N1 N2. destruct (probability_map_spec x ns hs Hp) as (pm & Epm & _). unfold expectations. rewrite (proj2 (Nat.leb_le _ _) Hl). cbn [passert]. rewrite Epm. cbn [bind].
    pose proof (ndims_all st 1 Hst) as E1. pose proof (ndims_all st 2 Hst) as E2. change (Z.of_nat 1) with 1%Z in E1. change (Z.of_nat 2) with 2%Z in E2. rewrite E1, E2.
    destruct (forallb (fun p => Nat.eqb (length p) 1) (mshape st)) eqn:F1.
    { exfalso. apply N1. unfold one_leg. rewrite Forall_forall. rewrite forallb_forall in F1. intros p Hip. apply Nat.eqb_eq. apply F1. exact Hip. }
    destruct (forallb (fun p => Nat.eqb (length p) 2) (mshape st)) eqn:F2.
    { exfalso. apply N2. unfold two_legs. rewrite Forall_forall. rewrite forallb_forall in F2. intros p Hip. apply Nat.eqb_eq. apply F2. exact Hip. }
    reflexivity.
  - intros ns hs Hp Hl. destruct (probability_map_spec x ns hs Hp) as (pm & Epm & _). unfold expectations. rewrite (proj2 (Nat.leb_le _ _) Hl). cbn [passert]. rewrite Epm. reflexivity.
Qed.
End QR.
End MPP.
