(** reshape, ravel, localouter. *)
From Verif Require Export PfSite2.

(** [reshape_to sh q]: a numpy shape argument [sh], possibly with one -1, that
    stands for the shape [q]. *)
Inductive reshape_to : list Z -> list nat -> Prop :=
| RT_all q : reshape_to (map Z.of_nat q) q
| RT_one q1 d q2 : 0 < size q1 -> 0 < size q2 ->
    reshape_to (map Z.of_nat q1 ++ (-1)%Z :: map Z.of_nat q2) (q1 ++ d :: q2).

Lemma known_nat q tail :
  fold_right (fun z acc => if (z =? -1)%Z then acc else (z * acc)%Z) 1%Z (map Z.of_nat q ++ tail) =
  (Z.of_nat (size q) * fold_right (fun z acc => if (z =? -1)%Z then acc else (z * acc)%Z) 1%Z tail)%Z.
Proof.
  induction q as [|d q IH]; cbn [map app fold_right]; [rewrite size_nil; lia|].
  destruct (Z.eqb_spec (Z.of_nat d) (-1)); [lia|]. rewrite IH, size_cons, Nat2Z.inj_mul. ring.
Qed.

Lemma no_unknown q tail : filter (fun z => (z =? -1)%Z) (map Z.of_nat q ++ tail) = filter (fun z => (z =? -1)%Z) tail.
Proof. induction q as [|d q IH]; [reflexivity|]. cbn [map app filter]. destruct (Z.eqb_spec (Z.of_nat d) (-1)); [lia|exact IH]. Qed.

Lemma no_negative q tail : existsb (fun z => (z <? -1)%Z) (map Z.of_nat q ++ tail) = existsb (fun z => (z <? -1)%Z) tail.
Proof. induction q as [|d q IH]; [reflexivity|]. cbn [map app existsb]. destruct (Z.ltb_spec (Z.of_nat d) (-1)); [lia|exact IH]. Qed.

Lemma to_nat_map q : map Z.to_nat (map Z.of_nat q) = q.
Proof. rewrite map_map. rewrite <- (map_id q) at 2. apply map_ext. intros; apply Nat2Z.id. Qed.

Lemma to_nat_map' q n : map (fun z => if (z =? -1)%Z then n else Z.to_nat z) (map Z.of_nat q) = q.
Proof.
  rewrite map_map. rewrite <- (map_id q) at 2. apply map_ext. intros d.
  destruct (Z.eqb_spec (Z.of_nat d) (-1)); [lia|apply Nat2Z.id].
Qed.

Lemma resolve_shape_spec sh q : reshape_to sh q -> resolve_shape (size q) sh = Some q.
Proof.
  intros H. destruct H as [q|q1 d q2 H1 H2]; unfold resolve_shape.
  - pose proof (known_nat q []) as Ek. rewrite app_nil_r in Ek. rewrite Ek.
    pose proof (no_unknown q []) as Eu. rewrite app_nil_r in Eu. rewrite Eu.
    pose proof (no_negative q []) as En. rewrite app_nil_r in En. rewrite En.
    cbn [existsb filter length fold_right]. rewrite Z.mul_1_r, Z.eqb_refl, to_nat_map. reflexivity.
  - rewrite known_nat, no_unknown, no_negative. cbn [existsb filter fold_right].
    change (-1 <? -1)%Z with false. change (-1 =? -1)%Z with true. cbn [orb].
    pose proof (no_unknown q2 []) as Eu. rewrite app_nil_r in Eu. rewrite Eu.
    pose proof (no_negative q2 []) as En. rewrite app_nil_r in En. rewrite En.
    pose proof (known_nat q2 []) as Ek. rewrite app_nil_r in Ek. rewrite Ek.
    cbn [existsb filter length fold_right]. rewrite Z.mul_1_r.
    destruct (Z.eqb_spec (Z.of_nat (size q1) * Z.of_nat (size q2)) 0) as [E|E]; [nia|].
    rewrite size_app, size_cons.
    replace (Z.of_nat (size q1 * (d * size q2))) with (Z.of_nat d * (Z.of_nat (size q1) * Z.of_nat (size q2)))%Z by nia.
    rewrite Z.mod_mul, Z.div_mul by exact E. cbn [Z.eqb]. f_equal.
    rewrite map_app. cbn [map]. change (-1 =? -1)%Z with true. cbn iota. rewrite !to_nat_map', Nat2Z.id. reflexivity.
Qed.

Lemma reshape_to_virt l r sh q : 0 < l -> 0 < r -> reshape_to sh q ->
  reshape_to (Z.of_nat l :: sh ++ [Z.of_nat r]) (l :: q ++ [r]).
Proof.
  intros Hl Hr H. destruct H as [q|q1 d q2 H1 H2].
  - replace (Z.of_nat l :: map Z.of_nat q ++ [Z.of_nat r]) with (map Z.of_nat (l :: q ++ [r])) by (cbn; rewrite map_app; reflexivity).
    constructor.
  - replace (Z.of_nat l :: (map Z.of_nat q1 ++ (-1)%Z :: map Z.of_nat q2) ++ [Z.of_nat r])
      with (map Z.of_nat (l :: q1) ++ (-1)%Z :: map Z.of_nat (q2 ++ [r])).
    + replace (l :: (q1 ++ d :: q2) ++ [r]) with ((l :: q1) ++ d :: (q2 ++ [r])).
      * constructor; rewrite ?size_cons, ?size_app, ?size_single; nia.
      * cbn. rewrite <- app_assoc. reflexivity.
    + cbn. rewrite map_app, <- app_assoc. reflexivity.
Qed.

Lemma reshape_to_virt_all l r q :
  reshape_to (Z.of_nat l :: map Z.of_nat q ++ [Z.of_nat r]) (l :: q ++ [r]).
Proof.
  replace (Z.of_nat l :: map Z.of_nat q ++ [Z.of_nat r]) with (map Z.of_nat (l :: q ++ [r])) by (cbn; rewrite map_app; reflexivity).
  constructor.
Qed.

Section Shape.
Context {K : StarRing}.
Add Ring Kr : (k_ring K).

Definition rphys (q : list nat) (t : nd K) : nd K := reshape t (ldim t :: q ++ [rdim t]).

Lemma local_reshape_eq (t : nd K) sh q : lt_ok t -> size q = size (pdims t) ->
  reshape_to (Z.of_nat (ldim t) :: sh ++ [Z.of_nat (rdim t)]) (ldim t :: q ++ [rdim t]) ->
  local_reshape t sh = Ok (rphys q t).
Proof.
  intros Ht Hs H. unfold local_reshape, reshape_py.
  replace (size (shp t)) with (size (ldim t :: q ++ [rdim t])).
  - rewrite (resolve_shape_spec _ _ H). reflexivity.
  - rewrite (lt_ok_shp _ Ht), !size_cons, !size_app, Hs. reflexivity.
Qed.

Lemma rphys_spec q (t : nd K) : lt_ok t -> size q = size (pdims t) ->
  same_bonds t (rphys q t) /\ pdims (rphys q t) = q /\
  (forall a i j b, a < ldim t -> b < rdim t -> inr i (pdims t) -> inr j q -> ravel q j = ravel (pdims t) i ->
     ent (rphys q t) a j b = ent t a i b) /\
  (left_iso t -> left_iso (rphys q t)) /\ (right_iso t -> right_iso (rphys q t)).
Proof.
  intros Ht Hs. pose proof (lt_ok_shp _ Ht) as Es. unfold rphys.
  assert (E : shp (reshape t (ldim t :: q ++ [rdim t])) = ldim t :: q ++ [rdim t]) by reflexivity.
  assert (Ep := pdims_mk _ _ _ _ E). assert (El := ldim_mk _ _ _ E). assert (Er := rdim_mk _ _ _ _ E).
  assert (W : ndwf (reshape t (ldim t :: q ++ [rdim t]))).
  { apply wf_reshape; [apply Ht|]. rewrite Es, !size_cons, !size_app, Hs. reflexivity. }
  assert (Ent : forall a i j b, a < ldim t -> b < rdim t -> inr i (pdims t) -> inr j q -> ravel q j = ravel (pdims t) i ->
     ent (reshape t (ldim t :: q ++ [rdim t])) a j b = ent t a i b).
  { intros a i j b Ha Hb Hi Hj Hij. unfold ent. apply get_reshape'. rewrite Es.
    change (a :: j ++ [b]) with ([a] ++ j ++ [b]). change (a :: i ++ [b]) with ([a] ++ i ++ [b]).
    change (ldim t :: q ++ [rdim t]) with ([ldim t] ++ q ++ [rdim t]).
    change (ldim t :: pdims t ++ [rdim t]) with ([ldim t] ++ pdims t ++ [rdim t]).
    rewrite !ravel_app by (try apply inr_single; assumption). rewrite !size_app, Hs, Hij. reflexivity. }
  split; [split; [eapply lt_ok_mk; [exact W|exact E]|split; assumption]|].
  split; [exact Ep|]. split; [exact Ent|].
  assert (F : forall i, inr i (pdims t) -> inr (unravel q (ravel (pdims t) i)) q /\ ravel q (unravel q (ravel (pdims t) i)) = ravel (pdims t) i).
  { intros i Hi. pose proof (ravel_lt _ _ Hi). split; [apply unravel_inr; lia|apply ravel_unravel; lia]. }
  split; intros H x y Hx Hy; rewrite ?El, ?Er, ?Ep in *; rewrite <- (H x y Hx Hy); apply bigsum_ext; intros a Ha;
    rewrite (msum_ravel (pdims t) q) by auto; apply msum_ext; intros i Hi; destruct (F i Hi) as [F1 F2];
    rewrite !(Ent _ i) by assumption; reflexivity.
Qed.

(** Shape arguments accepted for a site of shape [p]: same number of entries, and a
    -1 needs positive bond dimensions. *)
Definition site_reshape_ok (t : nd K) (sh : list Z) (q : list nat) : Prop :=
  size q = size (pdims t) /\ reshape_to sh q /\ (sh = map Z.of_nat q \/ (0 < ldim t /\ 0 < rdim t)).

Lemma site_reshape_eq t sh q : lt_ok t -> site_reshape_ok t sh q -> local_reshape t sh = Ok (rphys q t).
Proof.
  intros Ht [Hs [HR HO]]. apply local_reshape_eq; auto. destruct HO as [->|[Hl Hr]].
  - apply reshape_to_virt_all.
  - apply reshape_to_virt; assumption.
Qed.

Inductive Forall3 {A B C : Type} (R : A -> B -> C -> Prop) : list A -> list B -> list C -> Prop :=
| F3_nil : Forall3 R [] [] []
| F3_cons x y z l m n : R x y z -> Forall3 R l m n -> Forall3 R (x :: l) (y :: m) (z :: n).

Lemma reshape_sites ts shs qs : Forall lt_ok ts -> Forall3 site_reshape_ok ts shs qs ->
  mapM (fun p => local_reshape (fst p) (snd p)) (combine ts shs) = Ok (zip2 rphys qs ts) /\
  Forall2 same_bonds ts (zip2 rphys qs ts) /\ map pdims (zip2 rphys qs ts) = qs /\
  Forall2 (fun t u => (left_iso t -> left_iso u) /\ (right_iso t -> right_iso u)) ts (zip2 rphys qs ts) /\
  forall is js, Forall2 inr is (map pdims ts) -> Forall2 inr js qs ->
    zip2 ravel qs js = zip2 ravel (map pdims ts) is -> same_amp ts (zip2 rphys qs ts) is js.
Proof.
  intros Ho H. induction H as [|t sh q ts shs qs Hs H IH].
  - repeat split; try constructor. intros is js Hi Hj _. inversion Hi; inversion Hj; subst. constructor.
  - inversion Ho; subst. destruct IH as [E [S [P [I A]]]]; [assumption|].
    cbn [combine mapM fst snd zip2 map]. rewrite (site_reshape_eq t sh q) by assumption. cbn [bind]. rewrite E.
    destruct (rphys_spec q t) as [R1 [R2 [R3 R4]]]; [assumption|apply Hs|].
    split; [reflexivity|]. split; [constructor; assumption|]. split; [congruence|]. split; [constructor; assumption|].
    intros is js Hi Hj Eq. inversion Hi as [|i ? is' ? Hi1 Hi2]; subst. inversion Hj as [|j ? js' ? Hj1 Hj2]; subst.
    cbn [zip2] in Eq. injection Eq as Eq1 Eq2. constructor; [apply R1| |apply A; assumption].
    intros a b Ha Hb. apply R3; assumption.
Qed.

(** The shapes requested by an argument of [reshape]. *)
Definition reshape_shapes (x : ltens K) (arg : reshape_arg) : list (list Z) :=
  match arg with
  | RPrune => map (fun p => map Z.of_nat (filter (fun d => Nat.ltb 1 d) p)) (mshape x)
  | ROne sh => map (fun _ => sh) (lts x)
  | RList shs => shs
  end.
Definition reshape_nonempty (arg : reshape_arg) : Prop :=
  match arg with RPrune => True | ROne sh => sh <> [] | RList shs => shs <> [] end.

Theorem mreshape_spec (x : ltens K) arg qs :
  mpa_ok x -> cform_ok x -> reshape_nonempty arg ->
  Forall3 site_reshape_ok (lts x) (reshape_shapes x arg) qs ->
  exists z, mreshape x arg = Ok z /\ mpa_ok z /\ mshape z = qs /\ ranks z = ranks x /\
    canonical_form z = canonical_form x /\ (canon_true x -> canon_true z) /\
    forall is js, Forall2 inr is (mshape x) -> Forall2 inr js qs ->
      zip2 ravel qs js = zip2 ravel (mshape x) is -> amp (lts z) js 0 0 = amp (lts x) is 0 0.
Proof.
  intros Hx Hc Hn H. pose proof Hx as [Hne Hb].
  destruct (reshape_sites _ _ _ (bonds_ok _ _ _ Hb) H) as [E [S [P [I A]]]].
  destruct (lt_init_same x _ Hx Hc S) as [Ei [Hz R]].
  exists (mkLt (zip2 rphys qs (lts x)) (lcan x) (rcan x)). split.
  - unfold mreshape. destruct arg as [|sh|shs]; cbn [reshape_shapes reshape_nonempty] in *.
    + cbn [bind]. rewrite E. cbn [bind]. exact Ei.
    + destruct sh; [congruence|]. cbn [bind]. rewrite E. cbn [bind]. exact Ei.
    + destruct shs; [congruence|]. cbn [bind]. rewrite E. cbn [bind]. exact Ei.
  - split; [exact Hz|]. split; [exact P|]. split; [exact R|]. split; [reflexivity|].
    split; [apply canon_true_sites; exact I|].
    intros is js Hi Hj Eq. cbn [lts]. apply (amp_same (lts x) _ is js) with (l := 1) (r := 1); auto.
Qed.

(** Positive bond dimensions. *)
Definition bonds_pos (x : ltens K) : Prop := Forall (fun t => 0 < ldim t /\ 0 < rdim t) (lts x).

Lemma ravel_site (t : nd K) : 0 < ldim t /\ 0 < rdim t -> site_reshape_ok t [(-1)%Z] [size (pdims t)].
Proof.
  intros H. split; [apply size_single|]. split; [|right; exact H].
  apply (RT_one [] (size (pdims t)) []); rewrite size_nil; lia.
Qed.

Theorem mravel_spec (x : ltens K) : mpa_ok x -> cform_ok x -> bonds_pos x ->
  exists z, mravel x = Ok z /\ mpa_ok z /\ mshape z = map (fun p => [size p]) (mshape x) /\ ranks z = ranks x /\
    canonical_form z = canonical_form x /\ (canon_true x -> canon_true z) /\
    (forall is, Forall2 inr is (mshape x) ->
      amp (lts z) (zip2 (fun p i => [ravel p i]) (mshape x) is) 0 0 = amp (lts x) is 0 0) /\
    mreshape z (RList (map (map Z.of_nat) (mshape x))) = Ok x.
Proof.
  intros Hx Hc Hp. pose proof Hx as [Hne Hb].
  assert (F : Forall3 site_reshape_ok (lts x) (reshape_shapes x (ROne [-1]%Z)) (map (fun p => [size p]) (mshape x))).
  { cbn [reshape_shapes]. unfold mshape. rewrite map_map. unfold bonds_pos in Hp. clear -Hp. induction Hp; cbn [map]; constructor; auto.
    apply ravel_site; assumption. }
  destruct (mreshape_spec x (ROne [-1]%Z) _ Hx Hc ltac:(discriminate) F) as [z [E [Hz [Sz [Rz [Cz [Tz Az]]]]]]].
  exists z. split; [exact E|]. split; [exact Hz|]. split; [exact Sz|]. split; [exact Rz|]. split; [exact Cz|]. split; [exact Tz|].
  split.
  - intros is His. apply Az; [exact His| |].
    + clear -His. induction His as [|i p is ps Hi His IH]; cbn [zip2 map]; constructor; auto.
      apply inr_single. apply ravel_lt; exact Hi.
    + clear -His. induction His as [|i p is ps Hi His IH]; cbn [zip2 map]; [reflexivity|]. f_equal; [|exact IH].
      cbn. rewrite size_nil. lia.
  - (* restoring the shape *)
    assert (Ez : z = mkLt (map (fun t => rphys [size (pdims t)] t) (lts x)) (lcan x) (rcan x)).
    { assert (Em : mravel x = Ok (mkLt (map (fun t => rphys [size (pdims t)] t) (lts x)) (lcan x) (rcan x))).
      { destruct (reshape_sites _ _ _ (bonds_ok _ _ _ Hb) F) as [E1 [S1 _]].
        destruct (lt_init_same x _ Hx Hc S1) as [Ei _]. unfold mravel, mreshape. cbn [bind]. cbn [reshape_shapes] in E1.
        rewrite E1. cbn [bind]. rewrite Ei. f_equal. f_equal. unfold mshape. rewrite map_map. clear.
        induction (lts x) as [|t ts IH]; [reflexivity|]. cbn [map zip2]. f_equal. exact IH. }
      unfold mravel in Em, E. rewrite E in Em. injection Em as ->. reflexivity. }
    subst z. unfold mreshape. cbn [lcan rcan lts].
    assert (Hne2 : map (map Z.of_nat) (mshape x) <> []) by (unfold mshape; destruct (lts x); [congruence|discriminate]).
    destruct (map (map Z.of_nat) (mshape x)) as [|s0 ss] eqn:Es; [congruence|]. rewrite <- Es. cbn [bind]. clear Es Hne2 s0 ss.
    assert (Em : mapM (fun p => local_reshape (fst p) (snd p))
       (combine (map (fun t => rphys [size (pdims t)] t) (lts x)) (map (map Z.of_nat) (mshape x))) = Ok (lts x)).
    { unfold mshape. pose proof (bonds_ok _ _ _ Hb) as Ho. clear -Ho. induction Ho as [|t ts Ht Ho IH]; [reflexivity|].
      cbn [map combine mapM fst snd]. destruct (rphys_spec [size (pdims t)] t Ht (size_single _)) as [[R1 [R2 R3]] [R4 _]].
      rewrite (local_reshape_eq _ _ (pdims t)); [|exact R1|rewrite R4, size_single; reflexivity|apply reshape_to_virt_all].
      cbn [bind]. rewrite IH. cbn [bind]. f_equal. f_equal. unfold rphys at 1. rewrite R2, R3. unfold rphys, reshape. cbn [dat].
      rewrite <- (lt_ok_shp _ Ht). destruct t; reflexivity. }
    rewrite Em. cbn [bind]. rewrite (lt_init_ok _ 1 1); auto. destruct x; reflexivity.
Qed.

(** ** Leading and trailing legs *)
Lemma freeaxes0 n : freeaxes (S n) [0] = seq 1 n.
Proof. apply freeaxes_first. Qed.

Lemma keep_first d p : keep [0%Z] (d :: p) = p /\ pick [0%Z] (d :: p) = [d] /\ legs_ok (length (d :: p)) [0%Z].
Proof.
  unfold keep, pick, legs_ok, leg_list. cbn [map length].
  replace (pyidx (S (length p)) 0) with (Some 0) by (symmetry; apply (pyidx_in 0); lia).
  split; [rewrite freeaxes_first; apply gather_seq_tail|]. split; [reflexivity|].
  split; [intros z [<-|[]]; lia|repeat constructor; auto].
Qed.

Lemma site_idx_first d p i c : length i = length p -> site_idx [0%Z] (d :: p) i [c] = c :: i.
Proof.
  intros H. unfold site_idx, leg_list. cbn [map length].
  replace (pyidx (S (length p)) 0) with (Some 0) by (symmetry; apply (pyidx_in 0); lia).
  assert (D : NoDup [0]) by (repeat constructor; auto).
  assert (B : forall k, In k [0] -> k < S (length p)) by (intros k [<-|[]]; lia).
  rewrite <- (fuse_unique (S (length p)) [0] (c :: i) D B) by (cbn; lia).
  f_equal. rewrite freeaxes_first, <- H. symmetry. apply gather_seq_tail.
Qed.

Lemma pyidx_m1 n : pyidx (S n) (-1) = Some n.
Proof. unfold pyidx. destruct (Z.leb_spec 0 (-1)); [lia|]. destruct (Z.leb_spec 0 (-1 + Z.of_nat (S n))); [|lia]. f_equal. lia. Qed.

Lemma keep_last p d : keep [(-1)%Z] (p ++ [d]) = p /\ pick [(-1)%Z] (p ++ [d]) = [d] /\ legs_ok (length (p ++ [d])) [(-1)%Z].
Proof.
  unfold keep, pick, legs_ok, leg_list. rewrite app_length. cbn [map length]. rewrite Nat.add_1_r, pyidx_m1.
  split; [rewrite freeaxes_last; apply gather_seq_init|].
  split; [cbn; rewrite app_nth2, Nat.sub_diag by lia; reflexivity|].
  split; [intros z [<-|[]]; lia|repeat constructor; auto].
Qed.

Lemma site_idx_last p d i c : length i = length p -> site_idx [(-1)%Z] (p ++ [d]) i [c] = i ++ [c].
Proof.
  intros H. unfold site_idx, leg_list. rewrite app_length. cbn [map length]. rewrite Nat.add_1_r, pyidx_m1.
  assert (D : NoDup [length p]) by (repeat constructor; auto).
  assert (B : forall k, In k [length p] -> k < S (length p)) by (intros k [<-|[]]; lia).
  rewrite <- (fuse_unique (S (length p)) [length p] (i ++ [c]) D B) by (rewrite app_length; cbn; lia).
  f_equal.
  - rewrite freeaxes_last, <- H. symmetry. apply gather_seq_init.
  - cbn. rewrite <- H, app_nth2, Nat.sub_diag by lia. reflexivity.
Qed.

(** ** localouter *)
Lemma newaxis_second_spec (t : nd K) : lt_ok t ->
  same_bonds t (newaxis_second t) /\ pdims (newaxis_second t) = 1 :: pdims t /\
  forall a i b, a < ldim t -> b < rdim t -> inr i (pdims t) -> ent (newaxis_second t) a (0 :: i) b = ent t a i b.
Proof.
  intros Ht. pose proof (lt_ok_shp _ Ht) as Es.
  assert (E : newaxis_second t = rphys (1 :: pdims t) t).
  { unfold newaxis_second, rphys. rewrite Es. reflexivity. }
  rewrite E. destruct (rphys_spec (1 :: pdims t) t Ht) as [R1 [R2 [R3 _]]]; [rewrite size_cons; lia|].
  split; [exact R1|]. split; [exact R2|]. intros a i b Ha Hb Hi. apply R3; auto.
  apply inr_cons; [lia|exact Hi].
Qed.

Theorem localouter_spec (x y : ltens K) : mpa_ok x -> mpa_ok y -> llen x = llen y ->
  exists z, localouter x y = Ok z /\ mpa_ok z /\ mshape z = zip2 (@app nat) (mshape x) (mshape y) /\
    ranks z = zip2 Nat.mul (ranks x) (ranks y) /\
    forall is js, Forall2 inr is (mshape x) -> Forall2 inr js (mshape y) ->
      amp (lts z) (zip2 (@app nat) is js) 0 0 = (amp (lts x) is 0 0 * amp (lts y) js 0 0)%K.
Proof.
  intros [Hx Bx] [Hy By] El. unfold localouter. rewrite El, Nat.eqb_refl. cbn [passert].
  set (xs := map newaxis_second (lts x)). set (ys := map newaxis_second (lts y)).
  assert (N : forall w : ltens K, bonds (lts w) 1 1 -> let ws := map newaxis_second (lts w) in
     bonds ws 1 1 /\ map pdims ws = map (cons 1) (mshape w) /\ map ldim ws = map ldim (lts w) /\
     forall is, Forall2 inr is (mshape w) -> amp ws (map (cons 0) is) 0 0 = amp (lts w) is 0 0).
  { intros w Bw ws.
    assert (F : Forall2 same_bonds (lts w) ws).
    { apply Forall2_map_r. intros t Ht. apply newaxis_second_spec. eapply bonds_in; eassumption. }
    split; [eapply bonds_same; eassumption|]. split.
    { unfold ws, mshape. rewrite !map_map. apply map_ext_in. intros t Ht. apply newaxis_second_spec. eapply bonds_in; eassumption. }
    split; [apply ranks_same; exact F|].
    intros is His. apply (amp_same (lts w) _ is _) with (l := 1) (r := 1); auto.
    unfold ws. unfold mshape in His. apply bonds_ok in Bw. clear -His Bw. revert is His.
    induction Bw as [|t ts Ht Hts IH]; intros is His; inversion His as [|i ? is' ? Hi His']; subst; cbn [map]; constructor.
    - apply newaxis_second_spec; exact Ht.
    - intros a b Ha Hb. apply newaxis_second_spec; assumption.
    - apply IH; exact His'. }
  destruct (N x Bx) as [Bxs [Px [Lx Ax]]]. destruct (N y By) as [Bys [Py [Ly Ay]]]. fold xs in Bxs, Px, Lx, Ax. fold ys in Bys, Py, Ly, Ay.
  assert (HC : Forall2 (dot_compat [0%Z] [0%Z]) (map pdims xs) (map pdims ys)).
  { rewrite Px, Py. assert (El' : length (mshape x) = length (mshape y)) by (rewrite !mshape_length; exact El). clear -El'.
    revert El'. generalize (mshape y). induction (mshape x) as [|p ps IH]; intros [|q qs] E; try discriminate; cbn [map]; constructor.
    - split; [apply keep_first|]. split; [apply keep_first|]. rewrite (proj1 (proj2 (keep_first 1 p))), (proj1 (proj2 (keep_first 1 q))). reflexivity.
    - apply IH. injection E as E. exact E. }
  destruct (amp_dots (AInt 0 0) xs ys 1 1 1 1 Bxs Bys HC) as [us [E [B [P [L A]]]]]. cbn [user_axes fst snd] in *.
  assert (Em : mapM (fun p => local_dot (newaxis_second (fst p)) (newaxis_second (snd p)) ([1%Z], [1%Z])) (combine (lts x) (lts y)) = Ok us).
  { rewrite <- E. unfold xs, ys. clear. generalize (lts y). induction (lts x) as [|t ts IH]; intros us'; [reflexivity|].
    destruct us' as [|u us']; [reflexivity|]. cbn [combine map mapM fst snd]. rewrite IH. reflexivity. }
  rewrite Em. cbn [bind].
  assert (P' : map pdims us = zip2 (@app nat) (mshape x) (mshape y)).
  { rewrite P, Px, Py. clear. generalize (mshape y). induction (mshape x) as [|p ps IH]; intros qs; [reflexivity|].
    destruct qs as [|q qs]; [reflexivity|]. cbn [map zip2]. rewrite (proj1 (keep_first 1 p)), (proj1 (keep_first 1 q)), IH. reflexivity. }
  assert (Hlen : length us = llen y).
  { rewrite <- (map_length pdims us), P', zip2_length, mshape_length by (rewrite !mshape_length; exact El). exact El. }
  assert (Hne : us <> []) by (intros ->; cbn in Hlen; unfold llen in Hlen; destruct (lts y); [congruence|discriminate]).
  destruct (mpa_new_chain us Hne B) as [z [Ez [Hz [Lz [Cl Cr]]]]]. exists z. split; [exact Ez|]. split; [exact Hz|].
  split; [unfold mshape at 1; rewrite Lz; exact P'|]. split.
  { rewrite Lx, Ly in L. unfold ranks. rewrite Lz. destruct (lts x) as [|tx txs]; [congruence|]. destruct (lts y) as [|ty tys]; [congruence|].
    destruct us as [|u us]; [congruence|]. cbn [map zip2] in L. injection L as _ L. exact L. }
  intros is js Hi Hj. rewrite Lz.
  change 0 with (0 * 1 + 0) at 1 2. rewrite A; auto.
  - rewrite <- Ax, <- Ay by assumption.
    assert (Epk : map (fun t => pick [0%Z] (pdims t)) xs = map (fun _ => [1]) (mshape x)).
    { rewrite <- (map_map pdims (pick [0%Z])), Px, map_map. apply map_ext. intros p. apply keep_first. }
    rewrite Epk, Px, Py.
    assert (S1 : forall ps (f : list (list nat) -> K), msums (map (fun _ : list nat => [1]) ps) f = f (map (fun _ => [0]) ps)).
    { induction ps as [|p ps IHp]; intros f; cbn [map msums]; [reflexivity|]. cbn [msum]. rewrite bigsum_1, IHp. reflexivity. }
    rewrite S1.
    assert (Z1 : forall ps is, Forall2 inr is ps -> zip3 (site_idx [0%Z]) (map (cons 1) ps) is (map (fun _ => [0]) ps) = map (cons 0) is).
    { clear. induction 1 as [|i p is ps Hi His IH]; [reflexivity|]. cbn [map zip3].
      rewrite site_idx_first by (apply (inr_length _ _ Hi)). rewrite IH. reflexivity. }
    rewrite Z1 by exact Hi. f_equal.
    assert (El' : map (fun _ : list nat => [0]) (mshape x) = map (fun _ => [0]) (mshape y)).
    { assert (El' : length (mshape x) = length (mshape y)) by (rewrite !mshape_length; exact El). clear -El'.
      revert El'. generalize (mshape y). induction (mshape x) as [|p ps IH]; intros [|q qs] E; try discriminate; [reflexivity|].
      cbn [map]. f_equal. apply IH. injection E as E; exact E. }
    rewrite El'. rewrite Z1 by exact Hj. reflexivity.
  - rewrite <- (map_map pdims (keep [0%Z])), Px, map_map.
    rewrite (map_ext _ (fun p => p)) by (intros p; apply keep_first). rewrite map_id. exact Hi.
  - rewrite <- (map_map pdims (keep [0%Z])), Py, map_map.
    rewrite (map_ext _ (fun p => p)) by (intros p; apply keep_first). rewrite map_id. exact Hj.
Qed.
End Shape.
