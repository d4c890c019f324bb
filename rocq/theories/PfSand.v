(** [sandwich] is an inner product of [dot]. *)
From Verif Require Export PfEnv2.
Open Scope nat_scope.
Section Sand.
Context {K : StarRing}.
Add Ring Kr : (k_ring K).

Lemma bonds_pos_ranks (ts : list (nd K)) : forall l r, bonds ts l r -> 0 < l -> 0 < r ->
  Forall (fun d => 0 < d) (map ldim (tl ts)) -> Forall (fun t => 0 < ldim t /\ 0 < rdim t) ts.
Proof.
  induction ts as [|t ts IH]; intros l r B Hl Hr H; [constructor|]. destruct B as (_ & E & B). subst l. cbn [tl] in H.
  destruct ts as [|u ts].
  - cbn in B. subst. constructor; auto.
  - cbn [map] in H. inversion H as [|? ? H1 H2]; subst. pose proof B as B'. destruct B' as (_ & E & _).
    constructor; [split; [exact Hl|rewrite <- E; exact H1]|]. eapply IH; [exact B|rewrite <- E; exact H1|exact Hr|exact H2].
Qed.
Lemma mpo_pick ds es : length ds = length es ->
  map (keep [(-1)%Z]) (pairs ds es) = singles ds /\ map (pick [(-1)%Z]) (pairs ds es) = singles es.
Proof.
  revert es. induction ds as [|d ds IH]; intros [|e es] L; try discriminate; [split; reflexivity|].
  injection L as L. destruct (IH es L) as [E1 E2]. 
  split; [change (keep [(-1)%Z] [d; e] :: map (keep [(-1)%Z]) (pairs ds es) = [d] :: singles ds); rewrite E1; reflexivity|].
  change (pick [(-1)%Z] [d; e] :: map (pick [(-1)%Z]) (pairs ds es) = [e] :: singles es); rewrite E2; reflexivity.
Qed.
Lemma mps_pick es : map (keep [0%Z]) (singles es) = map (fun _ => []) es /\ map (pick [0%Z]) (singles es) = singles es.
Proof.
  induction es as [|e es [E1 E2]]; [split; reflexivity|]. 
  split; [change (keep [0%Z] [e] :: map (keep [0%Z]) (singles es) = [] :: map (fun _ => []) es); rewrite E1; reflexivity|].
  change (pick [0%Z] [e] :: map (pick [0%Z]) (singles es) = [e] :: singles es); rewrite E2; reflexivity.
Qed.
Lemma mpo_site_idx ds : forall es is cs, length ds = length es -> length is = length ds -> length cs = length es ->
  zip3 (site_idx [(-1)%Z]) (pairs ds es) (singles is) (singles cs) = pairs is cs.
Proof.
  induction ds as [|d ds IH]; intros [|e es] [|i is] [|c cs] L1 L2 L3; try discriminate; [reflexivity|].
  cbn [pairs zip2 singles map zip3]. f_equal. apply IH; auto.
Qed.
Lemma mps_site_idx es : forall cs, length cs = length es ->
  zip3 (site_idx [0%Z]) (singles es) (map (fun _ => []) es) (singles cs) = singles cs.
Proof.
  induction es as [|e es IH]; intros [|c cs] L; try discriminate; [reflexivity|]. cbn [singles map zip3]. f_equal. apply IH; auto.
Qed.

Theorem sandwich_inner (w x y : ltens K) ds es :
  mpa_ok w -> mpa_ok x -> mpa_ok y -> bonds_pos w -> bonds_pos x -> bonds_pos y ->
  mshape w = pairs ds es -> length ds = length es -> mshape x = singles es -> mshape y = singles ds ->
  exists z a, mdot w x (AInt (-1) 0) = Ok z /\ minner y z = Ok a /\ sandwich w x (Some y) = Ok (get a []).
Proof.
  intros Hw Hx Hy Pw Px Py Sw L Sx Sy.
  destruct (mdot_spec w x (AInt (-1) 0) Hw Hx) as (z & Ez & Hz & Sz & Rz & _ & Az).
  { cbn [user_axes fst snd]. rewrite Sw, Sx. clear - L. revert es L. induction ds as [|d ds IH]; intros [|e es] L; try discriminate; cbn; constructor; auto.
    split; [|split]; [| |reflexivity].
    - apply (keep_last [d] e).
    - apply (keep_first e []). }
  cbn [user_axes fst snd] in *.
  destruct (mpo_pick ds es L) as [Kw Qw]. destruct (mps_pick es) as [Kx Qx].
  assert (Sz' : mshape z = singles ds).
  { rewrite Sz, Sw, Sx. clear - L. revert es L. induction ds as [|d ds IH]; intros [|e es] L; try discriminate; [reflexivity|].
    cbn [pairs zip2 singles map]. f_equal. apply IH. auto. }
  assert (Pz : bonds_pos z).
  { apply (bonds_pos_ranks (lts z) 1 1); [apply Hz|lia|lia|]. change (Forall (fun d => 0 < d) (ranks z)). rewrite Rz.
    assert (F : forall v : ltens K, mpa_ok v -> bonds_pos v -> Forall (fun d => 0 < d) (ranks v)).
    { intros v _ Pv. unfold ranks, bonds_pos in *. destruct (lts v) as [|t ts]; [constructor|]. inversion Pv; subst. cbn [tl].
      apply Forall_map. eapply Forall_impl; [|eassumption]. cbn. tauto. }
    pose proof (F w Hw Pw) as F1. pose proof (F x Hx Px) as F2. clear - F1 F2. revert F2. generalize (ranks x).
    induction F1 as [|a l Ha F1 IH]; intros [|b m] F2; cbn; constructor; inversion F2; subst; [nia|auto]. }
  destruct (minner_spec y z Hy Hz Py Pz) as (a & Ea & _ & _ & Ga); [congruence|].
  exists z, a. split; [exact Ez|]. split; [exact Ea|]. rewrite (sandwich_spec w x y ds es) by assumption. f_equal.
  rewrite Ga, Sy, msums_singles. unfold melem. apply msum_ext. intros is Hi.
  rewrite Sw in Az. rewrite Sx in Az. rewrite Kw, Kx, Qw in Az.
  pose proof (inr_length _ _ Hi) as Li.
  specialize (Az (singles is) (map (fun _ => []) es)).
  assert (E0 : zip2 (@app nat) (singles is) (map (fun _ => []) es) = singles is).
  { clear - Li L. assert (L' : length is = length es) by lia. clear - L'. revert es L'. induction is as [|i is IH]; intros [|e es] L'; try discriminate; [reflexivity|].
    cbn [singles map zip2 app]. f_equal. apply IH; auto. }
  rewrite E0 in Az. rewrite Az.
  - rewrite msums_singles, <- msum_mul_l. apply msum_ext. intros js Hj. pose proof (inr_length _ _ Hj) as Lj.
    rewrite mpo_site_idx, mps_site_idx by lia.
    rewrite <- !entry_amp; auto; unfold valid_idx; rewrite ?Sw, ?Sx, ?Sy; try apply singles_valid; auto.
    + ring.
    + clear - Hi Hj L. revert es L js Hj. induction Hi; intros [|e es] L js Hj; try discriminate; inversion Hj; subst; cbn; constructor; auto.
      repeat (apply inr_cons; [assumption|]). constructor.
  - apply singles_valid. exact Hi.
  - clear. induction es; cbn; constructor; auto. constructor.
Qed.
End Sand.
