(** Conversions between MPS, PMPS and MPO, and the density matrix of a PMPS. *)
From Verif Require Export MpsMpo PfHistory.

(** ** Two legs per site *)
(** One index for the first and one for the second leg of every site. *)
Definition pairs (is cs : list nat) : list (list nat) := zip2 (fun i c => [i; c]) is cs.
Definition leg1 (ps : list (list nat)) : list nat := map (fun p => nth 0 p 0) ps.
Definition leg2 (ps : list (list nat)) : list nat := map (fun p => nth 1 p 0) ps.
Definition two_legs (ps : list (list nat)) : Prop := Forall (fun p => length p = 2) ps.

Lemma two_legs_cons p ps : two_legs (p :: ps) -> exists s a, p = [s; a] /\ two_legs ps.
Proof.
  intros H. apply Forall_cons_iff in H. destruct H as [H1 H2].
  destruct p as [|s [|a [|? ?]]]; try discriminate. exists s, a. auto.
Qed.
Lemma pairs_app is1 cs1 is2 cs2 : length is1 = length cs1 -> pairs (is1 ++ is2) (cs1 ++ cs2) = pairs is1 cs1 ++ pairs is2 cs2.
Proof.
  revert cs1. induction is1 as [|i is1 IH]; intros [|c cs1] H; try discriminate; [reflexivity|].
  cbn. f_equal. apply IH. injection H; auto.
Qed.
Lemma pairs_valid ps : forall is cs, two_legs ps -> inr is (leg1 ps) -> inr cs (leg2 ps) -> Forall2 inr (pairs is cs) ps.
Proof.
  induction ps as [|p ps IH]; intros is cs H Hi Hc.
  - inversion Hi; subst. constructor.
  - destruct (two_legs_cons _ _ H) as (s & a & -> & H').
    inversion Hi; subst. inversion Hc; subst. cbn. constructor; [|apply IH; auto].
    repeat constructor; auto.
Qed.
Lemma pairs_length is cs : length is = length cs -> length (pairs is cs) = length is.
Proof. apply zip2_length. Qed.
Lemma leg1_app a b : leg1 (a ++ b) = leg1 a ++ leg1 b. Proof. apply map_app. Qed.
Lemma leg2_app a b : leg2 (a ++ b) = leg2 a ++ leg2 b. Proof. apply map_app. Qed.
Lemma two_legs_app a b : two_legs (a ++ b) <-> two_legs a /\ two_legs b. Proof. apply Forall_app. Qed.

Lemma map_tl' (A B : Type) (f : A -> B) l : map f (tl l) = tl (map f l).
Proof. destruct l; reflexivity. Qed.

Section States.
Context {K : StarRing}.
Add Ring Kr : (k_ring K).

Lemma msums_pairs ps : forall (f : list (list nat) -> K), two_legs ps ->
  msums ps f = msum (leg1 ps) (fun is => msum (leg2 ps) (fun cs => f (pairs is cs))).
Proof.
  induction ps as [|p ps IH]; intros f H; [reflexivity|].
  destruct (two_legs_cons _ _ H) as (s & a & -> & H'). cbn.
  apply bigsum_ext. intros i Hi.
  rewrite msum_bigsum_swap. apply bigsum_ext. intros c Hc. apply IH. exact H'.
Qed.

(** The density matrix of a PMPS with system legs first and ancilla legs second:
    entry (is, js) is the sum over all ancilla indices. *)
Definition dmat (x : ltens K) (is js : list nat) : K :=
  msum (leg2 (mshape x)) (fun cs => entry x (pairs is cs) * kconj (entry x (pairs js cs)))%K.

(** The same for a chain with open bonds, summed over the boundary bonds. *)
Definition dmc (ts : list (nd K)) (l r : nat) (is js : list nat) : K :=
  bigsum l (fun a => bigsum r (fun b => msum (leg2 (map pdims ts))
    (fun cs => amp ts (pairs is cs) a b * kconj (amp ts (pairs js cs) a b))))%K.

Lemma dmat_dmc (x : ltens K) is js : mpa_ok x -> two_legs (mshape x) -> inr is (leg1 (mshape x)) -> inr js (leg1 (mshape x)) ->
  dmat x is js = dmc (lts x) 1 1 is js.
Proof.
  intros Hx H Hi Hj. unfold dmat, dmc. cbn [bigsum]. change (map pdims (lts x)) with (mshape x).
  rewrite (msum_ext _ _ (fun cs => amp (lts x) (pairs is cs) 0 0 * kconj (amp (lts x) (pairs js cs) 0 0))%K).
  - ring.
  - intros cs Hc. rewrite !entry_amp; auto; apply pairs_valid; auto.
Qed.

(** ** pmps_to_mpo (mpsmpo.py 360) *)
Lemma zip2_rev_pairs is cs : map (@rev nat) (pairs is cs) = pairs cs is.
Proof. revert cs. induction is as [|i is IH]; intros [|c cs]; cbn; [reflexivity..|]. f_equal. apply IH. Qed.
Lemma two_legs_compat ps : two_legs ps -> Forall2 (dot_compat [(-1)%Z] [0%Z]) ps (map (@rev nat) ps).
Proof.
  induction ps as [|p ps IH]; intros H; [constructor|].
  destruct (two_legs_cons _ _ H) as (s & a & -> & H'). cbn [map]. constructor; [|auto].
  pose proof (keep_last [s] a) as (_ & P1 & L1). pose proof (keep_first a [s]) as (_ & P2 & L2).
  split; [exact L1|]. split; [exact L2|]. cbn [rev app]. etransitivity; [exact P1|symmetry; exact P2].
Qed.
Definition singles (is : list nat) : list (list nat) := map (fun i => [i]) is.
Lemma two_legs_dots ps : two_legs ps ->
  map (keep [(-1)%Z]) ps = singles (leg1 ps) /\ map (keep [0%Z]) (map (@rev nat) ps) = singles (leg1 ps) /\
  map (pick [(-1)%Z]) ps = singles (leg2 ps) /\
  zip2 (fun p q => keep [(-1)%Z] p ++ keep [0%Z] q) ps (map (@rev nat) ps) = map (fun d => [d; d]) (leg1 ps) /\
  forall is cs, length is = length ps -> length cs = length ps ->
    zip3 (site_idx [(-1)%Z]) ps (singles is) (singles cs) = pairs is cs /\
    zip3 (site_idx [0%Z]) (map (@rev nat) ps) (singles is) (singles cs) = pairs cs is.
Proof.
  induction ps as [|p ps IH]; intros H.
  { repeat split; intros; destruct is, cs; try discriminate; reflexivity. }
  destruct (two_legs_cons _ _ H) as (s & a & -> & H'). destruct (IH H') as (A & B & C & D & E).
  pose proof (keep_last [s] a) as (K1 & P1 & L1). pose proof (keep_first a [s]) as (K2 & P2 & L2).
  cbn [app] in *. cbn [map rev app leg1 leg2 singles nth zip2]. 
  fold (leg1 ps) (leg2 ps). rewrite A, B, C, D, K1, K2, P1. repeat split; try reflexivity.
  all: destruct is as [|i is], cs as [|c cs]; try discriminate; cbn [singles map zip3 pairs zip2];
    destruct (E is cs) as (E1 & E2); try (cbn in *; lia);
    fold (singles is) (singles cs) (pairs is cs) (pairs cs is); f_equal; auto.
Qed.
Lemma singles_valid is ds : inr is ds -> Forall2 inr (singles is) (singles ds).
Proof. induction 1; cbn; constructor; auto. apply inr_single. auto. Qed.
Lemma msums_singles ds (f : list (list nat) -> K) : msums (singles ds) f = msum ds (fun cs => f (singles cs)).
Proof. revert f. induction ds as [|d ds IH]; intros f; [reflexivity|]. cbn. apply bigsum_ext. intros i _. apply IH. Qed.
Lemma zip2_app_singles is js : zip2 (@app nat) (singles is) (singles js) = pairs is js.
Proof. revert js. induction is as [|i is IH]; intros [|j js]; cbn; [reflexivity..|]. f_equal. apply IH. Qed.

Theorem pmps_to_mpo_spec (x : ltens K) : mpa_ok x -> two_legs (mshape x) ->
  exists z, pmps_to_mpo x = Ok z /\ mpa_ok z /\ mshape z = map (fun d => [d; d]) (leg1 (mshape x)) /\
    ranks z = map (fun r => r * r) (ranks x) /\ canonical_form z = (0%Z, Z.of_nat (llen x)) /\
    forall is js, inr is (leg1 (mshape x)) -> inr js (leg1 (mshape x)) ->
      entry z (pairs is js) = dmat x is js.
Proof.
  intros Hx H2. unfold pmps_to_mpo.
  destruct (madj_spec x Hx) as (a & Ea & Ha & Sa & Ra & Fa & Aa). rewrite Ea. cbn [bind].
  destruct (two_legs_dots _ H2) as (A & B & C & D & E).
  pose proof (mdot_spec x a (AInt (-1) 0) Hx Ha) as M. cbn [user_axes fst snd] in M.
  rewrite Sa in M. destruct (M (two_legs_compat _ H2)) as (z & Ez & Hz & Sz & Rz & Fz & Az). clear M.
  exists z. split; [exact Ez|]. split; [exact Hz|]. split; [congruence|]. split.
  { rewrite Rz, Ra. clear. induction (ranks x); cbn; congruence. }
  split; [exact Fz|]. intros is js Hi Hj.
  assert (Hv : valid_idx (pairs is js) (mshape z)).
  { rewrite Sz, D. apply pairs_valid.
    - apply Forall_forall. intros p Hp. apply in_map_iff in Hp. destruct Hp as (? & <- & _). reflexivity.
    - unfold leg1. rewrite map_map. cbn. rewrite map_id. exact Hi.
    - unfold leg2. rewrite map_map. cbn. rewrite map_id. exact Hj. }
  rewrite entry_amp by auto. rewrite <- zip2_app_singles.
  rewrite Az; [|rewrite A; apply singles_valid; auto|rewrite B; apply singles_valid; auto].
  rewrite C, msums_singles. unfold dmat. apply msum_ext. intros cs Hc.
  pose proof (inr_length _ _ Hi) as Li. pose proof (inr_length _ _ Hj) as Lj. pose proof (inr_length _ _ Hc) as Lc.
  unfold leg1, leg2 in Li, Lj, Lc. rewrite map_length in Li, Lj, Lc.
  rewrite (proj1 (E is cs Li Lc)), (proj2 (E js cs Lj Lc)).
  rewrite !entry_amp by (auto; apply pairs_valid; auto).
  f_equal. rewrite <- Aa by (apply pairs_valid; auto). rewrite zip2_rev_pairs. reflexivity.
Qed.

(** ** mps_to_pmps, pmps_to_mps, mps_to_mpo (mpsmpo.py 375-408) *)
Definition one_leg (ps : list (list nat)) : Prop := Forall (fun p => length p = 1) ps.
Lemma one_leg_singles ps : one_leg ps -> ps = singles (leg1 ps).
Proof.
  induction 1 as [|p ps H _ IH]; [reflexivity|]. destruct p as [|d [|? ?]]; try discriminate.
  cbn. f_equal. exact IH.
Qed.
Lemma ndim_pdims (t : nd K) : lt_ok t -> (Z.of_nat (ndim t) - 2)%Z = Z.of_nat (length (pdims t)).
Proof. intros H. rewrite (ndim_lt t H). lia. Qed.
Lemma ndims_all (x : ltens K) (n : nat) : mpa_ok x ->
  forallb (fun d => (d =? Z.of_nat n)%Z) (ndims x) = forallb (fun p => Nat.eqb (length p) n) (mshape x).
Proof.
  intros [_ Hb]. apply bonds_ok in Hb. unfold ndims, mshape. induction Hb as [|t ts Ht _ IH]; [reflexivity|].
  cbn [map forallb]. rewrite IH. f_equal. pose proof (ndim_lt t Ht). apply eq_true_iff_eq. rewrite Z.eqb_eq, Nat.eqb_eq. lia.
Qed.
Lemma ndims_legs (x : ltens K) n : mpa_ok x -> Forall (fun p => length p = n) (mshape x) ->
  forallb (fun d => (d =? Z.of_nat n)%Z) (ndims x) = true.
Proof.
  intros Hx H. rewrite ndims_all by auto. apply forallb_forall. intros p Hp. apply Nat.eqb_eq.
  rewrite Forall_forall in H. auto.
Qed.
Lemma ndims_legs_not (x : ltens K) n : mpa_ok x -> ~ Forall (fun p => length p = n) (mshape x) ->
  forallb (fun d => (d =? Z.of_nat n)%Z) (ndims x) = false.
Proof.
  intros Hx H. rewrite ndims_all by auto. apply not_true_iff_false. intros E. apply H.
  rewrite forallb_forall in E. apply Forall_forall. intros p Hp. apply Nat.eqb_eq. auto.
Qed.

Lemma F3_sites (ts : list (nd K)) qs : map size qs = map size (map pdims ts) ->
  Forall3 site_reshape_ok ts (map (map Z.of_nat) qs) qs.
Proof.
  revert qs. induction ts as [|t ts IH]; intros [|q qs] H; try discriminate; [constructor|].
  injection H as H1 H2. cbn. constructor; [|auto]. split; [exact H1|]. split; [constructor|left; reflexivity].
Qed.
Lemma pairs_zero ds : map size (map (fun d => [d; 1]) ds) = map size (singles ds).
Proof. unfold singles. rewrite !map_map. apply map_ext. intros d. rewrite !size_cons, size_nil. lia. Qed.
Lemma ravel_pairs is : forall cs ds, inr is ds -> inr cs (map (fun _ => 1) ds) ->
  zip2 ravel (map (fun d => [d; 1]) ds) (pairs is cs) = zip2 ravel (singles ds) (singles is).
Proof.
  induction is as [|i is IH]; intros cs ds Hi Hc; inversion Hi; subst; [reflexivity|].
  inversion Hc; subst. cbn [map pairs zip2 singles]. f_equal; [|apply IH; auto].
  cbn. rewrite !size_cons, !size_nil. lia.
Qed.

Lemma mps_sites (ts : list (nd K)) : one_leg (map pdims ts) -> Forall lt_ok ts ->
  map (fun t => reshape t (firstn 2 (shp t) ++ [1; nth 2 (shp t) 0])) ts =
  zip2 rphys (map (fun d => [d; 1]) (leg1 (map pdims ts))) ts.
Proof.
  intros H Ht. induction Ht as [|t ts Ht _ IH]; [reflexivity|].
  apply Forall_cons_iff in H. destruct H as [H1 H2]. cbn [map leg1 zip2]. f_equal; [|apply IH; exact H2].
  unfold rphys. pose proof (lt_ok_shp t Ht) as E. destruct (pdims t) as [|d [|? ?]]; try discriminate.
  rewrite E. reflexivity.
Qed.

Lemma rphys_size (ts : list (nd K)) qs : Forall lt_ok ts -> map size qs = map size (map pdims ts) ->
  Forall2 (fun t u : nd K => size (shp u) = size (shp t)) ts (zip2 rphys qs ts).
Proof.
  intros Ht. revert qs. induction Ht as [|t ts Htt Ht IH]; intros [|q qs] Eq; try discriminate; [constructor|].
  cbn [zip2 map] in *. injection Eq as E1 E2. constructor; [|apply IH; auto].
  change (size (ldim t :: q ++ [rdim t]) = size (shp t)). rewrite (lt_ok_shp t Htt).
  rewrite !size_cons, !size_app, E1. reflexivity.
Qed.

Theorem mps_to_pmps_spec (x : ltens K) : mpa_ok x -> one_leg (mshape x) ->
  exists z, mps_to_pmps x = Ok z /\ mpa_ok z /\ mshape z = map (fun d => [d; 1]) (leg1 (mshape x)) /\
    ranks z = ranks x /\ canonical_form z = (0%Z, Z.of_nat (llen x)) /\
    (forall is cs, inr is (leg1 (mshape x)) -> inr cs (map (fun _ => 1) (mshape x)) ->
       entry z (pairs is cs) = entry x (singles is)) /\
    (mpa_pos x -> mpa_pos z).
Proof.
  intros Hx H1. pose proof Hx as [Hne Hb]. unfold mps_to_pmps. rewrite (ndims_legs x 1 Hx H1 : forallb (fun d => (d =? 1)%Z) (ndims x) = true). cbn [passert].
  pose proof (bonds_ok _ _ _ Hb) as Ht. rewrite (mps_sites _ H1 Ht).
  set (qs := map (fun d => [d; 1]) (leg1 (map pdims (lts x)))).
  assert (Eq : map size qs = map size (map pdims (lts x))).
  { unfold qs. rewrite pairs_zero. f_equal. symmetry. exact (one_leg_singles _ H1). }
  destruct (reshape_sites _ _ _ Ht (F3_sites _ _ Eq)) as (_ & S & P & I & A).
  assert (Hbz : bonds (zip2 rphys qs (lts x)) 1 1) by (eapply bonds_same; eauto).
  destruct (mpa_new_chain (zip2 rphys qs (lts x))) as (z & Ez & Hz & Tz & Lz & Rz).
  { destruct (lts x); [congruence|]. discriminate. }
  { exact Hbz. }
  assert (Sz : mshape z = qs) by (unfold mshape; rewrite Tz; exact P).
  exists z. split; [exact Ez|]. split; [exact Hz|]. split; [exact Sz|].
  split. { unfold ranks. rewrite Tz. apply ranks_same in S. apply (f_equal (@tl nat)) in S. rewrite <- !map_tl' in S. exact S. }
  split. { unfold canonical_form. rewrite Lz, Rz. f_equal. f_equal. symmetry. apply (Forall2_len _ _ _ _ _ S). }
  split.
  - intros is cs Hi Hc.
    assert (Hc' : inr cs (map (fun _ : nat => 1) (leg1 (mshape x)))) by (unfold leg1; rewrite map_map; exact Hc).
    assert (Hv : Forall2 inr (pairs is cs) qs).
    { apply pairs_valid.
      - apply Forall_forall. intros p Hp. apply in_map_iff in Hp. destruct Hp as (? & <- & _). reflexivity.
      - unfold qs, leg1. rewrite !map_map. cbn. unfold leg1, mshape in Hi. rewrite map_map in Hi. exact Hi.
      - unfold qs, leg2, leg1. rewrite !map_map. cbn. unfold mshape in Hc. rewrite map_map in Hc. exact Hc. }
    assert (Hs : valid_idx (singles is) (mshape x)) by (rewrite (one_leg_singles _ H1); apply singles_valid; exact Hi).
    rewrite !entry_amp; auto; [|rewrite Sz; exact Hv]. rewrite Tz.
    apply (amp_same (lts x) _ (singles is) (pairs is cs)) with (l := 1) (r := 1); auto; try lia.
    apply A; auto. unfold qs. rewrite (ravel_pairs is cs); auto. f_equal. symmetry. exact (one_leg_singles _ H1).
  - intros [_ Hp]. split; [exact Hz|]. rewrite Tz. pose proof (rphys_size _ _ Ht Eq) as Hq.
    clear -Hp Hq. induction Hq as [|t u ts us E _ IH]; [constructor|].
    apply Forall_cons_iff in Hp. destruct Hp as [H1 H2]. constructor; [lia|auto].
Qed.

Theorem mps_to_pmps_error (x : ltens K) : mpa_ok x -> ~ one_leg (mshape x) -> mps_to_pmps x = Err AssertionError.
Proof.
  intros Hx H. unfold mps_to_pmps. rewrite (ndims_legs_not x 1 Hx H : forallb (fun d => (d =? 1)%Z) (ndims x) = false). reflexivity.
Qed.
Lemma unit_anc ps : two_legs ps -> Forall (fun c => c = 1) (leg2 ps) -> ps = map (fun d => [d; 1]) (leg1 ps).
Proof.
  intros H. induction ps as [|p ps IH]; intros H1; [reflexivity|].
  destruct (two_legs_cons _ _ H) as (s & a & -> & H'). cbn in *. apply Forall_cons_iff in H1. destruct H1 as [-> H1].
  f_equal. auto.
Qed.

Theorem pmps_to_mps_spec (x : ltens K) : mpa_ok x -> cform_ok x -> two_legs (mshape x) -> Forall (fun c => c = 1) (leg2 (mshape x)) ->
  exists z, pmps_to_mps x = Ok z /\ mpa_ok z /\ mshape z = singles (leg1 (mshape x)) /\
    ranks z = ranks x /\ canonical_form z = canonical_form x /\ (canon_true x -> canon_true z) /\
    (forall is, inr is (leg1 (mshape x)) -> entry z (singles is) = entry x (pairs is (map (fun _ => 0) is))).
Proof.
  intros Hx Hc H2 H1. pose proof Hx as [Hne Hb]. unfold pmps_to_mps.
  rewrite (ndims_legs x 2 Hx H2 : forallb (fun d => (d =? 2)%Z) (ndims x) = true). cbn [passert].
  replace (forallb (fun p => Nat.eqb (nth 1 p 0) 1) (mshape x)) with true.
  2:{ symmetry. apply forallb_forall. intros p Hp. apply Nat.eqb_eq. rewrite Forall_forall in H1. apply H1.
      apply in_map_iff. exists p; auto. }
  cbn [passert].
  pose proof (unit_anc _ H2 H1) as U.
  set (ds := leg1 (mshape x)) in *.
  replace (map (fun p => [Z.of_nat (nth 0 p 0)]) (mshape x)) with (map (map Z.of_nat) (singles ds)).
  2:{ unfold singles, ds, leg1. rewrite !map_map. reflexivity. }
  destruct (mreshape_spec x (RList (map (map Z.of_nat) (singles ds))) (singles ds) Hx Hc) as (z & Ez & Hz & Sz & Rz & Fz & Tz & Az).
  - intros E. apply (f_equal (@length (list Z))) in E. unfold singles, ds, leg1, mshape in E. rewrite !map_length in E.
    apply Hne. apply length_zero_iff_nil. exact E.
  - apply F3_sites. change (map pdims (lts x)) with (mshape x). rewrite U. symmetry. apply pairs_zero.
  - exists z. repeat (split; [assumption|]). intros is Hi.
    assert (H0 : inr (map (fun _ => 0) is) (map (fun _ : nat => 1) ds)).
    { clear -Hi. induction Hi; cbn; constructor; auto. }
    assert (Hv : Forall2 inr (pairs is (map (fun _ => 0) is)) (mshape x)).
    { apply pairs_valid; auto. rewrite U. unfold leg2. rewrite map_map. cbn. exact H0. }
    rewrite !entry_amp; auto; [|rewrite Sz; apply singles_valid; exact Hi].
    apply Az; [exact Hv|apply singles_valid; exact Hi|]. rewrite U. symmetry. apply ravel_pairs; auto.
Qed.
Theorem pmps_to_mps_error (x : ltens K) : mpa_ok x ->
  ~ (two_legs (mshape x) /\ Forall (fun c => c = 1) (leg2 (mshape x))) -> pmps_to_mps x = Err AssertionError.
Proof.
  intros Hx H. unfold pmps_to_mps.
  destruct (forallb (fun d => (d =? 2)%Z) (ndims x)) eqn:E2; [|reflexivity].
  destruct (forallb (fun p => Nat.eqb (nth 1 p 0) 1) (mshape x)) eqn:E1; [|reflexivity].
  exfalso. apply H. split.
  - rewrite (ndims_all x 2 Hx : forallb (fun d => (d =? 2)%Z) (ndims x) = _) in E2.
    rewrite forallb_forall in E2. apply Forall_forall. intros p Hp. apply Nat.eqb_eq. auto.
  - rewrite forallb_forall in E1. apply Forall_forall. intros c Hp. apply in_map_iff in Hp. destruct Hp as (p & <- & Hp).
    apply Nat.eqb_eq. auto.
Qed.

Theorem mps_to_mpo_spec (x : ltens K) : mpa_ok x -> one_leg (mshape x) ->
  exists z, mps_to_mpo x = Ok z /\ mpa_ok z /\ mshape z = map (fun d => [d; d]) (leg1 (mshape x)) /\
    ranks z = map (fun r => r * r) (ranks x) /\
    forall is js, inr is (leg1 (mshape x)) -> inr js (leg1 (mshape x)) ->
      entry z (pairs is js) = (entry x (singles is) * kconj (entry x (singles js)))%K.
Proof.
  intros Hx H1. unfold mps_to_mpo.
  destruct (mps_to_pmps_spec x Hx H1) as (p & Ep & Hp & Sp & Rp & _ & Ap & _). rewrite Ep. cbn [bind].
  assert (L1 : leg1 (mshape p) = leg1 (mshape x)).
  { rewrite Sp. unfold leg1 at 1. rewrite map_map. cbn. apply map_id. }
  assert (L2 : leg2 (mshape p) = map (fun _ => 1) (mshape x)).
  { rewrite Sp. unfold leg2, leg1. rewrite !map_map. reflexivity. }
  assert (H2 : two_legs (mshape p)).
  { rewrite Sp. apply Forall_forall. intros q Hq. apply in_map_iff in Hq. destruct Hq as (? & <- & _). reflexivity. }
  destruct (pmps_to_mpo_spec p Hp H2) as (z & Ez & Hz & Sz & Rz & _ & Az).
  exists z. split; [exact Ez|]. split; [exact Hz|]. split; [congruence|]. split; [congruence|].
  intros is js Hi Hj. rewrite Az by (rewrite L1; auto). unfold dmat. rewrite L2.
  rewrite (msum_single _ (map (fun _ => 0) (mshape x))).
  - rewrite !Ap; auto. all: clear; induction (mshape x); cbn; constructor; auto.
  - clear; induction (mshape x); cbn; constructor; auto.
  - intros cs Hc N. exfalso. apply N. clear -Hc. revert cs Hc. induction (mshape x) as [|q qs IH]; intros cs Hc; inversion Hc; subst; [reflexivity|].
    cbn. f_equal; [lia|apply IH; auto].
Qed.
End States.
