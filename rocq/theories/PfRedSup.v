(** [pmps_reduction]: reduced states on arbitrary sets of sites (mpsmpo.py 195-218). *)
From Verif Require Export PfRedPmps.

Lemma seq_shift_n n s : map (fun k => s + k) (seq 0 n) = seq s n.
Proof.
  revert s. induction n as [|n IH]; intros s; [reflexivity|]. cbn [seq map]. f_equal; [lia|].
  rewrite <- seq_shift, map_map. rewrite <- (IH (S s)). apply map_ext. intros; lia.
Qed.

Section Sup.
Context {K : StarRing}.
Add Ring Kr : (k_ring K).

(** Site kept ([true]) or traced out ([false]). *)
Definition newp (b : bool) (p : list nat) : list nat := if b then p else [1; nth 0 p 0 * nth 1 p 0].
Definition tdim (b : bool) (d : nat) : nat := if b then 1 else d.
Definition code (b : bool) (A k c : nat) : nat := if b then c else k * A + c.
(** The index of a kept site is [i], the index of a traced site is [k]. *)
Definition mixi (b : bool) (i k : nat) : nat := if b then i else k.

Lemma msum_code bs : forall ps (f : list nat -> K), length bs = length ps ->
  msum (leg2 (zip2 newp bs ps)) f =
  msum (zip2 tdim bs (leg1 ps)) (fun ks => msum (leg2 ps) (fun cs => f (zip4 code bs (leg2 ps) ks cs))).
Proof.
  induction bs as [|b bs IH]; intros [|p ps] f H; try discriminate; [reflexivity|].
  injection H as H. cbn [zip2 leg2 leg1 map msum]. fold (leg1 ps) (leg2 ps) (leg2 (zip2 newp bs ps)).
  destruct b; cbn [newp tdim nth].
  - rewrite bigsum_1. rewrite msum_bigsum_swap. apply bigsum_ext. intros c _. rewrite (IH ps) by auto. reflexivity.
  - rewrite bigsum_prod. apply bigsum_ext. intros k _. rewrite msum_bigsum_swap. apply bigsum_ext. intros c _.
    rewrite (IH ps) by auto. reflexivity.
Qed.

Definition flag_site (b : bool) (t : nd K) : nd K := if b then t else rphys [1; size (pdims t)] t.
Lemma size2_pair s a : size [s; a] = s * a.
Proof. rewrite !size_cons, size_nil. lia. Qed.
Lemma flag_site_spec b (t : nd K) s a : lt_ok t -> pdims t = [s; a] ->
  same_bonds t (flag_site b t) /\ pdims (flag_site b t) = newp b [s; a] /\ size (shp (flag_site b t)) = size (shp t) /\
  forall x i k c y, x < ldim t -> y < rdim t -> i < nth 0 (newp b [s; a]) 0 -> k < tdim b s -> c < a ->
    ent (flag_site b t) x [i; code b a k c] y = ent t x [mixi b i k; c] y.
Proof.
  intros Ht Ep. destruct b; cbn [flag_site newp nth tdim code mixi].
  - split; [split; [exact Ht|auto]|]. auto.
  - rewrite Ep, size2_pair.
    assert (Es : size [1; s * a] = size (pdims t)) by (rewrite Ep, !size2_pair; lia).
    destruct (rphys_spec [1; s * a] t Ht Es) as (B & P & E & _).
    split; [exact B|]. split; [exact P|]. split.
    { destruct B as (B1 & B2 & B3). rewrite (lt_ok_shp _ B1), (lt_ok_shp _ Ht), B2, B3, P, Ep. cbn [app].
      rewrite !size_cons, !size_nil. lia. }
    intros x i k c y Hx Hy Hi Hk Hc. apply E; auto.
    + rewrite Ep. repeat constructor; auto.
    + apply inr_cons; [exact Hi|]. apply inr_cons; [nia|constructor].
    + rewrite Ep. cbn [ravel]. rewrite !size_cons, !size_nil. assert (i = 0) by lia. subst. lia.
Qed.

Lemma flag_sites (ts : list (nd K)) : Forall lt_ok ts -> two_legs (map pdims ts) -> forall bs, length bs = length ts ->
  Forall2 same_bonds ts (zip2 flag_site bs ts) /\ map pdims (zip2 flag_site bs ts) = zip2 newp bs (map pdims ts) /\
  Forall2 (fun t u : nd K => size (shp u) = size (shp t)) ts (zip2 flag_site bs ts) /\
  forall is ks cs, inr is (leg1 (zip2 newp bs (map pdims ts))) -> inr ks (zip2 tdim bs (leg1 (map pdims ts))) ->
    inr cs (leg2 (map pdims ts)) ->
    same_amp ts (zip2 flag_site bs ts) (pairs (zip3 mixi bs is ks) cs) (pairs is (zip4 code bs (leg2 (map pdims ts)) ks cs)).
Proof.
  intros Ht. induction Ht as [|t ts Ht Hts IH]; intros H2 [|b bs] L; try discriminate.
  { repeat split; try constructor. intros is ks cs Hi Hk Hc. inversion Hi; inversion Hk; inversion Hc; subst. constructor. }
  cbn [map] in H2. apply Forall_cons_iff in H2. destruct H2 as [H2 H2s]. destruct (two_leg t H2) as (s & a & Ep).
  injection L as L. destruct (IH H2s bs L) as (A & B & C & D). destruct (flag_site_spec b t s a Ht Ep) as (E1 & E2 & E3 & E4).
  cbn [zip2 map]. rewrite Ep.
  split; [constructor; auto|]. split; [rewrite E2, B; reflexivity|]. split; [constructor; auto|].
  intros is ks cs Hi Hk Hc. cbn [leg1 leg2 map zip2 nth] in Hi, Hk, Hc.
  apply inr_cons_inv in Hi. destruct Hi as (i & is' & -> & Hi & Hi').
  apply inr_cons_inv in Hk. destruct Hk as (k & ks' & -> & Hk & Hk').
  apply inr_cons_inv in Hc. destruct Hc as (c & cs' & -> & Hc & Hc').
  cbn [leg2 map zip3 zip4 pairs zip2 nth]. constructor.
  - apply E1.
  - intros x y Hx Hy. apply E4; auto.
  - apply D; auto.
Qed.

Lemma dmc_flags (ts : list (nd K)) bs is js : bonds ts 1 1 -> two_legs (map pdims ts) -> length bs = length ts ->
  inr is (leg1 (zip2 newp bs (map pdims ts))) -> inr js (leg1 (zip2 newp bs (map pdims ts))) ->
  dmc (zip2 flag_site bs ts) 1 1 is js =
  msum (zip2 tdim bs (leg1 (map pdims ts))) (fun ks => dmc ts 1 1 (zip3 mixi bs is ks) (zip3 mixi bs js ks)).
Proof.
  intros Hb H2 L Hi Hj. destruct (flag_sites ts (bonds_ok _ _ _ Hb) H2 bs L) as (A & B & _ & D).
  unfold dmc. rewrite !bigsum_1. rewrite B, msum_code by (rewrite map_length; auto).
  apply msum_ext. intros ks Hk. rewrite !bigsum_1. apply msum_ext. intros cs Hc.
  rewrite (amp_same ts _ _ _ (D is ks cs Hi Hk Hc) 1 1 0 0 Hb) by lia.
  rewrite (amp_same ts _ _ _ (D js ks cs Hj Hk Hc) 1 1 0 0 Hb) by lia. reflexivity.
Qed.

Lemma fold_min sup d s : (In s sup \/ s = d) -> (forall k, In k sup -> s <= k) -> s <= d -> fold_right Nat.min d sup = s.
Proof.
  induction sup as [|a sup IH]; intros H1 H2 H3; cbn.
  - destruct H1 as [[]| ->]. reflexivity.
  - assert (s <= a) by (apply H2; left; reflexivity).
    assert (B : forall k, In k sup -> s <= k) by (intros; apply H2; right; auto).
    assert (C : s <= fold_right Nat.min d sup).
    { clear -B H3. induction sup as [|b sup IH]; cbn; [exact H3|]. apply Nat.min_glb; [apply B; left; reflexivity|]. apply IH. intros; apply B; right; auto. }
    destruct H1 as [[->|H1]| ->]; [lia| |].
    + rewrite IH; auto. lia.
    + rewrite IH; auto. lia.
Qed.
Lemma fold_max sup m : In m sup -> (forall k, In k sup -> k <= m) -> fold_right Nat.max 0 sup = m.
Proof.
  induction sup as [|a sup IH]; intros H1 H2; [destruct H1|]. cbn.
  assert (a <= m) by (apply H2; left; reflexivity).
  assert (B : forall k, In k sup -> k <= m) by (intros; apply H2; right; auto).
  assert (C : fold_right Nat.max 0 sup <= m).
  { clear -B. induction sup as [|b sup IH]; cbn; [lia|]. apply Nat.max_lub; [apply B; left; reflexivity|]. apply IH. intros; apply B; right; auto. }
  destruct H1 as [->|H1]; [lia|]. rewrite IH; auto. lia.
Qed.

(** Which sites of the window [s, e) are kept. *)
Definition sup_flags (sup : list nat) (s e : nat) : list bool := map (fun k => memb k sup) (seq s (e - s)).
Lemma sup_flags_length sup s e : length (sup_flags sup s e) = e - s.
Proof. unfold sup_flags. rewrite map_length, seq_length. reflexivity. Qed.

(** [z] is a PMPS of [x] reduced to the sites [sup], where the traced sites
    between its first site [s] and last site [e - 1] have system dimension 1. *)
Definition is_sup_reduction (x : ltens K) (sup : list nat) (s e : nat) (z : ltens K) : Prop :=
  let bs := sup_flags sup s e in
  let ds := firstn (e - s) (skipn s (leg1 (mshape x))) in
  mpa_pos z /\ llen z = e - s /\ two_legs (mshape z) /\
  leg1 (mshape z) = zip2 (fun (b : bool) d => if b then d else 1) bs ds /\
  forall is js, inr is (leg1 (mshape z)) -> inr js (leg1 (mshape z)) ->
    dmat z is js =
    msum (zip2 tdim bs ds) (fun ks => dm_reduced x s e (zip3 mixi bs is ks) (zip3 mixi bs js ks)).

Lemma all_kept bs : forall ds, Forall (fun b => b = true) bs -> length bs = length ds ->
  zip2 (fun (b : bool) d => if b then d else 1) bs ds = ds /\ zip2 tdim bs ds = map (fun _ => 1) ds.
Proof.
  induction bs as [|b bs IH]; intros [|d ds] H L; try discriminate; [auto|].
  apply Forall_cons_iff in H. destruct H as [-> H]. injection L as L. destruct (IH ds H L) as [E1 E2].
  cbn. rewrite E1, E2. auto.
Qed.
Lemma mix_kept bs : forall is ks : list nat, Forall (fun b => b = true) bs -> length is = length bs -> length ks = length bs -> zip3 mixi bs is ks = is.
Proof.
  induction bs as [|b bs IH]; intros [|i is] [|k ks] H L1 L2; try discriminate; [reflexivity|].
  apply Forall_cons_iff in H. destruct H as [-> H]. cbn. f_equal. apply IH; auto.
Qed.
Lemma msum_ones (ds : list nat) (f : list nat -> K) : msum (map (fun _ => 1) ds) f = f (map (fun _ => 0) ds).
Proof. revert f. induction ds as [|d ds IH]; intros f; [reflexivity|]. cbn [map msum]. rewrite bigsum_1. apply IH. Qed.

Lemma mapM_flags (f : nat -> bool) (ts : list (nd K)) : forall s, Forall lt_ok ts -> two_legs (map pdims ts) -> pos ts ->
  mapM (fun q => if f (fst q) then Ok (snd q)
                 else reshape_py (snd q) [Z.of_nat (ldim (snd q)); 1%Z; (-1)%Z; Z.of_nat (rdim (snd q))])
       (combine (seq s (length ts)) ts) = Ok (zip2 flag_site (map f (seq s (length ts))) ts).
Proof.
  induction ts as [|t ts IH]; intros s Ht H2 Hp; [reflexivity|].
  apply Forall_cons_iff in Ht. destruct Ht as [Ht Hts]. cbn [map] in H2. apply Forall_cons_iff in H2. destruct H2 as [H2 H2s].
  unfold pos in Hp. apply Forall_cons_iff in Hp. destruct Hp as [Hp Hps].
  cbn [length seq combine map zip2 mapM fst snd].
  destruct (two_leg t H2) as (sy & an & Ep).
  assert (E : (if f s then Ok t else reshape_py t [Z.of_nat (ldim t); 1%Z; (-1)%Z; Z.of_nat (rdim t)]) = Ok (flag_site (f s) t)).
  { destruct (f s); [reflexivity|]. cbn [flag_site]. unfold reshape_py.
    assert (0 < ldim t /\ 0 < rdim t) as [Hl Hr].
    { rewrite (lt_ok_shp t Ht) in Hp. rewrite size_cons, size_app, size_single in Hp. nia. }
    assert (R : reshape_to [Z.of_nat (ldim t); 1%Z; (-1)%Z; Z.of_nat (rdim t)] ([ldim t; 1] ++ size (pdims t) :: [rdim t])).
    { apply (RT_one [ldim t; 1] (size (pdims t)) [rdim t]); rewrite !size_cons, ?size_nil; lia. }
    apply resolve_shape_spec in R. cbn [app] in R.
    replace (size [ldim t; 1; size (pdims t); rdim t]) with (size (shp t)) in R
      by (rewrite (lt_ok_shp t Ht), size_cons, size_app, !size_cons, !size_nil; lia).
    rewrite R. reflexivity. }
  rewrite E. cbn [bind]. rewrite (IH (S s)) by auto. reflexivity.
Qed.

Lemma to_nat_of_nat l : map Z.to_nat (map Z.of_nat l) = l.
Proof. rewrite map_map. rewrite <- (map_id l) at 2. apply map_ext. intros; lia. Qed.
Lemma leg1_newp bs : forall ps, length bs = length ps ->
  leg1 (zip2 newp bs ps) = zip2 (fun (b : bool) d => if b then d else 1) bs (leg1 ps).
Proof.
  induction bs as [|b bs IH]; intros [|p ps] L; try discriminate; [reflexivity|].
  injection L as L. cbn [zip2 leg1 map]. fold (leg1 (zip2 newp bs ps)). rewrite (IH ps L). destruct b; reflexivity.
Qed.
Lemma two_legs_newp bs : forall ps, two_legs ps -> two_legs (zip2 newp bs ps).
Proof.
  induction bs as [|b bs IH]; intros [|p ps] H; try constructor.
  - apply Forall_cons_iff in H. destruct b; [apply H|reflexivity].
  - apply IH. apply Forall_cons_iff in H. apply H.
Qed.
Lemma mix_valid bs : forall ds is ks, length bs = length ds -> inr is (zip2 (fun (b : bool) d => if b then d else 1) bs ds) ->
  inr ks (zip2 tdim bs ds) -> inr (zip3 mixi bs is ks) ds.
Proof.
  induction bs as [|b bs IH]; intros [|d ds] is ks L Hi Hk; try discriminate; cbn [zip2] in *.
  - inversion Hi; inversion Hk; subst. constructor.
  - apply inr_cons_inv in Hi. destruct Hi as (i & is' & -> & Hi & Hi').
    apply inr_cons_inv in Hk. destruct Hk as (k & ks' & -> & Hk & Hk').
    cbn. apply inr_cons; [destruct b; auto|]. apply IH; auto.
Qed.

Section QR.
Variable qr : nd K -> res (nd K * nd K).
Hypothesis Hqr : qr_sound qr.

Theorem pmps_reduction_spec (x : ltens K) (sup : list nat) s m : mpa_pos x -> cform_wk x -> canon_true x -> two_legs (mshape x) ->
  NoDup sup -> In s sup -> In m sup -> (forall k, In k sup -> s <= k <= m) -> m < llen x ->
  outc (qr_fails qr) (pmps_reduction qr x (map Z.of_nat sup))
    (fun p => is_sup_reduction x sup s (S m) (fst p) /\ sim 1 1 x (snd p) /\ cform_wk (snd p)).
Proof.
  intros Hx Hc Ht H2 Hnd Hs Hm Hr Hn. unfold pmps_reduction.
  replace (negb (length (map Z.of_nat sup) =? 0)%nat) with true.
  2:{ destruct sup; [destruct Hs|reflexivity]. }
  cbn [passert].
  replace (forallb _ (map Z.of_nat sup)) with true.
  2:{ symmetry. apply forallb_forall. intros z Hz. apply in_map_iff in Hz. destruct Hz as (k & <- & Hk).
      specialize (Hr k Hk). apply andb_true_iff. rewrite Z.leb_le, Z.ltb_lt. lia. }
  cbn [passert]. rewrite to_nat_of_nat. cbv zeta.
  rewrite (fold_min sup (hd 0 sup) s).
  2:{ left; exact Hs. } 2:{ intros k Hk; apply Hr; auto. } 2:{ destruct sup as [|a sup]; [destruct Hs|]. apply Hr. left; reflexivity. }
  rewrite (fold_max sup m Hm) by (intros k Hk; apply Hr; auto).
  set (e := S m).
  assert (Hse : win_ok (llen x) (s, e)) by (split; cbn [fst snd]; [specialize (Hr m Hm)|]; lia).
  eapply outc_bind; [apply (red_pmps_window_spec qr Hqr x (s, e)); auto|].
  intros [red y] (Rz & Sy & Cy & _). cbn [fst snd] in *.
  destruct Rz as (Pz & Lz & H2z & L1z & Fz & Dz). cbn [fst snd] in *.
  assert (Ls : s <= m) by (apply (Hr m Hm)).
  destruct (Nat.eqb_spec (length sup) (e - s)) as [El|El].
  - apply outc_ok. cbn [fst snd]. split; [|split; auto].
    assert (Hall : Forall (fun b => b = true) (sup_flags sup s e)).
    { apply Forall_forall. intros b Hb. apply in_map_iff in Hb. destruct Hb as (k & <- & Hk). apply memb_iff.
      apply (NoDup_length_incl (l := sup) (l' := seq s (e - s))); auto.
      - rewrite seq_length. lia.
      - intros j Hj. apply in_seq. specialize (Hr j Hj). lia. }
    assert (Ld : length (sup_flags sup s e) = length (firstn (e - s) (skipn s (leg1 (mshape x))))).
    { rewrite sup_flags_length, <- L1z. unfold leg1, mshape. rewrite !map_length. symmetry. exact Lz. }
    destruct (all_kept _ _ Hall Ld) as [E1 E2].
    split; [exact Pz|]. split; [exact Lz|]. split; [exact H2z|]. split; [rewrite E1; exact L1z|].
    intros is js Hi Hj. rewrite E2, msum_ones. rewrite (Dz is js Hi Hj).
    assert (Li : forall is, inr is (leg1 (mshape red)) -> length is = length (sup_flags sup s e)).
    { intros is0 H0. apply inr_length in H0. rewrite L1z in H0. congruence. }
    rewrite !mix_kept; auto; rewrite map_length; auto.
  - cbv zeta.
    assert (Ef : forall k, memb k (map (fun pos => pos - s) sup) = memb (s + k) sup).
    { intros k. apply eq_true_iff_eq. rewrite !memb_iff. split.
      - intros H. apply in_map_iff in H. destruct H as (j & <- & Hj). specialize (Hr j Hj). replace (s + (j - s)) with j by lia. exact Hj.
      - intros H. apply in_map_iff. exists (s + k). split; [lia|exact H]. }
    assert (Hbr := proj2 (proj1 Pz)). assert (Hpr := proj2 Pz).
    unfold llen at 1. rewrite (mapM_flags (fun k => memb k (map (fun pos => pos - s) sup))); auto.
    2:{ eapply bonds_ok; eauto. }
    cbn [bind].
    replace (map (fun k => memb k (map (fun pos => pos - s) sup)) (seq 0 (length (lts red)))) with (sup_flags sup s e).
    2:{ unfold sup_flags. unfold llen in Lz. rewrite Lz. rewrite <- (seq_shift_n (e - s) s). rewrite map_map. apply map_ext. intros k. rewrite Ef. f_equal. }
    set (bs := sup_flags sup s e).
    assert (Lb : length bs = length (lts red)) by (unfold bs; rewrite sup_flags_length; symmetry; exact Lz).
    destruct (flag_sites (lts red) (bonds_ok _ _ _ Hbr) H2z bs Lb) as (A & B & C & _).
    assert (Hbu : bonds (zip2 flag_site bs (lts red)) 1 1) by (eapply bonds_same; eauto).
    assert (Lu : length (zip2 flag_site bs (lts red)) = e - s).
    { rewrite zip2_length by auto. unfold bs. apply sup_flags_length. }
    destruct (mpa_new_chain (zip2 flag_site bs (lts red))) as (z & Ez & Hz & Tz & Lz' & Rz'); auto.
    { intros E. rewrite E in Lu. cbn [length] in Lu. unfold e in Lu. lia. }
    rewrite Ez. cbn [bind]. apply outc_ok. cbn [fst snd]. split; [|split; auto].
    assert (Sz : mshape z = zip2 newp bs (mshape red)) by (unfold mshape; rewrite Tz; exact B).
    assert (Lps : length bs = length (mshape red)) by (unfold mshape; rewrite map_length; exact Lb).
    assert (L1 : leg1 (mshape z) = zip2 (fun (b : bool) d => if b then d else 1) bs (leg1 (mshape red))).
    { rewrite Sz. apply leg1_newp. exact Lps. }
    split. { split; [exact Hz|]. rewrite Tz. clear -C Hpr. induction C as [|t u ts us E _ IH]; [constructor|].
      apply Forall_cons_iff in Hpr. destruct Hpr as [H1 H2]. constructor; [lia|auto]. }
    split. { unfold llen. rewrite Tz. exact Lu. }
    split. { rewrite Sz. apply two_legs_newp; auto. }
    split. { rewrite <- L1z. exact L1. }
    intros is js Hi Hj.
    rewrite dmat_dmc; auto; [|rewrite Sz; apply two_legs_newp; auto]. rewrite Tz.
    assert (Hi' : inr is (leg1 (zip2 newp bs (mshape red)))) by (rewrite <- Sz; auto).
    assert (Hj' : inr js (leg1 (zip2 newp bs (mshape red)))) by (rewrite <- Sz; auto).
    rewrite (dmc_flags (lts red) bs is js Hbr H2z Lb Hi' Hj'). rewrite <- L1z. apply msum_ext. intros ks Hk.
    assert (V : forall is, inr is (leg1 (mshape z)) -> inr (zip3 mixi bs is ks) (leg1 (mshape red))).
    { intros is0 H0. apply mix_valid; auto. - unfold leg1. rewrite map_length. exact Lps. - rewrite <- L1. exact H0. }
    rewrite <- dmat_dmc; auto.
    apply Pz.
Qed.
End QR.
End Sup.
