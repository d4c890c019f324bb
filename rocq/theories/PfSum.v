(** Direct sums: [_local_add], [np.concatenate], [__add__], [sumup]. *)
From Verif Require Export Chain.

Section Blocks.
Context {K : StarRing}.
Add Ring Kr : (k_ring K).

Lemma set_nth_0 (A : Type) (y x : A) l : set_nth 0 y (x :: l) = y :: l.
Proof. reflexivity. Qed.
Lemma set_nth_last (A : Type) (y x : A) l n : length l = n -> set_nth n y (l ++ [x]) = l ++ [y].
Proof. revert n; induction l as [|z l IH]; intros n <-; cbn; [reflexivity|]. rewrite IH by reflexivity. reflexivity. Qed.
Lemma nth_snoc (A : Type) (x d : A) l n : length l = n -> nth n (l ++ [x]) d = x.
Proof. intros <-. rewrite app_nth2 by lia. rewrite Nat.sub_diag. reflexivity. Qed.
Lemma list_eqb_refl l : list_eqb l l = true.
Proof. unfold list_eqb. destruct (list_eq_dec Nat.eq_dec l l); [reflexivity|congruence]. Qed.
Lemma list_eqb_eq l m : list_eqb l m = true <-> l = m.
Proof. unfold list_eqb. destruct (list_eq_dec Nat.eq_dec l m); split; congruence. Qed.

(** Start of block [j]. *)
Definition off (ds : list nat) (j : nat) : nat := list_sum (firstn j ds).

Lemma off_0 ds : off ds 0 = 0.
Proof. reflexivity. Qed.
Lemma off_S d ds j : off (d :: ds) (S j) = d + off ds j.
Proof. reflexivity. Qed.
Lemma off_lt ds j a : j < length ds -> a < nth j ds 0 -> off ds j + a < list_sum ds.
Proof.
  revert j; induction ds as [|d ds IH]; intros j Hj Ha; cbn in Hj; [lia|].
  destruct j as [|j]; cbn [nth] in Ha; cbn [list_sum fold_right].
  - rewrite off_0. unfold list_sum. cbn. lia.
  - rewrite off_S. specialize (IH j). unfold list_sum in *. cbn in *. lia.
Qed.

Lemma off_split ds n : n < list_sum ds ->
  exists j a, j < length ds /\ a < nth j ds 0 /\ n = off ds j + a.
Proof.
  revert n; induction ds as [|d ds IH]; intros n Hn; unfold list_sum in Hn; cbn in Hn; [lia|].
  destruct (Nat.lt_ge_cases n d) as [H|H].
  - exists 0, n. cbn [length nth]. rewrite off_0. split; [lia|]. split; [lia|reflexivity].
  - destruct (IH (n - d)) as [j [a [Hj [Ha E]]]]; [unfold list_sum; lia|].
    exists (S j), a. cbn [length nth]. rewrite off_S. split; [lia|]. split; [exact Ha|lia].
Qed.

Lemma bigsum_blocks ds (f : nat -> K) :
  bigsum (list_sum ds) f = bigsum (length ds) (fun j => bigsum (nth j ds 0) (fun b => f (off ds j + b))).
Proof.
  revert f; induction ds as [|d ds IH]; intros f; [reflexivity|].
  change (list_sum (d :: ds)) with (d + list_sum ds). rewrite bigsum_split. cbn [length].
  rewrite bigsum_shift. cbn [nth]. f_equal. rewrite IH. apply bigsum_ext. intros j Hj.
  apply bigsum_ext. intros b Hb. f_equal. rewrite off_S. lia.
Qed.

(** ** concatenate *)
Lemma cat_get_first ts j a idx :
  j < length ts -> a < ldim (nth j ts dummy) ->
  Forall (fun t : nd K => shp t <> []) ts ->
  cat_get 0 ts ((off (map ldim ts) j + a) :: idx) = get (nth j ts dummy) (a :: idx).
Proof.
  revert j; induction ts as [|t ts IH]; intros j Hj Ha HF; cbn in Hj; [lia|].
  inversion HF as [|? ? Ht HF']; subst.
  assert (E : nth 0 (shp t) 0 = ldim t) by (unfold ldim; destruct (shp t); reflexivity).
  cbn [cat_get nth map]. rewrite E. destruct j as [|j].
  - rewrite off_0. cbn [nth] in Ha. cbn [Nat.add].
    replace (a <? ldim t) with true by (symmetry; apply Nat.ltb_lt; exact Ha). reflexivity.
  - rewrite off_S. replace (ldim t + off (map ldim ts) j + a <? ldim t) with false
      by (symmetry; apply Nat.ltb_ge; lia).
    rewrite set_nth_0. cbn [nth] in *.
    replace (ldim t + off (map ldim ts) j + a - ldim t) with (off (map ldim ts) j + a) by lia.
    apply IH; [lia|exact Ha|exact HF'].
Qed.

Lemma cat_get_last n ts j b idx :
  length idx = n -> j < length ts -> b < rdim (nth j ts dummy) ->
  Forall (fun t : nd K => ndim t = S n) ts ->
  cat_get n ts (idx ++ [off (map rdim ts) j + b]) = get (nth j ts dummy) (idx ++ [b]).
Proof.
  intros Hn; revert j; induction ts as [|t ts IH]; intros j Hj Hb HF; cbn in Hj; [lia|].
  inversion HF as [|? ? Ht HF']; subst.
  assert (E : nth (length idx) (shp t) 0 = rdim t).
  { unfold rdim. unfold ndim in Ht. destruct (shp t) as [|d sh] eqn:Es; [discriminate|].
    rewrite <- (snoc_last nat (d :: sh) 0) at 1 by discriminate. apply nth_snoc.
    pose proof (snoc_last nat (d :: sh) 0 ltac:(discriminate)) as Hs.
    apply (f_equal (@length nat)) in Hs. rewrite app_length in Hs. cbn [length] in *. lia. }
  cbn [cat_get]. rewrite nth_snoc by reflexivity. rewrite E. destruct j as [|j].
  - cbn [map]. rewrite off_0. cbn [nth] in *. cbn [Nat.add].
    replace (b <? rdim t) with true by (symmetry; apply Nat.ltb_lt; exact Hb). reflexivity.
  - cbn [map]. rewrite off_S. replace (rdim t + off (map rdim ts) j + b <? rdim t) with false
      by (symmetry; apply Nat.ltb_ge; lia).
    rewrite set_nth_last by reflexivity. cbn [nth] in *.
    replace (rdim t + off (map rdim ts) j + b - rdim t) with (off (map rdim ts) j + b) by lia.
    apply IH; [lia|exact Hb|exact HF'].
Qed.

(** Families of local tensors with equal physical legs. *)
Definition fam (p : list nat) (ts : list (nd K)) : Prop := Forall (fun t => lt_ok t /\ pdims t = p) ts.

Lemma fam_nth p ts j : fam p ts -> j < length ts -> lt_ok (nth j ts dummy) /\ pdims (nth j ts dummy) = p.
Proof. intros H Hj. unfold fam in H. rewrite Forall_forall in H. apply H. apply nth_In; exact Hj. Qed.

Lemma map_nth_lt (A B : Type) (f : A -> B) l n d e : n < length l -> nth n (map f l) e = f (nth n l d).
Proof. intros H. rewrite (nth_indep _ e (f d)) by (rewrite map_length; exact H). apply map_nth. Qed.

Lemma cat_first_spec p ts r :
  ts <> [] -> fam p ts -> Forall (fun t => rdim t = r) ts ->
  exists T, cat_first_py ts = Ok T /\ lt_ok T /\ ldim T = list_sum (map ldim ts) /\ rdim T = r /\ pdims T = p /\
  forall j a i b, j < length ts -> a < ldim (nth j ts dummy) -> inr i p -> b < r ->
    ent T (off (map ldim ts) j + a) i b = ent (nth j ts dummy) a i b.
Proof.
  intros Hne HF HR. exists (concatenate ts 0).
  assert (Hsh : forall t, In t ts -> shp t = ldim t :: p ++ [r]).
  { intros t Ht. unfold fam in HF. rewrite Forall_forall in HF, HR. destruct (HF t Ht) as [H1 H2].
    rewrite (lt_ok_shp t H1), H2, (HR t Ht). reflexivity. }
  assert (Hok : concatenate_ok ts 0 = true).
  { destruct ts as [|t ts]; [congruence|]. unfold concatenate_ok. apply forallb_forall. intros u Hu.
    rewrite (Hsh u Hu), (Hsh t (or_introl eq_refl)). rewrite !set_nth_0, list_eqb_refl.
    unfold ndim. rewrite (Hsh u Hu). reflexivity. }
  unfold cat_first_py, praise_unless. rewrite Hok. split; [reflexivity|].
  assert (Esh : shp (concatenate ts 0) = list_sum (map ldim ts) :: p ++ [r]).
  { destruct ts as [|t ts]; [congruence|]. unfold concatenate. rewrite shp_tab.
    rewrite (Hsh t (or_introl eq_refl)), set_nth_0. f_equal. f_equal. apply map_ext_in.
    intros u Hu. rewrite (Hsh u Hu). reflexivity. }
  split; [eapply lt_ok_mk; [|exact Esh]; destruct ts; [congruence|apply wf_tab]|].
  split; [eapply ldim_mk; exact Esh|]. split; [eapply rdim_mk; exact Esh|].
  split; [eapply pdims_mk; exact Esh|].
  intros j a i b Hj Ha Hi Hb. unfold ent.
  assert (Hin : inr ((off (map ldim ts) j + a) :: i ++ [b]) (shp (concatenate ts 0))).
  { rewrite Esh. apply inr_cons; [apply off_lt; [rewrite map_length; exact Hj|]|].
    - rewrite (map_nth_lt _ _ ldim ts j dummy) by exact Hj. exact Ha.
    - apply inr_app; [exact Hi|apply inr_single; exact Hb]. }
  destruct ts as [|t ts]; [congruence|]. unfold concatenate. rewrite get_tab by exact Hin.
  apply cat_get_first; [exact Hj|exact Ha|].
  apply Forall_forall. intros u Hu. rewrite (Hsh u Hu). discriminate.
Qed.

Lemma cat_last_spec p ts l :
  ts <> [] -> fam p ts -> Forall (fun t => ldim t = l) ts ->
  exists T, cat_last_py ts = Ok T /\ lt_ok T /\ ldim T = l /\ rdim T = list_sum (map rdim ts) /\ pdims T = p /\
  forall j a i b, j < length ts -> a < l -> inr i p -> b < rdim (nth j ts dummy) ->
    ent T a i (off (map rdim ts) j + b) = ent (nth j ts dummy) a i b.
Proof.
  intros Hne HF HR. exists (concatenate_last ts).
  assert (Hsh : forall t, In t ts -> shp t = (l :: p) ++ [rdim t]).
  { intros t Ht. unfold fam in HF. rewrite Forall_forall in HF, HR. destruct (HF t Ht) as [H1 H2].
    rewrite (lt_ok_shp t H1), H2, (HR t Ht). reflexivity. }
  assert (Hnd : forall t, In t ts -> ndim t = S (S (length p))).
  { intros t Ht. unfold ndim. rewrite (Hsh t Ht), app_length. cbn. lia. }
  assert (HL : length (l :: p) = S (length p)) by reflexivity.
  destruct ts as [|t ts]; [congruence|].
  pose proof (Hnd t (or_introl eq_refl)) as Ht.
  assert (Et : ndim t - 1 = S (length p)) by lia.
  assert (Hok : concatenate_ok (t :: ts) (S (length p)) = true).
  { unfold concatenate_ok. apply forallb_forall. intros u Hu.
    rewrite (Hsh u Hu), (Hsh t (or_introl eq_refl)). rewrite !set_nth_last by exact HL. rewrite list_eqb_refl.
    rewrite (Hnd u Hu). apply andb_true_iff. split; [reflexivity|apply Nat.ltb_lt; lia]. }
  unfold cat_last_py, praise_unless. rewrite Et, Hok. split; [reflexivity|].
  unfold concatenate_last. rewrite Et.
  assert (Esh : shp (concatenate (t :: ts) (S (length p))) = l :: p ++ [list_sum (map rdim (t :: ts))]).
  { unfold concatenate. rewrite shp_tab.
    rewrite (Hsh t (or_introl eq_refl)), set_nth_last by exact HL. cbn [app]. f_equal. f_equal. f_equal. f_equal.
    apply map_ext_in. intros u Hu. rewrite (Hsh u Hu). apply nth_snoc. exact HL. }
  split; [eapply lt_ok_mk; [|exact Esh]; apply wf_tab|].
  split; [eapply ldim_mk; exact Esh|]. split; [eapply rdim_mk; exact Esh|].
  split; [eapply pdims_mk; exact Esh|].
  intros j a i b Hj Ha Hi Hb. unfold ent.
  assert (Hin : inr (a :: i ++ [off (map rdim (t :: ts)) j + b]) (shp (concatenate (t :: ts) (S (length p))))).
  { rewrite Esh. apply inr_cons; [exact Ha|]. apply inr_app; [exact Hi|]. apply inr_single.
    apply off_lt; [rewrite map_length; exact Hj|].
    rewrite (map_nth_lt _ _ rdim (t :: ts) j dummy) by exact Hj. exact Hb. }
  unfold concatenate. rewrite get_tab by exact Hin.
  change (a :: i ++ [off (map rdim (t :: ts)) j + b]) with ((a :: i) ++ [off (map rdim (t :: ts)) j + b]).
  change (a :: i ++ [b]) with ((a :: i) ++ [b]).
  apply cat_get_last; [cbn; rewrite (inr_length _ _ Hi); reflexivity|exact Hj|exact Hb|].
  apply Forall_forall. exact Hnd.
Qed.

(** ** _local_add *)
Lemma bcast_shape_id sh v : length v = length sh -> bcast_shape sh v = v.
Proof. intros E. unfold bcast_shape. rewrite E, Nat.sub_diag. reflexivity. Qed.

Lemma bcast_ok_refl sh : bcast_ok sh sh = true.
Proof.
  unfold bcast_ok. rewrite Nat.leb_refl, bcast_shape_id by reflexivity. cbn [andb].
  induction sh as [|d sh IH]; [reflexivity|]. cbn. rewrite Nat.eqb_refl, orb_true_r. exact IH.
Qed.

Lemma bcast_idx_id v idx : inr idx v -> bcast_idx v idx = idx.
Proof.
  unfold bcast_idx. induction 1 as [|i d idx v Hi HF IH]; [reflexivity|]. cbn. rewrite IH.
  destruct (Nat.eqb_spec d 1) as [->|_]; [f_equal; lia|reflexivity].
Qed.

Lemma bcast_get_id (v : nd K) idx : inr idx (shp v) -> bcast_get (shp v) v idx = get v idx.
Proof.
  intros H. unfold bcast_get. rewrite bcast_shape_id by reflexivity. rewrite bcast_idx_id by exact H.
  apply get_reshape'. reflexivity.
Qed.

Lemma removelast_tl_mk (a : nat) p b : removelast (tl (a :: p ++ [b])) = p.
Proof. cbn. apply removelast_last. Qed.

Lemma get_slice_assign (rs t : nd K) L R p pl pr a i b :
  shp rs = L :: p ++ [R] -> lt_ok t -> pdims t = p -> inr (a :: i ++ [b]) (shp rs) ->
  get (slice_assign rs pl pr t) (a :: i ++ [b]) =
  if (pl <=? a) && (a <? pl + ldim t) && (pr <=? b) && (b <? pr + rdim t)
  then ent t (a - pl) i (b - pr) else get rs (a :: i ++ [b]).
Proof.
  intros Es Ht Ep Hin. unfold slice_assign. rewrite get_tab by exact Hin.
  cbn [hd]. rewrite removelast_tl_mk.
  replace (List.last (a :: i ++ [b]) 0) with b
    by (symmetry; change (a :: i ++ [b]) with ((a :: i) ++ [b]); apply last_snoc).
  destruct ((pl <=? a) && (a <? pl + ldim t) && (pr <=? b) && (b <? pr + rdim t)) eqn:E; [|reflexivity].
  apply andb_true_iff in E. destruct E as [E E4]. apply andb_true_iff in E. destruct E as [E E3].
  apply andb_true_iff in E. destruct E as [E1 E2].
  apply Nat.leb_le in E1, E3. apply Nat.ltb_lt in E2, E4.
  rewrite (pdims_mk rs L p R Es). rewrite <- Ep. rewrite <- (lt_ok_shp t Ht).
  rewrite bcast_get_id; [reflexivity|]. apply inr_ent; [exact Ht|lia| |lia].
  rewrite Es in Hin. apply inr_cons_iff in Hin. destruct Hin as [_ Hin].
  pose proof (inr_length _ _ Hin) as HL. rewrite !app_length in HL. cbn in HL.
  apply inr_app_inv in Hin. destruct Hin as [i1 [i2 [E' [H1 H2]]]].
  pose proof (inr_length _ _ H1) as HL1.
  apply inr_single_inv in H2. destruct H2 as [y [-> _]].
  apply app_inj_tail in E'. destruct E' as [-> _]. rewrite Ep. exact H1.
Qed.

Lemma local_add_loop_spec p ts : forall rs L R pl pr,
  ndwf rs -> shp rs = L :: p ++ [R] -> fam p ts ->
  exists T, local_add_loop rs pl pr ts = Ok T /\ ndwf T /\ shp T = L :: p ++ [R] /\
  forall x i y, inr (x :: i ++ [y]) (shp T) ->
    (x < pl \/ y < pr -> get T (x :: i ++ [y]) = get rs (x :: i ++ [y])) /\
    (forall j k a b, j < length ts -> k < length ts ->
       a < ldim (nth j ts dummy) -> b < rdim (nth k ts dummy) ->
       x = pl + (off (map ldim ts) j + a) -> y = pr + (off (map rdim ts) k + b) ->
       get T (x :: i ++ [y]) = if Nat.eqb j k then ent (nth j ts dummy) a i b else get rs (x :: i ++ [y])).
Proof.
  induction ts as [|t ts IH]; intros rs L R pl pr Hw Es HF.
  - exists rs. split; [reflexivity|]. split; [exact Hw|]. split; [exact Es|].
    intros x i y Hin. split; [reflexivity|]. intros j k a b Hj. cbn in Hj. lia.
  - inversion HF as [|? ? [Ht Ep] HF']; subst.
    set (rs' := slice_assign rs pl pr t).
    assert (Es' : shp rs' = L :: pdims t ++ [R]) by exact Es.
    destruct (IH rs' L R (pl + ldim t) (pr + rdim t) (wf_tab _ _) Es' HF') as [T [E [HwT [EsT HT]]]].
    exists T. cbn [local_add_loop].
    assert (Hok : slice_assign_ok rs t = true).
    { unfold slice_assign_ok. rewrite (pdims_mk rs L (pdims t) R Es).
      rewrite <- (lt_ok_shp t Ht). apply bcast_ok_refl. }
    rewrite Hok. unfold praise_unless. fold rs'. split; [exact E|]. split; [exact HwT|]. split; [exact EsT|].
    intros x i y Hin.
    assert (Hin' : inr (x :: i ++ [y]) (shp rs)) by (rewrite Es, <- EsT; exact Hin).
    pose proof (get_slice_assign rs t L R (pdims t) pl pr x i y Es Ht eq_refl Hin') as G. fold rs' in G.
    destruct (HT x i y Hin) as [HT1 HT2]. split.
    + intros Hlt. rewrite HT1 by lia. rewrite G.
      replace ((pl <=? x) && (x <? pl + ldim t) && (pr <=? y) && (y <? pr + rdim t)) with false; [reflexivity|].
      symmetry. destruct Hlt as [Hlt|Hlt].
      * replace (pl <=? x) with false by (symmetry; apply Nat.leb_gt; exact Hlt). reflexivity.
      * replace (pr <=? y) with false by (symmetry; apply Nat.leb_gt; exact Hlt). rewrite andb_false_r. reflexivity.
    + intros j k a b Hj Hk Ha Hb Ex Ey. cbn [length] in Hj, Hk. cbn [map] in Ex, Ey.
      destruct j as [|j]; destruct k as [|k]; cbn [nth] in Ha, Hb;
        rewrite ?off_0, ?off_S in Ex; rewrite ?off_0, ?off_S in Ey.
      * cbn [nth Nat.eqb]. rewrite HT1 by lia. rewrite G.
        replace ((pl <=? x) && (x <? pl + ldim t) && (pr <=? y) && (y <? pr + rdim t)) with true.
        -- f_equal; lia.
        -- symmetry. rewrite !andb_true_iff. repeat split;
             try (apply Nat.leb_le; lia); apply Nat.ltb_lt; lia.
      * cbn [Nat.eqb]. rewrite HT1 by lia. rewrite G.
        replace (y <? pr + rdim t) with false by (symmetry; apply Nat.ltb_ge; lia).
        rewrite andb_false_r. reflexivity.
      * cbn [Nat.eqb]. rewrite HT1 by lia. rewrite G.
        replace (x <? pl + ldim t) with false by (symmetry; apply Nat.ltb_ge; lia).
        rewrite andb_false_r. reflexivity.
      * cbn [Nat.eqb nth]. rewrite (HT2 j k a b) by (try lia; assumption).
        destruct (Nat.eqb j k); [reflexivity|]. rewrite G.
        replace (x <? pl + ldim t) with false by (symmetry; apply Nat.ltb_ge; lia).
        rewrite andb_false_r. reflexivity.
Qed.

Lemma local_add_spec p ts :
  ts <> [] -> fam p ts ->
  exists T, local_add ts = Ok T /\ lt_ok T /\ ldim T = list_sum (map ldim ts) /\
  rdim T = list_sum (map rdim ts) /\ pdims T = p /\
  forall j k a i b, j < length ts -> k < length ts -> a < ldim (nth j ts dummy) -> inr i p ->
    b < rdim (nth k ts dummy) ->
    ent T (off (map ldim ts) j + a) i (off (map rdim ts) k + b) =
    if Nat.eqb j k then ent (nth j ts dummy) a i b else k0.
Proof.
  intros Hne HF. destruct ts as [|t ts]; [congruence|].
  assert (Ept : pdims t = p) by (inversion HF as [|? ? [_ H] _]; exact H).
  unfold local_add. rewrite Ept. set (TS := t :: ts) in *.
  destruct (local_add_loop_spec p TS (zeros (list_sum (map ldim TS) :: p ++ [list_sum (map rdim TS)]))
              (list_sum (map ldim TS)) (list_sum (map rdim TS)) 0 0 (wf_tab _ _) eq_refl HF)
    as [T [E [Hw [Es HT]]]].
  exists T. split; [exact E|]. split; [eapply lt_ok_mk; [exact Hw|exact Es]|].
  split; [eapply ldim_mk; exact Es|]. split; [eapply rdim_mk; exact Es|]. split; [eapply pdims_mk; exact Es|].
  intros j k a i b Hj Hk Ha Hi Hb. unfold ent at 1.
  assert (Hin : inr ((off (map ldim TS) j + a) :: i ++ [off (map rdim TS) k + b]) (shp T)).
  { rewrite Es. apply inr_cons.
    - apply off_lt; [rewrite map_length; exact Hj|].
      rewrite (map_nth_lt _ _ ldim TS j dummy) by exact Hj. exact Ha.
    - apply inr_app; [exact Hi|]. apply inr_single. apply off_lt; [rewrite map_length; exact Hk|].
      rewrite (map_nth_lt _ _ rdim TS k dummy) by exact Hk. exact Hb. }
  destruct (HT _ _ _ Hin) as [_ HT2]. rewrite (HT2 j k a b) by (assumption || reflexivity).
  destruct (Nat.eqb j k); [reflexivity|]. apply get_zeros.
Qed.

End Blocks.
