(** [sumup] and [__add__] compute the (weighted) sum of the represented arrays. *)
From Verif Require Export PfSum.

Section Sumup.
Context {K : StarRing}.
Add Ring Kr : (k_ring K).

(** Column [j] of a list of families (one family per site). *)
Definition column (j : nat) (fs : list (list (nd K))) : list (nd K) := map (fun f => nth j f dummy) fs.

Lemma nth_ext_len (A : Type) (l1 l2 : list A) (d1 d2 : A) N :
  length l1 = N -> length l2 = N -> (forall j, j < N -> nth j l1 d1 = nth j l2 d2) -> l1 = l2.
Proof. intros H1 H2 H. apply (nth_ext l1 l2 d1 d2); [lia|]. intros n Hn. apply H. lia. Qed.

Lemma map_rdim_ldim (f g : list (nd K)) N :
  length f = N -> length g = N ->
  (forall j, j < N -> rdim (nth j f dummy) = ldim (nth j g dummy)) -> map rdim f = map ldim g.
Proof.
  intros Hf Hg H. apply (nth_ext_len _ _ _ 0 0 N); rewrite ?map_length; auto.
  intros j Hj. rewrite (map_nth_lt _ _ rdim f j dummy), (map_nth_lt _ _ ldim g j dummy) by lia. apply H; exact Hj.
Qed.

Lemma list_sum_ones (l : list nat) N : length l = N -> (forall j, j < N -> nth j l 0 = 1) -> list_sum l = N.
Proof.
  revert N; induction l as [|x l IH]; intros N HN H; cbn in HN; subst N; [reflexivity|].
  change (list_sum (x :: l)) with (x + list_sum l). rewrite (IH (length l) eq_refl).
  - pose proof (H 0 ltac:(lia)) as H0. cbn in H0. lia.
  - intros j Hj. apply (H (S j)). lia.
Qed.

Lemma suffix_spec N fs : forall ps,
  fs <> [] -> 0 < N ->
  Forall2 (fun f p => length f = N /\ fam p f) fs ps ->
  (forall j, j < N -> bonds (column j fs) (ldim (nth j (hd [] fs) dummy)) 1) ->
  exists mids l,
    mapM local_add (removelast fs) = Ok mids /\ cat_first_py (List.last fs []) = Ok l /\
    let D := mids ++ [l] in
    bonds D (list_sum (map ldim (hd [] fs))) 1 /\ map pdims D = ps /\
    map ldim D = map (fun f => list_sum (map ldim f)) fs /\
    forall j a is, j < N -> a < ldim (nth j (hd [] fs) dummy) -> Forall2 inr is ps ->
      amp D is (off (map ldim (hd [] fs)) j + a) 0 = amp (column j fs) is a 0.
Proof.
  induction fs as [|f fs IH]; intros ps Hne HN HF HB; [congruence|].
  inversion HF as [|? p ? ps' [Hlen Hfam] HF' E1 E2]; subst. clear Hne. cbn [hd] in HB.
  set (N := length f) in *.
  assert (Hfne : f <> []) by (intros E; subst N; rewrite E in HN; cbn in HN; lia).
  destruct fs as [|g fs].
  - inversion HF'; subst.
    assert (HR : Forall (fun t => rdim t = 1) f).
    { apply Forall_forall. intros t Ht. apply (In_nth _ _ dummy) in Ht. destruct Ht as [j [Hj <-]].
      destruct (HB j Hj) as [_ [_ Hb]]. exact Hb. }
    destruct (cat_first_spec p f 1 Hfne Hfam HR) as [T [E [HT [El [Er [Ep HE]]]]]].
    exists [], T. split; [reflexivity|]. split; [exact E|]. cbn zeta. cbn [app hd].
    split; [split; [exact HT|]; split; [exact El|exact Er]|].
    split; [cbn; rewrite Ep; reflexivity|]. split; [cbn; rewrite El; reflexivity|].
    intros j a is Hj Ha His. inversion His as [|i ? is' ? Hi His' E1 E2]; subst. inversion His'; subst.
    cbn [column map]. rewrite !amp_one.
    + apply HE; [exact Hj|exact Ha|exact Hi|lia].
    + destruct (HB j Hj) as [_ [_ Hb]]. cbn in Hb. lia.
    + lia.
  - specialize (IH ps' ltac:(discriminate) HN HF').
    inversion HF' as [|? q ? ps'' [Hleng Hfamg] _ E1 E2]; subst.
    assert (HBg : forall j, j < N -> bonds (column j (g :: fs)) (ldim (nth j (hd [] (g :: fs)) dummy)) 1).
    { intros j Hj. destruct (HB j Hj) as [_ [_ Hb]]. pose proof Hb as Hb'. destruct Hb' as [_ [El _]].
      cbn [hd]. rewrite El. exact Hb. }
    specialize (IH HBg). destruct IH as [mids [l [Em [El IH]]]].
    cbn zeta in IH. cbn [hd] in IH. destruct IH as [IB [IP [IL IA]]].
    destruct (local_add_spec p f Hfne Hfam) as [T [ET [HT [ElT [ErT [EpT HE]]]]]].
    assert (Hbond : map rdim f = map ldim g).
    { apply (map_rdim_ldim f g N eq_refl Hleng). intros j Hj. destruct (HB j Hj) as [_ [_ [_ [E _]]]]. symmetry; exact E. }
    exists (T :: mids), l.
    split; [change (removelast (f :: g :: fs)) with (f :: removelast (g :: fs)); cbn [mapM];
            rewrite ET; cbn [bind]; rewrite Em; reflexivity|].
    split; [exact El|]. cbn zeta. cbn [app hd].
    split; [cbn [bonds]; split; [exact HT|]; split; [exact ElT|]; rewrite ErT, Hbond; exact IB|].
    split; [cbn [map]; rewrite EpT, IP; reflexivity|].
    split; [cbn [map]; rewrite ElT; f_equal; exact IL|].
    intros j a is Hj Ha His. inversion His as [|i ? is' ? Hi His' E1 E2]; subst.
    cbn [amp column map]. rewrite ErT, bigsum_blocks. rewrite map_length. fold N.
    rewrite (bigsum_single N j).
    + rewrite (map_nth_lt _ _ rdim f j dummy) by exact Hj.
      apply bigsum_ext. intros b Hb. rewrite HE by assumption. rewrite Nat.eqb_refl. f_equal.
      rewrite Hbond. apply IA; [exact Hj| |exact His'].
      rewrite <- (map_nth_lt _ _ ldim g j dummy 0) by lia. rewrite <- Hbond.
      rewrite (map_nth_lt _ _ rdim f j dummy) by exact Hj. exact Hb.
    + exact Hj.
    + intros k Hk Hne. apply bigsum_zero. intros b Hb.
      rewrite (map_nth_lt _ _ rdim f k dummy) in Hb by exact Hk.
      rewrite HE by assumption. destruct (Nat.eqb_spec j k) as [E|_]; [congruence|]. ring.
Qed.

(** ** sumup *)
Definition wt (ws : option (list K)) (j : nat) : K :=
  match ws with None => k1 | Some w => nth j w k0 end.

Definition site (xs : list (ltens K)) (k : nat) : list (nd K) := map (fun x => nth k (lts x) dummy) xs.

Lemma bonds_nth (ts : list (nd K)) l r k : bonds ts l r -> k < length ts ->
  lt_ok (nth k ts dummy) /\ (k = 0 -> ldim (nth k ts dummy) = l) /\
  (S k < length ts -> rdim (nth k ts dummy) = ldim (nth (S k) ts dummy)) /\
  (S k = length ts -> rdim (nth k ts dummy) = r).
Proof.
  revert l k; induction ts as [|t ts IH]; intros l k Hb Hk; cbn in Hk; [lia|].
  destruct Hb as [Ht [El Hb]]. destruct k as [|k].
  - cbn [nth length]. split; [exact Ht|]. split; [intros _; exact El|]. split.
    + intros H. destruct ts as [|u ts]; [cbn in H; lia|]. destruct Hb as [_ [E _]]. cbn. symmetry; exact E.
    + intros H. destruct ts; [|cbn in H; lia]. exact Hb.
  - destruct (IH (rdim t) k Hb ltac:(lia)) as [H1 [_ [H3 H4]]]. cbn [nth length]. split; [exact H1|].
    split; [intros; lia|]. split; intros; [apply H3; lia|apply H4; lia].
Qed.

Lemma bonds_skipn (ts : list (nd K)) l r k : bonds ts l r -> k < length ts -> bonds (skipn k ts) (ldim (nth k ts dummy)) r.
Proof.
  revert l k; induction ts as [|t ts IH]; intros l k Hb Hk; cbn in Hk; [lia|].
  destruct Hb as [Ht [El Hb]]. destruct k as [|k]; cbn [skipn nth].
  - split; [exact Ht|]. split; [reflexivity|exact Hb].
  - apply (IH (rdim t)); [exact Hb|lia].
Qed.

Lemma seq_nth_map (A : Type) (l : list A) d k : k <= length l ->
  map (fun i => nth i l d) (seq k (length l - k)) = skipn k l.
Proof.
  revert k; induction l as [|x l IH]; intros k Hk; cbn in Hk.
  - replace k with 0 by lia. reflexivity.
  - destruct k as [|k].
    + cbn [length Nat.sub seq map nth skipn]. f_equal. rewrite <- seq_shift, map_map.
      specialize (IH 0 ltac:(lia)). rewrite Nat.sub_0_r in IH. exact IH.
    + cbn [length Nat.sub skipn]. rewrite <- IH by lia. rewrite <- seq_shift, map_map. reflexivity.
Qed.

Lemma mshape_length (x : ltens K) : length (mshape x) = llen x.
Proof. apply map_length. Qed.


Lemma lt_ok_nscale c (t : nd K) : lt_ok t -> lt_ok (nscale c t).
Proof. intros [H1 H2]. split; [apply wf_nscale; exact H1|exact H2]. Qed.
Lemma ent_nscale c (t : nd K) a i b : ent (nscale c t) a i b = (c * ent t a i b)%K.
Proof. apply get_nscale. Qed.

Lemma map_combine_snd (A B C : Type) (f : B -> C) (l : list A) (m : list B) :
  length l = length m -> map (fun p => f (snd p)) (combine l m) = map f m.
Proof.
  revert m; induction l as [|x l IH]; intros [|y m] H; try discriminate; [reflexivity|].
  cbn. f_equal. apply IH. injection H as H. exact H.
Qed.

Lemma site_nolag (xs : list (ltens K)) nw k :
  length xs <= nw ->
  map (fun p => nth (k - (if Nat.ltb (fst p) nw then 0 else 1)) (lts (snd p)) dummy)
      (combine (seq 0 (length xs)) xs) = site xs k.
Proof.
  intros H. transitivity (map (fun p => nth k (lts (snd p)) dummy) (combine (seq 0 (length xs)) xs)).
  - apply map_ext_in. intros [i x] Hin. apply in_combine_l in Hin. apply in_seq in Hin. cbn [fst snd].
    replace (i <? nw) with true by (symmetry; apply Nat.ltb_lt; lia). rewrite Nat.sub_0_r. reflexivity.
  - apply (map_combine_snd _ _ _ (fun x => nth k (lts x) dummy)). apply seq_length.
Qed.

Lemma mapM_map (A B C : Type) (f : A -> B) (g : B -> res C) l : mapM (fun x => g (f x)) l = mapM g (map f l).
Proof. induction l as [|x l IH]; [reflexivity|]. cbn. rewrite IH. reflexivity. Qed.

(** Sum of arrays of the same shape. *)
Lemma nsum_list_spec p l r (ts : list (nd K)) :
  ts <> [] -> fam p ts -> Forall (fun t => ldim t = l /\ rdim t = r) ts ->
  exists T, nsum_list ts = Ok T /\ lt_ok T /\ ldim T = l /\ rdim T = r /\ pdims T = p /\
  forall a i b, a < l -> inr i p -> b < r ->
    ent T a i b = bigsum (length ts) (fun j => ent (nth j ts dummy) a i b).
Proof.
  intros Hne HF HD. induction ts as [|t ts IH]; [congruence|].
  inversion HF as [|? ? [Ht Ep] HF']; subst. inversion HD as [|? ? [El Er] HD']; subst.
  destruct ts as [|u ts].
  - exists t. split; [reflexivity|]. split; [exact Ht|]. split; [reflexivity|]. split; [reflexivity|].
    split; [reflexivity|]. intros a i b Ha Hi Hb. cbn. ring.
  - destruct (IH ltac:(discriminate) HF' HD') as [T [E [HT [ElT [ErT [EpT HE]]]]]].
    change (nsum_list (t :: u :: ts)) with (do s <- nsum_list (u :: ts); nadd_py t s).
    rewrite E. cbn [bind]. unfold nadd_py.
    assert (Es : shp t = shp T) by (rewrite (lt_ok_shp t Ht), (lt_ok_shp T HT), ElT, ErT, EpT; reflexivity).
    rewrite Es, list_eqb_refl. unfold praise_unless. exists (nadd t T). split; [reflexivity|].
    assert (EsA : shp (nadd t T) = ldim t :: pdims t ++ [rdim t]) by exact (lt_ok_shp t Ht).
    split; [eapply lt_ok_mk; [apply wf_nadd|exact EsA]|]. split; [eapply ldim_mk; exact EsA|].
    split; [eapply rdim_mk; exact EsA|]. split; [eapply pdims_mk; exact EsA|].
    intros a i b Ha Hi Hb. cbn [length]. rewrite bigsum_shift. cbn [nth]. unfold ent at 1.
    rewrite get_nadd by (apply inr_ent; assumption). f_equal.
    apply (HE a i b Ha Hi Hb).
Qed.

Lemma wfirst_length ws (l : list (nd K)) :
  (forall w, ws = Some w -> length w = length l) ->
  length (match ws with None => l | Some w => map (fun p => nscale (fst p) (snd p)) (combine w l) end) = length l.
Proof.
  intros H. destruct ws as [w|]; [|reflexivity]. rewrite map_length, combine_length, (H w eq_refl). lia.
Qed.

Lemma wfirst_nth ws (l : list (nd K)) j :
  (forall w, ws = Some w -> length w = length l) -> j < length l ->
  let f := match ws with None => l | Some w => map (fun p => nscale (fst p) (snd p)) (combine w l) end in
  ldim (nth j f dummy) = ldim (nth j l dummy) /\ rdim (nth j f dummy) = rdim (nth j l dummy) /\
  pdims (nth j f dummy) = pdims (nth j l dummy) /\ (lt_ok (nth j l dummy) -> lt_ok (nth j f dummy)) /\
  forall a i b, ent (nth j f dummy) a i b = (wt ws j * ent (nth j l dummy) a i b)%K.
Proof.
  intros H Hj f. destruct ws as [w|]; cbn [wt].
  - specialize (H w eq_refl). unfold f.
    rewrite (map_nth_lt _ _ (fun p : K * nd K => nscale (fst p) (snd p)) (combine w l) j (k0, dummy))
      by (rewrite combine_length, H; lia).
    rewrite combine_nth by exact H. cbn [fst snd].
    split; [reflexivity|]. split; [reflexivity|]. split; [reflexivity|].
    split; [apply lt_ok_nscale|]. intros a i b. apply ent_nscale.
  - unfold f. repeat (split; [reflexivity || tauto|]). intros a i b. ring.
Qed.

Definition sum_ranks (xs : list (ltens K)) (n : nat) : list nat :=
  map (fun k => list_sum (map (fun x => nth k (ranks x) 0) xs)) (seq 0 (n - 1)).

Lemma ranks_nth (x : ltens K) k : S k < llen x -> nth k (ranks x) 0 = ldim (nth (S k) (lts x) dummy).
Proof.
  unfold ranks, llen. destruct (lts x) as [|t ts]; cbn; [lia|]. intros H.
  apply (map_nth_lt _ _ ldim ts k dummy 0). lia.
Qed.

Lemma nth_site (xs : list (ltens K)) k j :
  j < length xs -> nth j (site xs k) dummy = nth k (lts (nth j xs (mkLt [] 0 0))) dummy.
Proof. intros H. unfold site. apply (map_nth_lt _ _ (fun x => nth k (lts x) dummy) xs j (mkLt [] 0 0) dummy H). Qed.

Lemma column_map_site (xs : list (ltens K)) ks j :
  j < length xs -> column j (map (site xs) ks) = map (fun k => nth k (lts (nth j xs (mkLt [] 0 0))) dummy) ks.
Proof. intros H. unfold column. rewrite map_map. apply map_ext. intros k. apply nth_site; exact H. Qed.

Theorem msumup_spec (xs : list (ltens K)) ws n sh :
  xs <> [] -> Forall mpa_ok xs -> Forall (fun x => mshape x = sh) xs -> length sh = n ->
  (forall w, ws = Some w -> length w = length xs) ->
  exists y, msumup xs ws = Ok y /\ mpa_ok y /\ mshape y = sh /\ ranks y = sum_ranks xs n /\
    lcan y = 0%Z /\ rcan y = Z.of_nat n /\
    forall is, Forall2 inr is sh ->
      amp (lts y) is 0 0 =
      bigsum (length xs) (fun j => wt ws j * amp (lts (nth j xs (mkLt [] 0 0))) is 0 0)%K.
Proof.
  intros Hne Hok Hsh Hn Hw.
  assert (Hlen : forall x, In x xs -> llen x = n).
  { intros x Hx. rewrite Forall_forall in Hsh. rewrite <- mshape_length, (Hsh x Hx). exact Hn. }
  assert (Hx : forall j, j < length xs -> let x := nth j xs (mkLt [] 0 0) in
             mpa_ok x /\ mshape x = sh /\ llen x = n).
  { intros j Hj x. rewrite Forall_forall in Hok, Hsh. assert (In x xs) by (apply nth_In; exact Hj).
    split; [apply Hok; assumption|]. split; [apply Hsh; assumption|apply Hlen; assumption]. }
  set (N := length xs) in *.
  assert (HN : 0 < N) by (unfold N; destruct xs; [congruence|cbn; lia]).
  assert (Hn0 : 0 < n).
  { destruct (Hx 0 HN) as [[H1 _] [_ H2]]. unfold llen in H2. destruct (lts (nth 0 xs (mkLt [] 0 0))); [congruence|cbn in H2; lia]. }
  assert (Efs : forall k, k < n -> fam (nth k sh []) (site xs k)).
  { intros k Hk. unfold fam. apply Forall_forall. intros t Ht. apply (In_nth _ _ dummy) in Ht.
    destruct Ht as [j [Hj <-]]. unfold site in Hj. rewrite map_length in Hj. rewrite nth_site by exact Hj.
    destruct (Hx j Hj) as [[_ Hb] [Es Hl]]. unfold llen in Hl.
    destruct (bonds_nth _ _ _ k Hb ltac:(lia)) as [H1 _]. split; [exact H1|].
    rewrite <- Es. unfold mshape. symmetry. apply (map_nth_lt _ _ pdims). lia. }
  assert (Elen : forall k, length (site xs k) = N) by (intros; unfold site; apply map_length).
  unfold msumup. destruct xs as [|x0 xs']; [congruence|]. set (xs := x0 :: xs') in *.
  rewrite (Hlen x0 (or_introl eq_refl)).
  replace (forallb (fun x => llen x =? n) xs) with true
    by (symmetry; apply forallb_forall; intros x Hin; apply Nat.eqb_eq; apply Hlen; exact Hin).
  unfold passert at 1.
  set (nw := match ws with None => length xs | Some w => length w end).
  assert (Hnw : length xs <= nw) by (unfold nw; destruct ws as [w|]; [rewrite (Hw w eq_refl); fold N; lia|lia]).
  rewrite (site_nolag xs nw 0 Hnw).
  set (first := match ws with None => site xs 0 | Some w => map (fun p => nscale (fst p) (snd p)) (combine w (site xs 0)) end).
  assert (Hwl : forall w, ws = Some w -> length w = length (site xs 0)) by (intros w E; rewrite Elen; apply Hw; exact E).
  assert (Hflen : length first = N) by (unfold first; rewrite wfirst_length; [apply Elen|exact Hwl]).
  assert (Hfn : forall j, j < N -> ldim (nth j first dummy) = 1 /\ rdim (nth j first dummy) = rdim (nth j (site xs 0) dummy) /\
     pdims (nth j first dummy) = nth 0 sh [] /\ lt_ok (nth j first dummy) /\
     forall a i b, ent (nth j first dummy) a i b = (wt ws j * ent (nth j (site xs 0) dummy) a i b)%K).
  { intros j Hj. destruct (wfirst_nth ws (site xs 0) j Hwl ltac:(rewrite Elen; exact Hj)) as [H1 [H2 [H3 [H4 H5]]]].
    fold first in H1, H2, H3, H4, H5.
    destruct (fam_nth _ _ j (Efs 0 Hn0) ltac:(rewrite Elen; exact Hj)) as [H6 H7].
    split; [|split; [exact H2|split; [congruence|split; [auto|exact H5]]]].
    rewrite H1, nth_site by exact Hj. destruct (Hx j Hj) as [[_ Hb] [_ Hl]]. unfold llen in Hl.
    destruct (bonds_nth _ _ _ 0 Hb ltac:(lia)) as [_ [E _]]. apply E; reflexivity. }
  assert (Hffam : fam (nth 0 sh []) first).
  { apply Forall_forall. intros t Ht. apply (In_nth _ _ dummy) in Ht. destruct Ht as [j [Hj <-]].
    rewrite Hflen in Hj. destruct (Hfn j Hj) as [_ [_ [H3 [H4 _]]]]. auto. }
  assert (Hfne : first <> []) by (intros E; rewrite E in Hflen; cbn in Hflen; lia).
  destruct (Nat.eqb_spec n 1) as [En|En].
  - (* one site *)
    assert (HD : Forall (fun t => ldim t = 1 /\ rdim t = 1) first).
    { apply Forall_forall. intros t Ht. apply (In_nth _ _ dummy) in Ht. destruct Ht as [j [Hj <-]].
      rewrite Hflen in Hj. destruct (Hfn j Hj) as [H1 [H2 _]]. split; [exact H1|]. rewrite H2, nth_site by exact Hj.
      destruct (Hx j Hj) as [[_ Hb] [_ Hl]]. unfold llen in Hl.
      destruct (bonds_nth _ _ _ 0 Hb ltac:(lia)) as [_ [_ [_ E]]]. apply E. lia. }
    destruct (nsum_list_spec _ 1 1 first Hfne Hffam HD) as [T [E [HT [El [Er [Ep HE]]]]]].
    rewrite E. cbn [bind].
    assert (Hb : bonds [T] 1 1) by (cbn; auto).
    rewrite (mpa_new_ok [T] 1 1 ltac:(discriminate) Hb). eexists. split; [reflexivity|].
    split; [split; [discriminate|exact Hb]|].
    assert (Esh : sh = [nth 0 sh []]) by (destruct sh as [|s [|]]; cbn in Hn; try lia; reflexivity).
    split; [cbn; rewrite Ep; symmetry; exact Esh|].
    split; [rewrite En; reflexivity|]. split; [reflexivity|]. split; [cbn; lia|].
    intros is His. rewrite Esh in His. inversion His as [|i ? is' ? Hi His' E1 E2]; subst. inversion His'; subst.
    cbn [lts]. rewrite amp_one by lia. rewrite HE by (try lia; exact Hi). rewrite Hflen.
    apply bigsum_ext. intros j Hj. destruct (Hfn j Hj) as [_ [_ [_ [_ H5]]]]. rewrite H5. f_equal.
    destruct (Hx j Hj) as [[_ Hb'] [_ Hl]]. unfold llen in Hl. rewrite nth_site by exact Hj.
    destruct (lts (nth j xs (mkLt [] 0 0))) as [|t [|]]; cbn in Hl; try lia.
    destruct Hb' as [_ [_ Er']]. cbn in Er'. rewrite amp_one by lia. reflexivity.
  - (* at least two sites *)
    assert (Hn2 : 2 <= n) by lia.
    assert (HL : Forall (fun t => ldim t = 1) first).
    { apply Forall_forall. intros t Ht. apply (In_nth _ _ dummy) in Ht. destruct Ht as [j [Hj <-]].
      rewrite Hflen in Hj. apply (Hfn j Hj). }
    destruct (cat_last_spec _ first 1 Hfne Hffam HL) as [F [EF [HF [ElF [ErF [EpF HEF]]]]]].
    rewrite EF. cbn [bind].
    set (fs := map (site xs) (seq 1 (n - 1))).
    assert (Hseq : seq 1 (n - 1) = seq 1 (n - 2) ++ [n - 1]).
    { replace (n - 1) with (S (n - 2)) by lia. rewrite seq_S. reflexivity. }
    assert (Erl : removelast fs = map (site xs) (seq 1 (n - 2))).
    { unfold fs. rewrite Hseq, map_app. apply removelast_last. }
    assert (Ela : List.last fs [] = site xs (n - 1)).
    { unfold fs. rewrite Hseq, map_app. apply last_snoc. }
    assert (Ehd : hd [] fs = site xs 1).
    { unfold fs. replace (n - 1) with (S (n - 2)) by lia. reflexivity. }
    assert (Hcol : forall j, j < N -> column j fs = skipn 1 (lts (nth j xs (mkLt [] 0 0)))).
    { intros j Hj. unfold fs. rewrite column_map_site by exact Hj.
      destruct (Hx j Hj) as [_ [_ Hl]]. unfold llen in Hl. rewrite <- Hl at 1. apply seq_nth_map. lia. }
    assert (HF2 : Forall2 (fun f p => length f = N /\ fam p f) fs (skipn 1 sh)).
    { unfold fs. rewrite <- (seq_nth_map _ sh [] 1) by lia. rewrite Hn.
      assert (G : forall l, (forall k, In k l -> k < n) ->
        Forall2 (fun f p => length f = N /\ fam p f) (map (site xs) l) (map (fun i => nth i sh []) l)).
      { induction l as [|k l IH]; intros Hk; [constructor|]. cbn. constructor.
        - split; [apply Elen|apply Efs; apply Hk; left; reflexivity].
        - apply IH. intros k' Hk'. apply Hk. right; exact Hk'. }
      apply G. intros k Hk. apply in_seq in Hk. lia. }
    assert (HB : forall j, j < N -> bonds (column j fs) (ldim (nth j (hd [] fs) dummy)) 1).
    { intros j Hj. rewrite Hcol by exact Hj. rewrite Ehd, nth_site by exact Hj.
      destruct (Hx j Hj) as [[_ Hb] [_ Hl]]. unfold llen in Hl. eapply bonds_skipn; [exact Hb|lia]. }
    assert (Hfsne : fs <> []) by (unfold fs; replace (n - 1) with (S (n - 2)) by lia; discriminate).
    destruct (suffix_spec N fs (skipn 1 sh) Hfsne HN HF2 HB) as [mids [l [Em [El HD]]]].
    rewrite Erl in Em. rewrite Ela in El. cbn zeta in HD. rewrite Ehd in HD. destruct HD as [DB [DP [DL DA]]].
    assert (Em' : mapM (fun k => local_add (map (fun p => nth (k - (if fst p <? nw then 0 else 1)) (lts (snd p)) dummy)
                (combine (seq 0 (length xs)) xs))) (seq 1 (n - 2)) = Ok mids).
    { rewrite <- Em, <- mapM_map. clear -Hnw. induction (seq 1 (n - 2)) as [|k ks IH]; [reflexivity|].
      cbn [mapM]. rewrite (site_nolag xs nw k Hnw), IH. reflexivity. }
    rewrite Em'. cbn [bind]. rewrite (site_nolag xs nw (n - 1) Hnw), El. cbn [bind].
    assert (Hbond : map rdim first = map ldim (site xs 1)).
    { apply (map_rdim_ldim first (site xs 1) N Hflen (Elen 1)). intros j Hj.
      destruct (Hfn j Hj) as [_ [H2 _]]. rewrite H2, !nth_site by exact Hj.
      destruct (Hx j Hj) as [[_ Hb] [_ Hl]]. unfold llen in Hl.
      destruct (bonds_nth _ _ _ 0 Hb ltac:(lia)) as [_ [_ [H _]]]. apply H. lia. }
    assert (Hb : bonds (F :: mids ++ [l]) 1 1).
    { cbn [bonds]. split; [exact HF|]. split; [exact ElF|]. rewrite ErF, Hbond. exact DB. }
    rewrite (mpa_new_ok (F :: mids ++ [l]) 1 1 ltac:(discriminate) Hb). eexists. split; [reflexivity|].
    split; [split; [discriminate|exact Hb]|].
    assert (Esh : sh = nth 0 sh [] :: skipn 1 sh) by (destruct sh; [cbn in Hn; lia|reflexivity]).
    assert (Eshape : map pdims (F :: mids ++ [l]) = sh).
    { cbn [map]. rewrite EpF, DP. symmetry. exact Esh. }
    split; [exact Eshape|].
    split.
    { unfold ranks. cbn [lts tl]. rewrite DL. unfold fs, sum_ranks.
      rewrite map_map. rewrite <- seq_shift, map_map. apply map_ext_in. intros k Hk. apply in_seq in Hk.
      unfold site. rewrite map_map. f_equal. apply map_ext_in. intros x Hin. symmetry. apply ranks_nth.
      rewrite (Hlen x Hin). lia. }
    split; [reflexivity|].
    split.
    { cbn [rcan]. rewrite <- (map_length pdims), Eshape, Hn. reflexivity. }
    intros is His. cbn [lts]. rewrite Esh in His. inversion His as [|i ? is' ? Hi His' E1 E2]; subst.
    cbn [amp]. rewrite ErF, bigsum_blocks, map_length, Hflen. apply bigsum_ext. intros j Hj.
    rewrite (map_nth_lt _ _ rdim first j dummy) by lia.
    destruct (Hfn j Hj) as [H1 [H2 [H3 [H4 H5]]]]. rewrite H2.
    destruct (Hx j Hj) as [[_ Hb'] [_ Hl]]. unfold llen in Hl.
    assert (Hsk : lts (nth j xs (mkLt [] 0 0)) = nth j (site xs 0) dummy :: column j fs).
    { rewrite Hcol, nth_site by exact Hj. destruct (lts (nth j xs (mkLt [] 0 0))); [cbn in Hl; lia|reflexivity]. }
    rewrite Hsk. cbn [amp]. rewrite <- bigsum_mul_l. apply bigsum_ext. intros b Hb2.
    rewrite HEF; [|lia|lia|exact Hi|rewrite H2; exact Hb2]. rewrite H5.
    rewrite Hbond. rewrite DA; [ring|exact Hj| |exact His'].
    rewrite <- (map_nth_lt _ _ ldim (site xs 1) j dummy 0) by (rewrite Elen; exact Hj).
    rewrite <- Hbond. rewrite (map_nth_lt _ _ rdim first j dummy) by lia. lia.
Qed.

End Sumup.
