(** [__add__], [__mul__] and relatives. *)
From Verif Require Export PfSumup.

Section Add.
Context {K : StarRing}.
Add Ring Kr : (k_ring K).

Lemma Forall2_len (A B : Type) (R : A -> B -> Prop) l m : Forall2 R l m -> length l = length m.
Proof. intros H. induction H; cbn; auto. Qed.

Lemma inner_slice_nth (A : Type) (l : list A) d :
  2 <= length l -> inner_slice l = map (fun i => nth i l d) (seq 1 (length l - 2)).
Proof.
  intros H. unfold inner_slice. destruct l as [|x l]; cbn in H; [lia|]. cbn [tl length].
  destruct l as [|y l] using rev_ind; [cbn in H; lia|]. clear IHl.
  rewrite removelast_last. rewrite app_length. cbn [length]. rewrite <- seq_shift, map_map. cbn [nth].
  replace (S (length l + 1) - 2) with (length l) by lia. rewrite <- (seq_nth_map _ l d 0) at 1 by lia.
  rewrite Nat.sub_0_r. apply map_ext_in. intros i Hi. apply in_seq in Hi. rewrite app_nth1 by lia. reflexivity.
Qed.

Lemma combine_map_same (A B C : Type) (f : A -> B) (g : A -> C) l :
  combine (map f l) (map g l) = map (fun x => (f x, g x)) l.
Proof. induction l as [|x l IH]; [reflexivity|]. cbn. rewrite IH. reflexivity. Qed.

Lemma last_nth (A : Type) (l : list A) d : List.last l d = nth (length l - 1) l d.
Proof.
  destruct l as [|x l] using rev_ind; [reflexivity|]. rewrite last_snoc, app_length. cbn [length].
  rewrite Nat.add_sub, app_nth2, Nat.sub_diag by lia. reflexivity.
Qed.

Lemma madd_sumup (x y : ltens K) : mpa_ok x -> madd x y = msumup [x; y] None.
Proof.
  intros [Hx _]. unfold madd, msumup. cbn [forallb]. rewrite Nat.eqb_refl, andb_true_r. cbn [andb].
  rewrite (Nat.eqb_sym (llen y)).
  destruct (Nat.eqb_spec (llen x) (llen y)) as [E|E]; [|reflexivity]. unfold passert at 1 2.
  cbn [length seq combine map fst snd Nat.ltb Nat.leb Nat.sub].
  assert (Hn : 0 < llen x) by (unfold llen; destruct (lts x); [congruence|cbn; lia]).
  assert (H0 : forall z : ltens K, hd dummy (lts z) = nth 0 (lts z) dummy) by (intros z; destruct (lts z); reflexivity).
  rewrite !H0.
  destruct (Nat.eqb_spec (llen x) 1) as [E1|E1].
  - cbn [nsum_list bind]. reflexivity.
  - destruct (cat_last_py _); [|reflexivity]. cbn [bind].
    assert (Em : mapM (fun p => local_add [fst p; snd p]) (combine (inner_slice (lts x)) (inner_slice (lts y)))
      = mapM (fun k => local_add [nth (k - 0) (lts x) dummy; nth (k - 0) (lts y) dummy]) (seq 1 (llen x - 2))).
    { unfold llen in *. rewrite (inner_slice_nth _ (lts x) dummy), (inner_slice_nth _ (lts y) dummy) by lia. rewrite <- E.
      rewrite combine_map_same, <- mapM_map. cbn [fst snd]. 
      induction (seq 1 (length (lts x) - 2)) as [|k ks IH]; [reflexivity|]. cbn [mapM].
      rewrite IH, Nat.sub_0_r. reflexivity. }
    rewrite Em. clear Em. destruct (mapM _ (seq 1 (llen x - 2))); [|reflexivity]. cbn [bind].
    rewrite !last_nth. unfold llen in *. rewrite <- E, Nat.sub_0_r. reflexivity.
Qed.

Lemma Forall_2 (A : Type) (P : A -> Prop) x y : P x -> P y -> Forall P [x; y].
Proof. intros; repeat constructor; assumption. Qed.

Theorem madd_spec (x y : ltens K) :
  mpa_ok x -> mpa_ok y -> mshape x = mshape y ->
  exists z, madd x y = Ok z /\ mpa_ok z /\ mshape z = mshape x /\
    ranks z = map (fun p => fst p + snd p) (combine (ranks x) (ranks y)) /\
    lcan z = 0%Z /\ rcan z = Z.of_nat (llen x) /\
    forall is, Forall2 inr is (mshape x) ->
      amp (lts z) is 0 0 = (amp (lts x) is 0 0 + amp (lts y) is 0 0)%K.
Proof.
  intros Hx Hy Hs. rewrite madd_sumup by exact Hx.
  destruct (msumup_spec [x; y] None (llen x) (mshape x)) as [z [E [Hz [Hsz [Hr [Hl [Hrc HA]]]]]]].
  - discriminate.
  - apply Forall_2; assumption.
  - apply Forall_2; [reflexivity|symmetry; exact Hs].
  - apply mshape_length.
  - discriminate.
  - exists z. split; [exact E|]. split; [exact Hz|]. split; [exact Hsz|]. split.
    + rewrite Hr. unfold sum_ranks.
      assert (Elen : length (lts x) = length (lts y)).
      { change (llen x = llen y). rewrite <- !mshape_length, Hs. reflexivity. }
      assert (HR : forall u : ltens K, ranks u = map (fun k => nth k (ranks u) 0) (seq 0 (llen u - 1))).
      { intros u. assert (L : length (ranks u) = llen u - 1).
        { unfold ranks, llen. rewrite map_length. destruct (lts u); cbn; lia. }
        rewrite <- L. rewrite <- (seq_nth_map _ (ranks u) 0 0) at 1 by lia. rewrite Nat.sub_0_r. reflexivity. }
      rewrite (HR x), (HR y) at 1. unfold llen. rewrite <- Elen. rewrite combine_map_same, map_map.
      apply map_ext. intros k. cbn. lia.
    + split; [exact Hl|]. split; [exact Hrc|]. intros is His. rewrite (HA is His). cbn. ring.
Qed.

Theorem madd_length_error (x y : ltens K) : llen x <> llen y -> madd x y = Err AssertionError.
Proof. intros H. unfold madd. apply Nat.eqb_neq in H. rewrite H. reflexivity. Qed.

(** ** Scaling *)
Lemma pyidx_in n len : n < len -> pyidx len (Z.of_nat n) = Some n.
Proof.
  intros H. unfold pyidx. replace (0 <=? Z.of_nat n)%Z with true by (symmetry; apply Z.leb_le; lia).
  replace (Z.of_nat n <? Z.of_nat len)%Z with true by (symmetry; apply Z.ltb_lt; lia).
  rewrite Nat2Z.id. reflexivity.
Qed.

Lemma pyget_in (A : Type) (l : list A) n d : n < length l -> pyget l (Z.of_nat n) = Ok (nth n l d).
Proof.
  intros H. unfold pyget. rewrite pyidx_in by exact H. destruct (nth_error l n) eqn:E.
  - f_equal. symmetry. apply nth_error_nth; exact E.
  - apply nth_error_None in E. lia.
Qed.

Lemma set_nth_split (A : Type) n (x : A) l : n < length l -> set_nth n x l = firstn n l ++ x :: skipn (S n) l.
Proof.
  revert n; induction l as [|y l IH]; intros n H; cbn in H; [lia|]. destruct n as [|n]; [reflexivity|].
  cbn [set_nth firstn app]. rewrite IH by lia. reflexivity.
Qed.

Lemma set_nth_length (A : Type) n (x : A) l : length (set_nth n x l) = length l.
Proof. revert n; induction l as [|y l IH]; intros [|n]; cbn; auto. Qed.

Lemma nth_set_nth_eq (A : Type) n (x : A) l d : n < length l -> nth n (set_nth n x l) d = x.
Proof. revert n; induction l as [|y l IH]; intros [|n] H; cbn in *; try lia; auto. apply IH; lia. Qed.

Lemma nth_set_nth_neq (A : Type) n m (x : A) l d : n <> m -> nth m (set_nth n x l) d = nth m l d.
Proof. revert n m; induction l as [|y l IH]; intros [|n] [|m] H; cbn in *; try lia; auto. Qed.

Lemma split_nth (A : Type) n (l : list A) d : n < length l -> l = firstn n l ++ nth n l d :: skipn (S n) l.
Proof.
  revert n; induction l as [|y l IH]; intros n H; cbn in H; [lia|]. destruct n as [|n]; [reflexivity|].
  cbn [firstn app nth skipn]. f_equal. apply IH. lia.
Qed.

(** Replacing one tensor by one with the same shape keeps the bonds. *)
Lemma bonds_set_nth (ts : list (nd K)) l r k (u : nd K) :
  bonds ts l r -> k < length ts -> lt_ok u -> ldim u = ldim (nth k ts dummy) -> rdim u = rdim (nth k ts dummy) ->
  bonds (set_nth k u ts) l r.
Proof.
  revert l k; induction ts as [|t ts IH]; intros l k Hb Hk Hu El Er; cbn in Hk; [lia|].
  destruct Hb as [Ht [E Hb]]. destruct k as [|k]; cbn [set_nth nth] in *.
  - cbn [bonds]. split; [exact Hu|]. split; [congruence|]. rewrite Er. exact Hb.
  - cbn [bonds]. split; [exact Ht|]. split; [exact E|]. apply IH; auto; lia.
Qed.

Lemma map_set_nth (A B : Type) (f : A -> B) n x l d :
  f x = f (nth n l d) -> map f (set_nth n x l) = map f l.
Proof.
  revert n; induction l as [|y l IH]; intros [|n] H; cbn in *; auto; [congruence|]. f_equal. apply IH; exact H.
Qed.

Lemma ranks_set_nth (ts : list (nd K)) k u a b c d :
  ldim u = ldim (nth k ts dummy) -> ranks (mkLt (set_nth k u ts) a b) = ranks (mkLt ts c d).
Proof.
  unfold ranks. cbn [lts]. destruct ts as [|t ts]; [destruct k; reflexivity|]. destruct k as [|k]; [reflexivity|].
  cbn [set_nth tl nth]. intros E. apply map_set_nth with (d := dummy). exact E.
Qed.

Lemma amp_set_scale (ts : list (nd K)) is k c a b :
  k < length ts -> length is = length ts ->
  amp (set_nth k (nscale c (nth k ts dummy)) ts) is a b = (c * amp ts is a b)%K.
Proof.
  revert is k a; induction ts as [|t ts IH]; intros is k a Hk Hl; cbn in Hk; [lia|].
  destruct is as [|i is]; [discriminate|]. destruct k as [|k]; cbn [set_nth nth amp].
  - change (rdim (nscale c t)) with (rdim t). rewrite <- bigsum_mul_l. apply bigsum_ext. intros e He.
    rewrite ent_nscale. ring.
  - rewrite <- bigsum_mul_l. apply bigsum_ext. intros e He. cbn in Hl. rewrite IH by lia. ring.
Qed.

(** ** Truth of the canonical form *)
(** [left_iso t]: the matrix with rows (left bond, legs) and columns (right bond)
    has orthonormal columns. *)
Definition left_iso (t : nd K) : Prop :=
  forall b b', b < rdim t -> b' < rdim t ->
    bigsum (ldim t) (fun a => msum (pdims t) (fun i => kconj (ent t a i b) * ent t a i b'))%K = delta b b'.
(** [right_iso t]: the matrix with rows (left bond) and columns (legs, right bond)
    has orthonormal rows. *)
Definition right_iso (t : nd K) : Prop :=
  forall a a', a < ldim t -> a' < ldim t ->
    bigsum (rdim t) (fun b => msum (pdims t) (fun i => ent t a i b * kconj (ent t a' i b)))%K = delta a a'.

(** The recorded form [(lcan, rcan)] is true: sites [0 .. lcan-1] are
    left-orthogonal, sites [rcan ..] are right-orthogonal. *)
Definition canon_true (x : ltens K) : Prop :=
  (forall k, (Z.of_nat k < lcan x)%Z -> k < llen x -> left_iso (nth k (lts x) dummy)) /\
  (forall k, (rcan x <= Z.of_nat k)%Z -> k < llen x -> right_iso (nth k (lts x) dummy)).
(** The recorded form lies in the range checked by the constructor. *)
Definition cform_ok (x : ltens K) : Prop := cf_ok (llen x) (lcan x) (rcan x).
(** The recorded form is normal: the left and right regions do not overlap. *)
Definition cform_lt (x : ltens K) : Prop := (lcan x < rcan x)%Z.

Lemma mmul_eq (x : ltens K) f :
  mpa_ok x -> cform_ok x ->
  mmul x f = Ok (mkLt (set_nth (Z.to_nat (lcan x)) (nscale f (nth (Z.to_nat (lcan x)) (lts x) dummy)) (lts x))
                      (lcan x) (rcan x)).
Proof.
  intros [Hne Hb] Hc. pose proof Hc as [[H1 H2] [H3 H4]]. unfold mmul, llen in *.
  set (k := Z.to_nat (lcan x)). assert (Ek : lcan x = Z.of_nat k) by lia. rewrite Ek.
  assert (Hk : k < length (lts x)) by lia.
  rewrite (pyget_in _ _ k dummy Hk). cbn [bind].
  assert (EL : pyslice (lts x) 0 (Z.of_nat k) ++ nscale f (nth k (lts x) dummy)
            :: skipn (pyclamp (length (lts x)) (Z.of_nat k + 1)) (lts x)
            = set_nth k (nscale f (nth k (lts x) dummy)) (lts x)).
  { rewrite set_nth_split by exact Hk. unfold pyslice, pyclamp.
    replace (Z.of_nat k <? 0)%Z with false by (symmetry; apply Z.ltb_ge; lia).
    replace (Z.of_nat k + 1 <? 0)%Z with false by (symmetry; apply Z.ltb_ge; lia).
    replace (Z.of_nat (length (lts x)) <? Z.of_nat k)%Z with false by (symmetry; apply Z.ltb_ge; lia).
    replace (Z.of_nat (length (lts x)) <? Z.of_nat k + 1)%Z with false by (symmetry; apply Z.ltb_ge; lia).
    cbn [Z.ltb Z.compare]. replace (Z.of_nat (length (lts x)) <? 0)%Z with false by (symmetry; apply Z.ltb_ge; lia).
    cbn [Z.to_nat]. rewrite Nat2Z.id, Nat.sub_0_r. cbn [skipn].
    replace (Z.to_nat (Z.of_nat k + 1)) with (S k) by lia. reflexivity. }
  rewrite EL. destruct (bonds_nth _ _ _ k Hb Hk) as [Ht _].
  rewrite (lt_init_ok _ 1 1 (Z.of_nat k) (rcan x)).
  - reflexivity.
  - intros E. apply (f_equal (@length _)) in E. rewrite set_nth_length in E. cbn in E. lia.
  - apply bonds_set_nth; auto. apply lt_ok_nscale; exact Ht.
  - rewrite set_nth_length. unfold cf_ok. lia.
Qed.

Theorem mmul_spec (x : ltens K) f :
  mpa_ok x -> cform_ok x ->
  exists z, mmul x f = Ok z /\ mpa_ok z /\ mshape z = mshape x /\ ranks z = ranks x /\ canonical_form z = canonical_form x /\
    (canon_true x -> cform_lt x -> canon_true z) /\
    forall is, Forall2 inr is (mshape x) -> amp (lts z) is 0 0 = (f * amp (lts x) is 0 0)%K.
Proof.
  intros Hx Hc. rewrite (mmul_eq x f Hx Hc). destruct Hx as [Hne Hb]. destruct Hc as [[H1 H2] [H3 H4]]. unfold llen in *.
  set (k := Z.to_nat (lcan x)). assert (Hk : k < length (lts x)) by lia.
  destruct (bonds_nth _ _ _ k Hb Hk) as [Ht _].
  eexists. split; [reflexivity|]. split.
  - split; cbn [lts].
    + intros E. apply (f_equal (@length _)) in E. rewrite set_nth_length in E. cbn in E. lia.
    + apply bonds_set_nth; auto. apply lt_ok_nscale; exact Ht.
  - split; [unfold mshape; cbn [lts]; apply map_set_nth with (d := dummy); reflexivity|].
    split; [destruct x as [ts l r]; apply ranks_set_nth; reflexivity|].
    split; [reflexivity|]. split.
    + intros [HL HR] Hlt. unfold cform_lt in Hlt. split; cbn [lcan rcan lts]; unfold llen; cbn [lts]; rewrite set_nth_length; intros j Hj Hn.
      * rewrite nth_set_nth_neq by lia. apply HL; assumption.
      * rewrite nth_set_nth_neq by lia. apply HR; assumption.
    + intros is His. cbn [lts]. apply amp_set_scale; [exact Hk|].
      rewrite (Forall2_len _ _ _ _ _ His). apply mshape_length.
Qed.

(** Update of one site without a claim about its orthogonality. *)
Lemma lt_update_int_none (x : ltens K) k (u : nd K) :
  mpa_ok x -> k < llen x -> lt_ok u -> ldim u = ldim (nth k (lts x) dummy) -> rdim u = rdim (nth k (lts x) dummy) ->
  lt_update_int x (Z.of_nat k) u None =
    Ok (mkLt (set_nth k u (lts x)) (Z.min (Z.of_nat k) (lcan x)) (Z.max (Z.of_nat k + 1) (rcan x))).
Proof.
  intros [Hne Hb] Hk Hu El Er. unfold lt_update_int, llen in *. rewrite (pyget_in _ _ k dummy Hk). cbn [bind].
  destruct (bonds_nth _ _ _ k Hb Hk) as [Ht _]. destruct Hu as [Hu1 Hu2].
  replace (2 <=? ndim u) with true by (symmetry; apply Nat.leb_le; exact Hu2). cbn [passert].
  rewrite (shape0_lt _ Ht), (shape0_lt u (conj Hu1 Hu2)). cbn [bind]. rewrite El, Nat.eqb_refl. cbn [passert].
  rewrite (shape_last_lt _ Ht), (shape_last_lt u (conj Hu1 Hu2)). cbn [bind]. rewrite Er, Nat.eqb_refl. cbn [passert].
  unfold lt_update1, llen. rewrite pyidx_in by exact Hk. cbn [flag_is andb]. reflexivity.
Qed.

Theorem mimul_spec (x : ltens K) f :
  mpa_ok x -> cform_ok x ->
  exists z, mimul x f = Ok z /\ mpa_ok z /\ mshape z = mshape x /\ ranks z = ranks x /\ cform_ok z /\ cform_lt z /\
    (canon_true x -> canon_true z) /\ (cform_lt x -> canonical_form z = canonical_form x) /\
    forall is, Forall2 inr is (mshape x) -> amp (lts z) is 0 0 = (f * amp (lts x) is 0 0)%K.
Proof.
  intros Hx Hc. destruct Hc as [[H1 H2] [H3 H4]]. unfold mimul, llen in *.
  set (k := Z.to_nat (lcan x)). assert (Hk : k < length (lts x)) by lia. assert (Ek : lcan x = Z.of_nat k) by lia.
  rewrite Ek. rewrite (pyget_in _ _ k dummy Hk). cbn [bind]. pose proof Hx as [Hne Hb].
  destruct (bonds_nth _ _ _ k Hb Hk) as [Ht _].
  rewrite lt_update_int_none by (auto; apply lt_ok_nscale; exact Ht).
  eexists. split; [reflexivity|]. split.
  - split; cbn [lts].
    + intros E. apply (f_equal (@length _)) in E. rewrite set_nth_length in E. cbn in E. lia.
    + apply bonds_set_nth; auto. apply lt_ok_nscale; exact Ht.
  - split; [unfold mshape; cbn [lts]; apply map_set_nth with (d := dummy); reflexivity|].
    split; [destruct x as [ts l r]; apply ranks_set_nth; reflexivity|].
    split; [split; cbn [lcan rcan]; unfold llen; cbn [lts]; rewrite set_nth_length; lia|].
    split; [unfold cform_lt; cbn [lcan rcan]; lia|].
    split; [|split].
    + intros [HL HR]. split; cbn [lcan rcan lts]; unfold llen; cbn [lts]; rewrite set_nth_length; intros j Hj Hn.
      * rewrite nth_set_nth_neq by lia. apply HL; [lia|assumption].
      * rewrite nth_set_nth_neq by lia. apply HR; [lia|assumption].
    + unfold cform_lt, canonical_form. cbn [lcan rcan]. intros Hlt. f_equal; lia.
    + intros is His. cbn [lts]. apply amp_set_scale; [exact Hk|].
      rewrite (Forall2_len _ _ _ _ _ His). apply mshape_length.
Qed.

Theorem mneg_spec (x : ltens K) :
  mpa_ok x -> cform_ok x ->
  exists z, mneg x = Ok z /\ mpa_ok z /\ mshape z = mshape x /\ ranks z = ranks x /\ canonical_form z = canonical_form x /\
    (canon_true x -> cform_lt x -> canon_true z) /\
    forall is, Forall2 inr is (mshape x) -> amp (lts z) is 0 0 = (- amp (lts x) is 0 0)%K.
Proof.
  intros Hx Hc. destruct (mmul_spec x (- k1)%K Hx Hc) as [z [E [H1 [H2 [H3 [H4 [H5 H6]]]]]]].
  exists z. unfold mneg. repeat (split; [assumption|]). intros is His. rewrite (H6 is His). ring.
Qed.

Theorem msub_spec (x y : ltens K) :
  mpa_ok x -> mpa_ok y -> cform_ok y -> mshape x = mshape y ->
  exists z, msub x y = Ok z /\ mpa_ok z /\ mshape z = mshape x /\
    ranks z = map (fun p => fst p + snd p) (combine (ranks x) (ranks y)) /\
    forall is, Forall2 inr is (mshape x) ->
      amp (lts z) is 0 0 = (amp (lts x) is 0 0 - amp (lts y) is 0 0)%K.
Proof.
  intros Hx Hy Hc Hs. unfold msub.
  destruct (mmul_spec y (- k1)%K Hy Hc) as [w [E [H1 [H2 [H3 [H4 [H5 H6]]]]]]]. rewrite E. cbn [bind].
  destruct (madd_spec x w Hx H1 ltac:(congruence)) as [z [Ez [Hz [Sz [Rz [_ [_ Az]]]]]]].
  exists z. split; [exact Ez|]. split; [exact Hz|]. split; [exact Sz|]. split; [rewrite Rz, H3; reflexivity|].
  intros is His. rewrite (Az is His), H6 by (rewrite <- Hs; exact His). ring.
Qed.
End Add.
