(** Dense meaning of [dot] on whole chains. *)
From Verif Require Export PfDot.

Fixpoint zip2 {A B C : Type} (f : A -> B -> C) (l : list A) (m : list B) : list C :=
  match l, m with
  | x :: l', y :: m' => f x y :: zip2 f l' m'
  | _, _ => []
  end.
Fixpoint zip3 {A B C D : Type} (f : A -> B -> C -> D) (l : list A) (m : list B) (n : list C) : list D :=
  match l, m, n with
  | x :: l', y :: m', z :: n' => f x y z :: zip3 f l' m' n'
  | _, _, _ => []
  end.

Section MSums.
Context {K : StarRing}.
Add Ring Kr : (k_ring K).

(** Sum over one multi-index per site. *)
Fixpoint msums (shs : list (list nat)) (f : list (list nat) -> K) : K :=
  match shs with
  | [] => f []
  | sh :: r => msum sh (fun c => msums r (fun cs => f (c :: cs)))
  end.

Lemma msums_ext shs f g : (forall cs, Forall2 inr cs shs -> f cs = g cs) -> msums shs f = msums shs g.
Proof.
  revert f g; induction shs as [|sh shs IH]; intros f g H; cbn [msums]; [apply H; constructor|].
  apply msum_ext. intros c Hc. apply IH. intros cs Hcs. apply H. constructor; assumption.
Qed.
Lemma msums_mul_l shs c f : msums shs (fun cs => c * f cs)%K = (c * msums shs f)%K.
Proof.
  revert f; induction shs as [|sh shs IH]; intros f; cbn [msums]; [reflexivity|].
  rewrite <- msum_mul_l. apply msum_ext. intros d Hd. apply IH.
Qed.
Lemma msums_mul_r shs c f : msums shs (fun cs => f cs * c)%K = (msums shs f * c)%K.
Proof.
  revert f; induction shs as [|sh shs IH]; intros f; cbn [msums]; [reflexivity|].
  rewrite <- msum_mul_r. apply msum_ext. intros d Hd. apply (IH (fun cs => f (d :: cs))).
Qed.
Lemma msums_add shs f g : msums shs (fun cs => f cs + g cs)%K = (msums shs f + msums shs g)%K.
Proof.
  revert f g; induction shs as [|sh shs IH]; intros f g; cbn [msums]; [reflexivity|].
  rewrite <- msum_add. apply msum_ext. intros d Hd. apply IH.
Qed.
Lemma msums_conj shs f : kconj (msums shs f) = msums shs (fun cs => kconj (f cs)).
Proof.
  revert f; induction shs as [|sh shs IH]; intros f; cbn [msums]; [reflexivity|].
  rewrite msum_conj. apply msum_ext. intros d Hd. apply IH.
Qed.
Lemma msums_zero shs f : (forall cs, Forall2 inr cs shs -> f cs = k0) -> msums shs f = k0.
Proof.
  revert f; induction shs as [|sh shs IH]; intros f H; cbn [msums]; [apply H; constructor|].
  apply msum_zero. intros c Hc. apply IH. intros cs Hcs. apply H. constructor; assumption.
Qed.
Lemma bigsum_msums_swap n shs f :
  bigsum n (fun i => msums shs (f i)) = msums shs (fun cs => bigsum n (fun i => f i cs)).
Proof.
  revert f; induction shs as [|sh shs IH]; intros f; cbn [msums]; [reflexivity|].
  rewrite <- msum_bigsum_swap. apply msum_ext. intros c Hc. apply IH.
Qed.
(** Sum over sites is the sum over the concatenated index. *)
Lemma msums_concat shs (f : list nat -> K) : msums shs (fun cs => f (concat cs)) = msum (concat shs) f.
Proof.
  revert f; induction shs as [|sh shs IH]; intros f; cbn [msums concat]; [reflexivity|].
  rewrite msum_app. apply msum_ext. intros c Hc. apply (IH (fun idx => f (c ++ idx))).
Qed.
Lemma msums_app s1 s2 f : msums (s1 ++ s2) f = msums s1 (fun c1 => msums s2 (fun c2 => f (c1 ++ c2))).
Proof. revert f; induction s1 as [|s s1 IH]; intros f; cbn [msums app]; [reflexivity|]. apply msum_ext. intros c Hc. apply IH. Qed.
End MSums.

Section Dots.
Context {K : StarRing}.
Add Ring Kr : (k_ring K).

(** Legs selected by Python axis numbers on a site with [n] physical legs. *)
Definition leg_list (n : nat) (zs : list Z) : list nat :=
  map (fun z => match pyidx n z with Some k => k | None => 0 end) zs.
Definition legs_ok (n : nat) (zs : list Z) : Prop :=
  (forall z, In z zs -> (- Z.of_nat n <= z < Z.of_nat n)%Z) /\ NoDup (leg_list n zs).
(** Dimensions of the selected and of the remaining legs of a site of shape [p]. *)
Definition pick (zs : list Z) (p : list nat) : list nat := gather (leg_list (length p) zs) p.
Definition keep (zs : list Z) (p : list nat) : list nat := gather (freeaxes (length p) (leg_list (length p) zs)) p.
(** Index of a site of shape [p] with remaining part [i] and selected part [c]. *)
Definition site_idx (zs : list Z) (p i c : list nat) : list nat := fuse (length p) (leg_list (length p) zs) i c.

Definition dot_compat (za zb : list Z) (p q : list nat) : Prop :=
  legs_ok (length p) za /\ legs_ok (length q) zb /\ pick za p = pick zb q.

Lemma pyidx_range n z : (- Z.of_nat n <= z < Z.of_nat n)%Z <-> exists k, pyidx n z = Some k.
Proof.
  unfold pyidx. destruct (Z.leb_spec 0 z).
  - destruct (Z.ltb_spec z (Z.of_nat n)).
    + split; [eexists; reflexivity|lia].
    + split; [lia|]. intros [k E]; discriminate.
  - destruct (Z.leb_spec 0 (z + Z.of_nat n)).
    + split; [eexists; reflexivity|lia].
    + split; [lia|]. intros [k E]; discriminate.
Qed.

Lemma legs_ok_at n zs : (forall z, In z zs -> (- Z.of_nat n <= z < Z.of_nat n)%Z) -> legs_at n zs (leg_list n zs).
Proof.
  induction zs as [|z zs IH]; intros H; [constructor|]. cbn [leg_list map]. constructor.
  - destruct (proj1 (pyidx_range n z) (H z (or_introl eq_refl))) as [k ->]. reflexivity.
  - apply IH. intros z' Hz'. apply H. right; exact Hz'.
Qed.

Lemma leg_list_lt n zs : legs_ok n zs -> forall k, In k (leg_list n zs) -> k < n.
Proof. intros [H _]. apply (legs_at_lt n zs). apply legs_ok_at; exact H. Qed.

Theorem amp_dots ax (ts1 : list (nd K)) : forall (ts2 : list (nd K)) l1 r1 l2 r2,
  let za := fst (user_axes ax) in let zb := snd (user_axes ax) in
  bonds ts1 l1 r1 -> bonds ts2 l2 r2 ->
  Forall2 (dot_compat za zb) (map pdims ts1) (map pdims ts2) ->
  exists us, mapM (fun p => local_dot (fst p) (snd p) (true_axes ax)) (combine ts1 ts2) = Ok us /\
    bonds us (l1 * l2) (r1 * r2) /\
    map pdims us = zip2 (fun p q => keep za p ++ keep zb q) (map pdims ts1) (map pdims ts2) /\
    map ldim us = zip2 Nat.mul (map ldim ts1) (map ldim ts2) /\
    forall is js a a' b b',
      a < l1 -> a' < l2 -> b < r1 -> b' < r2 ->
      Forall2 inr is (map (fun t => keep za (pdims t)) ts1) ->
      Forall2 inr js (map (fun t => keep zb (pdims t)) ts2) ->
      amp us (zip2 (@app nat) is js) (a * l2 + a') (b * r2 + b') =
      msums (map (fun t => pick za (pdims t)) ts1)
        (fun cs => amp ts1 (zip3 (site_idx za) (map pdims ts1) is cs) a b *
                   amp ts2 (zip3 (site_idx zb) (map pdims ts2) js cs) a' b')%K.
Proof.
  induction ts1 as [|t1 ts1 IH]; intros ts2 l1 r1 l2 r2 za zb H1 H2 HC.
  - destruct ts2 as [|t2 ts2]; [|inversion HC]. cbn in H1, H2. subst r1 r2.
    exists []. split; [reflexivity|]. split; [reflexivity|]. split; [reflexivity|]. split; [reflexivity|].
    intros is js a a' b b' Ha Ha' Hb Hb' Hi Hj. inversion Hi; inversion Hj; subst. cbn.
    unfold delta. destruct (Nat.eqb_spec (a * l2 + a') (b * l2 + b')) as [E|E].
    + assert (a = b) as -> by (rewrite <- (div_pair a l2 a' Ha'), <- (div_pair b l2 b' Hb'), E; reflexivity).
      assert (a' = b') as -> by lia. rewrite !Nat.eqb_refl. ring.
    + destruct (Nat.eqb_spec a b) as [->|]; [|ring]. destruct (Nat.eqb_spec a' b') as [->|]; [congruence|ring].
  - destruct ts2 as [|t2 ts2]; [inversion HC|]. cbn [map] in HC. inversion HC as [|? ? ? ? [C1 [C2 C3]] HC' E1 E2]; subst.
    destruct H1 as [T1 [El1 H1]]. destruct H2 as [T2 [El2 H2]].
    destruct (IH ts2 _ _ _ _ H1 H2 HC') as [us [E [B [P [L A]]]]].
    destruct (local_dot_spec t1 t2 ax _ _ T1 T2 (legs_ok_at _ _ (proj1 C1)) (legs_ok_at _ _ (proj1 C2)) (proj2 C1) (proj2 C2) C3)
      as [u [Eu [Hu [Lu [Ru [Pu Au]]]]]].
    exists (u :: us). cbn [combine mapM fst snd]. rewrite Eu. cbn [bind]. rewrite E. cbn [bind].
    split; [reflexivity|]. split; [cbn [bonds]; rewrite Lu, Ru, El1, El2; auto|].
    split; [cbn [map zip2]; f_equal; assumption|]. split; [cbn [map zip2]; f_equal; assumption|].
    intros is js a a' b b' Ha Ha' Hb Hb' Hi Hj. cbn [map] in Hi, Hj.
    inversion Hi as [|i ? is' ? Hi1 Hi2 Ei1 Ei2]; subst. inversion Hj as [|j ? js' ? Hj1 Hj2 Ej1 Ej2]; subst.
    cbn [zip2 amp map msums zip3]. rewrite Ru, bigsum_prod.
    transitivity (bigsum (rdim t1) (fun c => bigsum (rdim t2) (fun c' =>
      msum (pick za (pdims t1)) (fun x => msums (map (fun t => pick za (pdims t)) ts1) (fun xs =>
        (ent t1 a (site_idx za (pdims t1) i x) c * amp ts1 (zip3 (site_idx za) (map pdims ts1) is' xs) c b) *
        (ent t2 a' (site_idx zb (pdims t2) j x) c' * amp ts2 (zip3 (site_idx zb) (map pdims ts2) js' xs) c' b'))))))%K.
    + apply bigsum_ext. intros c Hc. apply bigsum_ext. intros c' Hc'.
      rewrite A by assumption. rewrite Au by assumption.
      change (gather (leg_list (length (pdims t1)) (fst (user_axes ax))) (pdims t1)) with (pick za (pdims t1)).
      rewrite <- msum_mul_r. apply msum_ext. intros x Hx. rewrite <- msums_mul_l. apply msums_ext. intros xs Hxs.
      unfold site_idx, za, zb. ring.
    + transitivity (bigsum (rdim t1) (fun c => msum (pick za (pdims t1)) (fun x => bigsum (rdim t2) (fun c' =>
        msums (map (fun t => pick za (pdims t)) ts1) (fun xs =>
        (ent t1 a (site_idx za (pdims t1) i x) c * amp ts1 (zip3 (site_idx za) (map pdims ts1) is' xs) c b) *
        (ent t2 a' (site_idx zb (pdims t2) j x) c' * amp ts2 (zip3 (site_idx zb) (map pdims ts2) js' xs) c' b'))))))%K.
      { apply bigsum_ext. intros c Hc. symmetry. apply msum_bigsum_swap. }
      rewrite <- msum_bigsum_swap. apply msum_ext. intros x Hx.
      transitivity (bigsum (rdim t1) (fun c => msums (map (fun t => pick za (pdims t)) ts1) (fun xs => bigsum (rdim t2) (fun c' =>
        (ent t1 a (site_idx za (pdims t1) i x) c * amp ts1 (zip3 (site_idx za) (map pdims ts1) is' xs) c b) *
        (ent t2 a' (site_idx zb (pdims t2) j x) c' * amp ts2 (zip3 (site_idx zb) (map pdims ts2) js' xs) c' b')))))%K.
      { apply bigsum_ext. intros c Hc. apply bigsum_msums_swap. }
      rewrite bigsum_msums_swap. apply msums_ext. intros xs Hxs. symmetry. apply bigsum_mul.
Qed.
Lemma zip2_length (A B C : Type) (f : A -> B -> C) l m : length l = length m -> length (zip2 f l m) = length l.
Proof. revert m; induction l as [|x l IH]; intros [|y m] H; try discriminate; [reflexivity|]. cbn. f_equal. apply IH. injection H as H; exact H. Qed.

(** A chain of local tensors with the shape data of a valid MPArray. *)
Lemma mpa_new_chain (us : list (nd K)) : us <> [] -> bonds us 1 1 ->
  exists z, mpa_new us = Ok z /\ mpa_ok z /\ lts z = us /\ lcan z = 0%Z /\ rcan z = Z.of_nat (length us).
Proof.
  intros Hne Hb. rewrite (mpa_new_ok us 1 1 Hne Hb). eexists. split; [reflexivity|]. split; [split; assumption|].
  repeat split.
Qed.

Theorem mdot_spec (x y : ltens K) ax :
  let za := fst (user_axes ax) in let zb := snd (user_axes ax) in
  mpa_ok x -> mpa_ok y -> Forall2 (dot_compat za zb) (mshape x) (mshape y) ->
  exists z, mdot x y ax = Ok z /\ mpa_ok z /\
    mshape z = zip2 (fun p q => keep za p ++ keep zb q) (mshape x) (mshape y) /\
    ranks z = zip2 Nat.mul (ranks x) (ranks y) /\
    canonical_form z = (0%Z, Z.of_nat (llen x)) /\
    forall is js, Forall2 inr is (map (keep za) (mshape x)) -> Forall2 inr js (map (keep zb) (mshape y)) ->
      amp (lts z) (zip2 (@app nat) is js) 0 0 =
      msums (map (pick za) (mshape x))
        (fun cs => amp (lts x) (zip3 (site_idx za) (mshape x) is cs) 0 0 *
                   amp (lts y) (zip3 (site_idx zb) (mshape y) js cs) 0 0)%K.
Proof.
  intros za zb [Hx Bx] [Hy By] HC. unfold mdot.
  assert (El : llen x = llen y) by (rewrite <- !mshape_length; apply (Forall2_len _ _ _ _ _ HC)).
  rewrite El, Nat.eqb_refl. cbn [passert].
  destruct (amp_dots ax (lts x) (lts y) 1 1 1 1 Bx By HC) as [us [E [B [P [L A]]]]]. rewrite E. cbn [bind].
  assert (Hlen : length us = llen y).
  { rewrite <- (map_length pdims us), P. rewrite zip2_length; [|exact (Forall2_len _ _ _ _ _ HC)].
    rewrite map_length. exact El. }
  assert (Hne : us <> []).
  { intros ->. cbn in Hlen. unfold llen in Hlen. destruct (lts y); [congruence|discriminate]. }
  destruct (mpa_new_chain us Hne B) as [z [Ez [Hz [Lz [Cl Cr]]]]]. exists z. split; [exact Ez|]. split; [exact Hz|].
  split; [unfold mshape; rewrite Lz; exact P|]. split.
  { unfold ranks. rewrite Lz. destruct (lts x) as [|tx txs]; [congruence|]. destruct (lts y) as [|ty tys]; [congruence|].
    destruct us as [|u us]; [congruence|]. cbn [tl]. cbn [map zip2] in L. injection L as _ L. exact L. }
  split; [unfold canonical_form; rewrite Cl, Cr, Hlen; reflexivity|].
  intros is js Hi Hj. rewrite Lz. unfold mshape in *. rewrite map_map in *.
  change 0 with (0 * 1 + 0) at 1 2. apply A; auto.
Qed.

End Dots.
