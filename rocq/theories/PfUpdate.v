(** LocalTensors.update: consistency of the bonds and truth of the recorded form. *)
From Verif Require Export PfCompress PfInject.

Section Update.
Context {K : StarRing}.
Add Ring Kr : (k_ring K).

(** The flag tells the truth about the tensor. *)
Definition honest (f : option string) (t : nd K) : Prop :=
  (flag_is f "left" = true -> left_iso t) /\ (flag_is f "right" = true -> right_iso t).

Lemma upd_form_range l r k n f : (0 <= l <= n)%Z -> (0 <= r <= n)%Z -> (0 <= k < n)%Z ->
  (0 <= fst (upd_form l r k f) <= n)%Z /\ (0 <= snd (upd_form l r k f) <= n)%Z.
Proof.
  intros H1 H2 H3. unfold upd_form.
  destruct (flag_is f "left" && (0 <=? l - k)%Z)%bool; cbn [fst snd]; [lia|].
  destruct (flag_is f "right" && (-1 <=? k - r)%Z)%bool; cbn [fst snd]; lia.
Qed.

(** Replacing one site.  A flag is only safe while the two regions do not touch. *)
Lemma upd_true (x1 x2 : list (nd K)) t u l r k f : Z.of_nat (length x1) = k ->
  canon_true (mkLt (x1 ++ t :: x2) l r) -> honest f u -> (flag_is f "left" = true \/ flag_is f "right" = true -> (l < r)%Z) ->
  canon_true (mkLt (x1 ++ u :: x2) (fst (upd_form l r k f)) (snd (upd_form l r k f))).
Proof.
  intros <- [HL HR] [H1 H2] Hlt. unfold canon_true, llen in *. cbn [lts lcan rcan] in *. rewrite app_length in *. cbn [length] in *.
  assert (NE : forall j, j <> length x1 -> nth j (x1 ++ u :: x2) dummy = nth j (x1 ++ t :: x2) dummy).
  { intros j Hj. destruct (Nat.lt_ge_cases j (length x1)).
    - rewrite !app_nth1 by assumption. reflexivity.
    - rewrite !app_nth2 by assumption. destruct (j - length x1) eqn:E; [lia|]. reflexivity. }
  assert (EQ : nth (length x1) (x1 ++ u :: x2) dummy = u) by apply nth_middle.
  unfold upd_form.
  destruct (flag_is f "left") eqn:E1; cbn [andb].
  - assert (l < r)%Z by (apply Hlt; auto). destruct (Z.leb_spec 0 (l - Z.of_nat (length x1))) as [Q1|Q1]; cbn [fst snd].
    + split; intros j Hj1 Hj2.
      * destruct (Nat.eq_dec j (length x1)) as [->|Hn]; [rewrite EQ; apply H1; reflexivity|rewrite NE by exact Hn; apply HL; lia].
      * rewrite NE by lia. apply HR; lia.
    + assert (E2 : flag_is f "right" = false).
      { destruct f as [s|]; [|reflexivity]. cbn in *. apply String.eqb_eq in E1. subst s. reflexivity. }
      rewrite E2. cbn [andb fst snd]. split; intros j Hj1 Hj2; rewrite NE by lia; [apply HL|apply HR]; lia.
  - destruct (flag_is f "right") eqn:E2; cbn [andb].
    + assert (l < r)%Z by (apply Hlt; auto). destruct (Z.leb_spec (-1) (Z.of_nat (length x1) - r)) as [Q1|Q1]; cbn [fst snd].
      * split; intros j Hj1 Hj2.
        -- rewrite NE by lia. apply HL; lia.
        -- destruct (Nat.eq_dec j (length x1)) as [->|Hn]; [rewrite EQ; apply H2; reflexivity|rewrite NE by exact Hn; apply HR; lia].
      * split; intros j Hj1 Hj2; rewrite NE by lia; [apply HL|apply HR]; lia.
    + cbn [fst snd]. split; intros j Hj1 Hj2; rewrite NE by lia; [apply HL|apply HR]; lia.
Qed.

Lemma bonds_one (x1 x2 : list (nd K)) t l r : bonds (x1 ++ t :: x2) l r -> bonds x1 l (ldim t) /\ lt_ok t /\ bonds x2 (rdim t) r.
Proof. intros H. apply bonds_app in H. destruct H as [m [B1 [Ht [E B2]]]]. subst m. auto. Qed.
Lemma bonds_one_mk (x1 x2 : list (nd K)) t l r : bonds x1 l (ldim t) -> lt_ok t -> bonds x2 (rdim t) r -> bonds (x1 ++ t :: x2) l r.
Proof. intros. apply bonds_app. exists (ldim t). split; [assumption|]. cbn [bonds]. auto. Qed.

(** The integer branch, 0 <= k < len. *)
Theorem update_int_spec (x : ltens K) k u f : mpa_ok x -> k < llen x -> ndwf u ->
  let t := nth k (lts x) dummy in
  (2 <= ndim u -> ldim u = ldim t -> rdim u = rdim t ->
   exists z, lt_update_int x (Z.of_nat k) u f = Ok z /\ mpa_ok z /\ lts z = set_nth k u (lts x) /\ ranks z = ranks x /\
     (lcan z, rcan z) = upd_form (lcan x) (rcan x) (Z.of_nat k) f /\
     (cform_wk x -> cform_wk z) /\
     (canon_true x -> honest f u -> (flag_is f "left" = true \/ flag_is f "right" = true -> cform_lt x) -> canon_true z)) /\
  (~ (2 <= ndim u /\ ldim u = ldim t /\ rdim u = rdim t) -> lt_update_int x (Z.of_nat k) u f = Err AssertionError).
Proof.
  intros Hx Hk Hw t. pose proof Hx as [Hne HB]. unfold llen in *. destruct (bonds_nth _ _ _ k HB Hk) as [Ht _]. fold t in Ht.
  unfold lt_update_int. rewrite (pyget_in _ _ k dummy Hk). cbn [bind]. fold t. split.
  - intros Hd El Er. assert (Hu : lt_ok u) by (split; assumption).
    replace (Nat.leb 2 (ndim u)) with true by (symmetry; apply Nat.leb_le; exact Hd). cbn [passert].
    rewrite (shape0_lt _ Ht), (shape0_lt u Hu). cbn [bind]. rewrite El, Nat.eqb_refl. cbn [passert].
    rewrite (shape_last_lt _ Ht), (shape_last_lt u Hu). cbn [bind]. rewrite Er, Nat.eqb_refl. cbn [passert].
    destruct x as [ts l r]. cbn [lts lcan rcan] in *.
    assert (ES := split_nth _ k ts dummy Hk). fold t in ES.
    assert (L1 : length (firstn k ts) = k) by (rewrite firstn_length; lia).
    assert (E1 : set_nth k u ts = firstn k ts ++ u :: skipn (S k) ts).
    { rewrite ES at 1. rewrite <- L1 at 1. apply set_nth_at. }
    assert (EU : lt_update1 (mkLt ts l r) (Z.of_nat k) u f =
      Ok (mkLt (set_nth k u ts) (fst (upd_form l r (Z.of_nat k) f)) (snd (upd_form l r (Z.of_nat k) f)))).
    { rewrite E1. rewrite ES at 1. apply (lt_update1_at (firstn k ts)). rewrite L1. reflexivity. }
    rewrite EU. eexists. split; [reflexivity|]. cbn [lts lcan rcan].
    split; [split; cbn [lts]; [intros E; apply (f_equal (@length _)) in E; rewrite set_nth_length in E; cbn in E; lia|apply bonds_set_nth; assumption]|].
    split; [reflexivity|]. split; [apply (ranks_set_nth ts k u); exact El|]. split; [destruct (upd_form l r (Z.of_nat k) f); reflexivity|].
    split.
    + unfold cform_wk, llen. cbn [lts lcan rcan]. rewrite set_nth_length. intros [W1 W2]. apply upd_form_range; lia.
    + intros HT HO Hlt. rewrite E1. rewrite ES in HT. eapply upd_true; eauto.
  - intros Hn. destruct (Nat.leb_spec 2 (ndim u)) as [Hd|Hd]; [|reflexivity]. cbn [passert].
    assert (Hu : lt_ok u) by (split; assumption). rewrite (shape0_lt _ Ht), (shape0_lt u Hu). cbn [bind].
    destruct (Nat.eqb_spec (ldim t) (ldim u)) as [E1|E1]; [|reflexivity]. cbn [passert].
    rewrite (shape_last_lt _ Ht), (shape_last_lt u Hu). cbn [bind].
    destruct (Nat.eqb_spec (rdim t) (rdim u)) as [E2|E2]; [|reflexivity]. exfalso. apply Hn. auto.
Qed.
Theorem update_int_range (x : ltens K) z u f : (z < - Z.of_nat (llen x) \/ Z.of_nat (llen x) <= z)%Z -> lt_update_int x z u f = Err IndexError.
Proof.
  intros H. unfold lt_update_int. replace (pyget (lts x) z) with (@Err (nd K) IndexError); [reflexivity|].
  unfold pyget, pyidx, llen in *. destruct (Z.leb_spec 0 z).
  - destruct (Z.ltb_spec z (Z.of_nat (length (lts x)))); [lia|reflexivity].
  - destruct (Z.leb_spec 0 (z + Z.of_nat (length (lts x)))); [lia|reflexivity].
Qed.

(** Fold of the one-site rule over the flags. *)
Fixpoint upd_forms (l r k : Z) (fs : list (option string)) : Z * Z :=
  match fs with [] => (l, r) | f :: fs' => let p := upd_form l r k f in upd_forms (fst p) (snd p) (k + 1) fs' end.
(** No flag is given at a moment when the two regions touch. *)
Fixpoint flags_safe (l r k : Z) (fs : list (option string)) : Prop :=
  match fs with
  | [] => True
  | f :: fs' => (flag_is f "left" = true \/ flag_is f "right" = true -> (l < r)%Z) /\
                let p := upd_form l r k f in flags_safe (fst p) (snd p) (k + 1) fs'
  end.

Lemma update_loop_spec ts : forall ys (x1 x2 : list (nd K)) l r fs k, Z.of_nat (length x1) = k -> length ys = length ts -> length fs = length ts ->
  lt_update_loop (mkLt (x1 ++ ys ++ x2) l r) ts (pyrange k (k + Z.of_nat (length ts)) 1) fs =
    Ok (mkLt (x1 ++ ts ++ x2) (fst (upd_forms l r k fs)) (snd (upd_forms l r k fs))) /\
  (canon_true (mkLt (x1 ++ ys ++ x2) l r) -> Forall2 honest fs ts -> flags_safe l r k fs ->
   canon_true (mkLt (x1 ++ ts ++ x2) (fst (upd_forms l r k fs)) (snd (upd_forms l r k fs)))) /\
  (cform_wk (mkLt (x1 ++ ys ++ x2) l r) -> cform_wk (mkLt (x1 ++ ts ++ x2) (fst (upd_forms l r k fs)) (snd (upd_forms l r k fs)))).
Proof.
  induction ts as [|t ts IH]; intros ys x1 x2 l r fs k Ek Ly Lf.
  - destruct ys; [|discriminate]. destruct fs; [|discriminate]. cbn [lt_update_loop upd_forms fst snd app length]. split; [reflexivity|]. auto.
  - destruct ys as [|y ys]; [discriminate|]. destruct fs as [|f fs]; [discriminate|].
    assert (ER : pyrange k (k + Z.of_nat (length (t :: ts))) 1 = k :: pyrange (k + 1) ((k + 1) + Z.of_nat (length ts)) 1).
    { rewrite !pyrange_up by lia. replace (Z.to_nat (k + Z.of_nat (length (t :: ts)) - k)) with (S (length ts)) by (cbn [length]; lia).
      replace (Z.to_nat (k + 1 + Z.of_nat (length ts) - (k + 1))) with (length ts) by lia. cbn [seq map]. f_equal; [lia|].
      rewrite <- seq_shift, map_map. apply map_ext. intros; lia. }
    rewrite ER. cbn [lt_update_loop app]. rewrite (lt_update1_at x1 (ys ++ x2) y t l r k f Ek). cbn [bind].
    replace (x1 ++ t :: ys ++ x2) with ((x1 ++ [t]) ++ ys ++ x2) by (rewrite <- app_assoc; reflexivity).
    assert (Ek1 : Z.of_nat (length (x1 ++ [t])) = (k + 1)%Z) by (rewrite app_length; cbn [length]; lia).
    destruct (IH ys (x1 ++ [t]) x2 (fst (upd_form l r k f)) (snd (upd_form l r k f)) fs (k + 1)%Z Ek1 ltac:(cbn in Ly; lia) ltac:(cbn in Lf; lia)) as [E [T W]].
    assert (EA : x1 ++ t :: ts ++ x2 = (x1 ++ [t]) ++ ts ++ x2) by (rewrite <- app_assoc; reflexivity).
    rewrite EA. cbn [upd_forms]. split; [exact E|]. split.
    + intros HT HF [S1 S2]. inversion HF as [|? ? ? ? HO HF']; subst. apply T; [|exact HF'|exact S2].
      rewrite <- app_assoc. cbn [app]. eapply upd_true; eauto.
    + intros HW. apply W. unfold cform_wk, llen in *. cbn [lts lcan rcan] in *. rewrite !app_length in *. cbn [length] in *. rewrite app_length in *.
      apply upd_form_range; lia.
Qed.

Lemma pyget_last (A : Type) (l : list A) x : pyget (l ++ [x]) (-1) = Ok x.
Proof.
  rewrite (pyget_last_at _ _ x); [|intros E; apply app_eq_nil in E; destruct E; discriminate].
  rewrite app_length. cbn [length]. replace (length l + 1 - 1) with (length l) by lia. rewrite nth_middle. reflexivity.
Qed.

(** A contiguous slice [len x1 : len x1 + len ys] replaced by as many tensors. *)
Theorem update_slice_spec (x1 x2 ys ts : list (nd K)) l r c fs a b :
  mpa_ok (mkLt (x1 ++ ys ++ x2) l r) -> ys <> [] -> length ts = length ys -> bonds ys a b -> bonds ts a b ->
  fs = match c with COne None => repeat None (length ts) | COne (Some s) => str_chars s | CSeq f => f end -> length fs = length ts ->
  let k := Z.of_nat (length x1) in
  exists z, lt_update_slice (mkLt (x1 ++ ys ++ x2) l r) (mkSlice (Some k) (Some (k + Z.of_nat (length ys))%Z) None) ts c = Ok z /\
    mpa_ok z /\ lts z = x1 ++ ts ++ x2 /\ (lcan z, rcan z) = upd_forms l r k fs /\
    (cform_wk (mkLt (x1 ++ ys ++ x2) l r) -> cform_wk z) /\
    (canon_true (mkLt (x1 ++ ys ++ x2) l r) -> Forall2 honest fs ts -> flags_safe l r k fs -> canon_true z).
Proof.
  intros Hx Hne Lt By Bt Efs Lf k. destruct (update_loop_spec ts ys x1 x2 l r fs k eq_refl ltac:(lia) Lf) as [E [T W]].
  exists (mkLt (x1 ++ ts ++ x2) (fst (upd_forms l r k fs)) (snd (upd_forms l r k fs))). cbn [lts lcan rcan].
  assert (HT : ts <> []) by (intros ->; destruct ys; [congruence|discriminate]).
  split.
  - unfold lt_update_slice, slice_indices. cbn [s_start s_stop s_step lts].
    assert (Ln : llen (mkLt (x1 ++ ys ++ x2) l r) = length x1 + length ys + length x2) by (unfold llen; cbn [lts]; rewrite !app_length; lia).
    rewrite Ln. change (1 =? 0)%Z with false. change (1 <? 0)%Z with false. cbn iota.
    assert (0 < length ys) by (destruct ys; [congruence|cbn; lia]).
    replace (k <? 0)%Z with false by (symmetry; apply Z.ltb_ge; lia).
    replace (k + Z.of_nat (length ys) <? 0)%Z with false by (symmetry; apply Z.ltb_ge; lia). cbn [bind].
    replace (Z.min k (Z.of_nat (length x1 + length ys + length x2))) with k by lia.
    replace (Z.min (k + Z.of_nat (length ys)) (Z.of_nat (length x1 + length ys + length x2))) with (k + Z.of_nat (length ys))%Z by lia.
    destruct ys as [|y ys']; [congruence|]. destruct ts as [|t ts']; [congruence|].
    cbn [app]. unfold k at 1. rewrite pyget_at by reflexivity. cbn [bind].
    pose proof By as [Hy [Ely _]]. pose proof Bt as [Ht [Elt _]].
    rewrite (shape0_lt y Hy). cbn [bind]. change (pyget (t :: ts') 0) with (Ok t). cbn [bind]. rewrite (shape0_lt t Ht). cbn [bind].
    rewrite Ely, Elt, Nat.eqb_refl. cbn [passert]. rewrite (check_bonds_ok _ _ _ Bt). cbn [bind].
    destruct (exists_last (l := y :: ys')) as [ya [yl Ey]]; [discriminate|].
    destruct (exists_last (l := t :: ts')) as [ta [tl' Et]]; [discriminate|].
    replace (x1 ++ y :: ys' ++ x2) with ((x1 ++ ya) ++ yl :: x2) at 1
      by (change (y :: ys' ++ x2) with ((y :: ys') ++ x2); rewrite Ey, <- !app_assoc; reflexivity).
    replace (k + Z.of_nat (length (y :: ys')) - 1)%Z with (Z.of_nat (length (x1 ++ ya)))
      by (rewrite app_length; assert (length (y :: ys') = length ya + 1) by (rewrite Ey, app_length; reflexivity); lia).
    rewrite pyget_at by reflexivity.
    cbn [bind]. rewrite Ey in By. apply bonds_one in By. destruct By as [_ [Hyl Byl]]. cbn in Byl.
    pose proof Bt as Bt'. rewrite Et in Bt'. apply bonds_one in Bt'. destruct Bt' as [_ [Htl Btl]]. cbn in Btl.
    rewrite (shape_last_lt yl Hyl). cbn [bind]. rewrite Et, pyget_last. cbn [bind]. rewrite (shape_last_lt tl' Htl). cbn [bind].
    rewrite Byl, Btl, Nat.eqb_refl. cbn [passert]. rewrite <- Et.
    rewrite <- Efs, <- Lt. exact E.
  - destruct Hx as [_ HB]. cbn [lts] in HB. apply bonds_app in HB. destruct HB as [m [B1 HB]]. apply bonds_app in HB. destruct HB as [m' [B2 B3]].
    assert (Em : m = a /\ m' = b).
    { destruct ys as [|y ys']; [congruence|]. cbn [bonds] in By, B2. destruct By as [_ [E1 By]]. destruct B2 as [_ [E2 B2]]. split; [congruence|].
      clear - By B2. revert By B2. generalize (rdim y). induction ys' as [|v vs IH]; intros d By B2; cbn in *; [congruence|]. destruct By as [_ [_ By]]. destruct B2 as [_ [_ B2]]. exact (IH _ By B2). }
    destruct Em as [-> ->].
    split; [split; cbn [lts]; [intros E0; apply app_eq_nil in E0; destruct E0 as [_ E0]; apply app_eq_nil in E0; destruct E0; congruence|]|].
    { apply bonds_app. exists a. split; [exact B1|]. apply bonds_app. exists b. auto. }
    split; [reflexivity|]. split; [destruct (upd_forms l r k fs); reflexivity|]. split; [exact W|exact T].
Qed.

(** An accepted contiguous slice has matching outer and inner bonds. *)
Lemma update_slice_accepted (x : ltens K) ts c (k : nat) z : mpa_ok x -> k + length ts <= llen x -> Forall lt_ok ts -> ts <> [] ->
  lt_update_slice x (mkSlice (Some (Z.of_nat k)) (Some (Z.of_nat (k + length ts))) None) ts c = Ok z ->
  let ys := firstn (length ts) (skipn k (lts x)) in
  exists a b, bonds ys a b /\ bonds ts a b.
Proof.
  intros [Hne HB] Hl Ho Ht E ys. unfold lt_update_slice, slice_indices in E. cbn [s_start s_stop s_step] in E.
  change (1 =? 0)%Z with false in E. change (1 <? 0)%Z with false in E. cbn iota in E. unfold llen in *.
  assert (0 < length ts) by (destruct ts; [congruence|cbn; lia]).
  replace (Z.of_nat k <? 0)%Z with false in E by (symmetry; apply Z.ltb_ge; lia).
  replace (Z.of_nat (k + length ts) <? 0)%Z with false in E by (symmetry; apply Z.ltb_ge; lia). cbn [bind] in E.
  replace (Z.min (Z.of_nat k) (Z.of_nat (length (lts x)))) with (Z.of_nat k) in E by lia.
  replace (Z.min (Z.of_nat (k + length ts)) (Z.of_nat (length (lts x)))) with (Z.of_nat (k + length ts)) in E by lia.
  rewrite (pyget_in _ _ k dummy) in E by lia. cbn [bind] in E.
  destruct (bonds_nth _ _ _ k HB ltac:(lia)) as [Hk _]. rewrite (shape0_lt _ Hk) in E. cbn [bind] in E.
  destruct ts as [|t ts']; [congruence|]. change (pyget (t :: ts') 0) with (Ok t) in E. cbn [bind] in E.
  assert (Ht0 : lt_ok t) by (inversion Ho; assumption). rewrite (shape0_lt t Ht0) in E. cbn [bind] in E.
  destruct (Nat.eqb_spec (ldim (nth k (lts x) dummy)) (ldim t)) as [E1|E1]; [|discriminate]. cbn [passert] in E.
  destruct (check_bonds (t :: ts')) as [[]|e] eqn:EC; cbn [bind] in E; [|discriminate].
  replace (Z.of_nat (k + length (t :: ts')) - 1)%Z with (Z.of_nat (k + length ts')) in E by (cbn [length]; lia).
  cbn [length] in Hl. rewrite (pyget_in _ _ (k + length ts') dummy) in E by lia. cbn [bind] in E.
  destruct (bonds_nth _ _ _ (k + length ts') HB ltac:(lia)) as [Hk2 _]. rewrite (shape_last_lt _ Hk2) in E. cbn [bind] in E.
  rewrite (pyget_last_at _ _ dummy Ht) in E. cbn [bind] in E. cbn [length] in E. replace (S (length ts') - 1) with (length ts') in E by lia.
  assert (Htl : lt_ok (nth (length ts') (t :: ts') dummy)).
  { rewrite Forall_forall in Ho. apply Ho. apply nth_In. cbn [length]; lia. }
  rewrite (shape_last_lt _ Htl) in E. cbn [bind] in E.
  destruct (Nat.eqb_spec (rdim (nth (k + length ts') (lts x) dummy)) (rdim (nth (length ts') (t :: ts') dummy))) as [E2|E2]; [|discriminate]. clear E.
  assert (EX : lts x = firstn k (lts x) ++ ys ++ skipn (k + length (t :: ts')) (lts x)).
  { unfold ys. rewrite <- skipn_add. rewrite firstn_skipn. symmetry. apply firstn_skipn. }
  pose proof HB as HB'. rewrite EX in HB'. apply bonds_app in HB'. destruct HB' as [a [_ HB']]. apply bonds_app in HB'. destruct HB' as [b [By _]].
  exists a, b. split; [exact By|]. pose proof (check_bonds_inv _ Ho EC Ht) as BC.
  assert (Ly : length ys = S (length ts')) by (unfold ys; rewrite firstn_length, skipn_length; cbn [length]; lia).
  assert (Ea : a = ldim t /\ b = rdim (nth (length ts') (t :: ts') dummy)).
  { rewrite <- E1, <- E2. assert (N : forall j, j < length ys -> nth j ys dummy = nth (k + j) (lts x) dummy).
    { intros j Hj. unfold ys. rewrite nth_firstn by (cbn [length] in *; lia). rewrite nth_skipn. reflexivity. }
    split.
    - replace k with (k + 0) by lia. rewrite <- N by lia. destruct ys as [|y ys']; [discriminate|]. symmetry. apply By.
    - rewrite <- N by lia. clear - By Ly. replace (length ts') with (length ys - 1) by lia. assert (0 < length ys) by lia. clear Ly.
      revert a By H. induction ys as [|y ys IH]; intros a By H; [cbn in H; lia|]. destruct By as [Hy [_ By]].
      destruct ys as [|y' ys]; [cbn in *; congruence|]. specialize (IH _ By ltac:(cbn; lia)). cbn [length] in *. replace (S (S (length ys)) - 1) with (S (length ys)) by lia.
      replace (S (length ys) - 1) with (length ys) in IH by lia. exact IH. }
  destruct Ea as [-> ->]. replace (rdim (nth (length ts') (t :: ts') dummy)) with (rdim (List.last (t :: ts') dummy)); [exact BC|]. f_equal.
  clear. change (nth (length ts') (t :: ts') dummy) with (nth (length ts') (t :: ts') dummy). revert t.
  induction ts' as [|u us IH]; intros t; [reflexivity|]. change (List.last (t :: u :: us) dummy) with (List.last (u :: us) dummy). rewrite IH. reflexivity.
Qed.
End Update.
