(** Kronecker products. *)
From Verif Require Export PfExt PfSites.
Open Scope nat_scope.

Lemma zipn_length f l : forall m, length l = length m -> length (zipn f l m) = length m.
Proof. induction l as [|x l IH]; intros [|y m] H; cbn in *; try lia. rewrite IH; lia. Qed.
Lemma zipn_map f (g : nat -> nat) m : forall s, zipn f (map g (seq s (length m))) m = map (fun k => f (g k) (nth (k - s) m 0)) (seq s (length m)).
Proof.
  induction m as [|y m IH]; intros s; [reflexivity|]. cbn [length seq map zipn]. f_equal; [rewrite Nat.sub_diag; reflexivity|].
  rewrite IH. apply map_ext_in. intros k Hk. apply in_seq in Hk. f_equal. replace (k - s) with (S (k - S s)) by lia. reflexivity.
Qed.
Lemma zipn_div_inr idx sa sb : length sa = length sb -> inr idx (zipn Nat.mul sa sb) -> inr (zipn Nat.div idx sb) sa /\ inr (zipn Nat.modulo idx sb) sb.
Proof.
  revert sb idx. induction sa as [|a sa IH]; intros [|b sb] idx L H; cbn in *; try lia; inversion H; subst; cbn; [split; constructor|].
  destruct (IH sb l) as [I1 I2]; [lia|assumption|]. split; constructor; auto.
  - apply Nat.div_lt_upper_bound; lia.
  - apply Nat.mod_upper_bound. lia.
Qed.

Section Kron.
Context {K : StarRing}.
Add Ring Kr : (k_ring K).

Lemma kron_eq_get (a b : nd K) i j : length (shp a) = length (shp b) -> inr i (shp a) -> inr j (shp b) ->
  get (kron_eq a b) (zipn Nat.add (zipn Nat.mul i (shp b)) j) = (get a i * get b j)%K.
Proof.
  intros L Hi Hj. unfold kron_eq. rewrite get_tab.
  - assert (E : zipn Nat.div (zipn Nat.add (zipn Nat.mul i (shp b)) j) (shp b) = i /\ zipn Nat.modulo (zipn Nat.add (zipn Nat.mul i (shp b)) j) (shp b) = j).
    { revert L Hi Hj. generalize (shp a) as sa. revert j. generalize (shp b) as sb. clear. intros sb j sa L Hi. revert sb j L.
      induction Hi as [|x d i sa Hx Hi IH]; intros [|c sb] j L Hj; cbn in *; try lia; inversion Hj; subst; [split; reflexivity|]. cbn [zipn].
      destruct (IH sb l) as [-> ->]; [lia|assumption|]. rewrite Nat.div_add_l by lia. rewrite (Nat.add_comm (x * c)), Nat.mod_add by lia.
      rewrite Nat.div_small, Nat.mod_small by assumption. rewrite Nat.add_0_r. auto. }
    destruct E as [-> ->]. reflexivity.
  - revert L Hi Hj. generalize (shp a) as sa. revert j. generalize (shp b) as sb. clear. intros sb j sa L Hi. revert sb j L.
    induction Hi as [|x d i sa Hx Hi IH]; intros [|c sb] j L Hj; cbn in *; try lia; inversion Hj; subst; constructor; [nia|]. apply IH; [lia|assumption].
Qed.

(** The index of the product: along each axis the indices of the factors are the
    digits, the first factor the most significant. *)
Definition kron_idx (r : nat) (shs ix : list (list nat)) : list nat :=
  map (fun k => ravel (map (fun s => nth k s 0) shs) (map (fun i => nth k i 0) ix)) (seq 0 r).
Definition kron_shape (r : nat) (shs : list (list nat)) : list nat := map (fun k => size (map (fun s => nth k s 0) shs)) (seq 0 r).

Lemma nth_inr i s k : inr i s -> k < length s -> nth k i 0 < nth k s 0.
Proof. intros H. revert k. induction H as [|x d i s Hx H IH]; intros [|k] Hk; cbn in *; try lia. apply IH. lia. Qed.
Lemma list_as_map (l : list nat) r : length l = r -> l = map (fun k => nth k l 0) (seq 0 r).
Proof. intros <-. symmetry. exact (gather_seq0 l). Qed.
Lemma col_inr r shs ix k : Forall2 inr ix shs -> Forall (fun s => length s = r) shs -> k < r -> inr (map (fun i => nth k i 0) ix) (map (fun s => nth k s 0) shs).
Proof. intros H F Hk. induction H as [|i s ix shs Hi H IH]; [constructor|]. apply Forall_inv in F as F1; apply Forall_inv_tail in F as F2. cbn. constructor; [apply nth_inr; [exact Hi|lia]|exact (IH F2)]. Qed.

Lemma pad_same (a : nd K) : pad_axes (ndim a) a = a.
Proof. unfold pad_axes. rewrite Nat.sub_diag. destruct a; reflexivity. Qed.


Theorem mkron_spec (a0 : nd K) args r : Forall (fun a => ndwf a /\ ndim a = r) (a0 :: args) ->
  let shs := map (@shp K) (a0 :: args) in
  exists z, mkron (a0 :: args) = Ok z /\ ndwf z /\ shp z = kron_shape r shs /\
    forall ix, Forall2 inr ix shs -> get z (kron_idx r shs ix) = kprod (zip2 (@get K) (a0 :: args) ix).
Proof.
  intros HF. cbn zeta. unfold mkron. exists (fold_left kron args a0). split; [reflexivity|].
  induction args as [|b args IH] using rev_ind.
  - cbn [fold_left map]. inversion HF as [|? ? [W N] _]; subst. split; [exact W|]. split.
    + unfold kron_shape, ndim. rewrite (list_as_map (shp a0) _ eq_refl) at 1. apply map_ext. intros k. cbn [map]. rewrite size_single. reflexivity.
    + intros ix Hix. inversion Hix as [|i s ? ? Hi H2]; subst. inversion H2; subst. cbn [zip2 kprod fold_right].
      replace (kron_idx (ndim a0) [shp a0] [i]) with i; [ring|]. unfold kron_idx. rewrite (list_as_map i (ndim a0)) at 1 by (unfold ndim; apply (inr_length _ _ Hi)).
      apply map_ext. intros k. cbn [map ravel]. rewrite size_nil. lia.
  - rewrite app_comm_cons, Forall_app in HF. destruct HF as [HF1 HF2]. destruct (IH HF1) as (W & Es & Eg). inversion HF2 as [|? ? [Wb Nb] _]; subst.
    rewrite fold_left_app. cbn [fold_left]. set (z := fold_left kron args a0) in *.
    assert (Nz : ndim z = ndim b) by (unfold ndim at 1; rewrite Es; unfold kron_shape; rewrite map_length, seq_length; reflexivity).
    assert (Ek : kron z b = kron_eq z b) by (unfold kron; rewrite Nz, Nat.max_id; rewrite pad_same; rewrite <- Nz at 1; rewrite pad_same; reflexivity).
    rewrite Ek. split; [apply wf_tab|]. rewrite app_comm_cons, map_app. change (map (@shp K) [b]) with [shp b]. set (shs := map (@shp K) (a0 :: args)) in *.
    assert (Ls : Forall (fun s => length s = ndim b) shs).
    { unfold shs. rewrite Forall_map. eapply Forall_impl; [|exact HF1]. cbn beta. unfold ndim. intros c [_ Hc]. exact Hc. }
    split.
    + unfold kron_eq. cbn [shp tab]. rewrite Es. unfold kron_shape. change (ndim b) with (length (shp b)). rewrite zipn_map. apply map_ext. intros k.
      rewrite map_app, size_app. cbn [map]. rewrite size_single, Nat.sub_0_r. reflexivity.
    + intros ix Hix. apply Forall2_app_inv_r in Hix. destruct Hix as (ix1 & ix2 & H1 & H2 & ->). inversion H2 as [|i ? ? ? Hi H3]; subst. inversion H3; subst.
      assert (Ei : kron_idx (ndim b) (shs ++ [shp b]) (ix1 ++ [i]) = zipn Nat.add (zipn Nat.mul (kron_idx (ndim b) shs ix1) (shp b)) i).
      { unfold kron_idx. change (ndim b) with (length (shp b)). rewrite zipn_map. rewrite <- (inr_length _ _ Hi) at 2. rewrite <- (inr_length _ _ Hi) at 1. rewrite zipn_map. apply map_ext_in. intros k Hk. apply in_seq in Hk.
        rewrite !map_app. cbn [map]. rewrite ravel_app by (apply (col_inr (ndim b)); auto; unfold ndim; rewrite <- (inr_length _ _ Hi); lia).
        rewrite size_single, !Nat.sub_0_r. cbn [ravel]. rewrite size_nil. lia. }
      rewrite Ei, kron_eq_get.
      * rewrite Eg by exact H1. assert (Ez : zip2 (@get K) ((a0 :: args) ++ [b]) (ix1 ++ [i]) = zip2 (@get K) (a0 :: args) ix1 ++ [get b i]).
        { unfold shs in H1. revert H1. generalize (a0 :: args) as l. clear. intros l H. remember (map (@shp K) l) as s eqn:E. revert l E. induction H as [|j s ix shs Hj H IH]; intros [|c l] E; try discriminate; [reflexivity|].
          cbn [app zip2]. injection E as -> E. f_equal. apply IH. exact E. }
        rewrite Ez. unfold kprod. rewrite fold_right_app. cbn [fold_right].
        generalize (zip2 (@get K) (a0 :: args) ix1). intros l. induction l as [|y l IHl]; cbn [fold_right]; [ring|]. rewrite <- IHl. ring.
      * unfold ndim in Nz. exact Nz.
      * rewrite Es. unfold kron_idx, kron_shape. clearbody shs. clear - H1 Ls. assert (F : forall k, In k (seq 0 (ndim b)) -> k < ndim b) by (intros k Hk; apply in_seq in Hk; lia).
        revert F. generalize (seq 0 (ndim b)) as l. induction l as [|k l IHl]; intros F; [constructor|]. cbn. constructor; [|apply IHl; intros; apply F; right; assumption].
        apply ravel_lt. apply (col_inr (ndim b)); auto. apply F. left; reflexivity.
      * exact Hi.
Qed.

(** ** Associativity *)
Lemma kron_eq_assoc (a b c : nd K) : ndim a = ndim b -> ndim b = ndim c -> kron_eq (kron_eq a b) c = kron_eq a (kron_eq b c).
Proof.
  unfold ndim. intros L1 L2.
  assert (Sh : zipn Nat.mul (zipn Nat.mul (shp a) (shp b)) (shp c) = zipn Nat.mul (shp a) (zipn Nat.mul (shp b) (shp c))).
  { generalize (shp a) (shp b) (shp c). clear. induction l as [|x l IH]; intros [|y m] [|z n]; try reflexivity. cbn. rewrite IH. f_equal. lia. }
  unfold kron_eq at 1 3. cbn [shp tab kron_eq]. rewrite Sh. apply tab_ext. intros idx Hidx.
  pose proof Hidx as H1. rewrite <- Sh in H1. apply zipn_div_inr in H1; [|rewrite zipn_length by congruence; congruence]. destruct H1 as [H1 H1'].
  pose proof Hidx as H2. apply zipn_div_inr in H2; [|rewrite zipn_length by congruence; congruence]. destruct H2 as [H2 H2'].
  unfold kron_eq. rewrite !get_tab by assumption.
  assert (E : zipn Nat.div (zipn Nat.div idx (shp c)) (shp b) = zipn Nat.div idx (zipn Nat.mul (shp b) (shp c)) /\
              zipn Nat.modulo (zipn Nat.div idx (shp c)) (shp b) = zipn Nat.div (zipn Nat.modulo idx (zipn Nat.mul (shp b) (shp c))) (shp c) /\
              zipn Nat.modulo idx (shp c) = zipn Nat.modulo (zipn Nat.modulo idx (zipn Nat.mul (shp b) (shp c))) (shp c)).
  { revert L1 L2 Hidx. generalize (shp a) (shp b) (shp c). clear. intros sa. revert idx. induction sa as [|x sa IH]; intros idx [|y sb] [|z sc] L1 L2 H; cbn [zipn length] in *; try lia; inversion H; subst; [auto|]. cbn [zipn].
    destruct (IH l sb sc) as (-> & -> & ->); [lia|lia|assumption|]. assert (y <> 0 /\ z <> 0) by (split; intros ->; lia). destruct H0 as [Hy Hz].
    rewrite Nat.div_div by assumption. rewrite (Nat.mul_comm z y). rewrite (Nat.mul_comm y z), Nat.mod_mul_r by assumption.
    repeat split; f_equal.
    - rewrite (Nat.mul_comm z), Nat.div_add by assumption. rewrite (Nat.div_small (x0 mod z)) by (apply Nat.mod_upper_bound; assumption). reflexivity.
    - rewrite (Nat.mul_comm z), Nat.mod_add, Nat.mod_mod by assumption. reflexivity. }
  destruct E as (-> & -> & ->). ring.
Qed.
Lemma pad_pad n m (a : nd K) : ndim a <= n -> n <= m -> pad_axes m (pad_axes n a) = pad_axes m a.
Proof.
  intros H1 H2. unfold pad_axes, reshape, ndim in *. cbn [shp dat]. f_equal. rewrite app_length, repeat_length, app_assoc, <- repeat_app. f_equal. f_equal. lia.
Qed.
Lemma ndim_pad n (a : nd K) : ndim a <= n -> ndim (pad_axes n a) = n.
Proof. unfold pad_axes, ndim. cbn [shp reshape]. intros H. rewrite app_length, repeat_length. lia. Qed.
Lemma ndim_kron_eq (a b : nd K) : ndim a = ndim b -> ndim (kron_eq a b) = ndim b.
Proof. unfold ndim, kron_eq. intros H. cbn [shp tab]. apply zipn_length. exact H. Qed.

Lemma inr_ones i q : inr i (repeat 1 q) -> i = repeat 0 q.
Proof. revert i. induction q as [|q IH]; intros i H; inversion H; subst; [reflexivity|]. cbn. f_equal; [lia|auto]. Qed.
Lemma ravel_ones q sh idx : ravel (repeat 1 q ++ sh) (repeat 0 q ++ idx) = ravel sh idx.
Proof. induction q as [|q IH]; [reflexivity|]. cbn [repeat app ravel]. exact IH. Qed.
Lemma size_ones q sh : size (repeat 1 q ++ sh) = size sh.
Proof. induction q as [|q IH]; [reflexivity|]. cbn [repeat app]. rewrite size_cons. lia. Qed.

Lemma pad_kron_eq m (a b : nd K) : ndim a = ndim b -> pad_axes m (kron_eq a b) = kron_eq (pad_axes m a) (pad_axes m b).
Proof.
  intros E. unfold pad_axes. rewrite (ndim_kron_eq a b E). rewrite E. set (q := m - ndim b).
  assert (Z : forall l l', length l = length l' -> zipn Nat.mul (repeat 1 q ++ l) (repeat 1 q ++ l') = repeat 1 q ++ zipn Nat.mul l l').
  { intros l l' L. clear. induction q as [|q IH]; [reflexivity|]. cbn. f_equal. exact IH. }
  apply nd_eq.
  - apply wf_reshape; [apply wf_tab|]. cbn [shp]. apply size_ones.
  - apply wf_tab.
  - cbn [shp reshape kron_eq tab]. unfold kron_eq. cbn [shp tab reshape]. symmetry. apply Z. exact E.
  - intros idx H. cbn [shp reshape] in H. apply inr_app_inv in H. destruct H as (i1 & i2 & -> & H1 & H2). apply inr_ones in H1. subst i1.
    rewrite (get_reshape' _ _ _ i2) by apply ravel_ones. unfold kron_eq in *. cbn [shp tab reshape] in *. rewrite get_tab by exact H2.
    rewrite get_tab.
    + assert (Y : forall f l l', f 0 1 = 0 -> zipn f (repeat 0 q ++ l) (repeat 1 q ++ l') = repeat 0 q ++ zipn f l l').
      { intros f l l' F. clear -F. induction q as [|q IH]; [reflexivity|]. cbn. rewrite F. f_equal. exact IH. }
      cbn [shp reshape]. rewrite !Y by reflexivity. rewrite !(get_reshape' _ _ _ _ (ravel_ones _ _ _)). reflexivity.
    + cbn [shp reshape]. rewrite Z by exact E. apply inr_app; [|exact H2]. clear. induction q; constructor; auto.
Qed.

Theorem kron_assoc (a b c : nd K) : kron (kron a b) c = kron a (kron b c).
Proof.
  unfold kron at 1 3. set (m := Nat.max (Nat.max (ndim a) (ndim b)) (ndim c)).
  assert (N1 : ndim (kron a b) = Nat.max (ndim a) (ndim b)).
  { unfold kron. rewrite ndim_kron_eq; rewrite !ndim_pad by lia; lia. }
  assert (N2 : ndim (kron b c) = Nat.max (ndim b) (ndim c)).
  { unfold kron. rewrite ndim_kron_eq; rewrite !ndim_pad by lia; lia. }
  rewrite N1, N2. fold m. replace (Nat.max (ndim a) (Nat.max (ndim b) (ndim c))) with m by (unfold m; lia).
  unfold kron. rewrite !pad_kron_eq by (rewrite !ndim_pad by lia; reflexivity). rewrite !pad_pad by (unfold m; lia).
  apply kron_eq_assoc; rewrite !ndim_pad by (unfold m; lia); reflexivity.
Qed.
(** Products of products. *)
Theorem mkron_app (a b z : nd K) (l m : list (nd K)) : mkron l = Ok a -> mkron m = Ok b -> mkron (l ++ m) = Ok (kron a b).
Proof.
  intros Ea Eb. destruct l as [|a0 l]; [discriminate|]. destruct m as [|b0 m]; [discriminate|]. cbn in *. injection Ea as <-. injection Eb as <-.
  f_equal. rewrite fold_left_app. cbn [fold_left]. generalize (fold_left kron l a0) as x. intros x. revert b0. induction m as [|c m IH]; intros b0; [reflexivity|].
  cbn [fold_left]. rewrite <- IH. rewrite kron_assoc. reflexivity.
Qed.
End Kron.
