(** The dense reference truncates the singular value decompositions in turn. *)
From Verif Require Export TestRef PfTrunc PfStates.
From Verif Require Import PfShape PfRedMpo PfCompress PfDot PfGram.

Section Ref.
Context {K : StarRing}.
Add Ring KrRef : (k_ring K).

(** Entry of a dense array with one axis per site. *)
Definition dent (a : nd K) (is : list (list nat)) : K := get a (concat is).
Lemma concat_singles (l : list nat) : concat (singles l) = l.
Proof. induction l as [|x l IH]; [reflexivity|]. cbn. f_equal. exact IH. Qed.
Lemma valid_singles ds : forall is, valid_idx is (singles ds) -> inr (concat is) ds.
Proof.
  induction ds as [|d ds IH]; intros is H; [inversion H; constructor|]. inversion H as [|x ? l ? H1 H2]; subst.
  inversion H1 as [|i ? t ? Hi Ht]; subst. apply inr_nil_inv in Ht. subst. cbn [concat app]. apply inr_cons; [exact Hi|apply IH, H2].
Qed.
Lemma msums_flat ds (f : list (list nat) -> K) (g : nat -> K) : (forall c, inr c ds -> f (singles c) = g (ravel ds c)) -> msums (singles ds) f = bigsum (size ds) g.
Proof.
  intros H. rewrite msums_singles, msum_flat. apply bigsum_ext. intros n Hn. rewrite H by (apply unravel_inr, Hn). rewrite ravel_unravel by exact Hn. reflexivity.
Qed.
Lemma size_firstn_skipn ds j : size (firstn j ds) * size (skipn j ds) = size ds.
Proof. rewrite <- size_app, firstn_skipn. reflexivity. Qed.

Variable svd : nd K -> res (nd K * list K * nd K).
Hypothesis Hsvd : svd_sound svd.
Variable P : list K -> Prop.
Hypothesis HP : forall m n a u s v, is_mat a m n -> svd a = Ok (u, s, v) -> P s.

Lemma take_cols_spec' (u : nd K) m n k : shp u = [m; n] ->
  shp (take_cols k u) = [m; Nat.min k n] /\ ndwf (take_cols k u) /\ forall i c, i < m -> c < Nat.min k n -> get (take_cols k u) [i; c] = get u [i; c].
Proof.
  intros E. unfold take_cols. rewrite E. cbn [nth]. split; [reflexivity|]. split; [apply wf_tab|].
  intros i c Hi Hc. apply get_tab. apply inr_cons; [exact Hi|apply inr_cons; [exact Hc|constructor]].
Qed.
Lemma take_rows_spec' (u : nd K) m n k : shp u = [m; n] ->
  shp (take_rows k u) = [Nat.min k m; n] /\ ndwf (take_rows k u) /\ forall c i, c < Nat.min k m -> i < n -> get (take_rows k u) [c; i] = get u [c; i].
Proof.
  intros E. unfold take_rows. rewrite E. cbn [nth]. split; [reflexivity|]. split; [apply wf_tab|].
  intros c i Hc Hi. apply get_tab. apply inr_cons; [exact Hc|apply inr_cons; [exact Hi|constructor]].
Qed.

Lemma singlecut_spec rp (a : nd K) j r : ndwf a -> 0 < size (shp a) ->
  outc (svd_fails svd) (singlecut svd rp a j r) (fun '(b, _) => shp b = shp a /\ ndwf b /\
    exists s, P s /\ cut_trunc (singles (shp a)) (dent a) (dent b) j s (Nat.min (length s) r)).
Proof.
  intros Wa Pa. set (ds := shp a) in *. remember (size (firstn j ds)) as p eqn:Dp. remember (size (skipn j ds)) as q eqn:Dq.
  assert (Epq : p * q = size ds) by (subst p q; apply size_firstn_skipn). assert (Pp : 0 < p) by nia. assert (Pq : 0 < q) by nia.
  assert (Es : size [p; q] = size ds) by (rewrite <- Epq; change (size [p; q]) with (p * (q * 1)); rewrite Nat.mul_1_r; reflexivity).
  unfold singlecut. fold ds. rewrite <- Dp.
  assert (E1 : reshape_py a [Z.of_nat p; (-1)%Z] = Ok (reshape a [p; q])).
  { unfold reshape_py. fold ds. rewrite <- Es.
    rewrite (resolve_shape_spec [Z.of_nat p; (-1)%Z] [p; q]); [reflexivity|]. apply (RT_one [p] q []); unfold size; cbn; lia. }
  rewrite E1. cbn [bind]. set (m := reshape a [p; q]).
  assert (Hm : is_mat m p q) by (split; [reflexivity|]; split; [apply wf_reshape; [exact Wa|exact Es]|lia]).
  pose proof (Hsvd p q m Hm) as HS. unfold svd_reduced. destruct (svd m) as [[[u s] v]|e] eqn:ES.
  2:{ right. cbn [bind]. subst e. split; [reflexivity|exists p, q, m; auto]. }
  left. cbn [bind]. destruct HS as [Su [Wu [Ls [Sv [Wv [HA [HU [HV HR]]]]]]]].
  change (nth 0 (shp m) 0) with p. change (nth 1 (shp m) 0) with q. set (d := Nat.min p q) in *.
  destruct (take_cols_spec' u p p d Su) as [Su1 [_ Gu1]]. rewrite Nat.min_l in Su1, Gu1 by lia.
  destruct (take_cols_spec' _ p d r Su1) as [Su2 [Wu2 Gu2]].
  destruct (take_rows_spec' v q q d Sv) as [Sv1 [_ Gv1]]. rewrite Nat.min_l in Sv1, Gv1 by lia.
  destruct (take_rows_spec' _ d q r Sv1) as [Sv2 [Wv2 Gv2]].
  set (u2 := take_cols r (take_cols d u)) in *. set (v2 := take_rows r (take_rows d v)) in *. set (k := Nat.min r d) in *.
  assert (Lk : length (firstn r s) = k) by (rewrite firstn_length; lia).
  unfold scale_cols. rewrite Su2, Lk. change (nth 1 [p; k] 0) with k. rewrite Nat.eqb_refl. cbn [praise_unless bind].
  set (us := tab [p; k] _).
  assert (Gus : forall i c, i < p -> c < k -> get us [i; c] = (get u [i; c] * nth c s k0)%K).
  { intros i c Hi Hc. unfold us. rewrite get_tab by (apply inr_cons; [exact Hi|apply inr_cons; [exact Hc|constructor]]). cbn [nth].
    rewrite (Gu2 i c Hi Hc), (Gu1 i c Hi) by lia. f_equal. rewrite nth_firstn by lia. reflexivity. }
  destruct (matdot_mats us v2 p k q eq_refl (wf_tab _ _) Sv2 Wv2) as [E2 [Sb [Wb Gb]]]. rewrite E2. cbn [bind]. set (b := matdot us v2) in *.
  assert (E3 : reshape_py b (zshape ds) = Ok (reshape b ds)).
  { unfold reshape_py. replace (size (shp b)) with (size ds) by (rewrite Sb; symmetry; exact Es). rewrite (resolve_shape_spec (zshape ds) ds (RT_all ds)). reflexivity. }
  rewrite E3. cbn [bind]. eexists. split; [reflexivity|]. cbn beta iota. split; [reflexivity|]. split; [apply wf_reshape; [exact Wb|rewrite Sb; symmetry; exact Es]|].
  exists s. split; [exact (HP p q m u s v Hm ES)|].
  exists (fun is c => get u [ravel (firstn j ds) (concat is); c]), (fun c is => get v [c; ravel (skipn j ds) (concat is)]).
  unfold singles. rewrite firstn_map, skipn_map. fold (singles (firstn j ds)). fold (singles (skipn j ds)). rewrite Ls. fold d. split; [|split; [|split; [|exact HR]]].
  - intros is1 is2 I1 I2. apply valid_singles in I1, I2. unfold dent. rewrite concat_app.
    pose proof (ravel_lt _ _ I1) as R1. pose proof (ravel_lt _ _ I2) as R2. rewrite <- Dp in R1. rewrite <- Dq in R2.
    assert (EP : ravel [p; q] [ravel (firstn j ds) (concat is1); ravel (skipn j ds) (concat is2)] = ravel ds (concat is1 ++ concat is2)).
    { rewrite <- (firstn_skipn j ds) at 3. rewrite (ravel_app _ _ _ _ I1), <- Dq, ravel_pair. reflexivity. }
    split.
    + rewrite <- (HA _ _ R1 R2). symmetry. unfold m. apply get_reshape'. exact EP.
    + rewrite Nat.min_comm. fold k. transitivity (get b [ravel (firstn j ds) (concat is1); ravel (skipn j ds) (concat is2)]).
      * apply get_reshape'. rewrite Sb. symmetry. exact EP.
      * rewrite (Gb _ _ R1 R2). apply bigsum_ext. intros c Hc. rewrite (Gus _ c R1 Hc), (Gv2 c _ Hc R2), (Gv1 c) by (try exact R2; lia). reflexivity.
  - intros c e Hc He. rewrite (msums_flat _ _ (fun i => kconj (get u [i; c]) * get u [i; e])%K); [rewrite <- Dp; apply HU; lia|]. intros i Hi. rewrite concat_singles. reflexivity.
  - intros c e Hc He. rewrite (msums_flat _ _ (fun i => get v [c; i] * kconj (get v [e; i]))%K); [rewrite <- Dq; apply HV; lia|]. intros i Hi. rewrite concat_singles. reflexivity.
Qed.

Lemma ref_loop_spec rp r : forall js a ps, ndwf a -> 0 < size (shp a) ->
  outc (svd_fails svd) (ref_loop svd rp r js a ps) (fun '(b, _) => shp b = shp a /\ ndwf b /\
    exists ys, truncs (singles (shp a)) (dent a) js ys (dent b) /\ Forall (fun y => P (fst y) /\ snd y = Nat.min (length (fst y)) r) ys).
Proof.
  induction js as [|j js IH]; intros a ps Wa Pa; cbn [ref_loop].
  - left. eexists. split; [reflexivity|]. split; [reflexivity|]. split; [exact Wa|]. exists []. split; [intros is _; reflexivity|constructor].
  - eapply (outc_bind _ _ _ _ _ (singlecut_spec rp a j r Wa Pa)). intros [b p] [Sb [Wb [s [Ps Cs]]]].
    assert (Pb : 0 < size (shp b)) by (rewrite Sb; exact Pa). apply (outc_weaken _ _ _ _ _ (IH b (ps ++ [p]) Wb Pb)); [auto|]. intros [c ps'] [Sc [Wc [ys [T F]]]].
    split; [congruence|]. split; [exact Wc|]. exists ((s, Nat.min (length s) r) :: ys). split; [|constructor; auto].
    cbn [truncs]. exists (dent b). split; [exact Cs|]. rewrite <- Sb. exact T.
Qed.

Theorem ref_spec a r right rp : ndwf a -> 0 < size (shp a) ->
  outc (svd_fails svd) (ref_compression_svd svd a r right rp) (fun '(b, _) => shp b = shp a /\ ndwf b /\
    exists ys, truncs (singles (shp a)) (dent a) (if right then seq 1 (ndim a - 1) else rev (seq 1 (ndim a - 1))) ys (dent b) /\
      Forall (fun y => P (fst y) /\ snd y = Nat.min (length (fst y)) r) ys).
Proof.
  intros Wa Pa. unfold ref_compression_svd. apply (outc_bind _ _ _ _ _ (ref_loop_spec rp r _ a [] Wa Pa)). intros [b ps] H. left. eexists. split; [reflexivity|]. exact H.
Qed.
End Ref.
