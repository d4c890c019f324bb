(** SVD compression does not depend on the factorisation routines, and agrees with
    the dense reference. *)
From Coq Require Import Reals Lra Sorting.Sorted.
From Verif Require Export PfUnique PfQuasi2 PfRef.
From Verif Require Import PfBounds PfHistory PfVar4 PfCompress.
Local Open Scope nat_scope.

Add Ring CSr5 : (k_ring CS).

(** ** relerr asks for the same number of values *)
Lemma cumsum_app l m : forall acc, cumsum acc (l ++ m) = cumsum acc l ++ cumsum (acc + rsum l) m.
Proof.
  induction l as [|x l IH]; intros acc; cbn [cumsum app rsum fold_right].
  - rewrite Rplus_0_r. reflexivity.
  - rewrite IH. cbn [app]. do 3 f_equal. unfold rsum. ring.
Qed.
Lemma cumsum_zeros d : forall acc, cumsum acc (repeat 0%R d) = repeat acc d.
Proof. induction d as [|d IH]; intros acc; cbn; [reflexivity|]. rewrite Rplus_0_r, IH. reflexivity. Qed.
Lemma searchsorted_app l m v : Forall (fun x => (v <= x)%R) m -> searchsorted (l ++ m) v = searchsorted l v.
Proof.
  intros H. induction l as [|x l IH]; cbn [app searchsorted].
  - destruct H as [|x m Hx H]; [reflexivity|]. cbn. replace (Rleb v x) with true by (symmetry; apply Rleb_t; exact Hx). reflexivity.
  - rewrite IH. reflexivity.
Qed.
Lemma rsum_zeros l d : rsum (l ++ repeat 0%R d) = rsum l.
Proof. induction l as [|x l IH]; cbn; [|unfold rsum in IH; rewrite IH; reflexivity]. induction d as [|d IH]; cbn; [reflexivity|]. rewrite IH. apply Rplus_0_l. Qed.
Lemma values_pad s s' : length s <= length s' -> (forall c, sval s c = sval s' c) -> map Cre s' = map Cre s ++ repeat 0%R (length s' - length s).
Proof.
  intros L H. apply (nth_ext _ _ 0%R 0%R); [rewrite app_length, repeat_length, !map_length; lia|].
  intros c _. rewrite map_Cre_nth. change (sval s' c = nth c (map Cre s ++ repeat 0%R (length s' - length s)) 0%R). rewrite <- H.
  destruct (le_lt_dec (length s) c).
  - rewrite app_nth2 by (rewrite map_length; exact l). rewrite sval_out by exact l. symmetry. apply nth_repeat.
  - rewrite app_nth1 by (rewrite map_length; exact l). rewrite map_Cre_nth. reflexivity.
Qed.
Lemma relerr_count_pad e s s' : (0 <= e)%R -> length s <= length s' -> (forall c, sval s c = sval s' c) -> relerr_count e s = relerr_count e s'.
Proof.
  intros He L H. unfold relerr_count. rewrite (values_pad s s' L H), rsum_zeros. destruct (Req_EM_T (rsum (map Cre s)) 0) as [E|E]; [reflexivity|].
  rewrite cumsum_app, cumsum_zeros, map_app, searchsorted_app; [reflexivity|]. apply Forall_forall. intros x Hx. apply in_map_iff in Hx. destruct Hx as [y [<- Hy]].
  apply repeat_spec in Hy. subst. rewrite Rplus_0_l. unfold Rdiv. rewrite Rinv_r by exact E. lra.
Qed.
Lemma relerr_count_same e s s' : (0 <= e)%R -> (forall c, sval s c = sval s' c) -> relerr_count e s = relerr_count e s'.
Proof.
  intros He H. destruct (le_lt_dec (length s) (length s')); [apply relerr_count_pad; assumption|]. symmetry. apply relerr_count_pad; [exact He|lia|]. intros c. symmetry. apply H.
Qed.

(** ** Two runs *)
Section Runs.
Variables (qr : nd CS -> res (nd CS * nd CS)) (svd : nd CS -> res (nd CS * list CS * nd CS)).
Hypothesis Hqr : qr_sound qr.
Hypothesis Hsvd : svd_sound svd.
Hypothesis Hsort : svd_sorted svd.

Lemma run_rank (x z : ltens CS) r dir ov : mpa_pos x -> cform_wk x -> canon_true x -> 2 <= llen x -> 0 < r ->
  compress_svd qr svd (truncated_svd svd) x (Some r) None dir true = Ok (z, ov) ->
  exists ys, truncs (mshape x) (entry x) (if goes_left x dir then rev (seq 1 (llen x - 1)) else seq 1 (llen x - 1)) ys (entry z) /\
    dist2_of x z = dweights ys /\ Forall (taken (fun _ => r)) ys.
Proof.
  intros Hx Hc HT Hn Hr E. apply (compress_default qr Hqr svd Hsvd x z (Some r) dir ov Hx Hc Hn Hr) in E.
  destruct (compress_truncs qr Hqr svd _ Hsvd (truncated_svd_sound svd Hsvd) sorted_values Hsort keep_all ltac:(intros; unfold keep_all; lia) x (Some r) dir z ov Hx Hc HT Hn Hr E) as [ys [TR [_ [KO DW]]]].
  exists ys. split; [exact TR|]. split; [exact DW|]. eapply Forall_impl; [|exact KO]. intros [s k] [K1 [K2 K3]]. split; [exact K1|]. cbn [fst snd] in *. unfold keep_all in K3. lia.
Qed.
Definition kap_re (rank : option nat) (e : R) (s : list CS) : nat := match rank with Some r => Nat.min r (relerr_count e s) | None => relerr_count e s end.
Lemma kap_re_same rank e : (0 <= e)%R -> forall s s', sorted_values s -> sorted_values s' -> (forall c, sval s c = sval s' c) -> kap_re rank e s = kap_re rank e s'.
Proof. intros He s s' _ _ H. unfold kap_re. rewrite (relerr_count_same e s s' He H). reflexivity. Qed.
Lemma run_re svdfunc (x z : ltens CS) rank e dir ov : tsvd_sound svdfunc -> mpa_pos x -> cform_wk x -> canon_true x -> 2 <= llen x -> rank_pos rank ->
  compress_svd_re qr svd svdfunc x rank (Some e) dir true = Ok (z, ov) ->
  (0 <= e)%R /\ exists ys, truncs (mshape x) (entry x) (if goes_left x dir then rev (seq 1 (llen x - 1)) else seq 1 (llen x - 1)) ys (entry z) /\
    dist2_of x z = dweights ys /\ Forall (taken (kap_re rank e)) ys.
Proof.
  intros Ht Hx Hc HT Hn Hr E. apply re_range in E; [|exact Hn]. destruct E as [[He _] E]. split; [exact He|].
  destruct (compress_truncs qr Hqr svd svdfunc Hsvd Ht sorted_values Hsort (relerr_count e) (relerr_count_pos e) x rank dir z ov Hx Hc HT Hn Hr E) as [ys [TR [_ [KO DW]]]].
  exists ys. split; [exact TR|]. split; [exact DW|]. eapply Forall_impl; [|exact KO]. intros [s k] [K1 [K2 K3]]. split; [exact K1|]. cbn [fst snd] in *. unfold kap_re. destruct rank; lia.
Qed.
End Runs.

Lemma valid_split ps : forall idx, inr idx (concat ps) -> exists is, valid_idx is ps /\ concat is = idx.
Proof.
  induction ps as [|p ps IH]; intros idx H; cbn [concat] in H.
  - apply inr_nil_inv in H. subst. exists []. split; [constructor|reflexivity].
  - apply Forall2_app_inv_r in H. destruct H as [i1 [i2 [H1 [H2 ->]]]]. destruct (IH i2 H2) as [is [V <-]]. exists (i1 :: is). split; [constructor; assumption|reflexivity].
Qed.
Lemma entries_array (x y : ltens CS) : mpa_ok x -> mpa_ok y -> mshape y = mshape x -> (forall is, valid_idx is (mshape x) -> entry x is = entry y is) -> to_array y = to_array x.
Proof.
  intros Hx Hy M H. symmetry. apply nd_eq; [apply wf_to_array|apply wf_to_array|rewrite !shp_to_array, M by assumption; reflexivity|].
  intros idx Hi. rewrite shp_to_array in Hi by exact Hx. destruct (valid_split _ idx Hi) as [is [V <-]]. apply H, V.
Qed.
Lemma array_entries (x y : ltens CS) is : to_array y = to_array x -> entry y is = entry x is.
Proof. intros H. unfold entry. rewrite H. reflexivity. Qed.
Lemma norm2_same (x y : ltens CS) : mshape y = mshape x -> to_array y = to_array x -> norm2_of y = norm2_of x.
Proof. intros M H. unfold norm2_of, inner_of. rewrite M. apply msums_ext. intros is _. rewrite (array_entries x y is H). reflexivity. Qed.
Lemma cuts_ok (x : ltens CS) (b : bool) : Forall (fun j => j <= length (mshape x)) (if b then rev (seq 1 (llen x - 1)) else seq 1 (llen x - 1)).
Proof.
  assert (L : length (mshape x) = llen x) by (unfold mshape, llen; apply map_length). rewrite L.
  destruct b; apply Forall_forall; intros j Hj; [apply in_rev in Hj|]; apply in_seq in Hj; lia.
Qed.

Lemma two_runs (x x' z z' : ltens CS) kap b ys ys' : 
  (forall s s', sorted_values s -> sorted_values s' -> (forall c, sval s c = sval s' c) -> kap s = kap s') ->
  mpa_ok z -> mpa_ok z' -> mshape z = mshape x -> mshape z' = mshape x' -> mshape x' = mshape x -> to_array x' = to_array x ->
  truncs (mshape x) (entry x) (if b : bool then rev (seq 1 (llen x - 1)) else seq 1 (llen x - 1)) ys (entry z) ->
  truncs (mshape x') (entry x') (if b then rev (seq 1 (llen x' - 1)) else seq 1 (llen x' - 1)) ys' (entry z') ->
  Forall (taken kap) ys -> Forall (taken kap) ys' -> Forall (fun y => gap (fst y) (kap (fst y))) ys ->
  to_array z' = to_array z.
Proof.
  intros HK Oz Oz' Mz Mz' Mx Ax TR TR' F F' G. rewrite Mx, (llen_shape x' x Mx) in TR'.
  apply (entries_array z z' Oz Oz'); [congruence|]. rewrite Mz.
  refine (proj1 (truncs_unique (mshape x) kap HK _ ys ys' (entry x) (entry x') (entry z) (entry z') (cuts_ok x b) _ TR TR' _ F')).
  - intros is _. symmetry. apply array_entries, Ax.
  - apply Forall_forall. intros y Hy. rewrite Forall_forall in F, G. auto.
Qed.

(** ** Singular values *)
Lemma sorted_firstn s k : sorted_values s -> sorted_values (firstn k s).
Proof.
  intros [H1 H2]. split.
  - apply Forall_forall. intros z Hz. rewrite Forall_forall in H1. apply H1. rewrite <- (firstn_skipn k s). apply in_or_app. left. exact Hz.
  - rewrite <- firstn_map. revert k H2. generalize (map Cre s). induction l as [|x l IH]; intros [|k] H; cbn; try exact I. destruct H as [HF HD]. split; [|apply IH, HD].
    apply Forall_forall. intros z Hz. rewrite Forall_forall in HF. apply HF. rewrite <- (firstn_skipn k l). apply in_or_app. left. exact Hz.
Qed.
Lemma cut_svd_trunc (x : ltens CS) j s : cut_svd x j s -> cut_trunc (mshape x) (entry x) (entry x) j s (length s).
Proof. intros [U [V [H1 [H2 H3]]]]. exists U, V. split; [|split; [exact H2|exact H3]]. intros a b Ha Hb. split; apply H1; assumption. Qed.
Lemma cut_svd_same (x x' : ltens CS) j s s' : mshape x' = mshape x -> to_array x' = to_array x -> j <= llen x -> cut_svd x j s -> cut_svd x' j s' ->
  sorted_values s -> sorted_values s' -> forall c, nth c s k0 = nth c s' k0.
Proof.
  intros M A Hj H H' HS HS' c. apply cut_svd_trunc in H, H'. rewrite M in H'.
  assert (H2 : cut_trunc (mshape x) (entry x) (entry x') j s' (length s')).
  { destruct H' as [U [V [H1 H2]]]. exists U, V. split; [|exact H2]. intros a b Ha Hb. destruct (H1 a b Ha Hb) as [E1 E2]. split; [|exact E2]. rewrite <- E1. symmetry. apply array_entries, A. }
  assert (V : sval s c = sval s' c).
  { apply (values_unique (mshape x) j ltac:(unfold mshape; rewrite map_length; exact Hj) (entry x) (entry x) (entry x') s s' _ _ c H H2 HS HS'). }
  assert (R : forall t, sorted_values t -> nth c t k0 = toC (sval t c)).
  { intros t [Ht _]. destruct (le_lt_dec (length t) c); [rewrite sval_out, nth_overflow by assumption; reflexivity|]. apply (real_value t c Ht l). }
  rewrite (R s HS), (R s' HS'), V. reflexivity.
Qed.

(** ** For the API *)
Lemma result_facts (qr : nd CS -> res (nd CS * nd CS)) svd svdfunc : qr_sound qr -> svd_sound svd -> tsvd_sound svdfunc ->
  forall (x z : ltens CS) rank relerr dir ov, mpa_pos x -> cform_ok x -> canon_true x -> 2 <= llen x -> rank_pos rank -> relerr_ok relerr ->
  compress_svd qr svd svdfunc x rank relerr dir true = Ok (z, ov) -> mpa_ok z /\ mshape z = mshape x /\ ov = norm2_of z.
Proof.
  intros Hq Hs Ht x z rank relerr dir ov Hx Hc HT Hn Hr Hre E.
  assert (D : dir <> DOther).
  { intros ->. unfold compress_svd in E. destruct (Nat.eqb_spec (llen x) 1); [lia|]. destruct (match rank with Some r => Ok r | None => max_rank x end); discriminate E. }
  pose proof (outc_inv _ _ _ _ (compress_dense qr Hq svd Hs svdfunc Ht x rank relerr dir true Hx (cform_ok_weak x Hc) (fun _ => conj Hc HT) Hr Hre D) E) as H. cbn beta iota in H.
  destruct H as [H1 [H2 [_ [_ [_ [_ [H3 _]]]]]]]. split; [apply H1|]. split; assumption.
Qed.

Lemma ref_agrees svd : svd_sound svd -> svd_sorted svd -> forall (x z : ltens CS) ds r (b : bool) ys c rp ps,
  mpa_pos x -> mshape x = singles ds -> mpa_ok z -> mshape z = mshape x ->
  truncs (mshape x) (entry x) (if b then rev (seq 1 (llen x - 1)) else seq 1 (llen x - 1)) ys (entry z) ->
  Forall (taken (fun _ => r)) ys -> Forall (fun y => gap (fst y) r) ys ->
  ref_compression_svd svd (to_array x) r (negb b) rp = Ok (c, ps) -> c = to_array z.
Proof.
  intros Hs Ho x z ds r b ys c rp ps Hx Mx Oz Mz TR TK G E.
  pose proof (shp_to_array x (proj1 Hx)) as SA. rewrite Mx, concat_singles in SA.
  assert (Pd : 0 < size (shp (to_array x))).
  { rewrite SA. destruct (mpa_pos_sizes x Hx) as [_ Q]. rewrite Mx in Q. clear - Q. induction ds as [|d ds IH]; [unfold size; cbn; lia|].
    cbn [singles map] in Q. inversion Q as [|? ? Q1 Q2]; subst. specialize (IH Q2). rewrite size_cons in *. unfold size in Q1. cbn in Q1. nia. }
  pose proof (outc_inv _ _ _ _ (ref_spec svd Hs sorted_values Ho (to_array x) r (negb b) rp (wf_to_array x) Pd) E) as H. cbn beta iota in H.
  destruct H as [Sc [Wc [ys' [TR' TK']]]].
  assert (Nd : ndim (to_array x) = llen x).
  { unfold ndim. rewrite SA. transitivity (length (mshape x)); [rewrite Mx; symmetry; unfold singles; apply map_length|unfold mshape, llen; apply map_length]. }
  rewrite SA, Nd, <- Mx in TR'.
  assert (TR2 : truncs (mshape x) (entry x) (if b then rev (seq 1 (llen x - 1)) else seq 1 (llen x - 1)) ys' (dent c)) by (destruct b; exact TR').
  apply nd_eq; [exact Wc|apply wf_to_array|rewrite Sc, !shp_to_array, Mz by (try exact Oz; apply Hx); reflexivity|].
  intros idx Hi. rewrite Sc, shp_to_array in Hi by apply Hx. destruct (valid_split _ idx Hi) as [is [V <-]].
  symmetry. change (entry z is = dent c is). revert is Hi V.
  cut (forall is, valid_idx is (mshape x) -> entry z is = dent c is); [auto|].
  refine (proj1 (truncs_unique (mshape x) (fun _ => r) (fun _ _ _ _ _ => eq_refl) _ ys ys' (entry x) (entry x) (entry z) (dent c) (cuts_ok x b) (fun _ _ => eq_refl) TR TR2 _ _)).
  - apply Forall_forall. intros y Hy. rewrite Forall_forall in TK, G. auto.
  - exact TK'.
Qed.

Lemma values_api (qr qr' : nd CS -> res (nd CS * nd CS)) svd svd' (x x' z z' : ltens CS) ss ss' :
  qr_sound qr -> svd_sound svd -> (forall a u s v, svd a = Ok (u, s, v) -> sorted_values s) ->
  qr_sound qr' -> svd_sound svd' -> (forall a u s v, svd' a = Ok (u, s, v) -> sorted_values s) ->
  mpa_pos x -> cform_ok x -> canon_true x -> mpa_pos x' -> cform_ok x' -> canon_true x' -> 2 <= llen x ->
  mshape x' = mshape x -> to_array x' = to_array x ->
  singularvals qr svd x = Ok (ss, z) -> singularvals qr' svd' x' = Ok (ss', z') ->
  forall j c, nth c (nth j ss []) k0 = nth c (nth j ss' []) k0.
Proof.
  intros Hq Hs Ho Hq' Hs' Ho' Hx Hc HT Hx' Hc' HT' Hn M A E E' j c. pose proof (llen_shape x' x M) as Ln.
  pose proof (outc_inv _ _ _ _ (singularvals_spec qr svd Hq Hs 1 1 x (pos_chain _ Hx) (cform_ok_weak x Hc) HT Hn) E) as H. cbn beta iota in H. destruct H as [L [SC _]].
  pose proof (outc_inv _ _ _ _ (singularvals_spec qr' svd' Hq' Hs' 1 1 x' (pos_chain _ Hx') (cform_ok_weak x' Hc') HT' ltac:(lia)) E') as H. cbn beta iota in H. destruct H as [L' [SC' _]].
  destruct (le_lt_dec (llen x - 1) j) as [Hj|Hj]; [rewrite !(nth_overflow _ []) by lia; reflexivity|].
  assert (SO : forall f (ss : list (list CS)) j', (forall a u s v, f a = Ok (u, s, v) -> sorted_values s) -> Forall (from_svd f) ss -> sorted_values (nth j' ss [])).
  { intros f ss0 j' Hf F. destruct (le_lt_dec (length ss0) j') as [Q|Q]; [rewrite nth_overflow by exact Q; split; [constructor|exact I]|].
    rewrite Forall_forall in F. destruct (F _ (nth_In ss0 [] Q)) as [m [u [s' [v [k [Ef ->]]]]]]. apply sorted_firstn. exact (Hf _ _ _ _ Ef). }
  apply (cut_svd_same x x' (S j)); [exact M|exact A|lia| | | |].
  - apply schmidt_dense; [apply Hx|apply SC; exact Hj].
  - apply schmidt_dense; [apply Hx'|apply SC'; lia].
  - exact (SO svd ss j Ho (singularvals_from qr svd x z ss E)).
  - exact (SO svd' ss' j Ho' (singularvals_from qr' svd' x' z' ss' E')).
Qed.

(** ** Separated values *)
(** The values at one cut and the number kept: the last value kept is larger than the
    first value dropped, or the values dropped vanish. *)
Definition separated (y : list CS * nat) : Prop :=
  Cre (nth (snd y) (fst y) k0) = 0%R \/ (Cre (nth (snd y) (fst y) k0) < Cre (nth (snd y - 1) (fst y) k0))%R.
Lemma separated_gap kap y : taken kap y -> 0 < kap (fst y) -> separated y -> gap (fst y) (kap (fst y)).
Proof.
  destruct y as [s k]. intros [_ K] Hk H. unfold separated in H. cbn [fst snd] in *. destruct (le_lt_dec (length s) (kap s)) as [L|L].
  - left. apply sval_out, L.
  - rewrite Nat.min_r in K by lia. subst k. destruct H as [H|H]; [left; exact H|right; split; [exact Hk|exact H]].
Qed.
Lemma separated_gaps kap ys : Forall (taken kap) ys -> (forall s, 0 < kap s) -> Forall separated ys -> Forall (fun y => gap (fst y) (kap (fst y))) ys.
Proof. rewrite !Forall_forall. intros H1 H2 H3 y Hy. apply separated_gap; auto. Qed.

