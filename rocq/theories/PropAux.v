(** Validity of the composite indices that occur in the property theorems, and
    restatement of results about [amp] as results about [entry]. *)
From Verif Require Export Dense PfOrder PfInner PfSelect PfTrace PfSites PfBlock PfEmbed PfInject Gauss.

Lemma valid_zip_app is ps js qs : valid_idx is ps -> valid_idx js qs -> length ps = length qs ->
  valid_idx (zip2 (@app nat) is js) (zip2 (@app nat) ps qs).
Proof.
  intros H. revert js qs. induction H as [|i p is ps H HF IH]; intros js qs Hj L; [constructor|].
  inversion Hj as [|j q js' qs' Hq Hj']; subst; [discriminate|]. cbn [zip2]. constructor; [apply inr_app; assumption|].
  apply IH; [exact Hj'|cbn in L; lia].
Qed.

Lemma zip2_map_map (A B C D E : Type) (f : C -> D -> E) (h : A -> C) (k : B -> D) l m :
  zip2 f (map h l) (map k m) = zip2 (fun a b => f (h a) (k b)) l m.
Proof. revert m; induction l as [|a l IH]; intros [|b m]; cbn; try reflexivity. rewrite IH. reflexivity. Qed.

Lemma site_idx_inr zs p i c : legs_ok (length p) zs -> inr i (keep zs p) -> inr c (pick zs p) -> inr (site_idx zs p i c) p.
Proof.
  intros H Hi Hc. unfold site_idx. apply fuse_inr; auto; [apply H|apply leg_list_lt; exact H].
Qed.
Lemma site_idx_valid zs ps : forall is cs, Forall (fun p => legs_ok (length p) zs) ps ->
  valid_idx is (map (keep zs) ps) -> Forall2 inr cs (map (pick zs) ps) ->
  valid_idx (zip3 (site_idx zs) ps is cs) ps.
Proof.
  induction ps as [|p ps IH]; intros is cs H Hi Hc; [constructor|].
  inversion H; inversion Hi; inversion Hc; subst. cbn [zip3]. constructor; [apply site_idx_inr; assumption|apply IH; assumption].
Qed.
Lemma merge_idx_inr al p i c : sel_ok al p -> inr i (rest_dims al p) -> inr c (sel_dims al p) -> inr (merge_idx al p i c) p.
Proof. intros [H1 H2] Hi Hc. unfold merge_idx. apply fuse_inr; auto. Qed.
Lemma merge_valid als : forall ps is cs, Forall2 sel_ok als ps ->
  valid_idx is (zip2 rest_dims als ps) -> Forall2 inr cs (zip2 sel_dims als ps) ->
  valid_idx (zip4 merge_idx als ps is cs) ps.
Proof.
  induction als as [|al als IH]; intros ps is cs H Hi Hc; inversion H; subst; cbn [zip2] in *.
  - constructor.
  - inversion Hi; inversion Hc; subst. cbn [zip4]. constructor; [apply merge_idx_inr; assumption|apply IH; assumption].
Qed.

Lemma dot_compat_left za zb ps qs : Forall2 (dot_compat za zb) ps qs -> Forall (fun p => legs_ok (length p) za) ps.
Proof. induction 1 as [|p q ps qs H HF IH]; constructor; [apply H|exact IH]. Qed.
Lemma dot_compat_right za zb ps qs : Forall2 (dot_compat za zb) ps qs -> Forall (fun q => legs_ok (length q) zb) qs.
Proof. induction 1 as [|p q ps qs H HF IH]; constructor; [apply H|exact IH]. Qed.
Lemma dot_compat_pick za zb ps qs : Forall2 (dot_compat za zb) ps qs -> map (pick za) ps = map (pick zb) qs.
Proof. induction 1 as [|p q ps qs H HF IH]; cbn; [reflexivity|]. rewrite IH. f_equal. apply H. Qed.

Lemma get_idx_valid idx : forall ps js, Forall2 (fun z p => match p with [] => False | d :: _ => (- Z.of_nat d <= z < Z.of_nat d)%Z end) idx ps ->
  valid_idx js (map (@tl nat) ps) -> valid_idx (zip3 (fun z p j => norm_idx (hd 0 p) z :: j) idx ps js) ps.
Proof.
  induction idx as [|z idx IH]; intros ps js H Hj; inversion H; subst; cbn [map] in *; inversion Hj; subst; cbn [zip3]; [constructor|].
  constructor; [|apply IH; assumption]. destruct y as [|d p]; [contradiction|]. cbn [hd tl] in *. apply inr_cons; [|assumption].
  unfold norm_idx. destruct (proj1 (pyidx_range d z)) as [k Ek]; [assumption|]. rewrite Ek. exact (pyidx_lt _ _ _ Ek).
Qed.
Lemma insert_valid axes : forall ps ks js, Forall2 (fun ax p => ax < length p) axes ps ->
  inr ks (zip2 (fun ax p => nth ax p 0) axes ps) -> valid_idx js (zip2 remove_at axes ps) ->
  valid_idx (zip3 insert_at axes ks js) ps.
Proof.
  induction axes as [|a axes IH]; intros ps ks js H Hk Hj; inversion H; subst; cbn [zip2] in *; inversion Hk; inversion Hj; subst; cbn [zip3]; [constructor|].
  constructor; [apply insert_at_inr; assumption|apply IH; assumption].
Qed.
Lemma insert_valid1 ax k ps : forall js, (forall p, In p ps -> ax < length p /\ k < nth ax p 0) ->
  valid_idx js (map (remove_at ax) ps) -> valid_idx (map (insert_at ax k) js) ps.
Proof.
  induction ps as [|p ps IH]; intros js H Hj; inversion Hj; subst; cbn [map]; [constructor|].
  destruct (H p (or_introl eq_refl)). constructor; [apply insert_at_inr; assumption|apply IH; [|assumption]]. intros q Hq; apply H; right; exact Hq.
Qed.

Lemma valid_ravel ps is : valid_idx is ps -> valid_idx (zip2 (fun p i => [ravel p i]) ps is) (map (fun p => [size p]) ps).
Proof. induction 1 as [|i p is ps H HF IH]; cbn; constructor; [apply inr_single; apply ravel_lt; exact H|exact IH]. Qed.

Lemma valid_rev ps is : valid_idx is ps -> valid_idx (rev is) (rev ps).
Proof. induction 1 as [|i p is ps H HF IH]; cbn; [constructor|]. apply Forall2_app; [exact IH|constructor; [exact H|constructor]]. Qed.
Lemma valid_map_rev ps is : valid_idx is ps -> valid_idx (map (@rev nat) is) (map (@rev nat) ps).
Proof.
  induction 1 as [|i p is ps H HF IH]; cbn; [constructor|]. constructor; [|exact IH].
  clear IH HF. induction H as [|a d i p Ha Hi IH]; cbn; [constructor|]. apply inr_app; [exact IH|apply inr_single; exact Ha].
Qed.
Lemma valid_perm axes ps is : (forall p, In p ps -> leg_perm_ok axes (length p)) -> valid_idx is ps ->
  valid_idx (map (fun i => gather (leg_perm axes (length i)) i) is) (map (fun p => gather (leg_perm axes (length p)) p) ps).
Proof.
  intros H Hi. induction Hi as [|i p is ps Hp HF IH]; cbn; [constructor|].
  constructor; [|apply IH; intros q Hq; apply H; right; exact Hq].
  rewrite (inr_length _ _ Hp). apply gather_inr; [exact Hp|]. intros k Hk. specialize (H p (or_introl eq_refl)).
  unfold leg_perm, leg_perm_ok in *. destruct axes as [l|].
  - apply in_map_iff in Hk. destruct Hk as [z [<- Hz]]. apply (Permutation.Permutation_in _ H) in Hz.
    apply in_map_iff in Hz. destruct Hz as [m [<- Hm]]. apply in_seq in Hm. rewrite Nat2Z.id. lia.
  - apply in_rev in Hk. apply in_seq in Hk. lia.
Qed.
Lemma valid_concat (ps : list (list (list nat))) iss : Forall2 valid_idx iss ps -> valid_idx (concat iss) (concat ps).
Proof. induction 1 as [|i p iss ps H HF IH]; cbn; [constructor|]. apply Forall2_app; assumption. Qed.
Lemma valid_firstn n ps is : valid_idx is ps -> valid_idx (firstn n is) (firstn n ps).
Proof. intros H; revert n; induction H as [|i p is ps H HF IH]; intros [|n]; cbn; constructor; auto; try apply IH. Qed.
Lemma valid_skipn n ps is : valid_idx is ps -> valid_idx (skipn n is) (skipn n ps).
Proof. intros H; revert n; induction H as [|i p is ps H HF IH]; intros [|n]; cbn; try constructor; auto; try apply IH. Qed.
Lemma valid_cuts ps : forall a is shape, valid_idx is shape -> Forall2 valid_idx (cuts a ps is) (cuts a ps shape).
Proof.
  induction ps as [|b ps IH]; intros a is shape H; cbn [cuts]; constructor; auto; [apply valid_firstn; exact H|].
  apply IH. apply valid_skipn; exact H.
Qed.
Lemma valid_interleave p1 s1 : Forall2 valid_idx p1 s1 -> forall p2 s2, Forall2 valid_idx p2 s2 -> valid_idx (interleave p1 p2) (interleave s1 s2).
Proof.
  induction 1 as [|p s p1 s1 H HF IH]; intros p2 s2 H2; cbn [interleave]; [constructor|].
  destruct H2 as [|q t p2 s2 Hq H2]; [exact H|]. apply Forall2_app; [exact H|]. apply Forall2_app; [exact Hq|]. apply IH; exact H2.
Qed.

Section MSumsMore.
Context {K : StarRing}.
Add Ring Kr : (k_ring K).
Lemma k_distr_l (a b c : K) : (a * (b + c) = a * b + a * c)%K.
Proof. ring. Qed.
End MSumsMore.
