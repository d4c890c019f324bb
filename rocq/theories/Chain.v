(** The dense meaning of a chain of local tensors (specification) and the facts
    relating it to [_ltens_to_array]. *)
From Verif Require Export NdFacts MpArray.

Section Chain.
Context {K : StarRing}.
Add Ring Kr : (k_ring K).

(** ** Specification *)
(** A local tensor: data of the right length and at least two legs. *)
Definition lt_ok (t : nd K) : Prop := ndwf t /\ 2 <= ndim t.
(** [t[a, i..., b]] *)
Definition ent (t : nd K) (a : nat) (i : list nat) (b : nat) : K := get t (a :: i ++ [b]).

(** Neighbouring bond dimensions match, from left bond [l] to right bond [r]. *)
Fixpoint bonds (ts : list (nd K)) (l r : nat) : Prop :=
  match ts with
  | [] => l = r
  | t :: ts' => lt_ok t /\ ldim t = l /\ bonds ts' (rdim t) r
  end.

(** Matrix product of the local matrices selected by the indices [is],
    entry [(a, b)]. *)
Fixpoint amp (ts : list (nd K)) (is : list (list nat)) (a b : nat) : K :=
  match ts, is with
  | t :: ts', i :: is' => bigsum (rdim t) (fun c => ent t a i c * amp ts' is' c b)%K
  | _, _ => delta a b
  end.

(** Valid MPArray: at least one site, bonds match, boundary ranks one. *)
Definition mpa_ok (x : ltens K) : Prop := lts x <> [] /\ bonds (lts x) 1 1.
(** Valid multi-indices. *)
Definition idx_ok (is : list (list nat)) (ts : list (nd K)) : Prop := Forall2 inr is (map pdims ts).

(** ** Shapes of local tensors *)
Lemma snoc_last (A : Type) (l : list A) d : l <> [] -> removelast l ++ [List.last l d] = l.
Proof. intros H. symmetry. apply app_removelast_last. exact H. Qed.

Lemma shp_lt (t : nd K) : 2 <= ndim t -> shp t = ldim t :: pdims t ++ [rdim t].
Proof.
  unfold ndim, ldim, pdims, rdim. destruct (shp t) as [|d [|e sh]] eqn:E; cbn [length]; try lia.
  intros _. cbn [hd tl]. f_equal.
  change (List.last (d :: e :: sh) 0) with (List.last (e :: sh) 0).
  symmetry. apply snoc_last. discriminate.
Qed.

Lemma lt_ok_shp (t : nd K) : lt_ok t -> shp t = ldim t :: pdims t ++ [rdim t].
Proof. intros [_ H]. apply shp_lt; exact H. Qed.

Lemma last_snoc (A : Type) (l : list A) x d : List.last (l ++ [x]) d = x.
Proof. apply List.last_last. Qed.

Lemma ldim_mk (t : nd K) a p : shp t = a :: p -> ldim t = a.
Proof. intros E. unfold ldim. rewrite E. reflexivity. Qed.
Lemma rdim_mk (t : nd K) a p b : shp t = a :: p ++ [b] -> rdim t = b.
Proof. intros E. unfold rdim. rewrite E. change (a :: p ++ [b]) with ((a :: p) ++ [b]). apply last_snoc. Qed.
Lemma pdims_mk (t : nd K) a p b : shp t = a :: p ++ [b] -> pdims t = p.
Proof. intros E. unfold pdims. rewrite E. cbn [tl]. apply removelast_last. Qed.
Lemma ndim_mk (t : nd K) a p b : shp t = a :: p ++ [b] -> ndim t = S (S (length p)).
Proof. intros E. unfold ndim. rewrite E. cbn. rewrite app_length. cbn. lia. Qed.
Lemma lt_ok_mk (t : nd K) a p b : ndwf t -> shp t = a :: p ++ [b] -> lt_ok t.
Proof. intros Hw E. split; [exact Hw|]. rewrite (ndim_mk _ _ _ _ E). lia. Qed.

Lemma ndim_lt (t : nd K) : lt_ok t -> ndim t = S (S (length (pdims t))).
Proof. intros H. apply (ndim_mk _ (ldim t) _ (rdim t)). apply lt_ok_shp; exact H. Qed.

Lemma inr_ent (t : nd K) a i b :
  lt_ok t -> a < ldim t -> inr i (pdims t) -> b < rdim t -> inr (a :: i ++ [b]) (shp t).
Proof.
  intros Ht Ha Hi Hb. rewrite (lt_ok_shp t Ht). apply inr_cons; [exact Ha|].
  apply inr_app; [exact Hi|]. apply inr_single; exact Hb.
Qed.

Lemma inr_shape_inv a p b idx : inr idx (a :: p ++ [b]) ->
  exists x i y, idx = x :: i ++ [y] /\ x < a /\ inr i p /\ y < b.
Proof.
  intros H. inversion H as [|x a' idx' sh' Hx Hr]; subst.
  apply inr_app_inv in Hr. destruct Hr as [i [j [-> [Hi Hj]]]].
  apply inr_single_inv in Hj. destruct Hj as [y [-> Hy]]. exists x, i, y. auto.
Qed.

(** Two local tensors with the same shape and entries are equal. *)
Lemma lt_eq (t u : nd K) :
  lt_ok t -> lt_ok u -> ldim t = ldim u -> pdims t = pdims u -> rdim t = rdim u ->
  (forall a i b, a < ldim t -> inr i (pdims t) -> b < rdim t -> ent t a i b = ent u a i b) -> t = u.
Proof.
  intros Ht Hu El Ep Er H. apply nd_eq; [apply Ht|apply Hu| |].
  - rewrite (lt_ok_shp t Ht), (lt_ok_shp u Hu), El, Ep, Er. reflexivity.
  - rewrite (lt_ok_shp t Ht). intros idx Hi. apply inr_shape_inv in Hi.
    destruct Hi as [a [i [b [-> [Ha [Hi Hb]]]]]]. apply H; assumption.
Qed.

(** ** Bonds *)
Lemma bonds_app ts us l r : bonds (ts ++ us) l r <-> exists m, bonds ts l m /\ bonds us m r.
Proof.
  revert l; induction ts as [|t ts IH]; intros l; cbn.
  - split; [intros H; exists l; auto|intros [m [-> H]]; exact H].
  - split.
    + intros [H1 [H2 H3]]. apply IH in H3. destruct H3 as [m [H3 H4]]. exists m. auto.
    + intros [m [[H1 [H2 H3]] H4]]. split; [exact H1|]. split; [exact H2|]. apply IH. exists m. auto.
Qed.

Lemma bonds_ok ts l r : bonds ts l r -> Forall lt_ok ts.
Proof.
  revert l; induction ts as [|t ts IH]; intros l H; [constructor|].
  destruct H as [H1 [_ H3]]. constructor; [exact H1|]. eapply IH; exact H3.
Qed.

Lemma bonds_r_unique ts l r r' : ts <> [] -> bonds ts l r -> bonds ts l r' -> r = r'.
Proof.
  revert l; induction ts as [|t ts IH]; intros l Hne H H'; [congruence|].
  destruct H as [_ [_ H]]. destruct H' as [_ [_ H']].
  destruct ts as [|u ts]; [cbn in *; congruence|]. eapply IH; [discriminate|exact H|exact H'].
Qed.

(** The check in [LocalTensors.__init__] and [update]. *)
Lemma check_bonds_cons2 (t u : nd K) ts :
  check_bonds (t :: u :: ts) =
  (do r <- shape_last t; do l <- shape0 u; passert (Nat.eqb r l) (check_bonds (u :: ts))).
Proof. reflexivity. Qed.
Lemma shape0_lt (t : nd K) : lt_ok t -> shape0 t = Ok (ldim t).
Proof. intros H. unfold shape0. rewrite (lt_ok_shp t H). reflexivity. Qed.
Lemma shape_last_lt (t : nd K) : lt_ok t -> shape_last t = Ok (rdim t).
Proof.
  intros H. unfold shape_last, rdim. pose proof (lt_ok_shp t H) as E.
  destruct (shp t) as [|d sh]; [discriminate|reflexivity].
Qed.

Lemma check_bonds_ok ts l r : bonds ts l r -> check_bonds ts = Ok tt.
Proof.
  revert l; induction ts as [|t ts IH]; intros l H; [reflexivity|].
  destruct H as [H1 [H2 H3]]. destruct ts as [|u ts]; [reflexivity|].
  pose proof H3 as H3'. destruct H3' as [Hu [Hl _]].
  rewrite check_bonds_cons2, (shape_last_lt t H1), (shape0_lt u Hu). cbn [bind].
  rewrite Hl, Nat.eqb_refl. unfold passert. apply (IH (rdim t)). exact H3.
Qed.

Lemma check_bonds_inv ts : Forall lt_ok ts -> check_bonds ts = Ok tt -> ts <> [] ->
  bonds ts (ldim (hd dummy ts)) (rdim (List.last ts dummy)).
Proof.
  intros HF. induction HF as [|t ts Ht HF IH]; intros Hc Hne; [congruence|].
  destruct ts as [|u ts].
  - cbn. split; [exact Ht|auto].
  - inversion HF as [|? ? Hu _]; subst.
    rewrite check_bonds_cons2, (shape_last_lt t Ht), (shape0_lt u Hu) in Hc. cbn [bind] in Hc.
    destruct (Nat.eqb_spec (rdim t) (ldim u)) as [E|Hn]; [|discriminate].
    unfold passert in Hc. cbn [hd].
    split; [exact Ht|]. split; [reflexivity|].
    rewrite E. change (List.last (t :: u :: ts) dummy) with (List.last (u :: ts) dummy).
    apply IH; [exact Hc|discriminate].
Qed.

(** ** Amplitudes *)
Lemma amp_app ts us is js a b l m :
  length is = length ts -> bonds ts l m -> a < l ->
  amp (ts ++ us) (is ++ js) a b = bigsum m (fun c => amp ts is a c * amp us js c b)%K.
Proof.
  revert is a l; induction ts as [|t ts IH]; intros is a l Hl Hb Ha.
  - destruct is; [|discriminate]. cbn in Hb. subst m. cbn [app amp].
    rewrite bigsum_delta_l by exact Ha. reflexivity.
  - destruct is as [|i is]; [discriminate|]. injection Hl as Hl. destruct Hb as [Ht [_ Hb]].
    cbn [app amp].
    transitivity (bigsum (rdim t) (fun c => bigsum m (fun d => ent t a i c * (amp ts is c d * amp us js d b)))%K).
    + apply bigsum_ext. intros c Hc. rewrite (IH is c (rdim t) Hl Hb Hc), <- bigsum_mul_l. reflexivity.
    + rewrite bigsum_swap. apply bigsum_ext. intros d Hd. rewrite <- bigsum_mul_r.
      apply bigsum_ext. intros c Hc. ring.
Qed.

Lemma amp_one t i a b : b < rdim t -> amp [t] [i] a b = ent t a i b.
Proof. intros Hb. cbn [amp]. apply bigsum_delta_r. exact Hb. Qed.

Lemma amp_cons t ts i is a b :
  amp (t :: ts) (i :: is) a b = bigsum (rdim t) (fun c => ent t a i c * amp ts is c b)%K.
Proof. reflexivity. Qed.

(** ** matdot *)
Lemma scatter_seq n l : length l = n -> scatter (seq 0 n) l = l.
Proof.
  intros H. apply scatter_unique; [apply is_perm_seq|rewrite seq_length; exact H|].
  apply gather_seq0'. exact H.
Qed.

Lemma filter_id (A : Type) (f : A -> bool) l : (forall k, In k l -> f k = true) -> filter f l = l.
Proof.
  induction l as [|k l IH]; intros H; [reflexivity|]. cbn. rewrite (H k (or_introl eq_refl)).
  rewrite IH; [reflexivity|]. intros j Hj. apply H. right; exact Hj.
Qed.

Lemma freeaxes_last n : freeaxes (S n) [n] = seq 0 n.
Proof.
  unfold freeaxes. rewrite seq_S, filter_app. cbn [Nat.add filter].
  replace (negb (memb n [n])) with false by (cbn; rewrite Nat.eqb_refl; reflexivity).
  rewrite app_nil_r. apply filter_id. intros k Hk. apply in_seq in Hk.
  apply negb_true_iff, memb_false_iff. cbn. lia.
Qed.

Lemma freeaxes_first n : freeaxes (S n) [0] = seq 1 n.
Proof.
  unfold freeaxes. cbn [seq filter]. change (negb (memb 0 [0])) with false. cbn iota.
  apply filter_id. intros k Hk. apply in_seq in Hk.
  apply negb_true_iff, memb_false_iff. cbn. lia.
Qed.

Lemma gather_seq_tail d sh : gather (seq 1 (length sh)) (d :: sh) = sh.
Proof.
  pose proof (gather_seq_mid [d] sh []) as H. rewrite app_nil_r in H. exact H.
Qed.

Lemma gather_seq_init sh d : gather (seq 0 (length sh)) (sh ++ [d]) = sh.
Proof. apply (gather_seq_mid [] sh [d]). Qed.

Lemma shp_matdot (a b : nd K) sa c d sb :
  shp a = sa ++ [c] -> shp b = d :: sb -> shp (matdot a b) = sa ++ sb.
Proof.
  intros Ea Eb. unfold matdot. rewrite shp_tensordot. unfold ndim. rewrite Ea, Eb.
  rewrite app_length. cbn [length]. replace (length sa + 1) with (S (length sa)) by lia.
  replace (S (length sa) - 1) with (length sa) by lia.
  rewrite freeaxes_last, freeaxes_first, gather_seq_init, gather_seq_tail. reflexivity.
Qed.

Lemma get_matdot (a b : nd K) sa c d sb i j :
  shp a = sa ++ [c] -> shp b = d :: sb -> inr i sa -> inr j sb ->
  get (matdot a b) (i ++ j) = bigsum c (fun k => get a (i ++ [k]) * get b (k :: j))%K.
Proof.
  intros Ea Eb Hi Hj. unfold matdot.
  assert (Na : ndim a = S (length sa)) by (unfold ndim; rewrite Ea, app_length; cbn; lia).
  assert (Nb : ndim b = S (length sb)) by (unfold ndim; rewrite Eb; reflexivity).
  rewrite get_tensordot.
  - rewrite Na, Nb. replace (S (length sa) - 1) with (length sa) by lia.
    rewrite freeaxes_last, freeaxes_first.
    rewrite gather_one, Ea. rewrite app_nth2 by lia. rewrite Nat.sub_diag. cbn [nth msum].
    apply bigsum_ext. intros k Hk.
    rewrite <- seq_S. cbn [app].
    change (0 :: seq 1 (length sb)) with (seq 0 (S (length sb))).
    rewrite !scatter_seq; [reflexivity| |].
    + cbn. rewrite (inr_length _ _ Hj). reflexivity.
    + rewrite app_length, (inr_length _ _ Hi). cbn. lia.
  - rewrite Na. replace (S (length sa) - 1) with (length sa) by lia.
    rewrite freeaxes_last, Ea, gather_seq_init. exact Hi.
  - rewrite Nb, freeaxes_first, Eb, gather_seq_tail. exact Hj.
Qed.

(** matdot of local tensors *)
Lemma shp_matdot_lt (t u : nd K) :
  lt_ok t -> lt_ok u -> shp (matdot t u) = ldim t :: (pdims t ++ pdims u) ++ [rdim u].
Proof.
  intros Ht Hu. pose proof (lt_ok_shp t Ht) as Et. pose proof (lt_ok_shp u Hu) as Eu.
  rewrite (shp_matdot t u (ldim t :: pdims t) (rdim t) (ldim u) (pdims u ++ [rdim u])).
  - cbn. rewrite app_assoc. reflexivity.
  - rewrite Et. reflexivity.
  - exact Eu.
Qed.

Lemma lt_ok_matdot (t u : nd K) : lt_ok t -> lt_ok u -> lt_ok (matdot t u).
Proof. intros Ht Hu. eapply lt_ok_mk; [apply wf_tensordot|apply shp_matdot_lt; assumption]. Qed.
Lemma ldim_matdot (t u : nd K) : lt_ok t -> lt_ok u -> ldim (matdot t u) = ldim t.
Proof. intros Ht Hu. eapply ldim_mk. apply shp_matdot_lt; assumption. Qed.
Lemma rdim_matdot (t u : nd K) : lt_ok t -> lt_ok u -> rdim (matdot t u) = rdim u.
Proof. intros Ht Hu. eapply rdim_mk. apply shp_matdot_lt; assumption. Qed.
Lemma pdims_matdot (t u : nd K) : lt_ok t -> lt_ok u -> pdims (matdot t u) = pdims t ++ pdims u.
Proof. intros Ht Hu. eapply pdims_mk. apply shp_matdot_lt; assumption. Qed.

Lemma ent_matdot (t u : nd K) a i j b :
  lt_ok t -> lt_ok u -> a < ldim t -> inr i (pdims t) -> inr j (pdims u) -> b < rdim u ->
  ent (matdot t u) a (i ++ j) b = bigsum (rdim t) (fun c => ent t a i c * ent u c j b)%K.
Proof.
  intros Ht Hu Ha Hi Hj Hb. unfold ent.
  replace (a :: (i ++ j) ++ [b]) with ((a :: i) ++ (j ++ [b])) by (cbn; rewrite app_assoc; reflexivity).
  rewrite (get_matdot t u (ldim t :: pdims t) (rdim t) (ldim u) (pdims u ++ [rdim u])).
  - reflexivity.
  - rewrite (lt_ok_shp t Ht). reflexivity.
  - apply lt_ok_shp; exact Hu.
  - apply inr_cons; assumption.
  - apply inr_app; [exact Hj|]. apply inr_single; exact Hb.
Qed.

(** ** _ltens_to_array *)
Lemma fold_matdot ts : forall t r,
  lt_ok t -> bonds ts (rdim t) r ->
  let u := fold_left matdot ts t in
  lt_ok u /\ ldim u = ldim t /\ rdim u = r /\ pdims u = pdims t ++ concat (map pdims ts) /\
  forall a i is b, a < ldim t -> inr i (pdims t) -> idx_ok is ts -> b < r ->
    ent u a (i ++ concat is) b = bigsum (rdim t) (fun c => ent t a i c * amp ts is c b)%K.
Proof.
  induction ts as [|s ts IH]; intros t r Ht Hb u.
  - cbn in Hb. subst u r. cbn [fold_left]. split; [exact Ht|]. split; [reflexivity|].
    split; [reflexivity|]. split; [cbn; rewrite app_nil_r; reflexivity|].
    intros a i is b Ha Hi His Hb. inversion His; subst. cbn [concat map amp]. rewrite app_nil_r.
    rewrite bigsum_delta_r by exact Hb. reflexivity.
  - destruct Hb as [Hs [El Hb]]. cbn [fold_left] in u.
    specialize (IH (matdot t s) r (lt_ok_matdot t s Ht Hs)).
    rewrite rdim_matdot in IH by assumption. specialize (IH Hb).
    rewrite ldim_matdot, pdims_matdot in IH by assumption.
    destruct IH as [H1 [H2 [H3 [H4 H5]]]]. fold u in H1, H2, H3, H4, H5.
    split; [exact H1|]. split; [exact H2|]. split; [exact H3|].
    split; [rewrite H4; cbn; rewrite app_assoc; reflexivity|].
    intros a i is b Ha Hi His Hlt. inversion His as [|j p is' ps Hj His' E1 E2]; subst.
    cbn [concat]. rewrite app_assoc. rewrite H5 by (try assumption; apply inr_app; assumption).
    cbn [amp].
    transitivity (bigsum (rdim s) (fun c => bigsum (rdim t) (fun d => ent t a i d * (ent s d j c * amp ts is' c b)))%K).
    + apply bigsum_ext. intros c Hc. rewrite ent_matdot by assumption. rewrite <- bigsum_mul_r.
      apply bigsum_ext. intros d Hd. ring.
    + rewrite bigsum_swap. apply bigsum_ext. intros d Hd. rewrite bigsum_mul_l. reflexivity.
Qed.

Lemma ltens_to_array_spec ts l r :
  ts <> [] -> bonds ts l r ->
  let u := ltens_to_array ts in
  lt_ok u /\ ldim u = l /\ rdim u = r /\ pdims u = concat (map pdims ts) /\
  forall a is b, a < l -> idx_ok is ts -> b < r -> ent u a (concat is) b = amp ts is a b.
Proof.
  intros Hne Hb u. destruct ts as [|t ts]; [congruence|]. destruct Hb as [Ht [El Hb]].
  pose proof (fold_matdot ts t r Ht Hb) as H. cbn zeta in H.
  change (fold_left matdot ts t) with u in H. destruct H as [H1 [H2 [H3 [H4 H5]]]].
  split; [exact H1|]. split; [congruence|]. split; [exact H3|]. split; [exact H4|].
  intros a is b Ha His Hlt. inversion His as [|j p is' ps Hj His' E1 E2]; subst.
  cbn [concat amp]. apply H5; assumption.
Qed.

(** ** to_array *)
Lemma strip_virt_lt (u : nd K) : lt_ok u -> shp (strip_virt u) = pdims u /\
  forall i, inr i (pdims u) -> get (strip_virt u) i = ent u 0 i 0.
Proof.
  intros Hu. unfold strip_virt. change (removelast (tl (shp u))) with (pdims u).
  split; [reflexivity|]. intros i Hi. rewrite get_tab by exact Hi. reflexivity.
Qed.

Lemma wf_to_array (x : ltens K) : ndwf (to_array x).
Proof. apply wf_tab. Qed.

Lemma shp_to_array (x : ltens K) : mpa_ok x -> shp (to_array x) = concat (mshape x).
Proof.
  intros [Hne Hb]. destruct (ltens_to_array_spec _ _ _ Hne Hb) as [H1 [_ [_ [H4 _]]]].
  unfold to_array. destruct (strip_virt_lt _ H1) as [-> _]. exact H4.
Qed.

Lemma get_to_array (x : ltens K) is :
  mpa_ok x -> idx_ok is (lts x) -> get (to_array x) (concat is) = amp (lts x) is 0 0.
Proof.
  intros [Hne Hb] His. destruct (ltens_to_array_spec _ _ _ Hne Hb) as [H1 [_ [_ [H4 H5]]]].
  unfold to_array. destruct (strip_virt_lt _ H1) as [_ E]. rewrite E.
  - apply H5; [lia|exact His|lia].
  - rewrite H4. apply inr_concat. exact His.
Qed.

(** Equality of represented arrays from equality of amplitudes. *)
Lemma to_array_eq (x y : ltens K) :
  mpa_ok x -> mpa_ok y -> mshape x = mshape y ->
  (forall is, idx_ok is (lts x) -> amp (lts x) is 0 0 = amp (lts y) is 0 0) ->
  to_array x = to_array y.
Proof.
  intros Hx Hy Es H. apply nd_eq; [apply wf_to_array|apply wf_to_array| |].
  - rewrite !shp_to_array by assumption. rewrite Es. reflexivity.
  - rewrite shp_to_array by assumption. intros idx Hi. apply inr_concat_inv in Hi.
    destruct Hi as [is [-> His]]. rewrite !get_to_array; [apply H; exact His|exact Hy| |exact Hx|exact His].
    unfold idx_ok. fold (mshape y). rewrite <- Es. exact His.
Qed.

Lemma to_array_ext (x : ltens K) (A : nd K) :
  mpa_ok x -> ndwf A -> shp A = concat (mshape x) ->
  (forall is, idx_ok is (lts x) -> amp (lts x) is 0 0 = get A (concat is)) -> to_array x = A.
Proof.
  intros Hx HA Es H. apply nd_eq; [apply wf_to_array|exact HA| |].
  - rewrite shp_to_array by assumption. symmetry; exact Es.
  - rewrite shp_to_array by assumption. intros idx Hi. apply inr_concat_inv in Hi.
    destruct Hi as [is [-> His]]. rewrite get_to_array by assumption. apply H. exact His.
Qed.

(** ** Construction *)
Definition cf_ok (n : nat) (l r : Z) : Prop := (0 <= l < Z.of_nat n)%Z /\ (0 < r <= Z.of_nat n)%Z.

Lemma lt_init_ok ts l r cl cr :
  ts <> [] -> bonds ts l r -> cf_ok (length ts) cl cr -> lt_init ts (Some cl, Some cr) = Ok (mkLt ts cl cr).
Proof.
  intros Hne Hb [[H1 H2] [H3 H4]]. unfold lt_init. cbn [fst snd].
  assert (0 < length ts) by (destruct ts; [congruence|cbn; lia]).
  replace (0 <? Z.of_nat (length ts))%Z with true by (symmetry; apply Z.ltb_lt; lia).
  destruct (Z.eqb_spec cr 0) as [E|_]; [lia|].
  replace (0 <=? cl)%Z with true by (symmetry; apply Z.leb_le; lia).
  replace (cl <? Z.of_nat (length ts))%Z with true by (symmetry; apply Z.ltb_lt; lia).
  replace (0 <? cr)%Z with true by (symmetry; apply Z.ltb_lt; lia).
  replace (cr <=? Z.of_nat (length ts))%Z with true by (symmetry; apply Z.leb_le; lia).
  cbn [passert andb]. rewrite (check_bonds_ok _ _ _ Hb). reflexivity.
Qed.

Lemma mpa_new_ok ts l r :
  ts <> [] -> bonds ts l r -> mpa_new ts = Ok (mkLt ts 0 (Z.of_nat (length ts))).
Proof.
  intros Hne Hb. unfold mpa_new.
  assert (0 < length ts) by (destruct ts; [congruence|cbn; lia]).
  rewrite <- (lt_init_ok ts l r 0 (Z.of_nat (length ts))); [|assumption|assumption|unfold cf_ok; lia].
  unfold lt_init. cbn [fst snd]. destruct (Z.eqb_spec (Z.of_nat (length ts)) 0) as [E|_]; [lia|]. reflexivity.
Qed.

Lemma lt_init_inv (ts : list (nd K)) cf x : lt_init ts cf = Ok x ->
  lts x = ts /\ ts <> [] /\ cf_ok (length ts) (lcan x) (rcan x) /\ check_bonds ts = Ok tt.
Proof.
  unfold lt_init. destruct cf as [cl cr]. cbn [fst snd].
  set (l := match cl with None => 0%Z | Some z => z end).
  set (r := match cr with None => _ | Some z => _ end).
  destruct (0 <? Z.of_nat (length ts))%Z eqn:E0; [|discriminate].
  destruct ((0 <=? l)%Z && (l <? Z.of_nat (length ts))%Z) eqn:E1; [|discriminate].
  destruct ((0 <? r)%Z && (r <=? Z.of_nat (length ts))%Z) eqn:E2; [|discriminate].
  cbn [passert]. destruct (check_bonds ts) as [[]|e] eqn:E3; [|discriminate]. cbn [bind].
  intros E. injection E as <-. cbn [lts lcan rcan].
  apply andb_true_iff in E1, E2. destruct E1 as [E1 E1']. destruct E2 as [E2 E2'].
  apply Z.leb_le in E1. apply Z.ltb_lt in E1'. apply Z.ltb_lt in E2. apply Z.leb_le in E2'.
  apply Z.ltb_lt in E0. split; [reflexivity|]. split; [destruct ts; [cbn in E0; lia|discriminate]|].
  split; [unfold cf_ok; lia|reflexivity].
Qed.

(** ** mapM *)
Lemma mapM_ok (A B : Type) (f : A -> res B) (g : A -> B) l :
  (forall x, In x l -> f x = Ok (g x)) -> mapM f l = Ok (map g l).
Proof.
  induction l as [|x l IH]; intros H; [reflexivity|]. cbn.
  rewrite (H x (or_introl eq_refl)). cbn. rewrite IH by (intros y Hy; apply H; right; exact Hy). reflexivity.
Qed.

Lemma mapM_inv (A B : Type) (f : A -> res B) l ys :
  mapM f l = Ok ys -> Forall2 (fun x y => f x = Ok y) l ys.
Proof.
  revert ys; induction l as [|x l IH]; intros ys H; cbn in H.
  - injection H as <-. constructor.
  - destruct (f x) as [y|e] eqn:E; [|discriminate]. cbn in H.
    destruct (mapM f l) as [ys'|e] eqn:E'; [|discriminate]. cbn in H. injection H as <-.
    constructor; [exact E|]. apply IH. reflexivity.
Qed.

Lemma mapM_Forall2 (A B : Type) (f : A -> res B) l ys :
  Forall2 (fun x y => f x = Ok y) l ys -> mapM f l = Ok ys.
Proof. induction 1 as [|x y l ys E HF IH]; [reflexivity|]. cbn. rewrite E. cbn. rewrite IH. reflexivity. Qed.

End Chain.
