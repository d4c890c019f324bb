(** The local operator of an MPS in [eig_sum], and sums of local operators. *)
From Verif Require Export PfLop.
Open Scope nat_scope.

Section Lop2.
Context {K : StarRing}.
Add Ring Kr : (k_ring K).
Ltac inrs := repeat (apply inr_cons; [nia|]); constructor.

Lemma shp_site (t : nd K) d : lt_ok t -> pdims t = [d] -> shp t = [ldim t; d; rdim t].
Proof. intros H E. rewrite (lt_ok_shp t H) at 1. rewrite E. reflexivity. Qed.

Definition mps_step (op lt : nd K) : res (nd K) :=
  do op <- np_tensordot op (nconj lt) [2] [0];
  match nth_error (shp op) 0, nth_error (shp op) 3 with
  | Some s0, Some s3 => reshape_py op [Z.of_nat s0; -1; Z.of_nat s3]%Z
  | _, _ => Err IndexError
  end.

Lemma mps_step_spec (op t : nd K) la P d : lt_ok t -> pdims t = [d] -> shp op = [la; P; ldim t] -> 0 < la -> 0 < rdim t ->
  exists o, mps_step op t = Ok o /\ ndwf o /\ shp o = [la; P * d; rdim t] /\
  forall a p i s', a < la -> p < P -> i < d -> s' < rdim t ->
    get o [a; p * d + i; s'] = bigsum (ldim t) (fun k => get op [a; p; k] * kconj (ent t k [i] s'))%K.
Proof.
  intros Ht Hd So La Lr. pose proof (shp_site t d Ht Hd) as Ss. unfold mps_step.
  assert (Sc : shp (nconj t) = [ldim t; d; rdim t]) by exact Ss.
  rewrite np_tensordot_c; [|reflexivity|rewrite So, Sc; reflexivity]. cbn [bind].
  set (o1 := tensordot op (nconj t) [2] [0]).
  assert (S1 : shp o1 = [la; P; d; rdim t]) by (unfold o1; rewrite shp_tensordot; unfold ndim; rewrite So, Sc; reflexivity).
  rewrite S1. cbn [nth_error]. unfold reshape_py. rewrite S1.
  assert (R : reshape_to [Z.of_nat la; -1; Z.of_nat (rdim t)]%Z ([la] ++ (P * d) :: [rdim t])).
  { apply (RT_one [la] (P * d) [rdim t]); rewrite size_single; assumption. }
  apply resolve_shape_spec in R. cbn [app] in R.
  replace (size [la; P; d; rdim t]) with (size [la; P * d; rdim t]) by (rewrite !size_cons, size_nil; ring).
  rewrite R. cbn [bind]. eexists. split; [reflexivity|].
  split; [apply wf_reshape; [apply wf_tab|rewrite S1, !size_cons, size_nil; ring]|]. split; [reflexivity|].
  intros a p i s' Ha Hp Hi Hs. rewrite (get_reshape' _ _ _ [a; p; i; s']).
  2:{ rewrite S1. cbn [ravel]. rewrite !size_cons, !size_nil. ring. }
  change [a; p; i; s'] with ([a; p] ++ [i; s']). unfold o1. rewrite get_tensordot.
  2:{ unfold ndim. rewrite So. change (inr [a; p] [la; P]). inrs. }
  2:{ unfold ndim. rewrite Sc. change (inr [i; s'] [d; rdim t]). inrs. }
  unfold ndim. rewrite So, Sc. cbn [gather map nth msum]. apply bigsum_ext. intros k Hk.
  change (get (nconj t) (scatter _ _)) with (get (nconj t) [k; i; s']).
  change (get op (scatter _ _)) with (get op [a; p; k]).
  rewrite get_nconj by (rewrite Ss; inrs). reflexivity.
Qed.

Lemma mps_fold ts : forall (op : nd K) la P s r ds, mps_like ts ds -> bonds ts s r -> ndwf op -> shp op = [la; P; s] ->
  0 < la -> Forall (fun t => 0 < rdim t) ts ->
  exists o, foldM mps_step ts op = Ok o /\ ndwf o /\ shp o = [la; P * size ds; r] /\
  forall a p is s', a < la -> p < P -> inr is ds -> s' < r ->
    get o [a; p * size ds + ravel ds is; s'] = bigsum s (fun k => get op [a; p; k] * kconj (amp ts (singles is) k s'))%K.
Proof.
  induction ts as [|t ts IH]; intros op la P s r ds M B W So La Po.
  - assert (ds = []) as -> by (destruct ds; [reflexivity|discriminate M]). cbn in B. subst r.
    exists op. split; [reflexivity|]. split; [exact W|]. rewrite size_nil, Nat.mul_1_r. split; [exact So|].
    intros a p is s' Ha Hp Hi Hs. apply inr_nil_inv in Hi. subst is. cbn [ravel]. rewrite Nat.mul_1_r, Nat.add_0_r.
    transitivity (bigsum s (fun k => get op [a; p; k] * delta k s')%K); [symmetry; apply (bigsum_delta_r s s' (fun k => get op [a; p; k])); exact Hs|].
    apply bigsum_ext. intros k _. cbn [amp singles map]. unfold delta. destruct (Nat.eqb k s'); [rewrite kconj_1|rewrite kconj_0]; reflexivity.
  - destruct ds as [|d ds]; [discriminate M|]. destruct B as [Ht [Es B]]. inversion Po as [|? ? Pt Po']; subst.
    assert (Ed : pdims t = [d]) by (injection M; auto). assert (M' : mps_like ts ds) by (unfold mps_like; injection M; auto).
    destruct (mps_step_spec op t la P d Ht Ed So La Pt) as (o & E & Wo & S1 & G).
    cbn [foldM]. rewrite E. cbn [bind].
    destruct (IH o la (P * d) (rdim t) r ds M' B Wo S1 La Po') as (o2 & E2 & W2 & S2 & G2).
    exists o2. split; [exact E2|]. split; [exact W2|].
    split; [rewrite S2, size_cons, Nat.mul_assoc; reflexivity|].
    intros a p is s' Ha Hp Hi Hs. destruct (inr_cons_inv _ _ _ Hi) as (i & is' & -> & Hi1 & Hi2).
    assert (E3 : p * size (d :: ds) + ravel (d :: ds) (i :: is') = (p * d + i) * size ds + ravel ds is').
    { cbn [ravel]. rewrite size_cons. ring. }
    rewrite E3, G2 by (auto; nia).
    transitivity (bigsum (rdim t) (fun m => bigsum (ldim t) (fun k => get op [a; p; k] * kconj (ent t k [i] m) * kconj (amp ts (singles is') m s')))%K).
    { apply bigsum_ext. intros m Hm. rewrite G by assumption. rewrite <- bigsum_mul_r. reflexivity. }
    rewrite bigsum_swap. apply bigsum_ext. intros k Hk.
    change (singles (i :: is')) with ([i] :: singles is'). rewrite amp_cons, bigsum_conj, <- bigsum_mul_l.
    apply bigsum_ext. intros m Hm. rewrite (kconj_mul K). ring.
Qed.

Lemma nth_nconj (a : nd K) n : nth n (dat (nconj a)) k0 = kconj (nth n (dat a) k0).
Proof. unfold nconj. cbn [dat]. rewrite <- (map_nth kconj), kconj_0. reflexivity. Qed.

(** Entries of the local operator of an MPS: [conj(f r) f c]. *)
Lemma local_op_mps_entries (lv : nd K) (ts : list (nd K)) (rv : nd K) ds ls rs la ra :
  mps_like ts ds -> bonds ts ls rs -> shp lv = [ls; la] -> shp rv = [rs; ra] -> ndwf lv -> 0 < la ->
  Forall (fun t => 0 < rdim t) ts ->
  exists op, eig_local_op_mps lv ts rv = Ok op /\ ndwf op /\ shp op = [size (la :: ds ++ [ra]); size (la :: ds ++ [ra])] /\
  let f a is a' := bigsum rs (fun s' => bigsum ls (fun s => get lv [s; a] * kconj (amp ts (singles is) s s')) * get rv [s'; a'])%K in
  forall b is b' a js a', b < la -> inr is ds -> b' < ra -> a < la -> inr js ds -> a' < ra ->
    get op [ravel (la :: ds ++ [ra]) (b :: is ++ [b']); ravel (la :: ds ++ [ra]) (a :: js ++ [a'])] =
    (kconj (f b is b') * f a js a')%K.
Proof.
  intros M B Sl Sr Wl La Po. unfold eig_local_op_mps.
  assert (ST : shp (np_T lv) = [la; ls]) by (unfold np_T; cbn [transpose shp tab]; unfold ndim; rewrite Sl; reflexivity).
  rewrite ST. set (o0 := reshape (np_T lv) [la; 1; ls]).
  assert (W0 : ndwf o0) by (apply wf_reshape; [apply wf_transpose|rewrite ST, !size_cons, size_nil; ring]).
  destruct (mps_fold ts o0 la 1 ls rs ds M B W0 eq_refl La Po) as (o1 & E1 & W1 & S1 & G1).
  change (foldM (fun op lt : nd K => _) ts o0) with (foldM mps_step ts o0). rewrite E1. cbn [bind].
  rewrite Nat.mul_1_l in S1.
  rewrite np_tensordot_c; [|reflexivity|rewrite S1, Sr; reflexivity]. cbn [bind].
  set (o2 := tensordot o1 rv [2] [0]).
  assert (S2 : shp o2 = [la; size ds; ra]) by (unfold o2; rewrite shp_tensordot; unfold ndim; rewrite S1, Sr; reflexivity).
  assert (Sz : size (shp o2) = size (la :: ds ++ [ra])) by (rewrite S2, !size_cons, size_app, !size_cons, !size_nil; ring).
  assert (G0 : forall a s, a < la -> s < ls -> get o0 [a; 0; s] = get lv [s; a]).
  { intros a s Ha Hs. unfold o0. rewrite (get_reshape' _ _ _ [a; s]).
    2:{ rewrite ST. cbn [ravel]. rewrite !size_cons, !size_nil. ring. }
    unfold np_T, ndim. rewrite Sl. cbn [length seq rev app].
    change [a; s] with (gather [1; 0] [s; a]). rewrite get_transpose_gather.
    - reflexivity.
    - exact (proj2 (proj1 (permb_iff [1; 0] 2) eq_refl)).
    - unfold ndim. rewrite Sl. reflexivity.
    - rewrite Sl. inrs. }
  assert (G2 : forall a is a', a < la -> inr is ds -> a' < ra -> nth (ravel (la :: ds ++ [ra]) (a :: is ++ [a'])) (dat o2) k0 =
    bigsum rs (fun s' => bigsum ls (fun s => get lv [s; a] * kconj (amp ts (singles is) s s')) * get rv [s'; a'])%K).
  { intros a is a' Ha Hi Ha'. rewrite <- ravel_mid by exact Hi.
    transitivity (get o2 [a; ravel ds is; a']); [unfold get; rewrite S2; reflexivity|].
    pose proof (ravel_lt _ _ Hi) as Hr.
    change [a; ravel ds is; a'] with ([a; ravel ds is] ++ [a']). unfold o2. rewrite get_tensordot.
    2:{ unfold ndim. rewrite S1. change (inr [a; ravel ds is] [la; size ds]). inrs. }
    2:{ unfold ndim. rewrite Sr. change (inr [a'] [ra]). inrs. }
    unfold ndim. rewrite S1, Sr. cbn [gather map nth msum]. apply bigsum_ext. intros s' Hs'.
    change (get o1 (scatter _ _)) with (get o1 [a; ravel ds is; s']).
    change (get rv (scatter _ _)) with (get rv [s'; a']).
    f_equal. pose proof (G1 a 0 is s' Ha Nat.lt_0_1 Hi Hs') as G1'. cbn [Nat.mul Nat.add] in G1'. rewrite G1'.
    apply bigsum_ext. intros s Hs. rewrite G0 by assumption. reflexivity. }
  eexists. split; [reflexivity|]. split; [apply wf_tab|].
  split. { cbn [np_outer shp tab nconj]. rewrite Sz. reflexivity. }
  cbn zeta. intros b is b' a js a' Hb Hi Hb' Ha Hj Ha'. unfold np_outer. rewrite get_tab.
  - cbn [nth]. rewrite nth_nconj, !G2 by assumption. reflexivity.
  - cbn [nconj shp]. rewrite Sz. apply inr_cons; [apply ravel_lt|apply inr_single; apply ravel_lt];
      (apply inr_cons; [assumption|]); apply inr_app; [assumption|apply inr_single; assumption|assumption|apply inr_single; assumption].
Qed.

(** It is the compression of [|psi><psi|]. *)
Lemma local_op_mps_lop (S1 S2 S3 X1 X3 : list (nd K)) d1 d2 d3 ls rs la ra lv rv :
  mps_like S1 d1 -> mps_like S2 d2 -> mps_like S3 d3 -> bonds S1 1 ls -> bonds S2 ls rs -> bonds S3 rs 1 ->
  mps_like X1 d1 -> mps_like X3 d3 -> bonds X1 1 la -> bonds X3 ra 1 -> 0 < la ->
  Forall (fun t => 0 < rdim t) S2 -> ndwf lv ->
  shp lv = [ls; la] -> shp rv = [rs; ra] ->
  (forall y, inr y (shp lv) -> get lv y = gram2 S1 X1 [0; 0] y) ->
  (forall x, inr x (shp rv) -> get rv x = gram2 S3 X3 x [0; 0]) ->
  let psi is := amp (S1 ++ S2 ++ S3) (singles is) 0 0 in
  eig_local_op_mps lv S2 rv = Ok (lop d1 d2 d3 la ra X1 X3 (fun is js => psi is * kconj (psi js))%K).
Proof.
  intros M1 M2 M3 B1 B2 B3 P1 P3 BX1 BX3 La Po Wl Sl Sr Gl Gr psi.
  destruct (local_op_mps_entries lv S2 rv d2 ls rs la ra M2 B2 Sl Sr Wl La Po) as (op & E & Wo & So & G). cbn zeta in G.
  rewrite E. f_equal. apply lop_eq; auto. intros b is b' a js a' Hb Hi Hb' Ha Hj Ha'. rewrite G by assumption.
  rewrite Sl in Gl. rewrite Sr in Gr.
  assert (F : forall a js a', a < la -> inr js d2 -> a' < ra ->
    bigsum rs (fun s' => bigsum ls (fun s => get lv [s; a] * kconj (amp S2 (singles js) s s')) * get rv [s'; a'])%K =
    msum d1 (fun j1 => msum d3 (fun j3 => kconj (psi (j1 ++ js ++ j3)) * (amp X1 (singles j1) 0 a * amp X3 (singles j3) a' 0)))%K).
  { clear - M1 M2 M3 B1 B2 B3 P1 P3 BX1 BX3 La Po Sl Sr Gl Gr. intros a js a' Ha Hj Ha'.
    transitivity (bigsum rs (fun s' => bigsum ls (fun s => msum d1 (fun j1 => msum d3 (fun j3 =>
      kconj (amp S1 (singles j1) 0 s * amp S2 (singles js) s s' * amp S3 (singles j3) s' 0) * (amp X1 (singles j1) 0 a * amp X3 (singles j3) a' 0)))))%K).
    { apply bigsum_ext. intros s' Hs'. rewrite <- bigsum_mul_r. apply bigsum_ext. intros s Hs.
      rewrite Gl, Gr by (repeat (apply inr_cons; [lia|]); constructor). unfold gram2, b3, gram. cbn [nth].
      rewrite M1, M3, !msums_singles.
      transitivity (msum d1 (fun cs => kconj (amp S1 (singles cs) 0 s) * amp X1 (singles cs) 0 a) *
        (kconj (amp S2 (singles js) s s') * msum d3 (fun cs => kconj (amp S3 (singles cs) s' 0) * amp X3 (singles cs) a' 0)))%K; [ring|].
      rewrite <- msum_mul_r. apply msum_ext. intros j1 _. rewrite <- !msum_mul_l. apply msum_ext. intros j3 _.
      rewrite !(kconj_mul K). ring. }
    transitivity (msum d1 (fun j1 => msum d3 (fun j3 => bigsum rs (fun s' => bigsum ls (fun s =>
      kconj (amp S1 (singles j1) 0 s * amp S2 (singles js) s s' * amp S3 (singles j3) s' 0) * (amp X1 (singles j1) 0 a * amp X3 (singles j3) a' 0)))))%K).
    { transitivity (bigsum rs (fun s' => msum d1 (fun j1 => msum d3 (fun j3 => bigsum ls (fun s =>
        kconj (amp S1 (singles j1) 0 s * amp S2 (singles js) s s' * amp S3 (singles j3) s' 0) * (amp X1 (singles j1) 0 a * amp X3 (singles j3) a' 0)))))%K).
      - apply bigsum_ext. intros s' _. rewrite <- msum_bigsum_swap. apply msum_ext. intros j1 _. rewrite <- msum_bigsum_swap. reflexivity.
      - rewrite <- msum_bigsum_swap. apply msum_ext. intros j1 _. rewrite <- msum_bigsum_swap. reflexivity. }
    apply msum_ext. intros j1 G1. apply msum_ext. intros j3 G3. unfold psi.
    pose proof (mps_like_length _ _ M1) as L1. pose proof (mps_like_length _ _ M2) as L2.
    apply inr_length in G1. apply inr_length in Hj. rewrite !singles_app.
    rewrite (amp_app S1 (S2 ++ S3) _ _ 0 0 1 ls); [|rewrite singles_length; lia|exact B1|lia].
    rewrite bigsum_conj, <- bigsum_mul_r. rewrite bigsum_swap. apply bigsum_ext. intros s Hs.
    rewrite (amp_app S2 S3 _ _ s 0 ls rs); [|rewrite singles_length; lia|exact B2|lia].
    rewrite (kconj_mul K), bigsum_conj, <- bigsum_mul_l, <- bigsum_mul_r. apply bigsum_ext. intros s' Hs'.
    rewrite !(kconj_mul K). ring. }
  rewrite !F by assumption. unfold kern. rewrite !mid_mk, !last_mk, ?hd_mk.
  rewrite msum_conj, <- msum_mul_r. apply msum_ext. intros i1 _. rewrite msum_conj, <- msum_mul_r. apply msum_ext. intros i3 _.
  rewrite <- msum_mul_l. apply msum_ext. intros j1 _. rewrite <- msum_mul_l. apply msum_ext. intros j3 _.
  rewrite (kconj_mul K (kconj _)), (kconj_invol K). ring.
Qed.

(** ** Sums *)
Lemma kern_add d1 d3 X1 X3 (M N : list nat -> list nat -> K) r c :
  (kern d1 d3 X1 X3 M r c + kern d1 d3 X1 X3 N r c)%K = kern d1 d3 X1 X3 (fun is js => M is js + N is js)%K r c.
Proof.
  unfold kern. rewrite <- msum_add. apply msum_ext. intros i1 _. rewrite <- msum_add. apply msum_ext. intros i3 _.
  rewrite <- msum_add. apply msum_ext. intros j1 _. rewrite <- msum_add. apply msum_ext. intros j3 _. ring.
Qed.
Lemma lop_add d1 d2 d3 la ra X1 X3 (M N : list nat -> list nat -> K) :
  nadd_py (lop d1 d2 d3 la ra X1 X3 M) (lop d1 d2 d3 la ra X1 X3 N) =
  Ok (lop d1 d2 d3 la ra X1 X3 (fun is js => M is js + N is js)%K).
Proof.
  unfold nadd_py. cbn [lop shp tab]. rewrite list_eqb_refl. unfold praise_unless. f_equal.
  symmetry. apply nd_eq; [apply wf_tab|apply wf_nadd|reflexivity|].
  intros x Hx. rewrite get_nadd by exact Hx. unfold lop. rewrite !get_tab by exact Hx. symmetry. apply kern_add.
Qed.
End Lop2.
