(** The local operator of [eig] is the compression of the global operator. *)
From Coq Require Import String.
From Verif Require Export PfSand PfDm.
Open Scope string_scope.
Open Scope list_scope.
Open Scope nat_scope.

Lemma ravel_mid l ds r a is b : inr is ds -> ravel [l; size ds; r] [a; ravel ds is; b] = ravel (l :: ds ++ [r]) (a :: is ++ [b]).
Proof.
  intros H. cbn [ravel]. rewrite (ravel_app ds [r] is [b]) by exact H. cbn [ravel].
  rewrite !size_cons, !size_nil, size_app, size_cons, size_nil. ring.
Qed.
Lemma ravel_mid2 l ds es r a is js b : inr is ds -> inr js es ->
  ravel [l; size ds; size es; r] [a; ravel ds is; ravel es js; b] = ravel (l :: ds ++ es ++ [r]) (a :: is ++ js ++ [b]).
Proof.
  intros H H'. cbn [ravel]. rewrite (ravel_app ds (es ++ [r]) is (js ++ [b])), (ravel_app es [r] js [b]) by assumption. cbn [ravel].
  rewrite !size_cons, !size_nil, !size_app, !size_cons, !size_nil. ring.
Qed.
Lemma inr_pairs is js : forall ds es, length ds = length es -> inr is ds -> inr js es -> Forall2 inr (pairs is js) (pairs ds es).
Proof.
  intros ds es L Hi Hj. revert es L js Hj. induction Hi; intros [|e es] L js Hj; try discriminate; inversion Hj; subst; cbn; constructor; auto.
  repeat (apply inr_cons; [assumption|]). constructor.
Qed.

Lemma gather_l2g_flat2' a b is js : length is = length js -> 0 < length is ->
  gather (l2g_order (S (S (length is * 2))) (length is) 1 1) (a :: concat (pairs is js) ++ [b]) = a :: is ++ js ++ [b].
Proof.
  intros L P. set (s := length is) in *.
  assert (Hn : S (S (s * 2)) = 1 + s * 2 + 1) by lia.
  destruct (l2g_nth (S (S (s * 2))) s 1 1 2 Hn P) as [L1 L2].
  assert (F : length (concat (pairs is js)) = s * 2) by (apply len_flat2; exact L).
  apply (nth_ext _ _ 0 0).
  { rewrite gather_length, L1. cbn [length]. rewrite !app_length. cbn [length]. lia. }
  intros k Hk. rewrite gather_length, L1 in Hk. rewrite nth_gather by lia. rewrite L2 by exact Hk.
  unfold l2g_axis. destruct (Nat.ltb_spec k 1); [destruct k; [reflexivity|lia]|].
  destruct k as [|k]; [lia|]. cbn [nth].
  destruct (Nat.ltb_spec (S k) (1 + s * 2)) as [H'|H'].
  - replace (S k - 1) with k by lia.
    assert (Hk' : k < s * 2) by lia.
    replace (1 + 2 * (k mod s) + k / s) with (S (k mod s * 2 + k / s)) by lia.
    cbn [nth].
    destruct (Nat.lt_ge_cases k s) as [Hs|Hs].
    + rewrite Nat.div_small, Nat.mod_small by exact Hs. rewrite (app_nth1 is) by exact Hs.
      pose proof (nth_flat2 is js k 0 L ltac:(lia) ltac:(lia)) as E. cbn [Nat.eqb] in E. rewrite <- E.
      rewrite app_nth1 by lia. f_equal; lia.
    + rewrite (app_nth2 is) by exact Hs. change (length is) with s.
      assert (E1 : k / s = 1) by (symmetry; apply (Nat.div_unique k s 1 (k - s)); lia).
      assert (E2 : k mod s = k - s) by (symmetry; apply (Nat.mod_unique k s 1 (k - s)); lia).
      rewrite E1, E2. pose proof (nth_flat2 is js (k - s) 1 L ltac:(lia) ltac:(lia)) as E. cbn [Nat.eqb] in E.
      rewrite (app_nth1 js) by lia. rewrite <- E. rewrite app_nth1 by lia. f_equal; lia.
  - assert (k = s * 2) by lia. subst k. rewrite (app_nth2 is), (app_nth2 js), app_nth2 by (change (length is) with s; lia).
    change (length is) with s. rewrite F, <- L. change (length is) with s.
    replace (s * 2 - s - s) with 0 by lia. rewrite Nat.sub_diag. reflexivity.
Qed.

Section Local.
Context {K : StarRing}.
Add Ring Kr : (k_ring K).
Ltac inrs := repeat (apply inr_cons; [lia|]); constructor.

Lemma foldM_matdot (ts : list (nd K)) : forall t r, lt_ok t -> bonds ts (rdim t) r -> foldM matdot_py ts t = Ok (fold_left matdot ts t).
Proof.
  induction ts as [|u ts IH]; intros t r Ht B; [reflexivity|]. destruct B as (Hu & E & B). cbn [foldM fold_left].
  unfold matdot_py at 1. rewrite E, Nat.eqb_refl. cbn [praise_unless bind]. apply (IH _ r); [apply lt_ok_matdot; auto|].
  rewrite rdim_matdot by assumption. exact B.
Qed.

(** The window of the operator as an array (left bond, rows, columns, right bond). *)
Lemma wmat_spec (ws : list (nd K)) ds es lw rw : ws <> [] -> mpo_like ws ds es -> bonds ws lw rw ->
  exists w0 w1 w2, pyget ws 0 = Ok w0 /\ foldM matdot_py (tl ws) w0 = Ok w1 /\
    local_to_global w1 (length ws) 1 1 = Ok w2 /\ ndwf w2 /\ shp w2 = lw :: ds ++ es ++ [rw] /\
    forall w is js w', w < lw -> inr is ds -> inr js es -> w' < rw ->
      get w2 (w :: is ++ js ++ [w']) = amp ws (pairs is js) w w'.
Proof.
  intros Nw M B. pose proof (mpo_like_length _ _ _ M) as Lw. destruct M as [M L].
  destruct ws as [|W ws]; [congruence|]. pose proof B as B0. destruct B0 as (OW & EW & BW).
  exists W, (ltens_to_array (W :: ws)).
  destruct (ltens_to_array_spec (W :: ws) lw rw Nw B) as (Ou & Lu & Ru & Pu & Au).
  set (u := ltens_to_array (W :: ws)) in *. rewrite M in Pu.
  assert (Su : shp u = lw :: concat (pairs ds es) ++ [rw]) by (rewrite (lt_ok_shp u Ou), Lu, Ru, Pu; reflexivity).
  set (s := length ds) in *. rewrite Lw. assert (Ps : 0 < s) by (rewrite <- Lw; cbn; lia).
  assert (Nu : ndim u = S (S (s * 2))).
  { unfold ndim. rewrite Su. cbn [length]. rewrite app_length, len_flat2 by exact L. cbn [length]. lia. }
  assert (Hn : S (S (s * 2)) = 1 + s * 2 + 1) by lia.
  destruct (l2g_nth (S (S (s * 2))) s 1 1 2 Hn Ps) as [L1 _].
  pose proof (l2g_perm (S (S (s * 2))) s 1 1 2 Hn Ps) as P2.
  exists (transpose u (l2g_order (S (S (s * 2))) s 1 1)).
  split; [reflexivity|]. split; [cbn [tl]; rewrite (foldM_matdot ws W rw OW BW); reflexivity|].
  split.
  { unfold local_to_global. destruct (Nat.eqb_spec s 0); [lia|]. rewrite Nu.
    replace (S (S (s * 2)) - (1 + 1)) with (2 * s) by lia. rewrite Nat.mod_mul by lia. reflexivity. }
  split; [apply wf_transpose|]. split; [rewrite shp_transpose, Su; apply gather_l2g_flat2'; auto|].
  intros w is js w' Hw Hi Hj Hw'. pose proof (inr_length _ _ Hi) as Li. pose proof (inr_length _ _ Hj) as Lj.
  rewrite <- (gather_l2g_flat2' w w' is js) by lia. rewrite Li. fold s.
  assert (V : Forall2 inr (pairs is js) (map pdims (W :: ws))) by (rewrite M; apply inr_pairs; auto).
  rewrite get_transpose_gather; [|exact P2|rewrite Nu; exact L1|].
  - change (get u (w :: concat (pairs is js) ++ [w'])) with (ent u w (concat (pairs is js)) w'). apply Au; auto.
  - rewrite Su. apply inr_cons; [exact Hw|]. apply inr_app; [|apply inr_single; exact Hw'].
    apply inr_concat. rewrite <- M. exact V.
Qed.

(** Entries of the local operator. *)
Lemma local_op_entries (lv : nd K) (ws : list (nd K)) (rv : nd K) ds es lw rw la lb ra rb :
  ws <> [] -> mpo_like ws ds es -> bonds ws lw rw -> shp lv = [la; lw; lb] -> shp rv = [ra; rw; rb] ->
  0 < lb * size ds * rb ->
  exists op, eig_local_op lv ws rv = Ok op /\ ndwf op /\ shp op = [size (lb :: ds ++ [rb]); size (la :: es ++ [ra])] /\
  forall b is b' a js a', b < lb -> inr is ds -> b' < rb -> a < la -> inr js es -> a' < ra ->
    get op [ravel (lb :: ds ++ [rb]) (b :: is ++ [b']); ravel (la :: es ++ [ra]) (a :: js ++ [a'])] =
    bigsum rw (fun w' => bigsum lw (fun w => get lv [a; w; b] * amp ws (pairs is js) w w') * get rv [a'; w'; b'])%K.
Proof.
  intros Nw M B Sl Sr Pos.
  destruct (wmat_spec ws ds es lw rw Nw M B) as (w0 & w1 & w2 & E0 & E1 & E2 & W2 & S2 & G2).
  unfold eig_local_op. rewrite E0. cbn [bind]. rewrite E1. cbn [bind]. rewrite E2. cbn [bind].
  pose proof (mpo_like_length _ _ _ M) as Lw. rewrite Lw. rewrite S2.
  replace (size (firstn (length ds) (tl (lw :: ds ++ es ++ [rw])))) with (size ds)
    by (cbn [tl]; rewrite firstn_app, firstn_all, Nat.sub_diag; cbn [firstn]; rewrite app_nil_r; reflexivity).
  replace (size (removelast (skipn (1 + length ds) (lw :: ds ++ es ++ [rw])))) with (size es)
    by (cbn [Nat.add skipn]; rewrite skipn_app, skipn_all, Nat.sub_diag; cbn [skipn app]; rewrite removelast_last; reflexivity).
  replace (List.last (lw :: ds ++ es ++ [rw]) 0) with rw
    by (rewrite app_assoc, app_comm_cons, last_last; reflexivity).
  cbn [hd].
  assert (Z2 : size [lw; size ds; size es; rw] = size (shp w2)).
  { rewrite S2, !size_cons, !size_app, !size_cons, !size_nil. ring. }
  rewrite zshape_reshape by exact Z2. cbn [bind].
  set (w3 := reshape w2 [lw; size ds; size es; rw]).
  assert (S3 : shp w3 = [lw; size ds; size es; rw]) by reflexivity.
  rewrite named_new_c by (unfold ndim; rewrite ?Sl; reflexivity). cbn [bind].
  rewrite named_new_c by (unfold ndim; rewrite ?S3; reflexivity). cbn [bind].
  rewrite named_new_c by (unfold ndim; rewrite ?Sr; reflexivity). cbn [bind].
  set (o1 := tensordot lv w3 [1] [0]).
  assert (S1 : shp o1 = [la; lb; size ds; size es; rw]) by (unfold o1; rewrite shp_tensordot; unfold ndim; rewrite Sl, S3; reflexivity).
  rewrite (ntensordot_c lv w3 _ _ _ [1] [0] ["left_mps_bond"; "left_cc_mps_bond"; "phys_row"; "phys_col"; "right_mpo_bond"]);
    try reflexivity; [|rewrite Sl, S3; reflexivity|fold o1; unfold ndim; rewrite S1; reflexivity].
  fold o1. cbn [bind].
  set (o2 := tensordot o1 rv [4] [1]).
  assert (S4 : shp o2 = [la; lb; size ds; size es; ra; rb]) by (unfold o2; rewrite shp_tensordot; unfold ndim; rewrite S1, Sr; reflexivity).
  rewrite (ntensordot_c o1 rv _ _ _ [4] [1] ["left_mps_bond"; "left_cc_mps_bond"; "phys_row"; "phys_col"; "right_mps_bond"; "right_cc_mps_bond"]);
    try reflexivity; [|rewrite S1, Sr; reflexivity|fold o2; unfold ndim; rewrite S4; reflexivity].
  fold o2. cbn [bind].
  rewrite (nto_array_c o2 _ _ [1; 2; 5; 0; 3; 4]); try reflexivity; [|unfold ndim; rewrite S4; reflexivity].
  cbn [bind]. set (o3 := transpose o2 [1; 2; 5; 0; 3; 4]).
  assert (S5 : shp o3 = [lb; size ds; rb; la; size es; ra]) by (unfold o3; rewrite shp_transpose, S4; reflexivity).
  assert (Nr : size (lb :: ds ++ [rb]) = lb * size ds * rb) by (rewrite size_cons, size_app, size_single; ring).
  assert (Nc : size (la :: es ++ [ra]) = la * size es * ra) by (rewrite size_cons, size_app, size_single; ring).
  rewrite S5. cbn [firstn].
  replace (size [lb; size ds; rb]) with (lb * size ds * rb) by (rewrite !size_cons, size_nil; ring).
  assert (R : reshape_py o3 [Z.of_nat (lb * size ds * rb); (-1)%Z] = Ok (reshape o3 [lb * size ds * rb; la * size es * ra])).
  { unfold reshape_py.
    assert (R : reshape_to [Z.of_nat (lb * size ds * rb); (-1)%Z] ([lb * size ds * rb] ++ [la * size es * ra])).
    { apply (RT_one [lb * size ds * rb] _ []); [rewrite size_single; exact Pos|rewrite size_nil; lia]. }
    replace (size (shp o3)) with (size ([lb * size ds * rb] ++ [la * size es * ra])).
    - rewrite (resolve_shape_spec _ _ R). reflexivity.
    - rewrite S5, size_app, !size_single, !size_cons, !size_nil. ring. }
  rewrite R. eexists. split; [reflexivity|].
  split. { apply wf_reshape; [apply wf_transpose|]. rewrite S5, !size_cons, !size_nil. ring. }
  split; [cbn [reshape shp]; rewrite Nr, Nc; reflexivity|].
  intros b is b' a js a' Hb Hi Hb' Ha Hj Ha'.
  pose proof (ravel_lt _ _ Hi) as Ri. pose proof (ravel_lt _ _ Hj) as Rj.
  rewrite <- !ravel_mid by assumption.
  rewrite (get_reshape' o3 _ _ [b; ravel ds is; b'; a; ravel es js; a']).
  2:{ rewrite S5. cbn [ravel]. rewrite !size_cons, !size_nil. ring. }
  unfold o3. change [b; ravel ds is; b'; a; ravel es js; a'] with (gather [1; 2; 5; 0; 3; 4] [a; b; ravel ds is; ravel es js; a'; b']).
  rewrite get_transpose_gather; [| |unfold ndim; rewrite S4; reflexivity|rewrite S4; inrs].
  2:{ exact (proj2 (proj1 (permb_iff [1; 2; 5; 0; 3; 4] 6) eq_refl)). }
  unfold o2. change [a; b; ravel ds is; ravel es js; a'; b'] with ([a; b; ravel ds is; ravel es js] ++ [a'; b']).
  rewrite get_tensordot.
  2:{ unfold ndim. rewrite S1. change (inr [a; b; ravel ds is; ravel es js] [la; lb; size ds; size es]). inrs. }
  2:{ unfold ndim. rewrite Sr. change (inr [a'; b'] [ra; rb]). inrs. }
  unfold ndim. rewrite S1, Sr. cbn [gather map nth msum]. apply bigsum_ext. intros w' Hw'.
  change (get rv (scatter _ _)) with (get rv [a'; w'; b']). f_equal.
  change (get o1 (scatter _ _)) with (get o1 ([a; b] ++ [ravel ds is; ravel es js; w'])).
  unfold o1. rewrite get_tensordot.
  2:{ unfold ndim. rewrite Sl. change (inr [a; b] [la; lb]). inrs. }
  2:{ unfold ndim. rewrite S3. change (inr [ravel ds is; ravel es js; w'] [size ds; size es; rw]). inrs. }
  unfold ndim. rewrite Sl, S3. cbn [gather map nth msum]. apply bigsum_ext. intros w Hw.
  change (get lv (scatter _ _)) with (get lv [a; w; b]). f_equal.
  change (get w3 (scatter _ _)) with (get w3 [w; ravel ds is; ravel es js; w']).
  unfold w3. rewrite (get_reshape' w2 _ _ (w :: is ++ js ++ [w'])); [apply G2; auto|]. rewrite S2. apply ravel_mid2; assumption.
Qed.
End Local.
