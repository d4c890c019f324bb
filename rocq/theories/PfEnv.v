(** The environments of [eig] and of variational compression: one site is added. *)
From Coq Require Import String.
From Verif Require Export Linalg PfNamed LinSum.
Open Scope string_scope.
Open Scope list_scope.

Section Steps.
Context {K : StarRing}.
Add Ring Kr : (k_ring K).

(** ** Named operations for given names *)
Definition axpos (na : list string) (s : string) : res nat :=
  match sindex s na with Some k => Ok k | None => Err ValueError end.

Lemma named_new_c (a : nd K) names : ndim a = List.length names -> snodupb names = true ->
  named_new a names = Ok (mkNamed a names).
Proof. intros H1 H2. unfold named_new. rewrite H1, Nat.eqb_refl, H2. reflexivity. Qed.

Lemma ntensordot_c (a b : nd K) na nb axes px py names :
  mapM (axpos na) (map fst axes) = Ok px -> mapM (axpos nb) (map snd axes) = Ok py ->
  nodupb px && nodupb py = true -> gather px (shp a) = gather py (shp b) ->
  filter (fun s => negb (smemb s (map fst axes))) na ++ filter (fun s => negb (smemb s (map snd axes))) nb = names ->
  ndim (tensordot a b px py) = List.length names -> snodupb names = true ->
  ntensordot (mkNamed a na) (mkNamed b nb) axes = Ok (mkNamed (tensordot a b px py) names).
Proof.
  intros H1 H2 H3 H4 H5 H6 H7. unfold ntensordot, axispos. cbn [nnames narr].
  change (mapM _ (map fst axes)) with (mapM (axpos na) (map fst axes)). rewrite H1. cbn [bind].
  change (mapM _ (map snd axes)) with (mapM (axpos nb) (map snd axes)). rewrite H2. cbn [bind].
  unfold np_tensordot. rewrite H3, H4, list_eqb_refl. cbn [andb praise_unless bind].
  rewrite H5. apply named_new_c; assumption.
Qed.

Lemma nrename_c (a : nd K) na tr names :
  foldM (fun names (p : string * string) => do k <- axpos na (fst p); Ok (set_nth k (snd p) names)) tr na = Ok names ->
  ndim a = List.length names -> snodupb names = true ->
  nrename (mkNamed a na) tr = Ok (mkNamed a names).
Proof.
  intros H1 H2 H3. unfold nrename, axispos. cbn [nnames narr].
  change (foldM _ tr na) with (foldM (fun names (p : string * string) => do k <- axpos na (fst p); Ok (set_nth k (snd p) names)) tr na).
  rewrite H1. cbn [bind]. apply named_new_c; assumption.
Qed.

Lemma named_conj_c (a : nd K) na : ndim a = List.length na -> snodupb na = true ->
  named_conj (mkNamed a na) = Ok (mkNamed (nconj a) na).
Proof. intros H1 H2. unfold named_conj. cbn [nnames narr]. apply named_new_c; assumption. Qed.

Lemma nto_array_c (a : nd K) na order pos :
  mapM (axpos na) order = Ok pos -> permb pos (ndim a) = true ->
  nto_array (mkNamed a na) order = Ok (transpose a pos).
Proof.
  intros H1 H2. unfold nto_array, axispos. cbn [nnames narr].
  change (mapM _ order) with (mapM (axpos na) order). rewrite H1. cbn [bind]. rewrite H2. reflexivity.
Qed.

Lemma np_tensordot_c (a b : nd K) px py :
  nodupb px && nodupb py = true -> gather px (shp a) = gather py (shp b) ->
  np_tensordot a b px py = Ok (tensordot a b px py).
Proof. intros H1 H2. unfold np_tensordot. rewrite H1, H2, list_eqb_refl. reflexivity. Qed.

Ltac inrs := repeat (apply inr_cons; [lia|]); constructor.
Ltac shtd := rewrite shp_tensordot; unfold ndim.

(** ** Operator environments *)
(** Three layers at one site: [sum_{i,j} a[j] w[i,j] conj b[i]]. *)
Definition site3 (W A B : nd K) (a w b a' w' b' : nat) : K :=
  bigsum (nth 1 (shp W) 0) (fun i => bigsum (nth 2 (shp W) 0) (fun j =>
    (ent A a [j] a' * ent W w [i; j] w' * kconj (ent B b [i] b'))%K)).

Lemma ent1 (t : nd K) a j b : ent t a [j] b = get t [a; j; b].
Proof. reflexivity. Qed.
Lemma ent2 (t : nd K) a i j b : ent t a [i; j] b = get t [a; i; j; b].
Proof. reflexivity. Qed.

Lemma leftvec_add_spec (lv W A B : nd K) la lw lb ra rw rb d e :
  shp lv = [la; lw; lb] -> shp W = [lw; d; e; rw] -> shp A = [la; e; ra] -> shp B = [lb; d; rb] ->
  exists o, eig_leftvec_add lv W A (Some B) = Ok o /\ ndwf o /\ shp o = [ra; rw; rb] /\
  forall a' w' b', a' < ra -> w' < rw -> b' < rb ->
    get o [a'; w'; b'] = bigsum la (fun a => bigsum lw (fun w => bigsum lb (fun b =>
      get lv [a; w; b] * site3 W A B a w b a' w' b')))%K.
Proof.
  intros Sl SW SA SB. unfold eig_leftvec_add.
  rewrite named_new_c by (unfold ndim; rewrite ?Sl; reflexivity). cbn [bind].
  rewrite named_new_c by (unfold ndim; rewrite ?SW; reflexivity). cbn [bind].
  rewrite named_new_c by (unfold ndim; rewrite ?SA; reflexivity). cbn [bind].
  rewrite named_new_c by (unfold ndim; rewrite ?SB; reflexivity). cbn [bind].
  set (o1 := tensordot lv A [0] [0]).
  assert (S1 : shp o1 = [lw; lb; e; ra]) by (unfold o1; shtd; rewrite Sl, SA; reflexivity).
  rewrite (ntensordot_c lv A _ _ _ [0] [0] ["mpo_bond"; "cc_mps_bond"; "phys"; "right_mps_bond"]);
    try reflexivity; [|rewrite Sl, SA; reflexivity|fold o1; unfold ndim; rewrite S1; reflexivity].
  fold o1. cbn [bind].
  rewrite (nrename_c o1 _ _ ["mpo_bond"; "cc_mps_bond"; "phys"; "mps_bond"]);
    try reflexivity; [|unfold ndim; rewrite S1; reflexivity]. cbn [bind].
  set (o2 := tensordot o1 W [0; 2] [0; 2]).
  assert (S2 : shp o2 = [lb; ra; d; rw]) by (unfold o2; shtd; rewrite S1, SW; reflexivity).
  rewrite (ntensordot_c o1 W _ _ _ [0; 2] [0; 2] ["cc_mps_bond"; "mps_bond"; "phys_row"; "right_mpo_bond"]);
    try reflexivity; [|rewrite S1, SW; reflexivity|fold o2; unfold ndim; rewrite S2; reflexivity].
  fold o2. cbn [bind].
  assert (Sc : shp (nconj B) = [lb; d; rb]) by exact SB.
  rewrite (named_conj_c B _); try reflexivity; [|unfold ndim; rewrite SB; reflexivity]. cbn [bind].
  set (o3 := tensordot o2 (nconj B) [0; 2] [0; 1]).
  assert (S3 : shp o3 = [ra; rw; rb]) by (unfold o3; shtd; rewrite S2, Sc; reflexivity).
  rewrite (ntensordot_c o2 (nconj B) _ _ _ [0; 2] [0; 1] ["mps_bond"; "right_mpo_bond"; "right_mps_bond"]);
    try reflexivity; [|rewrite S2, Sc; reflexivity|fold o3; unfold ndim; rewrite S3; reflexivity].
  fold o3. cbn [bind].
  rewrite (nrename_c o3 _ _ ["mps_bond"; "mpo_bond"; "cc_mps_bond"]);
    try reflexivity; [|unfold ndim; rewrite S3; reflexivity]. cbn [bind].
  rewrite (nto_array_c o3 _ _ [0; 1; 2]); try reflexivity; [|unfold ndim; rewrite S3; reflexivity].
  eexists. split; [reflexivity|]. split; [apply wf_transpose|].
  split; [rewrite shp_transpose, S3; reflexivity|].
  intros a' w' b' Ha Hw Hb.
  change [a'; w'; b'] with (gather [0; 1; 2] [a'; w'; b']).
  rewrite get_transpose_gather; [|apply Permutation.Permutation_refl|unfold ndim; rewrite S3; reflexivity|rewrite S3; inrs].
  unfold o3. change [a'; w'; b'] with ([a'; w'] ++ [b']). rewrite get_tensordot.
  2:{ unfold ndim. rewrite S2. change (inr [a'; w'] [ra; rw]). inrs. }
  2:{ unfold ndim. rewrite Sc. change (inr [b'] [rb]). inrs. }
  unfold ndim. rewrite S2, Sc. cbn [gather map nth msum].
  transitivity (bigsum lb (fun b => bigsum d (fun i =>
     bigsum lw (fun w => bigsum e (fun j => bigsum la (fun a => get lv [a; w; b] * ent A a [j] a') * ent W w [i; j] w'))
     * kconj (ent B b [i] b')))%K).
  { apply bigsum_ext. intros b Hb'. apply bigsum_ext. intros i Hi. rewrite get_nconj.
    change (get o2 (scatter _ _)) with (get o2 ([b; a'] ++ [i; w'])).
    change (get B (scatter _ _)) with (get B [b; i; b']). rewrite ent1. f_equal.
    unfold o2. rewrite get_tensordot.
    2:{ unfold ndim. rewrite S1. change (inr [b; a'] [lb; ra]). inrs. }
    2:{ unfold ndim. rewrite SW. change (inr [i; w'] [d; rw]). inrs. }
    unfold ndim. rewrite S1, SW. cbn [gather map nth msum].
    apply bigsum_ext. intros w Hw'. apply bigsum_ext. intros j Hj.
    change (get o1 (scatter _ _)) with (get o1 ([w; b] ++ [j; a'])).
    change (get W (scatter _ _)) with (get W [w; i; j; w']). rewrite ent2. f_equal.
    unfold o1. rewrite get_tensordot.
    2:{ unfold ndim. rewrite Sl. change (inr [w; b] [lw; lb]). inrs. }
    2:{ unfold ndim. rewrite SA. change (inr [j; a'] [e; ra]). inrs. }
    unfold ndim. rewrite Sl, SA. cbn [gather map nth msum].
    apply bigsum_ext. intros a Ha'. reflexivity. }
  unfold site3. rewrite SW. cbn [nth].
  (* reorder the sums *)
  transitivity (bigsum lb (fun b => bigsum d (fun i => bigsum lw (fun w => bigsum e (fun j => bigsum la (fun a =>
     get lv [a; w; b] * (ent A a [j] a' * ent W w [i; j] w' * kconj (ent B b [i] b')))))))%K).
  { apply bigsum_ext. intros b _. apply bigsum_ext. intros i _. rewrite <- bigsum_mul_r.
    apply bigsum_ext. intros w _. rewrite <- bigsum_mul_r. apply bigsum_ext. intros j _.
    rewrite <- !bigsum_mul_r. apply bigsum_ext. intros a _. ring. }
  transitivity (bigsum la (fun a => bigsum lb (fun b => bigsum d (fun i => bigsum lw (fun w => bigsum e (fun j =>
     get lv [a; w; b] * (ent A a [j] a' * ent W w [i; j] w' * kconj (ent B b [i] b')))))))%K).
  { symmetry. rewrite bigsum_swap. apply bigsum_ext. intros b _.
    rewrite bigsum_swap. apply bigsum_ext. intros i _.
    rewrite bigsum_swap. apply bigsum_ext. intros w _.
    rewrite bigsum_swap. reflexivity. }
  apply bigsum_ext. intros a _. rewrite bigsum_swap.
  transitivity (bigsum d (fun i => bigsum lw (fun w => bigsum lb (fun b => bigsum e (fun j =>
     get lv [a; w; b] * (ent A a [j] a' * ent W w [i; j] w' * kconj (ent B b [i] b'))))))%K).
  { apply bigsum_ext. intros i _. apply bigsum_swap. }
  rewrite bigsum_swap. apply bigsum_ext. intros w _. rewrite bigsum_swap. apply bigsum_ext. intros b _.
  rewrite <- bigsum_mul_l. apply bigsum_ext. intros i _. rewrite <- bigsum_mul_l. reflexivity.
Qed.

Lemma rightvec_add_spec (rv W A : nd K) la lw ra rw d :
  shp rv = [ra; rw; ra] -> shp W = [lw; d; d; rw] -> shp A = [la; d; ra] ->
  exists o, eig_rightvec_add rv W A = Ok o /\ ndwf o /\ shp o = [la; lw; la] /\
  forall a w b, a < la -> w < lw -> b < la ->
    get o [a; w; b] = bigsum ra (fun a' => bigsum rw (fun w' => bigsum ra (fun b' =>
      site3 W A A a w b a' w' b' * get rv [a'; w'; b'])))%K.
Proof.
  intros Sr SW SA. unfold eig_rightvec_add.
  rewrite named_new_c by (unfold ndim; rewrite ?Sr; reflexivity). cbn [bind].
  rewrite named_new_c by (unfold ndim; rewrite ?SW; reflexivity). cbn [bind].
  rewrite named_new_c by (unfold ndim; rewrite ?SA; reflexivity). cbn [bind].
  set (o1 := tensordot rv A [0] [2]).
  assert (S1 : shp o1 = [rw; ra; la; d]) by (unfold o1; shtd; rewrite Sr, SA; reflexivity).
  rewrite (ntensordot_c rv A _ _ _ [0] [2] ["mpo_bond"; "cc_mps_bond"; "left_mps_bond"; "phys"]);
    try reflexivity; [|rewrite Sr, SA; reflexivity|fold o1; unfold ndim; rewrite S1; reflexivity].
  fold o1. cbn [bind].
  rewrite (nrename_c o1 _ _ ["mpo_bond"; "cc_mps_bond"; "mps_bond"; "phys"]);
    try reflexivity; [|unfold ndim; rewrite S1; reflexivity]. cbn [bind].
  set (o2 := tensordot o1 W [0; 3] [3; 2]).
  assert (S2 : shp o2 = [ra; la; lw; d]) by (unfold o2; shtd; rewrite S1, SW; reflexivity).
  rewrite (ntensordot_c o1 W _ _ _ [0; 3] [3; 2] ["cc_mps_bond"; "mps_bond"; "left_mpo_bond"; "phys_row"]);
    try reflexivity; [|rewrite S1, SW; reflexivity|fold o2; unfold ndim; rewrite S2; reflexivity].
  fold o2. cbn [bind].
  assert (Sc : shp (nconj A) = [la; d; ra]) by exact SA.
  rewrite (named_conj_c A _); try reflexivity; [|unfold ndim; rewrite SA; reflexivity]. cbn [bind].
  set (o3 := tensordot o2 (nconj A) [0; 3] [2; 1]).
  assert (S3 : shp o3 = [la; lw; la]) by (unfold o3; shtd; rewrite S2, Sc; reflexivity).
  rewrite (ntensordot_c o2 (nconj A) _ _ _ [0; 3] [2; 1] ["mps_bond"; "left_mpo_bond"; "left_mps_bond"]);
    try reflexivity; [|rewrite S2, Sc; reflexivity|fold o3; unfold ndim; rewrite S3; reflexivity].
  fold o3. cbn [bind].
  rewrite (nrename_c o3 _ _ ["mps_bond"; "mpo_bond"; "cc_mps_bond"]);
    try reflexivity; [|unfold ndim; rewrite S3; reflexivity]. cbn [bind].
  rewrite (nto_array_c o3 _ _ [0; 1; 2]); try reflexivity; [|unfold ndim; rewrite S3; reflexivity].
  eexists. split; [reflexivity|]. split; [apply wf_transpose|].
  split; [rewrite shp_transpose, S3; reflexivity|].
  intros a w b Ha Hw Hb.
  change [a; w; b] with (gather [0; 1; 2] [a; w; b]).
  rewrite get_transpose_gather; [|apply Permutation.Permutation_refl|unfold ndim; rewrite S3; reflexivity|rewrite S3; inrs].
  unfold o3. change [a; w; b] with ([a; w] ++ [b]). rewrite get_tensordot.
  2:{ unfold ndim. rewrite S2. change (inr [a; w] [la; lw]). inrs. }
  2:{ unfold ndim. rewrite Sc. change (inr [b] [la]). inrs. }
  unfold ndim. rewrite S2, Sc. cbn [gather map nth msum].
  transitivity (bigsum ra (fun b' => bigsum d (fun i =>
     bigsum rw (fun w' => bigsum d (fun j => bigsum ra (fun a' => get rv [a'; w'; b'] * ent A a [j] a') * ent W w [i; j] w'))
     * kconj (ent A b [i] b')))%K).
  { apply bigsum_ext. intros b' Hb'. apply bigsum_ext. intros i Hi. rewrite get_nconj.
    change (get o2 (scatter _ _)) with (get o2 ([b'; a] ++ [w; i])).
    change (get A (scatter _ _)) with (get A [b; i; b']). rewrite ent1. f_equal.
    unfold o2. rewrite get_tensordot.
    2:{ unfold ndim. rewrite S1. change (inr [b'; a] [ra; la]). inrs. }
    2:{ unfold ndim. rewrite SW. change (inr [w; i] [lw; d]). inrs. }
    unfold ndim. rewrite S1, SW. cbn [gather map nth msum].
    apply bigsum_ext. intros w' Hw'. apply bigsum_ext. intros j Hj.
    change (get o1 (scatter _ _)) with (get o1 ([w'; b'] ++ [a; j])).
    change (get W (scatter _ _)) with (get W [w; i; j; w']). rewrite ent2. f_equal.
    unfold o1. rewrite get_tensordot.
    2:{ unfold ndim. rewrite Sr. change (inr [w'; b'] [rw; ra]). inrs. }
    2:{ unfold ndim. rewrite SA. change (inr [a; j] [la; d]). inrs. }
    unfold ndim. rewrite Sr, SA. cbn [gather map nth msum].
    apply bigsum_ext. intros a' Ha'. reflexivity. }
  unfold site3. rewrite SW. cbn [nth].
  transitivity (bigsum ra (fun b' => bigsum d (fun i => bigsum rw (fun w' => bigsum d (fun j => bigsum ra (fun a' =>
     (ent A a [j] a' * ent W w [i; j] w' * kconj (ent A b [i] b')) * get rv [a'; w'; b'])))))%K).
  { apply bigsum_ext. intros b' _. apply bigsum_ext. intros i _. rewrite <- bigsum_mul_r.
    apply bigsum_ext. intros w' _. rewrite <- bigsum_mul_r. apply bigsum_ext. intros j _.
    rewrite <- !bigsum_mul_r. apply bigsum_ext. intros a' _. ring. }
  transitivity (bigsum ra (fun a' => bigsum ra (fun b' => bigsum d (fun i => bigsum rw (fun w' => bigsum d (fun j =>
     (ent A a [j] a' * ent W w [i; j] w' * kconj (ent A b [i] b')) * get rv [a'; w'; b'])))))%K).
  { symmetry. rewrite bigsum_swap. apply bigsum_ext. intros b' _.
    rewrite bigsum_swap. apply bigsum_ext. intros i _.
    rewrite bigsum_swap. apply bigsum_ext. intros w' _.
    rewrite bigsum_swap. reflexivity. }
  apply bigsum_ext. intros a' _. rewrite bigsum_swap.
  transitivity (bigsum d (fun i => bigsum rw (fun w' => bigsum ra (fun b' => bigsum d (fun j =>
     (ent A a [j] a' * ent W w [i; j] w' * kconj (ent A b [i] b')) * get rv [a'; w'; b']))))%K).
  { apply bigsum_ext. intros i _. apply bigsum_swap. }
  rewrite bigsum_swap. apply bigsum_ext. intros w' _. rewrite bigsum_swap. apply bigsum_ext. intros b' _.
  rewrite <- bigsum_mul_r. apply bigsum_ext. intros i _. rewrite <- bigsum_mul_r. reflexivity.
Qed.

(** ** Overlap environments *)
(** Two layers: [sum_i conj(s[i]) t[i]]. *)
Definition site2 (S T : nd K) (s t s' t' : nat) : K :=
  bigsum (nth 1 (shp S) 0) (fun i => (kconj (ent S s [i] s') * ent T t [i] t')%K).

Lemma leftvec_add_mps_spec (lv S T : nd K) ls lt' rs rt d :
  shp lv = [ls; lt'] -> shp S = [ls; d; rs] -> shp T = [lt'; d; rt] ->
  exists o, eig_leftvec_add_mps lv S T = Ok o /\ ndwf o /\ shp o = [rs; rt] /\
  forall s' t', s' < rs -> t' < rt ->
    get o [s'; t'] = bigsum ls (fun s => bigsum lt' (fun t => get lv [s; t] * site2 S T s t s' t'))%K.
Proof.
  intros Sl SS ST. unfold eig_leftvec_add_mps.
  assert (Sc : shp (nconj S) = [ls; d; rs]) by exact SS.
  set (o1 := tensordot lv (nconj S) [0] [0]).
  assert (S1 : shp o1 = [lt'; d; rs]) by (unfold o1; shtd; rewrite Sl, Sc; reflexivity).
  rewrite np_tensordot_c; [|reflexivity|rewrite Sl, Sc; reflexivity]. fold o1. cbn [bind].
  rewrite np_tensordot_c; [|reflexivity|rewrite S1, ST; reflexivity].
  eexists. split; [reflexivity|]. split; [apply wf_tab|]. split; [shtd; rewrite S1, ST; reflexivity|].
  intros s' t' Hs Ht. change [s'; t'] with ([s'] ++ [t']). rewrite get_tensordot.
  2:{ unfold ndim. rewrite S1. change (inr [s'] [rs]). inrs. }
  2:{ unfold ndim. rewrite ST. change (inr [t'] [rt]). inrs. }
  unfold ndim. rewrite S1, ST. cbn [gather map nth msum]. unfold site2. rewrite SS. cbn [nth].
  transitivity (bigsum lt' (fun t => bigsum d (fun i => bigsum ls (fun s =>
     get lv [s; t] * (kconj (ent S s [i] s') * ent T t [i] t'))))%K).
  { apply bigsum_ext. intros t Ht'. apply bigsum_ext. intros i Hi.
    change (get o1 (scatter _ _)) with (get o1 ([t] ++ [i; s'])).
    change (get T (scatter _ _)) with (get T [t; i; t']). rewrite ent1.
    unfold o1. rewrite get_tensordot.
    2:{ unfold ndim. rewrite Sl. change (inr [t] [lt']). inrs. }
    2:{ unfold ndim. rewrite Sc. change (inr [i; s'] [d; rs]). inrs. }
    unfold ndim. rewrite Sl, Sc. cbn [gather map nth msum]. rewrite <- bigsum_mul_r.
    apply bigsum_ext. intros s _. rewrite get_nconj.
    change (get S (scatter _ _)) with (get S [s; i; s']). change (get lv (scatter _ _)) with (get lv [s; t]).
    rewrite !ent1. ring. }
  transitivity (bigsum ls (fun s => bigsum lt' (fun t => bigsum d (fun i =>
     get lv [s; t] * (kconj (ent S s [i] s') * ent T t [i] t'))))%K).
  { symmetry. rewrite bigsum_swap. apply bigsum_ext. intros t _. rewrite bigsum_swap. reflexivity. }
  apply bigsum_ext. intros s _. apply bigsum_ext. intros t _. rewrite <- bigsum_mul_l. reflexivity.
Qed.

Lemma rightvec_add_mps_spec (rv S T : nd K) ls lt' rs rt d :
  shp rv = [rs; rt] -> shp S = [ls; d; rs] -> shp T = [lt'; d; rt] ->
  exists o, eig_rightvec_add_mps rv S T = Ok o /\ ndwf o /\ shp o = [ls; lt'] /\
  forall s t, s < ls -> t < lt' ->
    get o [s; t] = bigsum rs (fun s' => bigsum rt (fun t' => site2 S T s t s' t' * get rv [s'; t']))%K.
Proof.
  intros Sr SS ST. unfold eig_rightvec_add_mps.
  assert (Sc : shp (nconj S) = [ls; d; rs]) by exact SS.
  set (o1 := tensordot rv (nconj S) [0] [2]).
  assert (S1 : shp o1 = [rt; ls; d]) by (unfold o1; shtd; rewrite Sr, Sc; reflexivity).
  rewrite np_tensordot_c; [|reflexivity|rewrite Sr, Sc; reflexivity]. fold o1. cbn [bind].
  rewrite np_tensordot_c; [|reflexivity|rewrite S1, ST; reflexivity].
  eexists. split; [reflexivity|]. split; [apply wf_tab|]. split; [shtd; rewrite S1, ST; reflexivity|].
  intros s t Hs Ht. change [s; t] with ([s] ++ [t]). rewrite get_tensordot.
  2:{ unfold ndim. rewrite S1. change (inr [s] [ls]). inrs. }
  2:{ unfold ndim. rewrite ST. change (inr [t] [lt']). inrs. }
  unfold ndim. rewrite S1, ST. cbn [gather map nth msum]. unfold site2. rewrite SS. cbn [nth].
  transitivity (bigsum rt (fun t' => bigsum d (fun i => bigsum rs (fun s' =>
     (kconj (ent S s [i] s') * ent T t [i] t') * get rv [s'; t'])))%K).
  { apply bigsum_ext. intros t' Ht'. apply bigsum_ext. intros i Hi.
    change (get o1 (scatter _ _)) with (get o1 ([t'] ++ [s; i])).
    change (get T (scatter _ _)) with (get T [t; i; t']). rewrite ent1.
    unfold o1. rewrite get_tensordot.
    2:{ unfold ndim. rewrite Sr. change (inr [t'] [rt]). inrs. }
    2:{ unfold ndim. rewrite Sc. change (inr [s; i] [ls; d]). inrs. }
    unfold ndim. rewrite Sr, Sc. cbn [gather map nth msum]. rewrite <- bigsum_mul_r.
    apply bigsum_ext. intros s' _. rewrite get_nconj.
    change (get S (scatter _ _)) with (get S [s; i; s']). change (get rv (scatter _ _)) with (get rv [s'; t']).
    rewrite !ent1. ring. }
  transitivity (bigsum rs (fun s' => bigsum rt (fun t' => bigsum d (fun i =>
     (kconj (ent S s [i] s') * ent T t [i] t') * get rv [s'; t'])))%K).
  { symmetry. rewrite bigsum_swap. apply bigsum_ext. intros t' _. rewrite bigsum_swap. reflexivity. }
  apply bigsum_ext. intros s' _. apply bigsum_ext. intros t' _. rewrite <- bigsum_mul_r. reflexivity.
Qed.

(** The environments of variational compression: axes (compressed, target). *)
Lemma adapt_add_l_spec (lv C T : nd K) lc lt' rc rt d :
  shp lv = [lc; lt'] -> shp C = [lc; d; rc] -> shp T = [lt'; d; rt] ->
  exists o, adapt_add_l lv C T = Ok o /\ ndwf o /\ shp o = [rc; rt] /\
  forall c' t', c' < rc -> t' < rt ->
    get o [c'; t'] = bigsum lc (fun c => bigsum lt' (fun t => get lv [c; t] * site2 T C t c t' c'))%K.
Proof.
  intros Sl SC ST. unfold adapt_add_l.
  rewrite named_new_c by (unfold ndim; rewrite ?Sl; reflexivity). cbn [bind].
  rewrite named_new_c by (unfold ndim; rewrite ?SC; reflexivity). cbn [bind].
  rewrite named_new_c by (unfold ndim; rewrite ?ST; reflexivity). cbn [bind].
  set (o1 := tensordot lv C [0] [0]).
  assert (S1 : shp o1 = [lt'; d; rc]) by (unfold o1; shtd; rewrite Sl, SC; reflexivity).
  rewrite (ntensordot_c lv C _ _ _ [0] [0] ["tgt_bond"; "compr_phys"; "compr_right_bond"]);
    try reflexivity; [|rewrite Sl, SC; reflexivity|fold o1; unfold ndim; rewrite S1; reflexivity].
  fold o1. cbn [bind].
  assert (Sc : shp (nconj T) = [lt'; d; rt]) by exact ST.
  rewrite (named_conj_c T _); try reflexivity; [|unfold ndim; rewrite ST; reflexivity]. cbn [bind].
  set (o2 := tensordot o1 (nconj T) [1; 0] [1; 0]).
  assert (S2 : shp o2 = [rc; rt]) by (unfold o2; shtd; rewrite S1, Sc; reflexivity).
  rewrite (ntensordot_c o1 (nconj T) _ _ _ [1; 0] [1; 0] ["compr_right_bond"; "tgt_right_bond"]);
    try reflexivity; [|rewrite S1, Sc; reflexivity|fold o2; unfold ndim; rewrite S2; reflexivity].
  fold o2. cbn [bind].
  rewrite (nrename_c o2 _ _ ["compr_bond"; "tgt_bond"]);
    try reflexivity; [|unfold ndim; rewrite S2; reflexivity]. cbn [bind].
  rewrite (nto_array_c o2 _ _ [0; 1]); try reflexivity; [|unfold ndim; rewrite S2; reflexivity].
  eexists. split; [reflexivity|]. split; [apply wf_transpose|].
  split; [rewrite shp_transpose, S2; reflexivity|].
  intros c' t' Hc Ht. change [c'; t'] with (gather [0; 1] [c'; t']).
  rewrite get_transpose_gather; [|apply Permutation.Permutation_refl|unfold ndim; rewrite S2; reflexivity|rewrite S2; inrs].
  unfold o2. change [c'; t'] with ([c'] ++ [t']). rewrite get_tensordot.
  2:{ unfold ndim. rewrite S1. change (inr [c'] [rc]). inrs. }
  2:{ unfold ndim. rewrite Sc. change (inr [t'] [rt]). inrs. }
  unfold ndim. rewrite S1, Sc. cbn [gather map nth msum]. unfold site2. rewrite ST. cbn [nth].
  transitivity (bigsum d (fun i => bigsum lt' (fun t => bigsum lc (fun c =>
     get lv [c; t] * (kconj (ent T t [i] t') * ent C c [i] c'))))%K).
  { apply bigsum_ext. intros i Hi. apply bigsum_ext. intros t Ht'.
    change (get o1 (scatter _ _)) with (get o1 ([t] ++ [i; c'])). rewrite get_nconj.
    change (get T (scatter _ _)) with (get T [t; i; t']). rewrite !ent1.
    unfold o1. rewrite get_tensordot.
    2:{ unfold ndim. rewrite Sl. change (inr [t] [lt']). inrs. }
    2:{ unfold ndim. rewrite SC. change (inr [i; c'] [d; rc]). inrs. }
    unfold ndim. rewrite Sl, SC. cbn [gather map nth msum]. rewrite <- bigsum_mul_r.
    apply bigsum_ext. intros c _.
    change (get C (scatter _ _)) with (get C [c; i; c']). change (get lv (scatter _ _)) with (get lv [c; t]).
    rewrite !ent1. ring. }
  transitivity (bigsum lc (fun c => bigsum lt' (fun t => bigsum d (fun i =>
     get lv [c; t] * (kconj (ent T t [i] t') * ent C c [i] c'))))%K).
  { transitivity (bigsum d (fun i => bigsum lc (fun c => bigsum lt' (fun t =>
      get lv [c; t] * (kconj (ent T t [i] t') * ent C c [i] c'))))%K).
    { apply bigsum_ext. intros i _. apply bigsum_swap. }
    rewrite bigsum_swap. apply bigsum_ext. intros c _. rewrite bigsum_swap. reflexivity. }
  apply bigsum_ext. intros c _. apply bigsum_ext. intros t _. rewrite <- bigsum_mul_l. reflexivity.
Qed.

Lemma adapt_add_r_spec (rv C T : nd K) lc lt' rc rt d :
  shp rv = [rc; rt] -> shp C = [lc; d; rc] -> shp T = [lt'; d; rt] ->
  exists o, adapt_add_r rv C T = Ok o /\ ndwf o /\ shp o = [lc; lt'] /\
  forall c t, c < lc -> t < lt' ->
    get o [c; t] = bigsum rc (fun c' => bigsum rt (fun t' => site2 T C t c t' c' * get rv [c'; t']))%K.
Proof.
  intros Sr SC ST. unfold adapt_add_r.
  rewrite named_new_c by (unfold ndim; rewrite ?Sr; reflexivity). cbn [bind].
  rewrite named_new_c by (unfold ndim; rewrite ?SC; reflexivity). cbn [bind].
  rewrite named_new_c by (unfold ndim; rewrite ?ST; reflexivity). cbn [bind].
  set (o1 := tensordot rv C [0] [2]).
  assert (S1 : shp o1 = [rt; lc; d]) by (unfold o1; shtd; rewrite Sr, SC; reflexivity).
  rewrite (ntensordot_c rv C _ _ _ [0] [2] ["tgt_bond"; "compr_left_bond"; "compr_phys"]);
    try reflexivity; [|rewrite Sr, SC; reflexivity|fold o1; unfold ndim; rewrite S1; reflexivity].
  fold o1. cbn [bind].
  assert (Sc : shp (nconj T) = [lt'; d; rt]) by exact ST.
  rewrite (named_conj_c T _); try reflexivity; [|unfold ndim; rewrite ST; reflexivity]. cbn [bind].
  set (o2 := tensordot o1 (nconj T) [2; 0] [1; 2]).
  assert (S2 : shp o2 = [lc; lt']) by (unfold o2; shtd; rewrite S1, Sc; reflexivity).
  rewrite (ntensordot_c o1 (nconj T) _ _ _ [2; 0] [1; 2] ["compr_left_bond"; "tgt_left_bond"]);
    try reflexivity; [|rewrite S1, Sc; reflexivity|fold o2; unfold ndim; rewrite S2; reflexivity].
  fold o2. cbn [bind].
  rewrite (nrename_c o2 _ _ ["compr_bond"; "tgt_bond"]);
    try reflexivity; [|unfold ndim; rewrite S2; reflexivity]. cbn [bind].
  rewrite (nto_array_c o2 _ _ [0; 1]); try reflexivity; [|unfold ndim; rewrite S2; reflexivity].
  eexists. split; [reflexivity|]. split; [apply wf_transpose|].
  split; [rewrite shp_transpose, S2; reflexivity|].
  intros c t Hc Ht. change [c; t] with (gather [0; 1] [c; t]).
  rewrite get_transpose_gather; [|apply Permutation.Permutation_refl|unfold ndim; rewrite S2; reflexivity|rewrite S2; inrs].
  unfold o2. change [c; t] with ([c] ++ [t]). rewrite get_tensordot.
  2:{ unfold ndim. rewrite S1. change (inr [c] [lc]). inrs. }
  2:{ unfold ndim. rewrite Sc. change (inr [t] [lt']). inrs. }
  unfold ndim. rewrite S1, Sc. cbn [gather map nth msum]. unfold site2. rewrite ST. cbn [nth].
  transitivity (bigsum d (fun i => bigsum rt (fun t' => bigsum rc (fun c' =>
     (kconj (ent T t [i] t') * ent C c [i] c') * get rv [c'; t'])))%K).
  { apply bigsum_ext. intros i Hi. apply bigsum_ext. intros t' Ht'.
    change (get o1 (scatter _ _)) with (get o1 ([t'] ++ [c; i])). rewrite get_nconj.
    change (get T (scatter _ _)) with (get T [t; i; t']). rewrite !ent1.
    unfold o1. rewrite get_tensordot.
    2:{ unfold ndim. rewrite Sr. change (inr [t'] [rt]). inrs. }
    2:{ unfold ndim. rewrite SC. change (inr [c; i] [lc; d]). inrs. }
    unfold ndim. rewrite Sr, SC. cbn [gather map nth msum]. rewrite <- bigsum_mul_r.
    apply bigsum_ext. intros c' _.
    change (get C (scatter _ _)) with (get C [c; i; c']). change (get rv (scatter _ _)) with (get rv [c'; t']).
    rewrite !ent1. ring. }
  transitivity (bigsum rc (fun c' => bigsum rt (fun t' => bigsum d (fun i =>
     (kconj (ent T t [i] t') * ent C c [i] c') * get rv [c'; t'])))%K).
  { transitivity (bigsum d (fun i => bigsum rc (fun c' => bigsum rt (fun t' =>
      (kconj (ent T t [i] t') * ent C c [i] c') * get rv [c'; t'])))%K).
    { apply bigsum_ext. intros i _. apply bigsum_swap. }
    rewrite bigsum_swap. apply bigsum_ext. intros c' _. rewrite bigsum_swap. reflexivity. }
  apply bigsum_ext. intros c' _. apply bigsum_ext. intros t' _. rewrite <- bigsum_mul_r. reflexivity.
Qed.
End Steps.
