(** Variational compression: the local update is the orthogonal projection of the
    target. *)
From Coq Require Import String.
From Verif Require Export PfEig.
From Verif Require Import PfCanon PfBounds PfUpdate PfFromArray PfCompress.
Open Scope string_scope.
Open Scope list_scope.
Open Scope nat_scope.

(** ** Specification *)
Section Spec.
Context {K : StarRing}.
(** The tensor of the window that makes up the overlap of the dense target [T] with
    the unit tensors of the window. *)
Definition proj_ent (d1 d3 : list nat) (X1 X3 : list (nd K)) (T : list nat -> K) (r : list nat) : K :=
  msum d1 (fun i1 => msum d3 (fun i3 =>
    kconj (amp X1 (singles i1) 0 (hd0 r) * amp X3 (singles i3) (last0 r) 0) * T (i1 ++ mid r ++ i3)))%K.
Definition proj_t (d1 d2 d3 : list nat) (la ra : nat) (X1 X3 : list (nd K)) (T : list nat -> K) : nd K :=
  tab (la :: d2 ++ [ra]) (proj_ent d1 d3 X1 X3 T).
(** A tensor of the window as sites. *)
Definition split_t (qr : nd K -> res (nd K * nd K)) (svd : nd K -> res (nd K * list K * nd K)) (v mr : nat) (t : nd K) : res (list (nd K)) :=
  if Nat.eqb v 1 then Ok [t]
  else
    do z <- from_array qr t (NDInt 1) true;
    do p <- compress_svd qr svd (truncated_svd svd) z (Some mr) None DNone true;
    Ok (lts (fst p)).
Definition proj_locl qr svd ds T v mr (x : ltens K) (pos : nat) : res (unit * list (nd K)) :=
  let win := ins pos v (lts x) in
  do us <- split_t qr svd v mr (proj_t (bef pos ds) (ins pos v ds) (aft pos v ds) (bond_l win) (bond_r win) (bef pos (lts x)) (aft pos v (lts x)) T);
  Ok (tt, us).
End Spec.

Section Var.
Context {K : StarRing}.
Add Ring Kr : (k_ring K).
Ltac inrs := repeat (apply inr_cons; [lia|]); constructor.
Ltac shtd := rewrite shp_tensordot; unfold ndim.

Definition adapt_core (leftvec t rightvec : nd K) : res (nd K) :=
  do lv <- named_new leftvec ["compr_left_bond"; "tgt_left_bond"];
  do t <- named_new t ["tgt_left_bond"; "tgt_phys"; "tgt_right_bond"];
  do rv <- named_new rightvec ["compr_right_bond"; "tgt_right_bond"];
  do tc <- named_conj t;
  do c <- ntensordot lv tc [("tgt_left_bond", "tgt_left_bond")];
  do c <- ntensordot c rv [("tgt_right_bond", "tgt_right_bond")];
  nto_array c ["compr_left_bond"; "tgt_phys"; "compr_right_bond"].

Lemma adapt_core_spec (lv T rv : nd K) lc lt' rc rt d :
  shp lv = [lc; lt'] -> shp T = [lt'; d; rt] -> shp rv = [rc; rt] ->
  exists o, adapt_core lv T rv = Ok o /\ ndwf o /\ shp o = [lc; d; rc] /\
  forall a i b, a < lc -> i < d -> b < rc ->
    get o [a; i; b] = bigsum rt (fun t' => bigsum lt' (fun t => get lv [a; t] * kconj (get T [t; i; t'])) * get rv [b; t'])%K.
Proof.
  intros Sl ST Sr. unfold adapt_core.
  rewrite named_new_c by (unfold ndim; rewrite ?Sl; reflexivity). cbn [bind].
  rewrite named_new_c by (unfold ndim; rewrite ?ST; reflexivity). cbn [bind].
  rewrite named_new_c by (unfold ndim; rewrite ?Sr; reflexivity). cbn [bind].
  assert (Sc : shp (nconj T) = [lt'; d; rt]) by exact ST.
  rewrite (named_conj_c T _); try reflexivity; [|unfold ndim; rewrite ST; reflexivity]. cbn [bind].
  set (o1 := tensordot lv (nconj T) [1] [0]).
  assert (S1 : shp o1 = [lc; d; rt]) by (unfold o1; shtd; rewrite Sl, Sc; reflexivity).
  rewrite (ntensordot_c lv (nconj T) _ _ _ [1] [0] ["compr_left_bond"; "tgt_phys"; "tgt_right_bond"]);
    try reflexivity; [|rewrite Sl, Sc; reflexivity|fold o1; unfold ndim; rewrite S1; reflexivity].
  fold o1. cbn [bind].
  set (o2 := tensordot o1 rv [2] [1]).
  assert (S2 : shp o2 = [lc; d; rc]) by (unfold o2; shtd; rewrite S1, Sr; reflexivity).
  rewrite (ntensordot_c o1 rv _ _ _ [2] [1] ["compr_left_bond"; "tgt_phys"; "compr_right_bond"]);
    try reflexivity; [|rewrite S1, Sr; reflexivity|fold o2; unfold ndim; rewrite S2; reflexivity].
  fold o2. cbn [bind].
  rewrite (nto_array_c o2 _ _ [0; 1; 2]); try reflexivity; [|unfold ndim; rewrite S2; reflexivity].
  eexists. split; [reflexivity|]. split; [apply wf_transpose|].
  split; [rewrite shp_transpose, S2; reflexivity|].
  intros a i b Ha Hi Hb. change [a; i; b] with (gather [0; 1; 2] [a; i; b]) at 1.
  rewrite get_transpose_gather; [|apply Permutation.Permutation_refl|unfold ndim; rewrite S2; reflexivity|rewrite S2; inrs].
  unfold o2. change [a; i; b] with ([a; i] ++ [b]). rewrite get_tensordot.
  2:{ unfold ndim. rewrite S1. change (inr [a; i] [lc; d]). inrs. }
  2:{ unfold ndim. rewrite Sr. change (inr [b] [rc]). inrs. }
  unfold ndim. rewrite S1, Sr. cbn [gather map nth msum].
  apply bigsum_ext. intros t' Ht'. change (get o1 (scatter _ _)) with (get o1 ([a] ++ [i; t'])).
  change (get rv (scatter _ _)) with (get rv [b; t']). f_equal.
  unfold o1. rewrite get_tensordot.
  2:{ unfold ndim. rewrite Sl. change (inr [a] [lc]). inrs. }
  2:{ unfold ndim. rewrite Sc. change (inr [i; t'] [d; rt]). inrs. }
  unfold ndim. rewrite Sl, Sc. cbn [gather map nth msum]. apply bigsum_ext. intros t _. rewrite get_nconj. reflexivity.
Qed.

(** [_adapt_to_new_lten] *)
Variable qr : nd K -> res (nd K * nd K).
Variable svd : nd K -> res (nd K * list K * nd K).

Lemma new_lten_proj (T1 T2 T3 X1 X3 : list (nd K)) d1 d2 d3 lt' rt la ra lv rv mr :
  mps_like T1 d1 -> chain_ok T2 lt' rt -> mps_like T2 d2 -> mps_like T3 d3 -> bonds T1 1 lt' -> bonds T3 rt 1 ->
  mps_like X1 d1 -> mps_like X3 d3 -> bonds X1 1 la -> bonds X3 ra 1 ->
  shp lv = [la; lt'] -> shp rv = [ra; rt] ->
  (forall y, inr y (shp lv) -> get lv y = gram2' X1 T1 [0; 0] y) ->
  (forall x, inr x (shp rv) -> get rv x = gram2' X3 T3 x [0; 0]) ->
  adapt_new_lten qr svd lv T2 rv mr =
  split_t qr svd (length T2) mr (proj_t d1 d2 d3 la ra X1 X3 (fun is => amp (T1 ++ T2 ++ T3) (singles is) 0 0)).
Proof.
  intros M1 (N2 & B2 & P2) M2 M3 B1 B3 Y1 Y3 BX1 BX3 Sl Sr Gl Gr. unfold adapt_new_lten.
  destruct (bonds_pos_ends _ _ _ N2 B2 P2) as (Hl & Hr & Hs). fold (sdims T2) in Hs. rewrite (sdims_mps _ _ M2) in Hs.
  destruct (ltens_to_array_spec T2 lt' rt N2 B2) as (Ot & Tl & Tr & Tp & At). cbn zeta in *.
  assert (E0 : (match T2 with [] => Err StopIteration | t :: ts => foldM matdot_py ts t end) = Ok (ltens_to_array T2)).
  { destruct T2 as [|t ts]; [contradiction|]. destruct B2 as (O1 & _ & B2). apply (foldM_matdot ts t rt O1 B2). }
  rewrite E0. cbn [bind]. set (t0 := ltens_to_array T2) in *.
  assert (S0 : shp t0 = lt' :: d2 ++ [rt]).
  { rewrite (lt_ok_shp _ Ot), Tl, Tp, Tr. fold (sdims T2). rewrite (sdims_mps _ _ M2). reflexivity. }
  rewrite S0. cbn [hd tl]. change (lt' :: d2 ++ [rt]) with ((lt' :: d2) ++ [rt]) at 1. rewrite last_last, removelast_last.
  assert (R : reshape_py t0 [Z.of_nat lt'; (-1)%Z; Z.of_nat rt] = Ok (reshape t0 [lt'; size d2; rt])).
  { unfold reshape_py. rewrite S0. replace (size (lt' :: d2 ++ [rt])) with (size [lt'; size d2; rt])
      by (rewrite !size_cons, size_app, !size_cons, size_nil; ring).
    change [Z.of_nat lt'; (-1)%Z; Z.of_nat rt] with (map Z.of_nat [lt'] ++ (-1)%Z :: map Z.of_nat [rt]).
    rewrite (resolve_shape_spec _ ([lt'] ++ size d2 :: [rt])); [reflexivity|]. apply RT_one; unfold size; cbn; lia. }
  rewrite R. cbn [bind]. set (tt0 := reshape t0 [lt'; size d2; rt]).
  destruct (adapt_core_spec lv tt0 rv la lt' ra rt (size d2) Sl eq_refl Sr) as (o & Eo & Wo & So & Go).
  unfold adapt_core in Eo.
  destruct (named_new lv _) as [nl|]; [|discriminate]. cbn [bind] in *.
  destruct (named_new tt0 _) as [nt|]; [|discriminate]. cbn [bind] in *.
  destruct (named_new rv _) as [nr|]; [|discriminate]. cbn [bind] in *.
  destruct (named_conj nt) as [ntc|]; [|discriminate]. cbn [bind] in *.
  destruct (ntensordot nl ntc _) as [c1|]; [|discriminate]. cbn [bind] in *.
  destruct (ntensordot c1 nr _) as [c2|]; [|discriminate]. cbn [bind] in *.
  rewrite Eo. cbn [bind]. change (shp (nconj o)) with (shp o). rewrite So. cbn [hd].
  change (List.last [la; size d2; ra] 0) with ra.
  rewrite zshape_reshape by (change (shp (nconj o)) with (shp o); rewrite So, !size_cons, size_app, !size_cons, size_nil; ring). cbn [bind].
  assert (E : reshape (nconj o) (la :: d2 ++ [ra]) = proj_t d1 d2 d3 la ra X1 X3 (fun is => amp (T1 ++ T2 ++ T3) (singles is) 0 0)).
  2: { rewrite E. reflexivity. }
  apply nd_eq.
  - apply wf_reshape; [apply wf_nconj; exact Wo|]. change (shp (nconj o)) with (shp o). rewrite So, !size_cons, size_app, !size_cons, size_nil. ring.
  - apply wf_tab.
  - reflexivity.
  - intros r Hr0. change (inr r (la :: d2 ++ [ra])) in Hr0. unfold proj_t. rewrite get_tab by exact Hr0.
    destruct (inr_cons_inv _ _ _ Hr0) as (a & r' & -> & Ha & Hr'). apply inr_app_inv in Hr'. destruct Hr' as (js & bb & -> & Hj & Hb).
    destruct (inr_cons_inv _ _ _ Hb) as (b & bb' & -> & Hb' & Hn). apply inr_nil_inv in Hn. subst bb'.
    assert (X : get (reshape (nconj o) (la :: d2 ++ [ra])) (a :: js ++ [b]) = kconj (get o [a; ravel d2 js; b])).
    { rewrite <- get_nconj. unfold get, reshape. cbn [shp dat nconj]. change (shp (nconj o)) with (shp o). rewrite So, ravel_mid by exact Hj. reflexivity. }
    rewrite X, Go; auto; [|apply ravel_lt; exact Hj]. unfold proj_ent. rewrite hd_mk, last_mk, mid_mk.
    rewrite Sl in Gl. rewrite Sr in Gr.
    assert (F : bigsum rt (fun s' => bigsum lt' (fun s => get lv [a; s] * kconj (get tt0 [s; ravel d2 js; s'])) * get rv [b; s'])%K =
      msum d1 (fun j1 => msum d3 (fun j3 => kconj (amp (T1 ++ T2 ++ T3) (singles (j1 ++ js ++ j3)) 0 0) * (amp X1 (singles j1) 0 a * amp X3 (singles j3) b 0)))%K).
    2: { rewrite F, msum_conj. apply msum_ext. intros i1 _. rewrite msum_conj. apply msum_ext. intros i3 _. rewrite (kconj_mul K (kconj _)), (kconj_invol K). ring. }
    transitivity (bigsum rt (fun s' => bigsum lt' (fun s => msum d1 (fun j1 => msum d3 (fun j3 =>
      kconj (amp T1 (singles j1) 0 s * amp T2 (singles js) s s' * amp T3 (singles j3) s' 0) * (amp X1 (singles j1) 0 a * amp X3 (singles j3) b 0)))))%K).
    { apply bigsum_ext. intros s' Hs'. rewrite <- bigsum_mul_r. apply bigsum_ext. intros s Hs0.
      rewrite Gl, Gr by (repeat (apply inr_cons; [lia|]); constructor). unfold gram2', b3, gram. cbn [nth].
      rewrite M1, M3, !msums_singles.
      replace (get tt0 [s; ravel d2 js; s']) with (amp T2 (singles js) s s').
      2: { assert (V : idx_ok (singles js) T2) by (unfold idx_ok; rewrite M2; apply singles_valid; exact Hj).
           specialize (At s (singles js) s' Hs0 V Hs'). rewrite <- At. unfold ent. rewrite concat_singles.
           unfold get, tt0, reshape. cbn [shp dat]. rewrite S0, ravel_mid by exact Hj. reflexivity. }
      transitivity (msum d1 (fun cs => kconj (amp T1 (singles cs) 0 s) * amp X1 (singles cs) 0 a) *
        (kconj (amp T2 (singles js) s s') * msum d3 (fun cs => kconj (amp T3 (singles cs) s' 0) * amp X3 (singles cs) b 0)))%K; [ring|].
      rewrite <- msum_mul_r. apply msum_ext. intros j1 _. rewrite <- !msum_mul_l. apply msum_ext. intros j3 _.
      rewrite !(kconj_mul K). ring. }
    transitivity (msum d1 (fun j1 => msum d3 (fun j3 => bigsum rt (fun s' => bigsum lt' (fun s =>
      kconj (amp T1 (singles j1) 0 s * amp T2 (singles js) s s' * amp T3 (singles j3) s' 0) * (amp X1 (singles j1) 0 a * amp X3 (singles j3) b 0)))))%K).
    { transitivity (bigsum rt (fun s' => msum d1 (fun j1 => msum d3 (fun j3 => bigsum lt' (fun s =>
        kconj (amp T1 (singles j1) 0 s * amp T2 (singles js) s s' * amp T3 (singles j3) s' 0) * (amp X1 (singles j1) 0 a * amp X3 (singles j3) b 0)))))%K).
      - apply bigsum_ext. intros s' _. rewrite <- msum_bigsum_swap. apply msum_ext. intros j1 _. rewrite <- msum_bigsum_swap. reflexivity.
      - rewrite <- msum_bigsum_swap. apply msum_ext. intros j1 _. rewrite <- msum_bigsum_swap. reflexivity. }
    apply msum_ext. intros j1 G1. apply msum_ext. intros j3 G3.
    pose proof (mps_like_length _ _ M1) as L1. pose proof (mps_like_length _ _ M2) as L2.
    apply inr_length in G1. apply inr_length in Hj. rewrite !singles_app.
    rewrite (amp_app T1 (T2 ++ T3) _ _ 0 0 1 lt'); [|rewrite singles_length; lia|exact B1|lia].
    rewrite bigsum_conj, <- bigsum_mul_r. rewrite bigsum_swap. apply bigsum_ext. intros s Hs0.
    rewrite (amp_app T2 T3 _ _ s 0 lt' rt); [|rewrite singles_length; lia|exact B2|lia].
    rewrite (kconj_mul K), bigsum_conj, <- bigsum_mul_l, <- bigsum_mul_r. apply bigsum_ext. intros s' Hs'.
    rewrite !(kconj_mul K). ring.
Qed.
End Var.
