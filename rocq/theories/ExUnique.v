(** Runs of the SVD compression and of the dense reference on two sites; an array with
    two equal singular values. *)
From Coq Require Import Reals Lra.
From Verif Require Export PfUnique2 ExQuasi.
Local Open Scope nat_scope.

Lemma rank_run3 : exists z ov,
  compress_svd (fun _ => Err LinAlgError) svd_d32 (truncated_svd svd_d32) re_x (Some 1) None DRight true = Ok (z, ov) /\ ranks z = [1] /\
  to_array z = mkNd [2; 2] (ExRelErr.cs [3; 0; 0; 0]%R).
Proof.
  pose proof svd_d32_val as H.
  assert (E1 : canonicalize (fun _ => Err LinAlgError) re_x CANone (CAInt 1) = Ok re_x) by reflexivity.
  assert (E2 : csvd_r_factor svd_d32 (truncated_svd svd_d32) 1 None re_x 0 =
    Ok (mkNd [1; 2; 2] (ExRelErr.cs [3; 0; 0; 2]%R), take_cols 1 one2, ExRelErr.cs [3]%R, take_rows 1 one2, 1)).
  { unfold csvd_r_factor. change (pyget (lts re_x) 0) with (Ok (mkNd [1; 2; 2] (ExRelErr.cs [3; 0; 0; 2]%R)) : res (nd CS)). cbn [bind].
    change (shape_last (mkNd [1; 2; 2] (ExRelErr.cs [3; 0; 0; 2]%R))) with (Ok 2 : res nat). cbn [bind].
    change (reshape_py (mkNd [1; 2; 2] (ExRelErr.cs [3; 0; 0; 2]%R)) [(-1)%Z; Z.of_nat 2]) with (Ok d32). cbn [bind svd_site]. unfold truncated_svd. rewrite H. reflexivity. }
  assert (E3 : exists z ys ov, compress_svd_r svd_d32 (truncated_svd svd_d32) re_x 1 None = Ok (z, ys, ov) /\ ranks z = [1] /\ to_array z = mkNd [2; 2] (ExRelErr.cs [3; 0; 0; 0]%R)).
  { unfold compress_svd_r. change (pyrange 0 (Z.of_nat (llen re_x) - 1) 1) with [0%Z]. cbn [Nat.ltb Nat.leb passert csvd_loop].
    unfold csvd_r_step. rewrite E2. cbn [bind]. do 3 eexists. split; [reflexivity|]. split; [reflexivity|]. lazy -[Rplus Rmult Rminus Ropp IZR]. repeat f_equal; ring. }
  destruct E3 as [z [ys [ov [E3 E4]]]]. exists z, ov. split; [|exact E4].
  unfold compress_svd. change (Nat.eqb (llen re_x) 1) with false. unfold canonical_form. cbn iota. cbn [bind].
  rewrite E1. cbn [bind]. rewrite E3. reflexivity.
Qed.
Lemma re_x_array : to_array re_x = d32.
Proof. lazy -[Rplus Rmult Rminus Ropp IZR]. repeat f_equal; ring. Qed.
Lemma ref_run3 : exists b, ref_compression_svd svd_d32 (to_array re_x) 1 true true = Ok b /\ shp (fst b) = [2; 2] /\
  map Cre (dat (fst b)) = [3; 0; 0; 0]%R /\ fst b = mkNd [2; 2] (ExRelErr.cs [3; 0; 0; 0]%R).
Proof.
  rewrite re_x_array.
  assert (E : exists p, singlecut svd_d32 true d32 1 1 = Ok (mkNd [2; 2] (ExRelErr.cs [3; 0; 0; 0]%R), p)).
  { unfold singlecut, svd_reduced. change (reshape_py d32 [Z.of_nat (size (firstn 1 (shp d32))); (-1)%Z]) with (Ok d32 : res (nd CS)). cbn [bind].
    rewrite svd_d32_val. cbn [bind]. eexists. lazy -[Rplus Rmult Rminus Ropp IZR]. repeat f_equal; ring. }
  destruct E as [p E]. unfold ref_compression_svd. change (ndim d32) with 2. cbn [Nat.sub seq ref_loop app]. rewrite E. cbn [bind]. eexists. split; [reflexivity|].
  cbn. auto.
Qed.

(** A factorisation that knows the identity matrix, with given orthogonal vectors. *)
Definition svd_one (w : nd CS) (a : nd CS) : res (nd CS * list CS * nd CS) :=
  if list_eq_dec Nat.eq_dec (shp a) [2; 2] then
    if list_eq_dec cplx_dec (dat a) (dat one2) then Ok (w, ExRelErr.cs [1; 1]%R, w) else Err LinAlgError
  else Err LinAlgError.
Definition swap2 : nd CS := mkNd [2; 2] (ExRelErr.cs [0; 1; 1; 0]%R).
Definition tie_x : ltens CS := mkLt [mkNd [1; 2; 2] (ExRelErr.cs [1; 0; 0; 1]%R); mkNd [2; 2; 1] (ExRelErr.cs [1; 0; 0; 1]%R)] 0 1.
Lemma svd_one_inv w a u s v : svd_one w a = Ok (u, s, v) -> a = one2 /\ u = w /\ s = ExRelErr.cs [1; 1]%R /\ v = w.
Proof.
  unfold svd_one. destruct (list_eq_dec Nat.eq_dec (shp a) [2; 2]) as [E1|]; [|discriminate].
  destruct (list_eq_dec cplx_dec (dat a) _) as [E2|]; [|discriminate]. intros E. injection E as <- <- <-.
  split; [|auto]. destruct a as [sa da]. cbn [shp dat] in E1, E2. subst. reflexivity.
Qed.
Lemma svd_one_val w : svd_one w one2 = Ok (w, ExRelErr.cs [1; 1]%R, w).
Proof.
  unfold svd_one. destruct (list_eq_dec Nat.eq_dec (shp one2) [2; 2]) as [_|N]; [|exfalso; apply N; reflexivity].
  destruct (list_eq_dec cplx_dec (dat one2) _) as [_|N]; [reflexivity|exfalso; apply N; reflexivity].
Qed.
Lemma svd_one_sound w : w = one2 \/ w = swap2 -> svd_sound (svd_one w).
Proof.
  intros Hw m n a Ha. destruct (svd_one w a) as [[[u s] v]|e] eqn:E.
  - apply svd_one_inv in E. destruct E as [-> [-> [-> ->]]]. destruct Ha as [E _]. injection E as <- <-.
    destruct Hw as [-> | ->]; (split; [reflexivity|]; split; [reflexivity|]; split; [reflexivity|]; split; [reflexivity|]; split; [reflexivity|];
    split; [|split; [|split]]; cbn [Nat.min]; two; cc).
  - unfold svd_one in E. destruct (list_eq_dec _ _ _); [destruct (list_eq_dec _ _ _)|]; congruence.
Qed.
Lemma svd_one_sorted w m n a u s v : is_mat a m n -> svd_one w a = Ok (u, s, v) -> Forall cnonneg s /\ descending (map Cre s).
Proof.
  intros _ E. apply svd_one_inv in E. destruct E as [_ [_ [-> _]]]. split; [repeat constructor; cbn; lra|].
  cbn. repeat split; repeat constructor; lra.
Qed.
Lemma tie_x_ok : mpa_pos tie_x /\ cform_ok tie_x /\ canon_true tie_x.
Proof.
  split; [|split].
  - split; [split; [discriminate|]|].
    + apply bondsb_iff. reflexivity.
    + repeat constructor.
  - unfold cform_ok, cf_ok. cbn. lia.
  - split; cbn.
    + intros k H. lia.
    + intros [|[|k]] H1 H2; [lia| |cbn in H2; lia]. intros c d Hc Hd. cbn in Hc, Hd. two; cc.
Qed.
Lemma tie_run w l : take_cols 1 w = mkNd [2; 1] (ExRelErr.cs l) -> take_rows 1 w = mkNd [1; 2] (ExRelErr.cs l) -> l = [1; 0]%R \/ l = [0; 1]%R ->
  exists z ov, compress_svd (fun _ => Err LinAlgError) (svd_one w) (truncated_svd (svd_one w)) tie_x (Some 1) None DRight true = Ok (z, ov) /\
    Cre (entry z [[0]; [0]]) = nth 0 l 0%R.
Proof.
  intros C1 C2 Hl. pose proof (svd_one_val w) as H.
  assert (E1 : canonicalize (fun _ => Err LinAlgError) tie_x CANone (CAInt 1) = Ok tie_x) by reflexivity.
  assert (E2 : csvd_r_factor (svd_one w) (truncated_svd (svd_one w)) 1 None tie_x 0 =
    Ok (mkNd [1; 2; 2] (ExRelErr.cs [1; 0; 0; 1]%R), mkNd [2; 1] (ExRelErr.cs l), ExRelErr.cs [1]%R, mkNd [1; 2] (ExRelErr.cs l), 1)).
  { unfold csvd_r_factor. change (pyget (lts tie_x) 0) with (Ok (mkNd [1; 2; 2] (ExRelErr.cs [1; 0; 0; 1]%R)) : res (nd CS)). cbn [bind].
    change (shape_last (mkNd [1; 2; 2] (ExRelErr.cs [1; 0; 0; 1]%R))) with (Ok 2 : res nat). cbn [bind].
    change (reshape_py (mkNd [1; 2; 2] (ExRelErr.cs [1; 0; 0; 1]%R)) [(-1)%Z; Z.of_nat 2]) with (Ok one2). cbn [bind svd_site]. unfold truncated_svd. rewrite H. cbn [bind].
    change (Nat.min 1 (length (ExRelErr.cs [1; 1]%R))) with 1. rewrite C1, C2. reflexivity. }
  assert (E3 : exists z ys ov, compress_svd_r (svd_one w) (truncated_svd (svd_one w)) tie_x 1 None = Ok (z, ys, ov) /\ Cre (entry z [[0]; [0]]) = nth 0 l 0%R).
  { unfold compress_svd_r. change (pyrange 0 (Z.of_nat (llen tie_x) - 1) 1) with [0%Z]. cbn [Nat.ltb Nat.leb passert csvd_loop].
    unfold csvd_r_step. rewrite E2. cbn [bind]. destruct Hl as [-> | ->]; (do 3 eexists; split; [reflexivity|]; lazy -[Rplus Rmult Rminus Ropp IZR]; ring). }
  destruct E3 as [z [ys [ov [E3 E4]]]]. exists z, ov. split; [|exact E4].
  unfold compress_svd. change (Nat.eqb (llen tie_x) 1) with false. unfold canonical_form. cbn iota. cbn [bind].
  rewrite E1. cbn [bind]. rewrite E3. reflexivity.
Qed.
Lemma ties_example : exists svd svd' (x z z' : ltens CS) ov ov',
  svd_sound svd /\ svd_sound svd' /\
  (forall m n a u s v, is_mat a m n -> svd a = Ok (u, s, v) -> Forall cnonneg s /\ descending (map Cre s)) /\
  (forall m n a u s v, is_mat a m n -> svd' a = Ok (u, s, v) -> Forall cnonneg s /\ descending (map Cre s)) /\
  mpa_pos x /\ cform_ok x /\ canon_true x /\
  compress_svd (fun _ => Err LinAlgError) svd (truncated_svd svd) x (Some 1) None DRight true = Ok (z, ov) /\
  compress_svd (fun _ => Err LinAlgError) svd' (truncated_svd svd') x (Some 1) None DRight true = Ok (z', ov') /\
  to_array z <> to_array z'.
Proof.
  destruct (tie_run one2 [1; 0]%R eq_refl eq_refl ltac:(auto)) as [z [ov [E1 E2]]].
  destruct (tie_run swap2 [0; 1]%R eq_refl eq_refl ltac:(auto)) as [z' [ov' [E1' E2']]].
  exists (svd_one one2), (svd_one swap2), tie_x, z, z', ov, ov'. destruct tie_x_ok as [H1 [H2 H3]].
  split; [apply svd_one_sound; auto|]. split; [apply svd_one_sound; auto|]. split; [apply svd_one_sorted|]. split; [apply svd_one_sorted|].
  split; [exact H1|]. split; [exact H2|]. split; [exact H3|]. split; [exact E1|]. split; [exact E1'|].
  intros Q. unfold entry in E2, E2'. rewrite Q, E2' in E2. cbn in E2. lra.
Qed.
