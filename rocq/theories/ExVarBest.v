(** A run of the variational compression over the complex numbers: two sites with
    singular values 3 and 2, from a multiple of a product vector. *)
From Coq Require Import Reals Lra.
From Verif Require Export PfVarBest2 ExQuasi.
From Verif Require Import PfEigVal2 Examples.
Local Open Scope nat_scope.

(** QR of 2x2 matrices with the unit matrix, and of multiples of the first unit vector. *)
Definition cz (a : CS) : bool := (if Req_EM_T (Cre a) 0 then true else false) && (if Req_EM_T (Cim a) 0 then true else false).
Definition qr_two (a : nd CS) : res (nd CS * nd CS) :=
  if list_eq_dec Nat.eq_dec (shp a) [2; 2] then Ok (one2, a)
  else if list_eq_dec Nat.eq_dec (shp a) [2; 1] then
    if cz (nth 1 (dat a) k0) then Ok (mkNd [2; 1] (cs [1; 0]%R), mkNd [1; 1] [nth 0 (dat a) k0]) else Err LinAlgError
  else Err LinAlgError.
Lemma qr_two_sound : qr_sound qr_two.
Proof.
  intros m n a [E W]. unfold qr_two. destruct (list_eq_dec Nat.eq_dec (shp a) [2; 2]) as [E2|].
  - rewrite E in E2. injection E2 as -> ->.
    split; [reflexivity|]. split; [reflexivity|]. split; [exact E|]. split; [apply W|]. cbn [Nat.min]. destruct W as [W _]. unfold ndwf in W. destruct a as [sa da]. cbn [shp dat] in *. subst sa.
    destruct da as [|[a1 b1] [|[a2 b2] [|[a3 b3] [|[a4 b4] [|]]]]]; try discriminate W. split.
    + two; cc.
    + two; cc.
  - destruct (list_eq_dec Nat.eq_dec (shp a) [2; 1]) as [E2|]; [|reflexivity]. rewrite E in E2. injection E2 as -> ->.
    destruct W as [W _]. unfold ndwf in W. destruct a as [sa da]. cbn [shp dat] in *. subst sa.
    destruct da as [|[a1 b1] [|[a2 b2] [|]]]; try discriminate W. unfold cz. cbn [nth Cre Cim].
    change (Cre (a2, b2)) with a2. change (Cim (a2, b2)) with b2.
    destruct (Req_EM_T a2 0) as [->|]; [|reflexivity]. destruct (Req_EM_T b2 0) as [->|]; [|reflexivity]. cbn [andb].
    split; [reflexivity|]. split; [reflexivity|]. split; [reflexivity|]. split; [reflexivity|]. cbn [Nat.min]. split.
    + intros i j Hi Hj. assert (j = 0) as -> by lia. two; cc.
    + intros i j Hi Hj. assert (i = 0) as -> by lia. assert (j = 0) as -> by lia. cc.
Qed.

Definition vb_s : ltens CS := mkLt [mkNd [1; 2; 1] (cs [5; 0]%R); mkNd [1; 2; 1] (cs [1; 0]%R)] 0 1.
Definition vb_c : ltens CS := mkLt [mkNd [1; 2; 1] (cs [1; 0]%R); mkNd [1; 2; 1] (cs [3; 0]%R)] 0 2.
Ltac dec0 := repeat match goal with |- context [Req_EM_T ?a 0%R] => destruct (Req_EM_T a 0%R) as [_|N]; [|exfalso; apply N; ring] end.
Ltac eqr := lazy -[Rplus Rmult Rminus Ropp IZR Req_EM_T]; dec0; repeat f_equal; ring.
Lemma vb_split : split_t qr_two svd_d32 2 1 (mkNd [1; 2; 2; 1] (cs [3; 0; 0; 2]%R)) = Ok (lts vb_c).
Proof.
  unfold split_t. cbn [Nat.eqb].
  assert (E1 : from_array qr_two (mkNd [1; 2; 2; 1] (cs [3; 0; 0; 2]%R)) (NDInt 1) true = Ok (mkLt [mkNd [1; 2; 2] (cs [1; 0; 0; 1]%R); mkNd [2; 2; 1] (cs [3; 0; 0; 2]%R)] 1 2)) by eqr.
  rewrite E1. cbn [bind]. unfold compress_svd. change (Nat.eqb (llen _) 1) with false. unfold canonical_form. cbn iota. cbn [bind].
  change (lcan _ <? _)%Z with false. cbn iota.
  assert (E2 : canonicalize qr_two (mkLt [mkNd [1; 2; 2] (cs [1; 0; 0; 1]%R); mkNd [2; 2; 1] (cs [3; 0; 0; 2]%R)] 1 2) CANone (CAInt 1) = Ok re_x) by eqr.
  rewrite E2. cbn [bind].
  assert (E3 : csvd_r_factor svd_d32 (truncated_svd svd_d32) 1 None re_x 0 =
    Ok (mkNd [1; 2; 2] (cs [3; 0; 0; 2]%R), take_cols 1 one2, cs [3]%R, take_rows 1 one2, 1)).
  { unfold csvd_r_factor. change (pyget (lts re_x) 0) with (Ok (mkNd [1; 2; 2] (cs [3; 0; 0; 2]%R)) : res (nd CS)). cbn [bind].
    change (shape_last (mkNd [1; 2; 2] (cs [3; 0; 0; 2]%R))) with (Ok 2 : res nat). cbn [bind].
    change (reshape_py (mkNd [1; 2; 2] (cs [3; 0; 0; 2]%R)) [(-1)%Z; Z.of_nat 2]) with (Ok d32). cbn [bind svd_site]. unfold truncated_svd. rewrite svd_d32_val. reflexivity. }
  unfold compress_svd_r. change (pyrange 0 (Z.of_nat (llen re_x) - 1) 1) with [0%Z]. cbn [Nat.ltb Nat.leb passert csvd_loop].
  unfold csvd_r_step. rewrite E3. eqr.
Qed.
Lemma vb_locl : g_local unit 2 (proj_locl qr_two svd_d32 [2; 2] (state re_x) 2 1) (vb_s, None) 0 = Ok (vb_c, Some tt).
Proof.
  unfold g_local, proj_locl. cbn [fst]. match goal with |- context [split_t _ _ _ _ ?t] => assert (E : t = mkNd [1; 2; 2; 1] (cs [3; 0; 0; 2]%R)) by eqr end.
  rewrite E. rewrite vb_split. cbn [bind snd fst]. eqr.
Qed.
Definition vb_d : ltens CS := mkLt (lts vb_c) 1 2.
Lemma vb_norm : norm_sq qr_two vb_c = Ok (toC 9, vb_d).
Proof. eqr. Qed.
Lemma re_x_inv : mps_inv [2; 2] re_x.
Proof. split; [apply pos_chain; apply re_x_ok|]. split; [reflexivity|]. unfold cform_wk. cbn. lia. Qed.
Lemma vb_s_ok : mpa_pos vb_s /\ cform_ok vb_s /\ canon_true vb_s.
Proof.
  split; [|split].
  - split; [split; [discriminate|apply bondsb_iff; reflexivity]|repeat constructor].
  - unfold cform_ok, cf_ok. cbn. lia.
  - split; cbn.
    + intros k H. lia.
    + intros [|[|k]] H1 H2; [lia| |cbn in H2; lia]. intros c d Hc Hd. cbn in Hc, Hd. assert (c = 0) as -> by lia. assert (d = 0) as -> by lia. cc.
Qed.
Lemma vb_s_inv : mps_inv [2; 2] vb_s.
Proof. split; [apply pos_chain; apply vb_s_ok|]. split; [reflexivity|]. unfold cform_wk. cbn. lia. Qed.
Lemma vb_adapt : adapt_to qr_two svd_d32 vb_s re_x 1 2 = Ok (toC 9, vb_d).
Proof.
  rewrite (adapt_dense qr_two svd_d32 qr_two_sound svd_d32_sound [2; 2] vb_s re_x 1 2 ltac:(cbn; lia) (le_n 2) (proj1 re_x_inv) (proj1 (proj2 re_x_inv)) vb_s_inv).
  unfold dense_adapt. change (canonicalize qr_two vb_s CANone (CAInt 1)) with (Ok vb_s : res (ltens CS)). cbn [bind].
  change (max_rank vb_s) with (Ok 1 : res nat). cbn [bind List.length]. unfold g_sweeps. cbn [seq foldM]. unfold g_one. cbn [Nat.ltb Nat.leb Nat.sub Nat.add seq foldM rev app bind].
  unfold g_ltr. cbn [Nat.ltb Nat.leb bind fst snd]. rewrite vb_locl. cbn [bind fst snd]. exact vb_norm.
Qed.
Lemma vb_run rc : compression_var qr_two svd_d32 rc re_x 1 (Some vb_s) None 2 = Ok (vb_d, toC 9).
Proof.
  unfold compression_var. change (Nat.eqb (llen re_x) 1) with false. cbn iota. change (max_rank vb_s) with (Ok 1 : res nat). change (max_rank re_x) with (Ok 2 : res nat). cbn [bind].
  cbn [Nat.ltb Nat.leb].
  assert (E1 : (do c <- mpa_copy vb_s; passert (forallb (fun p => list_eqb (fst p) (snd p)) (combine (mshape re_x) (mshape c))) (Ok c)) = Ok vb_s) by reflexivity.
  rewrite E1. cbn [bind]. assert (E2 : mravel vb_s = Ok vb_s) by eqr. rewrite E2. assert (E3 : mravel re_x = Ok re_x) by eqr. rewrite E3. cbn [bind].
  rewrite vb_adapt. cbn [bind snd fst]. assert (E4 : mreshape vb_d (RList (map zshape (mshape re_x))) = Ok vb_d) by eqr. rewrite E4. reflexivity.
Qed.
Lemma vb_dist : Cre (dist2_of re_x vb_s) = 8%R /\ Cre (dist2_of re_x vb_d) = 4%R.
Proof. split; lazy -[Rplus Rmult Rminus Ropp IZR]; ring. Qed.
