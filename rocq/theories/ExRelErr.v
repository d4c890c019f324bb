(** A run of the compression with relerr over the complex numbers: two sites with
    singular values 3 and 2. *)
From Coq Require Import Reals Lra.
From Verif Require Export PfRelErr.

Definition cs (l : list R) : list CS := map toC l.
Definition d32 : nd CS := mkNd [2; 2] (cs [3; 0; 0; 2]%R).
Definition one2 : nd CS := mkNd [2; 2] (cs [1; 0; 0; 1]%R).
Definition re_x : ltens CS := mkLt [mkNd [1; 2; 2] (cs [3; 0; 0; 2]%R); mkNd [2; 2; 1] (cs [1; 0; 0; 1]%R)] 0 1.
Lemma re_run svd svdfunc qr : svd d32 = Ok (one2, cs [3; 2]%R, one2) ->
  exists z ov, compress_svd_re qr svd svdfunc re_x None (Some (1 / 2)%R) DRight true = Ok (z, ov) /\ ranks z = [1].
Proof.
  intros H. unfold compress_svd_re. replace (Rleb 0 (1 / 2)) with true by (symmetry; apply Rleb_t; lra). replace (Rleb (1 / 2) 1) with true by (symmetry; apply Rleb_t; lra).
  cbn [andb]. set (rk := relerr_count (1 / 2)).
  assert (Hr : rk (cs [3; 2]%R) = 1).
  { unfold rk. apply (count_nz (1 / 2) [3; 2]%R 0); cbn; [lra|intros j Hj; lia|lia|lra]. }
  clearbody rk.
  assert (E1 : canonicalize qr re_x CANone (CAInt 1) = Ok re_x) by reflexivity.
  assert (E2 : csvd_r_factor svd svdfunc 2 (Some rk) re_x 0 = Ok (mkNd [1; 2; 2] (cs [3; 0; 0; 2]%R), one2, cs [3; 2]%R, one2, 1)).
  { unfold csvd_r_factor. change (pyget (lts re_x) 0) with (Ok (mkNd [1; 2; 2] (cs [3; 0; 0; 2]%R)) : res (nd CS)). cbn [bind].
    change (shape_last (mkNd [1; 2; 2] (cs [3; 0; 0; 2]%R))) with (Ok 2 : res nat). cbn [bind].
    change (reshape_py (mkNd [1; 2; 2] (cs [3; 0; 0; 2]%R)) [(-1)%Z; Z.of_nat 2]) with (Ok d32). cbn [bind svd_site]. rewrite H. cbn [bind]. rewrite Hr. reflexivity. }
  assert (E3 : exists z ys ov, compress_svd_r svd svdfunc re_x 2 (Some rk) = Ok (z, ys, ov) /\ ranks z = [1]).
  { unfold compress_svd_r. change (pyrange 0 (Z.of_nat (llen re_x) - 1) 1) with [0%Z]. cbn [Nat.ltb Nat.leb passert csvd_loop].
    unfold csvd_r_step. rewrite E2. cbn [bind]. do 3 eexists. split; reflexivity. }
  destruct E3 as [z [ys [ov [E3 E4]]]]. exists z, ov. split; [|exact E4].
  unfold compress_svd. change (Nat.eqb (llen re_x) 1) with false. unfold canonical_form. cbn iota. change (max_rank re_x) with (Ok 2 : res nat). cbn [bind].
  rewrite E1. cbn [bind]. rewrite E3. reflexivity.
Qed.
Lemma cplx_dec (a b : CS) : {a = b} + {a <> b}.
Proof.
  destruct a as [a1 a2], b as [b1 b2]. destruct (Req_EM_T a1 b1) as [->|N]; [|right; intros E; injection E as E1 E2; contradiction].
  destruct (Req_EM_T a2 b2) as [->|N]; [left; reflexivity|right; intros E; injection E as E2; contradiction].
Defined.
(** A factorisation that knows one matrix. *)
Definition svd_d32 (a : nd CS) : res (nd CS * list CS * nd CS) :=
  if list_eq_dec Nat.eq_dec (shp a) [2; 2] then
    if list_eq_dec cplx_dec (dat a) (cs [3; 0; 0; 2]%R) then Ok (one2, cs [3; 2]%R, one2) else Err LinAlgError
  else Err LinAlgError.
Lemma svd_d32_inv a u s v : svd_d32 a = Ok (u, s, v) -> a = d32 /\ u = one2 /\ s = cs [3; 2]%R /\ v = one2.
Proof.
  unfold svd_d32. destruct (list_eq_dec Nat.eq_dec (shp a) [2; 2]) as [E1|]; [|discriminate].
  destruct (list_eq_dec cplx_dec (dat a) _) as [E2|]; [|discriminate]. intros E. injection E as <- <- <-.
  split; [|auto]. destruct a as [sa da]. cbn in E1, E2. subst. reflexivity.
Qed.
Lemma svd_d32_val : svd_d32 d32 = Ok (one2, cs [3; 2]%R, one2).
Proof.
  unfold svd_d32. destruct (list_eq_dec Nat.eq_dec (shp d32) [2; 2]) as [_|N]; [|exfalso; apply N; reflexivity].
  destruct (list_eq_dec cplx_dec (dat d32) _) as [_|N]; [reflexivity|exfalso; apply N; reflexivity].
Qed.
Ltac two := repeat match goal with |- forall _, _ => intro | H : (?c < 2)%nat |- _ => destruct c as [|[|c]]; [clear H|clear H|exfalso; lia] end.
Ltac cc := apply cplx_eq; lazy -[Rplus Rmult Rminus Ropp IZR]; ring.
Lemma svd_d32_sound : svd_sound svd_d32.
Proof.
  intros m n a Ha. destruct (svd_d32 a) as [[[u s] v]|e] eqn:E.
  - apply svd_d32_inv in E. destruct E as [-> [-> [-> ->]]]. destruct Ha as [E _]. injection E as <- <-.
    split; [reflexivity|]. split; [reflexivity|]. split; [reflexivity|]. split; [reflexivity|]. split; [reflexivity|].
    split; [|split; [|split]]; cbn [Nat.min].
    + two; cc.
    + two; cc.
    + two; cc.
    + two; cc.
  - unfold svd_d32 in E. destruct (list_eq_dec _ _ _); [destruct (list_eq_dec _ _ _)|]; congruence.
Qed.
Lemma svd_d32_sorted m n a u s v : is_mat a m n -> svd_d32 a = Ok (u, s, v) -> Forall cnonneg s /\ descending (map Cre s).
Proof.
  intros _ E. apply svd_d32_inv in E. destruct E as [_ [_ [-> _]]]. split; [repeat constructor; cbn; lra|].
  cbn. repeat split; repeat constructor; lra.
Qed.
Lemma re_x_ok : mpa_pos re_x /\ cform_ok re_x /\ canon_true re_x.
Proof.
  split; [|split].
  - split; [split; [discriminate|]|]. 
    + apply bondsb_iff. reflexivity.
    + repeat constructor.
  - unfold cform_ok, cf_ok. cbn. lia.
  - split; cbn.
    + intros k H. lia.
    + intros [|[|k]] H1 H2; [lia| |cbn in H2; lia]. intros c d Hc Hd. cbn in Hc, Hd. two; cc.
Qed.
