(** A run of the compression with a rank over the complex numbers: two sites with
    singular values 3 and 2. *)
From Coq Require Import Reals Lra.
From Verif Require Export PfQuasi2 ExRelErr.
Local Open Scope nat_scope.

Lemma rank_run svd qr : svd d32 = Ok (one2, cs [3; 2]%R, one2) ->
  exists z ov, compress_svd qr svd (truncated_svd svd) re_x (Some 1) None DRight true = Ok (z, ov) /\ ranks z = [1] /\ Cre (dist2_of re_x z) = 4%R.
Proof.
  intros H.
  assert (E1 : canonicalize qr re_x CANone (CAInt 1) = Ok re_x) by reflexivity.
  assert (E2 : csvd_r_factor svd (truncated_svd svd) 1 None re_x 0 =
    Ok (mkNd [1; 2; 2] (cs [3; 0; 0; 2]%R), take_cols 1 one2, cs [3]%R, take_rows 1 one2, 1)).
  { unfold csvd_r_factor. change (pyget (lts re_x) 0) with (Ok (mkNd [1; 2; 2] (cs [3; 0; 0; 2]%R)) : res (nd CS)). cbn [bind].
    change (shape_last (mkNd [1; 2; 2] (cs [3; 0; 0; 2]%R))) with (Ok 2 : res nat). cbn [bind].
    change (reshape_py (mkNd [1; 2; 2] (cs [3; 0; 0; 2]%R)) [(-1)%Z; Z.of_nat 2]) with (Ok d32). cbn [bind svd_site]. unfold truncated_svd. rewrite H. reflexivity. }
  assert (E3 : exists z ys ov, compress_svd_r svd (truncated_svd svd) re_x 1 None = Ok (z, ys, ov) /\ ranks z = [1] /\ Cre (dist2_of re_x z) = 4%R).
  { unfold compress_svd_r. change (pyrange 0 (Z.of_nat (llen re_x) - 1) 1) with [0%Z]. cbn [Nat.ltb Nat.leb passert csvd_loop].
    unfold csvd_r_step. rewrite E2. cbn [bind]. do 3 eexists. split; [reflexivity|]. split; [reflexivity|]. lazy -[Rplus Rmult Rminus Ropp IZR]. ring. }
  destruct E3 as [z [ys [ov [E3 E4]]]]. exists z, ov. split; [|exact E4].
  unfold compress_svd. change (Nat.eqb (llen re_x) 1) with false. unfold canonical_form. cbn iota. cbn [bind].
  rewrite E1. cbn [bind]. rewrite E3. reflexivity.
Qed.
