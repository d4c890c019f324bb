(** Properties of the SVD compression: quasi-optimality (C78). *)
From Coq Require Import Reals Lra.
From Verif Require Import Oracles PfTrunc PfRelErr PfQuasi2 ExQuasi Examples.
Local Open Scope nat_scope.

(** compress(method='svd', rank=r): compare the result with any arrays Y_1, ...,
    Y_(N-1) of the same shape, where Y_j is only asked to have rank at most r at bond j.
    The squared error is at most the sum of the squared errors of the Y_j. *)
Theorem C78_cuts (qr : nd CS -> res (nd CS * nd CS)) svd (x z : ltens CS) rank dir ov (Y : nat -> ltens CS) :
  qr_sound qr -> svd_sound svd ->
  (forall m n a u s v, is_mat a m n -> svd a = Ok (u, s, v) -> Forall cnonneg s /\ descending (map Cre s)) ->
  mpa_pos x -> cform_ok x -> canon_true x -> 2 <= llen x -> 0 < rank ->
  compress_svd qr svd (truncated_svd svd) x (Some rank) None dir true = Ok (z, ov) ->
  (forall j, 1 <= j < llen x -> mpa_pos (Y j) /\ mshape (Y j) = mshape x /\ nth (j - 1) (ranks (Y j)) 0 <= rank) ->
  (Cre (dist2_of x z) <= rsum (map (fun j => Cre (dist2_of x (Y j))) (seq 1 (llen x - 1))))%R.
Proof.
  intros Hq Hs Ho Hx Hc HT Hn Hr E HY. rewrite <- rs_rsum.
  exact (quasi_rank qr Hq svd Hs Ho x z rank dir ov Y Hx (cform_ok_weak x Hc) HT Hn Hr E HY).
Qed.
Print Assumptions C78_cuts.

(** In particular no array [y] of ranks at most r is closer to [x] than the result by
    more than the factor sqrt(N-1). *)
Theorem C78_rank (qr : nd CS -> res (nd CS * nd CS)) svd (x y z : ltens CS) rank dir ov :
  qr_sound qr -> svd_sound svd ->
  (forall m n a u s v, is_mat a m n -> svd a = Ok (u, s, v) -> Forall cnonneg s /\ descending (map Cre s)) ->
  mpa_pos x -> cform_ok x -> canon_true x -> 2 <= llen x -> 0 < rank ->
  compress_svd qr svd (truncated_svd svd) x (Some rank) None dir true = Ok (z, ov) ->
  mpa_pos y -> mshape y = mshape x -> Forall (fun k => k <= rank) (ranks y) ->
  (Cre (dist2_of x z) <= INR (llen x - 1) * Cre (dist2_of x y))%R.
Proof.
  intros Hq Hs Ho Hx Hc HT Hn Hr E Hy My Ry. rewrite <- (rs_same (llen x - 1) 1).
  apply (quasi_rank qr Hq svd Hs Ho x z rank dir ov (fun _ => y) Hx (cform_ok_weak x Hc) HT Hn Hr E).
  intros j Hj. split; [exact Hy|]. split; [exact My|]. apply ranks_bond; [exact Ry|]. rewrite (llen_shape y x My). exact Hj.
Qed.
Print Assumptions C78_rank.

(** On two sites the result is the best approximation of its rank. *)
Theorem C78_two_sites (qr : nd CS -> res (nd CS * nd CS)) svd (x y z : ltens CS) rank dir ov :
  qr_sound qr -> svd_sound svd ->
  (forall m n a u s v, is_mat a m n -> svd a = Ok (u, s, v) -> Forall cnonneg s /\ descending (map Cre s)) ->
  mpa_pos x -> cform_ok x -> canon_true x -> llen x = 2 -> 0 < rank ->
  compress_svd qr svd (truncated_svd svd) x (Some rank) None dir true = Ok (z, ov) ->
  mpa_pos y -> mshape y = mshape x -> Forall (fun k => k <= rank) (ranks y) ->
  (Cre (dist2_of x z) <= Cre (dist2_of x y))%R.
Proof.
  intros Hq Hs Ho Hx Hc HT Hn Hr E Hy My Ry.
  pose proof (C78_rank qr svd x y z rank dir ov Hq Hs Ho Hx Hc HT ltac:(lia) Hr E Hy My Ry) as H. rewrite Hn in H. cbn [Nat.sub INR] in H. lra.
Qed.
Print Assumptions C78_two_sites.

(** compress(method='svd', relerr=e): the same among the arrays whose ranks do not
    exceed the ranks of the result. *)
Theorem C78_relerr (qr : nd CS -> res (nd CS * nd CS)) svd svdfunc (x y z : ltens CS) rank e dir ov :
  qr_sound qr -> svd_sound svd -> tsvd_sound svdfunc ->
  (forall m n a u s v, is_mat a m n -> svd a = Ok (u, s, v) -> Forall cnonneg s /\ descending (map Cre s)) ->
  mpa_pos x -> cform_ok x -> canon_true x -> 2 <= llen x -> rank_pos rank ->
  compress_svd_re qr svd svdfunc x rank (Some e) dir true = Ok (z, ov) ->
  mpa_pos y -> mshape y = mshape x -> Forall2 le (ranks y) (ranks z) ->
  (Cre (dist2_of x z) <= INR (llen x - 1) * Cre (dist2_of x y))%R.
Proof.
  intros Hq Hs Ht Ho Hx Hc HT Hn Hr E Hy My Ry. rewrite <- (rs_same (llen x - 1) 1).
  apply re_range in E; [|exact Hn]. destruct E as [_ E].
  apply (quasi_relerr qr Hq svd Hs Ho svdfunc (relerr_count e) x z rank dir ov (fun _ => y) Ht (relerr_count_pos e) Hx (cform_ok_weak x Hc) HT Hn Hr E).
  intros j Hj. split; [exact Hy|]. split; [exact My|]. apply ranks_bond2, Ry.
Qed.
Print Assumptions C78_relerr.

(** Two sites with singular values 3 and 2, truncated to rank one: the squared error
    is 4; keeping the other value would give 9. *)
Definition q_y : ltens CS := mkLt [mkNd [1; 2; 1] (cs [0; 2]%R); mkNd [1; 2; 1] (cs [0; 1]%R)] 0 2.
Example C78_ex : exists z ov,
  compress_svd (fun _ => Err LinAlgError) svd_d32 (truncated_svd svd_d32) re_x (Some 1) None DRight true = Ok (z, ov) /\
  mpa_pos re_x /\ cform_ok re_x /\ canon_true re_x /\ svd_sound svd_d32 /\
  mpa_pos q_y /\ mshape q_y = mshape re_x /\ ranks q_y = [1] /\ ranks z = [1] /\
  Cre (dist2_of re_x z) = 4%R /\ Cre (dist2_of re_x q_y) = 9%R.
Proof.
  destruct (rank_run svd_d32 (fun _ => Err LinAlgError) svd_d32_val) as [z [ov [E1 [E2 E3]]]].
  exists z, ov. split; [exact E1|]. destruct re_x_ok as [H1 [H2 H3]]. split; [exact H1|]. split; [exact H2|]. split; [exact H3|].
  split; [exact svd_d32_sound|]. split.
  - split; [split; [discriminate|apply bondsb_iff; reflexivity]|repeat constructor].
  - split; [reflexivity|]. split; [reflexivity|]. split; [exact E2|]. split; [exact E3|]. lazy -[Rplus Rmult Rminus Ropp IZR]. ring.
Qed.
