(** Properties of the SVD compression with relerr (C27). *)
From Coq Require Import Reals Lra.
From Verif Require Import Oracles PfTrunc PfRelErr ExRelErr Examples.

(** With relerr the result arises from the original array by truncating its
    singular value decomposition at every bond in turn; the ranks of the result are
    the numbers of values kept, and the squared error is the sum of the squares of
    the values dropped.  [rk]: how many values relerr asks for. *)
Theorem C27_truncations (K : StarRing) (qr : nd K -> res (nd K * nd K)) svd svdfunc (P : list K -> Prop) rk (x z : ltens K) rank dir ov :
  qr_sound qr -> svd_sound svd -> tsvd_sound svdfunc ->
  (forall m n a u s v, is_mat a m n -> svd a = Ok (u, s, v) -> P s) -> (forall s, 0 < rk s) ->
  mpa_pos x -> cform_ok x -> canon_true x -> 2 <= llen x -> rank_pos rank ->
  compress_svd qr svd svdfunc x rank (Some rk) dir true = Ok (z, ov) ->
  let left := match dir with DNone => (lcan x <? Z.of_nat (llen x) - rcan x)%Z | DLeft => true | _ => false end in
  exists ys, truncs (mshape x) (entry x) (if left then rev (seq 1 (llen x - 1)) else seq 1 (llen x - 1)) ys (entry z) /\
    map snd ys = (if left then rev (ranks z) else ranks z) /\
    Forall (fun y => P (fst y) /\ fst y <> [] /\
       snd y = Nat.min (match rank with Some r => Nat.min (length (fst y)) r | None => length (fst y) end) (rk (fst y))) ys /\
    dist2_of x z = dweights ys.
Proof.
  intros Hq Hs Ht HP Hk Hx Hc HT Hn Hr E. exact (compress_truncs qr Hq svd svdfunc Hs Ht P HP rk Hk x rank dir z ov Hx (cform_ok_weak x Hc) HT Hn Hr E).
Qed.
Print Assumptions C27_truncations.
Example C27_truncations_ex :
  match compress_svd qr_gz svd_gz tsvd_gz ex_ghz None (Some (fun _ => 1)) DRight true with
  | Ok (z, ov) => ranks ex_ghz = [2; 2] /\ ranks z = [1; 1] /\ ov = gi 9 | Err _ => False end.
Proof. vm_compute. auto. Qed.

(** The number of singular values that relerr=e asks for: the least number whose sum
    is at least (1-e) of the total, however the values are chosen. *)
Theorem C27_relerr_count e s : (0 <= e)%R -> s <> [] -> Forall cnonneg s -> descending (map Cre s) ->
  least_number e (map Cre s) (relerr_count e s).
Proof. exact (relerr_count_least e s). Qed.
Print Assumptions C27_relerr_count.
(** Ties, an error of zero and values that all vanish. *)
Example C27_relerr_count_ex :
  relerr_count (1 / 4) (map toC [3; 2; 1]%R) = 2 /\ relerr_count (1 / 6) (map toC [3; 2; 1]%R) = 2 /\
  relerr_count 0 (map toC [2; 2; 0]%R) = 2 /\ relerr_count (1 / 2) (map toC [2; 2]%R) = 1 /\
  relerr_count (1 / 2) (map toC [0; 0]%R) = 1 /\ relerr_count 1 (map toC [2; 2]%R) = 1.
Proof.
  split; [|split; [|split; [|split; [|split]]]].
  - apply (count_nz (1 / 4) [3; 2; 1]%R 1); cbn; [lra|intros [|j] Hj; [lra|lia]|lia|lra].
  - apply (count_nz (1 / 6) [3; 2; 1]%R 1); cbn; [lra|intros [|j] Hj; [lra|lia]|lia|lra].
  - apply (count_nz 0 [2; 2; 0]%R 1); cbn; [lra|intros [|j] Hj; [lra|lia]|lia|lra].
  - apply (count_nz (1 / 2) [2; 2]%R 0); cbn; [lra|intros j Hj; lia|lia|lra].
  - unfold relerr_count. cbn. destruct (Req_EM_T (0 + (0 + 0)) 0) as [E|E]; [reflexivity|exfalso; apply E; lra].
  - apply (count_nz 1 [2; 2]%R 0); cbn; [lra|intros j Hj; lia|lia|lra].
Qed.

(** compress(method='svd', relerr=e): every bond keeps the least number [m] of
    singular values whose sum is at least (1-e) of the total, or [rank] if that is
    smaller; the squared error is then at most e^2 times the sum of the squared
    totals. *)
Theorem C27_relerr (qr : nd CS -> res (nd CS * nd CS)) svd svdfunc (x z : ltens CS) rank e dir ov :
  qr_sound qr -> svd_sound svd -> tsvd_sound svdfunc ->
  (forall m n a u s v, is_mat a m n -> svd a = Ok (u, s, v) -> Forall cnonneg s /\ descending (map Cre s)) ->
  mpa_pos x -> cform_ok x -> canon_true x -> 2 <= llen x -> rank_pos rank ->
  compress_svd_re qr svd svdfunc x rank (Some e) dir true = Ok (z, ov) ->
  let left := match dir with DNone => (lcan x <? Z.of_nat (llen x) - rcan x)%Z | DLeft => true | _ => false end in
  (0 <= e <= 1)%R /\
  exists ys, truncs (mshape x) (entry x) (if left then rev (seq 1 (llen x - 1)) else seq 1 (llen x - 1)) ys (entry z) /\
    map snd ys = (if left then rev (ranks z) else ranks z) /\
    Forall (fun y => (Forall cnonneg (fst y) /\ descending (map Cre (fst y))) /\
       exists m, least_number e (map Cre (fst y)) m /\ snd y = match rank with Some r => Nat.min r m | None => m end) ys /\
    (rank = None -> (Cre (dist2_of x z) <= e * e * rsum (map (fun y => rsum (map Cre (fst y)) * rsum (map Cre (fst y))) ys))%R).
Proof.
  intros Hq Hs Ht HP Hx Hc HT Hn Hr E. exact (relerr_truncs qr Hq svd svdfunc Hs Ht HP x z rank e dir ov Hx (cform_ok_weak x Hc) HT Hn Hr E).
Qed.
Print Assumptions C27_relerr.
(** compression(method='svd', relerr=e) has the same result. *)
Theorem C27_relerr_compression (qr : nd CS -> res (nd CS * nd CS)) svd svdfunc (x z : ltens CS) rank e dir ov :
  qr_sound qr -> svd_sound svd -> tsvd_sound svdfunc ->
  (forall m n a u s v, is_mat a m n -> svd a = Ok (u, s, v) -> Forall cnonneg s /\ descending (map Cre s)) ->
  mpa_pos x -> cform_ok x -> canon_true x -> 2 <= llen x -> rank_pos rank ->
  compression_svd_re qr svd svdfunc x rank (Some e) dir true = Ok (z, ov) ->
  let left := match dir with DNone => (lcan x <? Z.of_nat (llen x) - rcan x)%Z | DLeft => true | _ => false end in
  (0 <= e <= 1)%R /\
  exists ys, truncs (mshape x) (entry x) (if left then rev (seq 1 (llen x - 1)) else seq 1 (llen x - 1)) ys (entry z) /\
    map snd ys = (if left then rev (ranks z) else ranks z) /\
    Forall (fun y => (Forall cnonneg (fst y) /\ descending (map Cre (fst y))) /\
       exists m, least_number e (map Cre (fst y)) m /\ snd y = match rank with Some r => Nat.min r m | None => m end) ys /\
    (rank = None -> (Cre (dist2_of x z) <= e * e * rsum (map (fun y => rsum (map Cre (fst y)) * rsum (map Cre (fst y))) ys))%R).
Proof.
  intros Hq Hs Ht HP Hx Hc HT Hn Hr E. unfold compression_svd_re in E. rewrite (mpa_copy_id x (proj1 Hx) Hc) in E.
  exact (relerr_truncs qr Hq svd svdfunc Hs Ht HP x z rank e dir ov Hx (cform_ok_weak x Hc) HT Hn Hr E).
Qed.
Print Assumptions C27_relerr_compression.
(** Singular values 3 and 2, relerr 1/2: one is kept. *)
Example C27_relerr_ex :
  exists svd, svd_sound svd /\
    (forall m n a u s v, is_mat a m n -> svd a = Ok (u, s, v) -> Forall cnonneg s /\ descending (map Cre s)) /\
    exists x, mpa_pos x /\ cform_ok x /\ canon_true x /\ ranks x = [2] /\
    exists z ov, compress_svd_re (fun _ => Err LinAlgError) svd (fun _ _ => Err LinAlgError) x None (Some (1 / 2)%R) DRight true = Ok (z, ov) /\ ranks z = [1].
Proof.
  exists svd_d32. split; [exact svd_d32_sound|]. split; [exact svd_d32_sorted|]. exists re_x. destruct re_x_ok as [H1 [H2 H3]].
  exact (conj H1 (conj H2 (conj H3 (conj eq_refl (re_run svd_d32 _ _ svd_d32_val))))).
Qed.
(** A value outside of [0, 1] is refused. *)
Theorem C27_relerr_range (qr : nd CS -> res (nd CS * nd CS)) svd svdfunc (x : ltens CS) rank e dir canon :
  qr_sound qr -> mpa_pos x -> cform_ok x -> 2 <= llen x -> dir <> DOther -> ~ (0 <= e <= 1)%R ->
  compress_svd_re qr svd svdfunc x rank (Some e) dir canon = Err AssertionError \/
  (compress_svd_re qr svd svdfunc x rank (Some e) dir canon = Err LinAlgError /\ canon = true /\ qr_fails qr).
Proof. intros Hq Hx Hc Hn Hd He. exact (relerr_range_error qr Hq svd svdfunc x rank e dir canon Hx (cform_ok_weak x Hc) Hn Hd He). Qed.
Print Assumptions C27_relerr_range.
