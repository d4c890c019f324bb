(** Statements about the randomised SVD (extmath.py 129-318). *)
From Verif Require Import PfRandSvd PfRandSvdC Oracles Gauss Examples.
From Coq Require Import Sorted.
Open Scope nat_scope.

(** C71.  [randomized_svd] on any non-empty matrix, for any draws, numbers of components,
    oversamples and iterations, normalizer and transposition: min(k, m, n) real weights,
    orthonormal columns and rows; one of the two equations of a singular value
    decomposition; the squared error is what the weights leave over.  If the sketch
    captures the matrix, the result is a truncated SVD. *)
Theorem C71_result {K : StarRing} (qr lu : nd K -> res (nd K * nd K)) thin_svd draw :
  qr_sound qr -> lu_sound lu -> thin_sound thin_svd ->
  forall m n k p n_iter nm tr (a : nd K), is_mat a m n -> 0 < k + p ->
  outc (qr_fails qr \/ lu_fails lu \/ svd_fails thin_svd) (randomized_svd qr lu thin_svd draw true a k p n_iter nm tr)
    (fun r => let '(u, s, v) := r in
      (let d := List.length s in
       d = Nat.min k (Nat.min m n) /\ shp u = [m; d] /\ ndwf u /\ shp v = [d; n] /\ ndwf v /\
       (forall c e, c < d -> e < d -> bigsum m (fun i => kconj (get u [i; c]) * get u [i; e])%K = delta c e) /\
       (forall c e, c < d -> e < d -> bigsum n (fun j => get v [c; j] * kconj (get v [e; j]))%K = delta c e) /\
       (forall c, c < d -> kconj (nth c s k0) = nth c s k0)) /\
      (if auto_transpose m n tr
       then forall i c, i < m -> c < List.length s -> bigsum n (fun j => get a [i; j] * kconj (get v [c; j]))%K = (get u [i; c] * nth c s k0)%K
       else forall c j, c < List.length s -> j < n -> bigsum m (fun i => kconj (get u [i; c]) * get a [i; j])%K = (nth c s k0 * get v [c; j])%K) /\
      bigsum m (fun i => bigsum n (fun j =>
        let e := (get a [i; j] - bigsum (List.length s) (fun c => get u [i; c] * nth c s k0 * get v [c; j]))%K in kconj e * e))%K =
      (bigsum m (fun i => bigsum n (fun j => kconj (get a [i; j]) * get a [i; j])) - bigsum (List.length s) (fun c => nth c s k0 * nth c s k0))%K /\
      (sketched draw m n k p n_iter nm tr a -> 0 < k -> tsvd_factors a m n k u s v)).
Proof. exact (randomized_svd_spec qr lu thin_svd draw). Qed.
Print Assumptions C71_result.

(** The sketch captures a matrix [l r] if [r] times the draws has a right inverse: a
    matrix of rank at most k + p and draws in general position. *)
Theorem C71_low_rank {K : StarRing} m n sk rho (a om l r y : nat -> nat -> K) :
  (forall i j, i < m -> j < n -> a i j = bigsum rho (fun c => l i c * r c j)%K) ->
  (forall i j, i < rho -> j < rho -> bigsum sk (fun c => bigsum n (fun e => r i e * om e c) * y c j)%K = delta i j) ->
  captured m n sk a om 0.
Proof. exact (captured_low_rank m n sk rho a om l r y). Qed.
Print Assumptions C71_low_rank.

(** Over the complex numbers the power iterations lose nothing. *)
Theorem C71_iterations m n sk (a : nd CS) om u s v : thin_factors a m n u s v ->
  forall i, captured m n sk (fun i j => get a [i; j]) om 0 -> captured m n sk (fun i j => get a [i; j]) om i.
Proof. exact (captured_iters a m n sk om u s v cs_field). Qed.
Print Assumptions C71_iterations.
(** The same for the adjoint, which is what is sketched after a transposition. *)
Theorem C71_iterations_adjoint m n sk (a : nd CS) om u s v : is_mat a m n -> thin_factors a m n u s v ->
  forall i, captured n m sk (fun i j => kconj (get a [j; i])) om 0 -> captured n m sk (fun i j => kconj (get a [j; i])) om i.
Proof. exact (captured_iters_H a m n sk om u s v cs_field). Qed.
Print Assumptions C71_iterations_adjoint.

(** The weights have the order in which [linalg.svd] returns them. *)
Theorem C71_order {K : StarRing} (R : K -> K -> Prop) (qr lu : nd K -> res (nd K * nd K)) thin_svd draw known a k p n_iter nm tr u s v :
  (forall b u s v, thin_svd b = Ok (u, s, v) -> StronglySorted R s) ->
  randomized_svd qr lu thin_svd draw known a k p n_iter nm tr = Ok (u, s, v) -> StronglySorted R s.
Proof. exact (randomized_order R qr lu thin_svd draw known a k p n_iter nm tr u s v). Qed.
Print Assumptions C71_order.

(** Other dtypes than float and complex are refused. *)
Theorem C71_dtype {K : StarRing} (qr lu : nd K -> res (nd K * nd K)) thin_svd draw a k p n_iter nm tr :
  randomized_svd qr lu thin_svd draw false a k p n_iter nm tr = Err ValueError.
Proof. reflexivity. Qed.
Print Assumptions C71_dtype.

(** A normalizer that is not one of the four names is not refused: the iterations are
    then skipped without notice. *)
Theorem C71_unknown_normalizer {K : StarRing} (qr lu : nd K -> res (nd K * nd K)) thin_svd draw known a k p it tr :
  randomized_svd qr lu thin_svd draw known a k p (Some it) NUnknown tr = randomized_svd qr lu thin_svd draw known a k p (Some 0) NUnknown tr.
Proof.
  unfold randomized_svd. cbv zeta. unfold approx_range_finder. destruct (standard_normal _ _ _) as [x|e]; [|reflexivity]. cbn [bind].
  assert (E : forall b it, power_iter qr lu NUnknown b it x = Ok x) by (intros b it'; induction it'; [reflexivity|assumption]). rewrite !E. reflexivity.
Qed.
Print Assumptions C71_unknown_normalizer.

(** A case: diag(3, 2i) with a row of zeros and the draws [1 1; 1 2]. *)
Definition rs_a : nd GZ := mk [3; 2] [gi 3; gi 0; gi 0; g 0 2; gi 0; gi 0].
Definition rs_draw (sh i : list nat) : GZ := gi (1 + Z.of_nat (nth 0 i 0 * nth 1 i 0)).
Definition rs_gz := randomized_svd qr_gz qr_gz (thin_of svd_gz).
Example C71_ex :
  qr_sound qr_gz /\ lu_sound qr_gz /\ thin_sound (thin_of svd_gz) /\ is_mat rs_a 3 2 /\
  rs_gz rs_draw true rs_a 1 1 None NAuto None = Ok (mk [3; 1] [gi 1; gi 0; gi 0], [gi 3], mk [1; 2] [gi 1; gi 0]) /\
  rs_gz rs_draw true (mat_H rs_a) 2 0 (Some 3) NQr None =
    Ok (mk [2; 2] [gi 1; gi 0; gi 0; gi 1], [gi 3; gi 2], mk [2; 3] [gi 1; gi 0; gi 0; gi 0; g 0 (-1); gi 0]) /\
  captured 3 2 2 (fun i j => get rs_a [i; j]) (omega rs_draw 2 2) 0.
Proof.
  split; [exact qr_gz_sound|]. split; [exact (qr_lu_sound _ qr_gz_sound)|]. split; [exact (thin_of_sound _ svd_gz_sound)|].
  split; [split; [reflexivity|split; [reflexivity|lia]]|]. split; [vm_compute; reflexivity|]. split; [vm_compute; reflexivity|].
  apply (C71_low_rank 3 2 2 2 _ _ (fun i j => get rs_a [i; j]) idm (fun i j => match i, j with 0, 0 => gi 2 | 1, 1 => gi 1 | _, _ => gi (-1) end)).
  - intros i j Hi Hj. destruct i as [|[|[|i]]]; [| | |lia]; (destruct j as [|[|j]]; [| |lia]); vm_compute; reflexivity.
  - intros i j Hi Hj. destruct i as [|[|i]]; [| |lia]; (destruct j as [|[|j]]; [| |lia]); vm_compute; reflexivity.
Qed.

(** Without capture the result need not be a truncated SVD, although all factorisations
    are exact: [3 0; 2 2] with one component and the draw (1, -1). *)
Theorem C71_always_truncated_refuted :
  exists (qr lu : nd GZ -> res (nd GZ * nd GZ)) thin_svd draw a u s v, qr_sound qr /\ lu_sound lu /\ thin_sound thin_svd /\ is_mat a 2 2 /\
  randomized_svd qr lu thin_svd draw true a 1 0 (Some 0) NAuto None = Ok (u, s, v) /\ ~ tsvd_factors a 2 2 1 u s v.
Proof.
  exists qr_gz, qr_gz, (thin_of svd_gz), (fun _ i => if Nat.eqb (nth 0 i 0) 0 then gi 1 else gi (-1)), (mk [2; 2] [gi 3; gi 0; gi 2; gi 2]), (mk [2; 1] [gi 1; gi 0]), [gi 3], (mk [1; 2] [gi 1; gi 0]).
  split; [exact qr_gz_sound|]. split; [exact (qr_lu_sound _ qr_gz_sound)|]. split; [exact (thin_of_sound _ svd_gz_sound)|].
  split; [split; [reflexivity|split; [reflexivity|lia]]|]. split; [vm_compute; reflexivity|].
  intros (_ & _ & _ & _ & _ & _ & _ & _ & _ & _ & _ & _ & H & _). specialize (H 1 0 ltac:(lia) ltac:(cbn; lia)). vm_compute in H. discriminate H.
Qed.
Print Assumptions C71_always_truncated_refuted.
