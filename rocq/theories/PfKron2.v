(** Kronecker products of arrays with different numbers of axes. *)
From Verif Require Export PfKron.
Open Scope nat_scope.

Section Kron2.
Context {K : StarRing}.
Add Ring Kr : (k_ring K).

(** Shapes are filled up with ones and indices with zeros on the left. *)
Definition fill (r c : nat) (l : list nat) : list nat := repeat c (r - length l) ++ l.

Lemma kron_ndim (a b : nd K) : ndim (kron a b) = Nat.max (ndim a) (ndim b).
Proof. unfold kron. rewrite ndim_kron_eq; rewrite !ndim_pad by lia; reflexivity. Qed.
Lemma pad_id n (a : nd K) : ndim a = n -> pad_axes n a = a.
Proof. intros <-. apply pad_same. Qed.
Lemma pad_kron r (a b : nd K) : ndim a <= r -> ndim b <= r -> pad_axes r (kron a b) = kron (pad_axes r a) (pad_axes r b).
Proof.
  intros Ha Hb. unfold kron. rewrite !ndim_pad by assumption. rewrite Nat.max_id, !pad_pad by lia.
  rewrite pad_kron_eq by (rewrite !ndim_pad by lia; reflexivity). rewrite !pad_pad by lia. reflexivity.
Qed.
Lemma pad_fold r args : forall a0 : nd K, Forall (fun a => ndim a <= r) (a0 :: args) ->
  pad_axes r (fold_left kron args a0) = fold_left kron (map (pad_axes r) args) (pad_axes r a0) /\
  ndim (fold_left kron args a0) = fold_left Nat.max (map (@ndim K) args) (ndim a0).
Proof.
  induction args as [|b args IH]; intros a0 H; [split; reflexivity|]. apply Forall_cons_iff in H. destruct H as [H0 H]. apply Forall_cons_iff in H. destruct H as [H1 H].
  cbn [fold_left map]. rewrite <- pad_kron, <- kron_ndim by assumption. apply IH. constructor; [rewrite kron_ndim; lia|exact H].
Qed.

Lemma get_pad r (a : nd K) i : length i = ndim a -> get (pad_axes r a) (fill r 0 i) = get a i.
Proof. intros L. unfold pad_axes, fill. rewrite L. apply get_reshape'. apply ravel_ones. Qed.

Theorem mkron_axes (a0 : nd K) args r : Forall ndwf (a0 :: args) -> Forall (fun a => ndim a <= r) (a0 :: args) -> Exists (fun a => ndim a = r) (a0 :: args) ->
  let shs := map (fun a => fill r 1 (shp a)) (a0 :: args) in
  exists z, mkron (a0 :: args) = Ok z /\ ndwf z /\ shp z = kron_shape r shs /\
    forall ix, Forall2 (fun i a => inr i (shp a)) ix (a0 :: args) -> get z (kron_idx r shs (map (fill r 0) ix)) = kprod (zip2 (@get K) (a0 :: args) ix).
Proof.
  intros W Hr He shs. destruct (pad_fold r args a0 Hr) as [P1 P2].
  assert (Nz : ndim (fold_left kron args a0) = r).
  { rewrite P2. assert (Hr' : Forall (fun n => n <= r) (ndim a0 :: map (@ndim K) args)) by (change (ndim a0 :: map (@ndim K) args) with (map (@ndim K) (a0 :: args)); rewrite Forall_map; exact Hr).
    assert (He' : In r (ndim a0 :: map (@ndim K) args)).
    { change (ndim a0 :: map (@ndim K) args) with (map (@ndim K) (a0 :: args)). apply Exists_exists in He. destruct He as (a & Ia & <-). apply in_map. exact Ia. }
    revert Hr' He'. generalize (ndim a0) (map (@ndim K) args). clear. intros n l. revert n. induction l as [|m l IH]; intros n Hr He.
    - destruct He as [->|[]]. reflexivity.
    - apply Forall_cons_iff in Hr. destruct Hr as [H0 Hr]. apply Forall_cons_iff in Hr. destruct Hr as [H1 Hr]. cbn [fold_left]. apply IH; [constructor; [lia|exact Hr]|].
      destruct He as [->|[->|He]]; [left; lia|left; lia|right; exact He]. }
  destruct (mkron_spec (pad_axes r a0) (map (pad_axes r) args) r) as (z & Ez & Wz & Sz & Vz).
  { change (pad_axes r a0 :: map (pad_axes r) args) with (map (pad_axes r) (a0 :: args)). rewrite Forall_map. rewrite Forall_forall in *. intros a Ia. split; [|apply ndim_pad; apply Hr; exact Ia].
    unfold pad_axes. apply wf_reshape; [apply W; exact Ia|]. apply size_ones. }
  assert (Es : map (@shp K) (pad_axes r a0 :: map (pad_axes r) args) = shs).
  { unfold shs. change (pad_axes r a0 :: map (pad_axes r) args) with (map (pad_axes r) (a0 :: args)). rewrite map_map. reflexivity. }
  rewrite Es in Sz, Vz. exists z. split.
  { unfold mkron in Ez |- *. rewrite <- Ez, <- P1. f_equal. symmetry. apply pad_id. exact Nz. }
  split; [exact Wz|]. split; [exact Sz|]. intros ix Hix. rewrite Vz.
  - f_equal. change (pad_axes r a0 :: map (pad_axes r) args) with (map (pad_axes r) (a0 :: args)). clear - Hix. revert Hix. generalize (a0 :: args). intros l H.
    induction H as [|i a ix l Hi H IH]; [reflexivity|]. cbn [map zip2]. rewrite IH. f_equal. apply get_pad. apply (inr_length _ _ Hi).
  - unfold shs. clear - Hix. revert Hix. generalize (a0 :: args). intros l H. induction H as [|i a ix l Hi H IH]; [constructor|]. cbn [map]. constructor; [|exact IH].
    unfold fill. rewrite (inr_length _ _ Hi). apply inr_app; [|exact Hi]. generalize (r - length (shp a)). clear. induction n; constructor; auto.
Qed.
End Kron2.
