(** Property theorems: single-site POVMs (povm/localpovm.py), over the complex numbers.

    The numpy constants [1j], [1 / np.sqrt(n)], [1 / n] and the comparison
    [assert_almost_equal(x, 1.0)] are instantiated in [PfCPovm] ([Ci], [c_rsq], [c_frac],
    [c_close1]).  [povm_complete p n d]: [p] consists of [n] matrices of size [d] by [d]
    which are positive semidefinite and sum to the identity; [born d p rho k] is the trace
    of element [k] times [rho] ([PfCPovm]).  *)
From Coq Require Import Reals Lra Lia.
From Verif Require Import PfCPovm PfErrors4.
Open Scope nat_scope.

(** ** C47: the local POVMs are complete *)
Theorem C47_x_povm d : 2 <= d -> exists p, cx_povm d = Ok p /\ povm_complete p (d * (d - 1)) d.
Proof. exact (cx_complete d). Qed.
Print Assumptions C47_x_povm.
Theorem C47_y_povm d : 2 <= d -> exists p, cy_povm d = Ok p /\ povm_complete p (d * (d - 1)) d.
Proof. exact (cy_complete d). Qed.
Print Assumptions C47_y_povm.
Theorem C47_z_povm d : 0 < d -> exists p, cz_povm d = Ok p /\ povm_complete p d d.
Proof. exact (cz_complete d). Qed.
Print Assumptions C47_z_povm.
Theorem C47_pauli_povm d : 2 <= d -> exists p, cpauli_povm d = Ok p /\ info_complete p = true /\
  povm_complete p (if Nat.eqb d 2 then 6 else 2 * (d * (d - 1))) d.
Proof. exact (cpauli_complete d). Qed.
Print Assumptions C47_pauli_povm.
(** For [d = 2] the elements are the projectors on the eigenvectors of the Pauli matrices,
    eigenvalue [+1] first (written out in [x_qubit], [y_qubit], [z_qubit]). *)
Theorem C47_qubit_x : exists p, cx_povm 2 = Ok p /\ forall k a b, k < 2 -> a < 2 -> b < 2 -> povm_elem p k a b = x_qubit k a b.
Proof. exact x_qubit_spec. Qed.
Print Assumptions C47_qubit_x.
Theorem C47_qubit_y : exists p, cy_povm 2 = Ok p /\ forall k a b, k < 2 -> a < 2 -> b < 2 -> povm_elem p k a b = y_qubit k a b.
Proof. exact y_qubit_spec. Qed.
Print Assumptions C47_qubit_y.
Theorem C47_qubit_z : exists p, cz_povm 2 = Ok p /\ forall k a b, k < 2 -> a < 2 -> b < 2 -> povm_elem p k a b = z_qubit k a b.
Proof. exact z_qubit_spec. Qed.
Print Assumptions C47_qubit_z.
(** One-dimensional systems are refused. *)
Theorem C47_small d : d < 2 -> cpauli_povm d = Err AssertionError.
Proof. intros H. destruct d as [|[|d]]; [reflexivity|reflexivity|lia]. Qed.
Print Assumptions C47_small.

(** ** C48: [pauli_povm] is informationally complete *)
Theorem C48_pauli_povm d : 2 <= d -> exists p, cpauli_povm d = Ok p /\ info_complete p = true /\
  forall rho sigma, (forall k, k < pauli_count d -> born d p rho k = born d p sigma k) ->
    forall a b, a < d -> b < d -> rho a b = sigma a b.
Proof. exact (cpauli_ic d). Qed.
Print Assumptions C48_pauli_povm.
(** The parts are not, so the flag is informative: the X POVM of a qubit gives the same
    probabilities for the two basis states. *)
Theorem C48_x_not_complete : exists p, cx_povm 2 = Ok p /\ info_complete p = false /\ exists rho sigma,
  (forall k, k < 2 -> born 2 p rho k = born 2 p sigma k) /\ rho 0 0 <> sigma 0 0.
Proof.
  destruct (x_povm_ok c_rsq 2 ltac:(lia)) as (p & E & I & _ & _ & G). exists p. split; [exact E|]. split; [exact I|]. rewrite pair_mats_len in G.
  exists (z_qubit 0), (z_qubit 1). split.
  - intros k Hk. unfold born, trace_of, mat_dot, povm_elem. cbn [bigsum]. rewrite !G, !pair_qubit by lia. clear G.
    destruct (lt2 k Hk) as [-> | ->]; apply cplx_eq; cbn -[IZR half]; ring.
  - intros H. apply (f_equal Cre) in H. cbn in H. lra.
Qed.
Print Assumptions C48_x_not_complete.

(** ** C66: [probability_map] and [concat] *)
(** [np.dot(povm.probability_map, rho.ravel())] *)
Theorem C66_probability_map p n d : ndwf (elements p) -> shp (elements p) = [n; d; d] -> 0 < n ->
  exists m, povm_pmap p = Ok m /\ shp m = [n; d * d] /\
    forall rho k, k < n -> bigsum (d * d) (fun q => get m [k; q] * rho (q / d) (q mod d))%K = born d p rho k.
Proof. exact (pmap_born p n d). Qed.
Print Assumptions C66_probability_map.
(** The elements of the mixture are the weighted elements of the parts, in order. *)
Theorem C66_concat ps ns ws d ic : Forall2 (fun p n => ndwf (elements p) /\ povm_complete p n d) ps ns -> length ws = length ps ->
  0 < list_sum ns -> wsum ws = 1%R -> Forall (fun w => 0 <= w)%R ws ->
  exists p, povm_concat c_close1 ps (map toC ws) ic = Ok p /\ info_complete p = ic /\ povm_complete p (list_sum ns) d /\
    forall i q k w, nth_error ps i = Some q -> nth_error ws i = Some w -> k < nth i ns 0 ->
      forall a b, a < d -> b < d -> povm_elem p (list_sum (firstn i ns) + k) a b = (toC w * povm_elem q k a b)%K.
Proof. exact (concat_complete ps ns ws d ic). Qed.
Print Assumptions C66_concat.
(** Without elements: no outcome and no probability map. *)
Theorem C66_empty (K : StarRing) ic : exists p : povm K, povm_new [] ic = Ok p /\ povm_len p = 0 /\ povm_list p = [] /\ povm_pmap p = Err ValueError.
Proof. exact (povm_empty ic). Qed.
Print Assumptions C66_empty.
Theorem C66_concat_weights ps ws ic : (15 / 100000000 <= Rabs (1 - wsum ws))%R -> povm_concat c_close1 ps (map toC ws) ic = Err AssertionError.
Proof.
  intros H. apply povm_concat_weights. rewrite lsum_toC. unfold c_close1. cbn [Cre toC fst]. unfold Cre. cbn [fst]. destruct (Rlt_dec (Rabs (1 - wsum ws)) (15 / 100000000)); [lra|reflexivity].
Qed.
Print Assumptions C66_concat_weights.
(** The hypotheses are met: the X and Z POVMs of a qubit with weights 1/3 and 2/3. *)
Example C66_ex : exists x z p, cx_povm 2 = Ok x /\ cz_povm 2 = Ok z /\ povm_concat c_close1 [x; z] (map toC [/ 3; 2 / 3]%R) false = Ok p /\ povm_complete p 4 2 /\
  povm_elem p 2 0 0 = toC (2 / 3)%R.
Proof.
  destruct (x_povm_ok c_rsq 2 ltac:(lia)) as (x & Ex & _ & Hx). destruct (cx_complete 2 ltac:(lia)) as (x' & Ex' & Cx). assert (x' = x) by (unfold cx_povm in Ex'; congruence). subst x'.
  destruct (z_povm_ok (K:=CS) 2 ltac:(lia)) as (z & Ez & _ & Hz). destruct (cz_complete 2 ltac:(lia)) as (z' & Ez' & Cz). assert (z' = z) by (unfold cz_povm in Ez'; congruence). subst z'.
  destruct (concat_complete [x; z] [2; 2] [/ 3; 2 / 3]%R 2 false) as (p & E & _ & H & G); [|reflexivity|cbn; lia|unfold wsum; cbn [fold_right]; lra|repeat constructor; lra|].
  - apply Forall2_cons; [split; [apply Hx|exact Cx]|]. apply Forall2_cons; [split; [apply Hz|exact Cz]|]. apply Forall2_nil.
  - exists x, z, p. split; [exact Ex|]. split; [exact Ez|]. split; [exact E|]. split; [exact H|].
    specialize (G 1 z 0 (2 / 3)%R eq_refl eq_refl ltac:(cbn; lia) 0 0 ltac:(lia) ltac:(lia)). cbn [list_sum firstn fold_right Nat.add] in G. rewrite G.
    destruct Hz as (_ & _ & Gz). unfold povm_elem. rewrite Gz by (cbn; lia). apply cplx_eq; cbn -[IZR Rdiv]; ring.
Qed.
