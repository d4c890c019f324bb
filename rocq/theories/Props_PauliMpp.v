(** Property theorems: the Pauli POVMs on several sites (povm/mppovm.py 1539-1599),
    over the complex numbers.

    [cpauli_mpp], [cpauli_mpps], [cpauli_povm] and [cpauli_parts] are the functions with
    the numpy constants of [PfCPovm].  [tens fs is js] is the entry of the tensor product
    of the matrices [fs].  [product_of d ps ns z] ([PfPauliMpp]): [z] is an MP-POVM with
    local dimension [d], outcome numbers [ns] and ranks 1; element [ks] is the tensor
    product of the elements [ks] of the local POVMs [ps]; the elements are positive and
    add up to the identity. *)
From Coq Require Import Reals Lra Lia.
From Verif Require Import PfPauliMpp.
Open Scope nat_scope.

(** ** C70 *)
Theorem C70_mpp n d : 0 < n -> 2 <= d <= 11 ->
  exists p z, cpauli_povm d = Ok p /\ cpauli_mpp n d = Ok z /\
    product_of d (repeat p n) (repeat (if d =? 2 then 6 else 2 * (d * (d - 1))) n) z.
Proof. exact (pauli_mpp_spec n d). Qed.
Print Assumptions C70_mpp.
(** All combinations of the parts, the last site varying fastest; there are three parts
    for qubits and two otherwise. *)
Theorem C70_mpps n d : 0 < n -> 2 <= d <= 16 -> let np := if d =? 2 then 3 else 2 in
  exists ps zs, cpauli_parts d = Ok ps /\ length ps = np /\ cpauli_mpps n d = Ok zs /\ length zs = np ^ n /\
    forall cs p0 z0, inr cs (repeat np n) ->
      product_of d (map (fun c => nth c ps p0) cs) (repeat (d * (d - 1)) n) (nth (ravel (repeat np n) cs) zs z0).
Proof. exact (pauli_mpps_spec n d). Qed.
Print Assumptions C70_mpps.
(** The probabilities determine the state: two matrices with the same probabilities for
    all outcomes are equal. *)
Theorem C70_mpp_info_complete n d z : 0 < n -> 2 <= d -> cpauli_mpp n d = Ok z -> forall rho sigma,
  (forall ks, inr ks (outdims z) -> mborn z rho ks = mborn z sigma ks) ->
  forall is js, inr is (repeat d n) -> inr js (repeat d n) -> rho is js = sigma is js.
Proof.
  intros Hn Hd Ez rho sigma H. assert (H11 : d <= 11).
  { destruct (Nat.le_gt_cases d 11) as [G|G]; [exact G|]. pose proof (proj2 (proj2 (pauli_mpp_errors n d)) G Hn). congruence. }
  destruct (pauli_mpp_spec n d Hn (conj Hd H11)) as (p & z' & Ep & Ez' & Pz). rewrite Ez in Ez'. injection Ez' as <-.
  pose proof (pauli_mpp_ic n d p z rho sigma Hd Ep Pz H) as Q. pose proof Pz as (Oz & _). destruct (povm_dims _ _ _ Oz) as (_ & D2 & _). rewrite repeat_length in D2. rewrite D2 in Q. exact Q.
Qed.
Print Assumptions C70_mpp_info_complete.
Theorem C70_mpps_info_complete n d zs : 0 < n -> 2 <= d -> cpauli_mpps n d = Ok zs -> forall rho sigma,
  (forall z, In z zs -> forall ks, inr ks (outdims z) -> mborn z rho ks = mborn z sigma ks) ->
  forall is js, inr is (repeat d n) -> inr js (repeat d n) -> rho is js = sigma is js.
Proof.
  intros Hn Hd Ez rho sigma H. assert (H16 : d <= 16).
  { destruct (Nat.le_gt_cases d 16) as [G|G]; [exact G|]. pose proof (proj1 (proj2 (pauli_mpps_errors n d)) G). congruence. }
  destruct (pauli_mpps_spec n d Hn (conj Hd H16)) as (ps & zs' & Ep & _ & Ez' & Lz & Pz). rewrite Ez in Ez'. injection Ez' as <-.
  destruct zs as [|z0 zs0] eqn:Ezs; [exfalso; symmetry in Lz; revert Lz; apply Nat.pow_nonzero; unfold nparts; destruct (d =? 2); discriminate|]. rewrite <- Ezs in *.
  assert (p0 : povm CS) by exact (mkPovm (mkNd [] []) false).
  exact (pauli_mpps_ic n d ps zs p0 z0 rho sigma Hd Ep (fun cs => Pz cs p0 z0) Lz H).
Qed.
Print Assumptions C70_mpps_info_complete.
(** Outcome [c m + k] of pauli_mpp is outcome [k] of part [c], where [m] is the number of
    outcomes of a part, with the weight 1 / np for every site. *)
Theorem C70_relation n d z zs z0 cs ks is js : 0 < n -> 2 <= d <= 11 -> cpauli_mpp n d = Ok z -> cpauli_mpps n d = Ok zs ->
  let np := if d =? 2 then 3 else 2 in let m := d * (d - 1) in
  inr cs (repeat np n) -> inr ks (repeat m n) -> inr is (repeat d n) -> inr js (repeat d n) ->
  entry z (triples (zip2 (fun c k => c * m + k) cs ks) is js) =
    (cpow (toC (/ INR np)) n * entry (nth (ravel (repeat np n) cs) zs z0) (triples ks is js))%K.
Proof.
  intros Hn Hd Ez Ezs np m Hc Hk Hi Hj. destruct (pauli_mpp_spec n d Hn Hd) as (p & z' & Ep & Ez' & Pz). rewrite Ez in Ez'. injection Ez' as <-.
  destruct (pauli_mpps_spec n d Hn ltac:(lia)) as (ps & zs' & Eps & _ & Ezs' & _ & Pzs). rewrite Ezs in Ezs'. injection Ezs' as <-.
  exact (pauli_relation n d p ps p z _ cs ks is js ltac:(lia) Ep Eps Pz (Pzs cs p z0 Hc) Hc Hk Hi Hj).
Qed.
Print Assumptions C70_relation.
(** Qubits: parts 0, 1, 2 are the projectors on the eigenvectors of X, Y, Z ([qubit_proj],
    [x_qubit] and so on in [PfCPovm], the eigenvalue +1 first). *)
Theorem C70_qubits n z cs ks is js : 0 < n -> cpauli_mpp n 2 = Ok z ->
  inr cs (repeat 3 n) -> inr ks (repeat 2 n) -> inr is (repeat 2 n) -> inr js (repeat 2 n) ->
  entry z (triples (zip2 (fun c k => c * 2 + k) cs ks) is js) = (cpow (toC (/ INR 3)) n * tens (zip2 qubit_proj cs ks) is js)%K.
Proof.
  intros Hn Ez Hc Hk Hi Hj. destruct (pauli_mpps_spec n 2 Hn ltac:(lia)) as (ps & zs & Eps & _ & Ezs & _ & Pzs).
  destruct (cpauli_complete 2 ltac:(lia)) as (p0 & _).
  etransitivity; [exact (C70_relation n 2 z zs z cs ks is js Hn ltac:(lia) Ez Ezs Hc Hk Hi Hj)|].
  destruct (Pzs cs p0 z Hc) as (_ & _ & N & _). rewrite repeat_length in N.
  change (if 2 =? 2 then 3 else 2) with 3. change (nparts 2) with 3 in N. rewrite N by assumption. rewrite zip2_map_l, (tens_qubit ps p0 Eps n) by assumption. reflexivity.
Qed.
Print Assumptions C70_qubits.
(** The example of the docstring: outcome (1, 3) is minus X on the first and minus Y on
    the second qubit. *)
Example C70_ex : exists z, cpauli_mpp 2 2 = Ok z /\ povm_ok z [6; 6] [2; 2] /\
  entry z (triples [1; 3] [0; 0] [0; 1]) = (0%R, (/ 3 * / 3 * / 4)%R).
Proof.
  destruct (pauli_mpp_spec 2 2 ltac:(lia) ltac:(lia)) as (p & z & _ & Ez & Pz). exists z. split; [exact Ez|]. split; [apply Pz|].
  change [1; 3] with (zip2 (fun c k => c * 2 + k) [0; 1] [1; 1]). rewrite (C70_qubits 2 z) by (auto; repeat constructor).
  apply cplx_eq; cbn; unfold half; lra.
Qed.
(** Dimensions below 2 are refused, chains without sites too, and, because a site of an
    MP-POVM has at most 255 outcomes, so are large dimensions: 12 and more for pauli_mpp,
    17 and more for pauli_mpps. *)
Theorem C70_errors n d :
  (d < 2 -> cpauli_mpp n d = Err AssertionError /\ cpauli_mpps n d = Err AssertionError) /\
  (2 <= d <= 16 -> cpauli_mpp 0 d = Err AssertionError /\ cpauli_mpps 0 d = Err ValueError) /\
  (12 <= d -> 0 < n -> cpauli_mpp n d = Err AssertionError) /\ (17 <= d -> cpauli_mpps n d = Err AssertionError).
Proof.
  destruct (pauli_mpp_errors n d) as (A1 & _ & A3). destruct (pauli_mpps_errors n d) as (B1 & B2 & _).
  split; [intros H; split; auto|]. split; [|split; assumption].
  intros H. split; [exact (proj1 (proj2 (pauli_mpp_errors 0 d)) (proj1 H) eq_refl)|exact (proj2 (proj2 (pauli_mpps_errors 0 d)) H eq_refl)].
Qed.
Print Assumptions C70_errors.
