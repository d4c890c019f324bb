(** Statements about [cXY_E0] (utils/physics.py 58-91). *)
From Coq Require Import Reals ZArith Lra.
From Verif Require Import Cplx Pmf CanonSpec Physics PfPhysics PfCxyE0 PfXyTrig PfXyLow PfXyStrict PfXyGround CxyE0 Props_Misc.
Open Scope R_scope.

(** C75.  [excitation gamma k] is [sqrt(cos(k)^2 + gamma^2 sin(k)^2)], [rsumn n f] the sum of
    [f l] for [l < n]. *)
Theorem C75_value m gamma : let N := (4 * m + 2)%Z in
  cXY_E0 N gamma = Ok (- (1 / 2) * rsumn (Z.to_nat N) (fun l => excitation gamma (2 * PI * INR l / IZR N))).
Proof. intros N. apply cXY_E0_val. exists m. reflexivity. Qed.
Print Assumptions C75_value.
Theorem C75_error N gamma : cXY_E0 N gamma = Err ValueError <-> ~ (exists m, N = 4 * m + 2)%Z.
Proof. exact (cXY_E0_err N gamma). Qed.
Print Assumptions C75_error.
(** Negative odd multiples of two are accepted. *)
Theorem C75_negative N gamma : (N < 0)%Z -> (N mod 4 = 2)%Z -> cXY_E0 N gamma = Ok 0.
Proof.
  intros H H4. rewrite cXY_E0_val. 2:{ exists (N / 4)%Z. pose proof (Z.div_mod N 4 ltac:(discriminate)). rewrite H4 in *. exact H0. }
  destruct N as [|p|p]; try discriminate. cbn [Z.to_nat rsumn]. f_equal. ring.
Qed.
Print Assumptions C75_negative.
Theorem C75_monotone N gamma gamma' e e' : Rabs gamma <= Rabs gamma' -> cXY_E0 N gamma = Ok e -> cXY_E0 N gamma' = Ok e' -> e' <= e.
Proof.
  intros H E E'. assert (X : exists m, N = (4 * m + 2)%Z). { destruct (odd_double N) as [A _]. apply A. unfold cXY_E0 in E. destruct (Z.eqb_spec (N mod 2) 0), (Z.eqb_spec (N mod 4) 0); try discriminate. auto. }
  rewrite cXY_E0_val in E, E' by exact X. injection E as <-. injection E' as <-.
  pose proof (rsumn_le (Z.to_nat N) (fun l => excitation gamma (2 * PI * INR l / IZR N)) (fun l => excitation gamma' (2 * PI * INR l / IZR N)) (fun k _ => excitation_mono gamma gamma' _ H)). lra.
Qed.
Print Assumptions C75_monotone.
Theorem C75_even N gamma : cXY_E0 N (- gamma) = cXY_E0 N gamma.
Proof.
  unfold cXY_E0. destruct (_ || _); [reflexivity|]. do 3 f_equal. apply map_ext. intros l. f_equal. unfold lambda2. f_equal. f_equal. ring.
Qed.
Print Assumptions C75_even.
Theorem C75_bounds m gamma e : (0 <= m)%Z -> let N := (4 * m + 2)%Z in cXY_E0 N gamma = Ok e ->
  - (IZR N / 2) * Rmax 1 (Rabs gamma) <= e <= - (IZR N / 2) * Rmin 1 (Rabs gamma).
Proof.
  intros Hm N E. rewrite cXY_E0_val in E by (exists m; reflexivity). injection E as <-. 
  assert (HN : INR (Z.to_nat N) = IZR N) by (rewrite INR_IZR_INZ, Z2Nat.id by (unfold N; lia); reflexivity).
  pose proof (rsumn_const (Z.to_nat N) (Rmax 1 (Rabs gamma))) as C1. pose proof (rsumn_const (Z.to_nat N) (Rmin 1 (Rabs gamma))) as C2. rewrite HN in C1, C2.
  assert (B : forall k, Rmin 1 (Rabs gamma) <= excitation gamma k <= Rmax 1 (Rabs gamma)).
  { intros k. destruct (Rle_dec (Rabs gamma) 1) as [H|H].
    - rewrite Rmin_right, Rmax_left by lra. split; [apply excitation_low; exact H|]. rewrite <- (excitation_1 1 k Rabs_R1). apply excitation_mono. rewrite Rabs_R1. exact H.
    - rewrite Rmin_left, Rmax_right by lra. split; [|apply excitation_high; lra]. rewrite <- (excitation_1 1 k Rabs_R1). apply excitation_mono. rewrite Rabs_R1. lra. }
  pose proof (rsumn_le (Z.to_nat N) _ _ (fun k _ => proj2 (B (2 * PI * INR k / IZR N)))) as L1.
  pose proof (rsumn_le (Z.to_nat N) _ _ (fun k _ => proj1 (B (2 * PI * INR k / IZR N)))) as L2.
  cbv beta in L1, L2. rewrite C1 in L1. rewrite C2 in L2. lra.
Qed.
Print Assumptions C75_bounds.

(** The Hamiltonian: the MPO [mpo_cH(cXY_local_terms(N, gamma))].  [ground_energy H N e]: [e] is an
    eigenvalue of [H] and no vector has a smaller expectation value. *)
Definition hamiltonian (N : nat) (gamma : R) (z : ltens CS) : Prop :=
  exists terms, cXY_local_terms N Ci (toC ((1 + gamma) * (1 / 4))) (toC ((1 - gamma) * (1 / 4))) = Ok terms /\ mpo_cH terms = Ok z.
Lemma hamiltonian_xyH N gamma : (2 <= N)%nat -> exists z, hamiltonian N gamma z /\
  forall is js, inr is (repeat 2%nat N) -> inr js (repeat 2%nat N) -> entry z (pairs is js) = xyH gamma N is js.
Proof.
  intros HN. destruct (C59_cXY CS Ci (toC ((1 + gamma) * (1 / 4))) (toC ((1 - gamma) * (1 / 4))) N HN) as (terms & z & E & L & Ez & Et & Ee).
  exists z. split; [exists terms; auto|]. intros is js Hi Hj. rewrite Ee by assumption. apply xyH_spec; assumption.
Qed.
Theorem C75_ground_unique H N e e' : ground_energy H N e -> ground_energy H N e' -> e = e'.
Proof. exact (ground_energy_unique H N e e'). Qed.
Print Assumptions C75_ground_unique.
(** For two sites the ground state energy is [- max(1, |gamma|)]. *)
Theorem C75_two_sites gamma : exists z, hamiltonian 2 gamma z /\ ground_energy (fun is js => entry z (pairs is js)) 2 (- Rmax 1 (Rabs gamma)).
Proof.
  destruct (hamiltonian_xyH 2 gamma ltac:(lia)) as (z & Hz & E). exists z. split; [exact Hz|].
  apply (ground_energy_ext (xyH gamma 2)); [intros; symmetry; auto|]. apply xy_two.
Qed.
Print Assumptions C75_two_sites.
Lemma two_sites_value gamma : cXY_E0 2 gamma = Ok (-1).
Proof.
  rewrite cXY_E0_val by (exists 0%Z; reflexivity). cbn [Z.to_nat Pos.to_nat Pos.iter_op Nat.add rsumn]. change (Pos.to_nat 2) with 2%nat. cbn [rsumn INR].
  replace (2 * PI * 0 / 2) with 0 by field. replace (2 * PI * 1 / 2) with PI by field. unfold excitation. rewrite cos_0, sin_0, cos_PI, sin_PI.
  replace (1 ^ 2 + gamma ^ 2 * 0 ^ 2) with 1 by ring. replace ((-1) ^ 2 + gamma ^ 2 * 0 ^ 2) with 1 by ring. rewrite sqrt_1. f_equal. field.
Qed.
(** For any even number of sites it is minus half the larger of two sums of excitation energies: over
    the angles [2 pi l / N], and over the angles in the middle between them. *)
Theorem C75_ground_even n gamma : (1 <= n)%nat -> let N := (2 * n)%nat in exists z, hamiltonian N gamma z /\
  ground_energy (fun is js => entry z (pairs is js)) N
    (- (1 / 2) * Rmax (rsumn N (fun l => excitation gamma (2 * PI * INR l / INR N))) (rsumn N (fun l => excitation gamma (PI / INR N + 2 * PI * INR l / INR N)))).
Proof.
  intros Hn N. destruct (hamiltonian_xyH N gamma ltac:(unfold N; lia)) as (z & Hz & E). exists z. split; [exact Hz|].
  apply (ground_energy_ext (xyH gamma N)); [intros; symmetry; auto|]. exact (xy_ground n gamma Hn).
Qed.
Print Assumptions C75_ground_even.
Lemma value_at m gamma : let N := (4 * m + 2)%nat in cXY_E0 (Z.of_nat N) gamma = Ok (- (1 / 2) * rsumn N (fun l => excitation gamma (2 * PI * INR l / INR N))).
Proof.
  intros N. rewrite cXY_E0_val by (exists (Z.of_nat m); unfold N; lia). rewrite Nat2Z.id. do 2 f_equal. apply rsumn_ext. intros l _. rewrite (INR_IZR_INZ N). reflexivity.
Qed.
(** If [|gamma| <= 1], [cXY_E0] returns the ground state energy, for every odd multiple of two … *)
Theorem C75_ground m gamma : Rabs gamma <= 1 -> let N := (4 * m + 2)%nat in
  exists z e, hamiltonian N gamma z /\ cXY_E0 (Z.of_nat N) gamma = Ok e /\ ground_energy (fun is js => entry z (pairs is js)) N e.
Proof.
  intros Hg N. destruct (C75_ground_even (2 * m + 1) gamma ltac:(lia)) as (z & Hz & G). replace (2 * (2 * m + 1))%nat with N in * by (unfold N; lia).
  exists z. eexists. split; [exact Hz|]. split; [apply value_at|]. fold N. rewrite Rmax_left in G; [exact G|].
  pose proof (excitation_compare (2 * m + 1) (ex_intro _ m eq_refl) gamma Hg) as C. replace (2 * (2 * m + 1))%nat with N in C by (unfold N; lia). exact C.
Qed.
Print Assumptions C75_ground.
(** … and otherwise a larger value: the ground state energy is given by the angles in the middle. *)
Theorem C75_ground_large m gamma : 1 < Rabs gamma -> let N := (4 * m + 2)%nat in
  exists z e, hamiltonian N gamma z /\ cXY_E0 (Z.of_nat N) gamma = Ok e /\
    let e0 := - (1 / 2) * rsumn N (fun l => excitation gamma (PI / INR N + 2 * PI * INR l / INR N)) in
    ground_energy (fun is js => entry z (pairs is js)) N e0 /\ e0 < e.
Proof.
  intros Hg N. destruct (C75_ground_even (2 * m + 1) gamma ltac:(lia)) as (z & Hz & G). pose proof (excitation_strict (2 * m + 1) ltac:(lia) gamma Hg) as C.
  replace (2 * (2 * m + 1))%nat with N in * by (unfold N; lia). exists z. eexists. split; [exact Hz|]. split; [apply value_at|]. fold N. rewrite Rmax_right in G by lra. split; [exact G|]. cbv zeta. lra.
Qed.
Print Assumptions C75_ground_large.
Theorem C75_ground_refuted m gamma : 1 < Rabs gamma -> let N := (4 * m + 2)%nat in
  exists z e, hamiltonian N gamma z /\ cXY_E0 (Z.of_nat N) gamma = Ok e /\ ~ ground_energy (fun is js => entry z (pairs is js)) N e.
Proof.
  intros H N. destruct (C75_ground_large m gamma H) as (z & e & Hz & E & G & L). fold N in G, L, E, Hz. exists z, e. split; [exact Hz|]. split; [exact E|]. intros G'.
  pose proof (ground_energy_unique _ _ _ _ G G') as F. lra.
Qed.
Print Assumptions C75_ground_refuted.
(** Two values *)
Example C75_ex : cXY_E0 6 1 = Ok (-3) /\ cXY_E0 2 (1 / 2) = Ok (-1) /\ cXY_E0 4 1 = Err ValueError.
Proof.
  split; [|split; [apply two_sites_value|reflexivity]]. rewrite cXY_E0_val by (exists 1%Z; reflexivity). rewrite (rsumn_ext _ _ (fun _ => 1)) by (intros; apply excitation_1, Rabs_R1). rewrite rsumn_const. f_equal.
  rewrite INR_IZR_INZ, Z2Nat.id by lia. field.
Qed.
