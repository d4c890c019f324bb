(** Sums of cosines over equally spaced angles, and the comparison of the excitation energies at the
    angles [2 pi l / N] with those at the angles between them. *)
From Coq Require Import Reals Lra Lia.
From Verif Require Import PfCxyE0.
Open Scope R_scope.

Lemma rsumn_mul_l n c f : rsumn n (fun k => c * f k) = c * rsumn n f.
Proof. induction n as [|n IH]; cbn; [ring|]. rewrite IH. ring. Qed.
Lemma rsumn_add n f g : rsumn n (fun k => f k + g k) = rsumn n f + rsumn n g.
Proof. induction n as [|n IH]; cbn; [ring|]. rewrite IH. ring. Qed.
Lemma rsumn_telescope n f : rsumn n (fun k => f (S k) - f k) = f n - f O.
Proof. induction n as [|n IH]; cbn; [ring|]. rewrite IH. ring. Qed.

(** ** Equally spaced angles *)
Lemma cos_step a t l : 2 * sin (t / 2) * cos (a + INR l * t) = sin (a + INR (S l) * t - t / 2) - sin (a + INR l * t - t / 2).
Proof.
  rewrite S_INR. replace (a + (INR l + 1) * t - t / 2) with ((a + INR l * t) + t / 2) by lra. rewrite sin_plus, sin_minus. ring.
Qed.
Lemma cos_sum_0 n a t (z : Z) : INR n * t = 2 * PI * IZR z -> sin (t / 2) <> 0 -> rsumn n (fun l => cos (a + INR l * t)) = 0.
Proof.
  intros H S. apply (Rmult_eq_reg_l (2 * sin (t / 2))); [|lra]. rewrite <- rsumn_mul_l, (rsumn_ext _ _ _ (fun k _ => cos_step a t k)), (rsumn_telescope n (fun l => sin (a + INR l * t - t / 2))).
  rewrite H. cbn [INR]. replace (a + 2 * PI * IZR z - t / 2) with ((a - t / 2) + 2 * IZR z * PI) by ring. replace (a + 0 * t - t / 2) with (a - t / 2) by ring.
  assert (E : forall x (z : Z), sin (x + 2 * IZR z * PI) = sin x).
  { clear. intros x z. destruct (Z.le_gt_cases 0 z).
    - rewrite <- (Z2Nat.id z) by lia. rewrite <- INR_IZR_INZ. apply sin_period.
    - rewrite <- (sin_period (x + 2 * IZR z * PI) (Z.to_nat (- z))). f_equal. rewrite INR_IZR_INZ, Z2Nat.id by lia. rewrite opp_IZR. ring. }
  rewrite E. ring.
Qed.
(** If [sin (t / 2) = 0] all angles are equivalent. *)
Lemma sin0_mult x l : sin x = 0 -> sin (INR l * x) = 0 /\ cos (INR l * x) = cos x ^ l.
Proof.
  intros H. induction l as [|l [IS IC]]; [cbn [INR pow]; rewrite Rmult_0_l; split; [apply sin_0|apply cos_0]|].
  rewrite S_INR. replace ((INR l + 1) * x) with (INR l * x + x) by ring. rewrite sin_plus, cos_plus, H, IS, IC. cbn [pow]. split; ring.
Qed.
Lemma sin0_cos x : sin x = 0 -> cos x = 1 \/ cos x = -1.
Proof. intros H. pose proof (sc2 x) as E. rewrite H in E. assert ((cos x - 1) * (cos x + 1) = 0) as F by nra. apply Rmult_integral in F. lra. Qed.
Lemma cos_sum_1 n a t : sin (t / 2) = 0 -> rsumn n (fun l => cos (a + INR l * t)) = INR n * cos a.
Proof.
  intros H. rewrite <- rsumn_const. apply rsumn_ext. intros l _. destruct (sin0_mult (t / 2) (2 * l) H) as [A B].
  replace (INR (2 * l) * (t / 2)) with (INR l * t) in A, B by (rewrite mult_INR; cbn; field). rewrite cos_plus, A, B. rewrite pow_mult.
  replace (cos (t / 2) ^ 2) with 1 by (pose proof (sc2 (t / 2)) as E; rewrite H in E; lra). rewrite pow1. ring.
Qed.

(** ** Non-negative combinations of cosines *)
Inductive cosn : (R -> R) -> Prop :=
| cosn_cos c s : 0 <= c -> cosn (fun y => c * cos (INR s * y))
| cosn_add f g : cosn f -> cosn g -> cosn (fun y => f y + g y)
| cosn_ext f g : cosn f -> (forall y, f y = g y) -> cosn g.
Lemma cosn_mul f g : cosn f -> cosn g -> cosn (fun y => f y * g y).
Proof.
  intros F G. induction F as [c s Hc|f1 f2 F1 I1 F2 I2|f1 f2 F1 I1 E].
  - induction G as [d r Hd|g1 g2 G1 I1 G2 I2|g1 g2 G1 I1 E].
    + apply (cosn_ext (fun y => c * d / 2 * cos (INR (s + r) * y) + c * d / 2 * cos (INR (Nat.max s r - Nat.min s r) * y))).
      * apply cosn_add; apply cosn_cos; apply Rmult_le_pos; try lra; apply Rmult_le_pos; assumption.
      * intros y. rewrite plus_INR. replace ((INR s + INR r) * y) with (INR s * y + INR r * y) by ring. rewrite cos_plus.
        destruct (Nat.le_ge_cases s r) as [H|H].
        -- rewrite Nat.max_r, Nat.min_l, minus_INR by exact H. replace ((INR r - INR s) * y) with (INR r * y - INR s * y) by ring. rewrite cos_minus. field.
        -- rewrite Nat.max_l, Nat.min_r, minus_INR by exact H. replace ((INR s - INR r) * y) with (INR s * y - INR r * y) by ring. rewrite cos_minus. field.
    + apply (cosn_ext (fun y => c * cos (INR s * y) * g1 y + c * cos (INR s * y) * g2 y)); [apply cosn_add; assumption|]. intros y. ring.
    + apply (cosn_ext _ _ I1). intros y. rewrite E. reflexivity.
  - apply (cosn_ext (fun y => f1 y * g y + f2 y * g y)); [apply cosn_add; assumption|]. intros y. ring.
  - apply (cosn_ext _ _ I1). intros y. rewrite E. reflexivity.
Qed.
Lemma cosn_const c : 0 <= c -> cosn (fun _ => c).
Proof. intros H. apply (cosn_ext (fun y => c * cos (INR 0 * y))); [apply cosn_cos; exact H|]. intros y. cbn. rewrite Rmult_0_l, cos_0. ring. Qed.
Lemma cosn_scale c f : 0 <= c -> cosn f -> cosn (fun y => c * f y).
Proof. intros H F. apply (cosn_mul (fun _ => c) f); [apply cosn_const; exact H|exact F]. Qed.

Section Compare.
Variable n : nat.
Hypothesis n_odd : exists m, n = (2 * m + 1)%nat.
Let N := (2 * n)%nat.
Lemma n_pos : 0 < INR n.
Proof. apply lt_0_INR. destruct n_odd. lia. Qed.
(** [y = 2 k + pi] for the two families of angles [k] *)
Definition yper (l : nat) : R := 2 * (2 * PI * INR l / INR N) + PI.
Definition yanti (l : nat) : R := 2 * (PI / INR N + 2 * PI * INR l / INR N) + PI.
Lemma N_INR : INR N = 2 * INR n.
Proof. unfold N. rewrite mult_INR. reflexivity. Qed.
Lemma cosn_compare f : cosn f -> rsumn N (fun l => f (yper l)) <= rsumn N (fun l => f (yanti l)).
Proof.
  intros F. induction F as [c s Hc|f1 f2 F1 I1 F2 I2|f1 f2 F1 I1 E].
  - rewrite !rsumn_mul_l. apply Rmult_le_compat_l; [exact Hc|]. pose proof n_pos as Pn.
    set (t := 2 * PI * INR s / INR n). 
    rewrite (rsumn_ext N (fun l => cos (INR s * yper l)) (fun l => cos (INR s * PI + INR l * t))) by (intros l _; f_equal; unfold yper, t; rewrite N_INR; field; lra).
    rewrite (rsumn_ext N (fun l => cos (INR s * yanti l)) (fun l => cos ((INR s * PI + t / 2) + INR l * t))) by (intros l _; f_equal; unfold yanti, t; rewrite N_INR; field; lra).
    destruct (Req_dec (sin (t / 2)) 0) as [H|H].
    + rewrite !cos_sum_1 by exact H. apply Rmult_le_compat_l; [apply pos_INR|]. rewrite (cos_plus (INR s * PI)), H.
      assert (E : cos (INR s * PI) = cos (t / 2)).
      { destruct (sin0_mult (t / 2) n H) as [_ C]. replace (INR n * (t / 2)) with (INR s * PI) in C by (unfold t; field; lra). rewrite C. destruct n_odd as [m ->]. rewrite pow_add, pow_mult, pow_1.
        replace (cos (t / 2) ^ 2) with 1 by (pose proof (sc2 (t / 2)) as Q; rewrite H in Q; lra). rewrite pow1. ring. }
      rewrite E. destruct (sin0_cos (t / 2) H) as [-> | ->]; lra.
    + assert (Q : INR N * t = 2 * PI * IZR (2 * Z.of_nat s)) by (unfold t; rewrite N_INR, mult_IZR, <- INR_IZR_INZ; field; lra).
      rewrite !(cos_sum_0 _ _ _ _ Q H). lra.
  - rewrite !rsumn_add. lra.
  - rewrite <- (rsumn_ext N (fun l => f1 (yper l)) (fun l => f2 (yper l))), <- (rsumn_ext N (fun l => f1 (yanti l)) (fun l => f2 (yanti l))) by auto. exact I1.
Qed.

(** ** The square root as a limit of polynomials with non-negative coefficients *)
Fixpoint appr (k : nat) (x : R) : R := match k with O => 0 | S k => / 2 * (x + appr k x * appr k x) end.
Lemma appr_bound x k : 0 <= x <= 1 -> let q := 1 - sqrt (1 - x) in 0 <= appr k x /\ 0 <= q - appr k x <= 2 / (INR k + 2).
Proof.
  intros Hx q. assert (Q : 0 <= q <= 1 /\ q = / 2 * (x + q * q)).
  { unfold q. pose proof (sqrt_pos (1 - x)). assert (sqrt (1 - x) <= 1) by (rewrite <- sqrt_1 at 2; apply sqrt_le_1_alt; lra). pose proof (sqrt_sqrt (1 - x) ltac:(lra)). split; [lra|]. lra. }
  destruct Q as [Q1 Q2]. induction k as [|k [I0 [I1 I2]]]; [cbn; lra|].
  cbn [appr]. rewrite S_INR. pose proof (pos_INR k) as Pk. set (p := appr k x) in *. set (e := q - p) in *.
  assert (E : q - / 2 * (x + p * p) = / 2 * e * (q + p)) by (unfold e; rewrite Q2 at 1; ring). rewrite E. assert (q + p <= 2 - e) by (unfold e; lra).
  split; [nra|]. split; [apply Rmult_le_pos; nra|].
  apply (Rle_trans _ (e - e * e / 2)); [nra|]. set (b := 2 / (INR k + 2)) in *.
  assert (B : b * (INR k + 2) = 2) by (unfold b; field; lra). assert (0 <= b) by (unfold b; apply Rlt_le, Rdiv_lt_0_compat; lra). assert (b <= 1) by nra.
  apply (Rle_trans _ (b - b * b / 2)); [nra|]. apply (Rmult_le_reg_r (INR k + 1 + 2)); [lra|]. replace (2 / (INR k + 1 + 2) * (INR k + 1 + 2)) with 2 by (field; lra).
  replace (INR k + 1 + 2) with ((INR k + 2) + 1) by ring. replace ((b - b * b / 2) * (INR k + 2 + 1)) with (b * (INR k + 2) + b - b * (b * (INR k + 2)) / 2 - b * b / 2) by field. rewrite B. nra.
Qed.
Lemma appr_cosn c k : 0 <= c -> cosn (fun y => appr k (c * ((1 + cos y) / 2))).
Proof.
  intros Hc. induction k as [|k IH]; [exact (cosn_const 0 (Rle_refl 0))|]. cbn [appr]. apply (cosn_scale (/ 2)); [lra|]. apply (cosn_add (fun y => c * ((1 + cos y) / 2))); [|apply cosn_mul; exact IH].
  apply cosn_scale; [exact Hc|]. apply (cosn_ext (fun y => / 2 + / 2 * cos (INR 1 * y))); [apply cosn_add; [apply cosn_const; lra|apply cosn_cos; lra]|]. intros y. cbn. rewrite Rmult_1_l. field.
Qed.
Lemma root_compare c : 0 <= c <= 1 ->
  rsumn N (fun l => sqrt (1 - c * ((1 + cos (yanti l)) / 2))) <= rsumn N (fun l => sqrt (1 - c * ((1 + cos (yper l)) / 2))).
Proof.
  intros Hc. assert (X : forall y, 0 <= c * ((1 + cos y) / 2) <= 1) by (intros y; pose proof (COS_bound y); nra).
  set (SA := rsumn N _). set (SP := rsumn N _). assert (Pn : 0 < INR N) by (rewrite N_INR; pose proof n_pos; lra).
  assert (B : forall k, SA - SP <= INR N * (2 / (INR k + 2))).
  { intros k. pose proof (cosn_compare _ (appr_cosn c k (proj1 Hc))) as C. cbv beta in C.
    assert (A1 : rsumn N (fun l => appr k (c * ((1 + cos (yanti l)) / 2)) + sqrt (1 - c * ((1 + cos (yanti l)) / 2))) <= rsumn N (fun _ => 1)).
    { apply rsumn_le. intros l _. destruct (appr_bound _ k (X (yanti l))) as [_ [Q _]]. lra. }
    assert (A2 : rsumn N (fun _ => 1 + - (2 / (INR k + 2))) <= rsumn N (fun l => appr k (c * ((1 + cos (yper l)) / 2)) + sqrt (1 - c * ((1 + cos (yper l)) / 2)))).
    { apply rsumn_le. intros l _. destruct (appr_bound _ k (X (yper l))) as [_ [_ Q]]. lra. }
    rewrite rsumn_const, rsumn_add in A1, A2. fold SA in A1. fold SP in A2. lra. }
  destruct (Rle_dec SA SP) as [H|H]; [exact H|]. exfalso.
  destruct (archimed (INR N * 2 / (SA - SP))) as [A _]. set (z := up _) in *. assert (D : 0 < SA - SP) by lra.
  assert (Z0 : (0 <= z)%Z). { apply le_IZR. apply Rlt_le, (Rle_lt_trans _ (INR N * 2 / (SA - SP))); [|exact A]. apply Rlt_le, Rdiv_lt_0_compat; lra. }
  specialize (B (Z.to_nat z)). rewrite (INR_IZR_INZ (Z.to_nat z)), Z2Nat.id in B by exact Z0. assert (P : 0 < IZR z + 2) by (apply IZR_le in Z0; lra).
  apply (Rmult_le_compat_r (IZR z + 2)) in B; [|lra]. replace (INR N * (2 / (IZR z + 2)) * (IZR z + 2)) with (INR N * 2) in B by (field; lra).
  apply (Rmult_lt_compat_r (SA - SP)) in A; [|exact D]. replace (INR N * 2 / (SA - SP) * (SA - SP)) with (INR N * 2) in A by (field; lra). lra.
Qed.
Theorem excitation_compare gamma : Rabs gamma <= 1 ->
  rsumn N (fun l => excitation gamma (PI / INR N + 2 * PI * INR l / INR N)) <= rsumn N (fun l => excitation gamma (2 * PI * INR l / INR N)).
Proof.
  intros Hg. assert (Hc : 0 <= 1 - gamma ^ 2 <= 1) by (rewrite <- (pow2_abs gamma); pose proof (Rabs_pos gamma); split; nra).
  assert (E : forall k, excitation gamma k = sqrt (1 - (1 - gamma ^ 2) * ((1 + cos (2 * k + PI)) / 2))).
  { intros k. unfold excitation. f_equal. rewrite cos_plus, cos_PI, sin_PI, cos_2a_sin. pose proof (sc2 k). nra. }
  rewrite (rsumn_ext N _ _ (fun l _ => E _)), (rsumn_ext N (fun l => excitation gamma (2 * PI * INR l / INR N)) _ (fun l _ => E _)). apply (root_compare _ Hc).
Qed.
End Compare.
