(** For [|gamma| > 1] the excitation energies at the angles between the [2 pi l / N] have the strictly larger sum. *)
From Coq Require Import Reals Lra Lia.
From Verif Require Import Cplx PfCxyE0 PfXyTrig.
Open Scope R_scope.

Definition has (s : nat) (f : R -> R) : Prop := exists c g, 0 < c /\ cosn g /\ forall y, f y = c * cos (INR s * y) + g y.
Lemma has_cosn s f : has s f -> cosn f.
Proof. intros (c & g & Hc & G & E). apply (cosn_ext (fun y => c * cos (INR s * y) + g y)); [apply cosn_add; [apply cosn_cos; lra|exact G]|intros y; symmetry; apply E]. Qed.
Lemma has_add s f g : has s f -> cosn g -> has s (fun y => f y + g y).
Proof. intros (c & h & Hc & H & E) G. exists c, (fun y => h y + g y). split; [exact Hc|]. split; [apply cosn_add; assumption|]. intros y. rewrite E. ring. Qed.
Lemma has_scale s c f : 0 < c -> has s f -> has s (fun y => c * f y).
Proof. intros H0 (d & h & Hd & H & E). exists (c * d), (fun y => c * h y). split; [apply Rmult_lt_0_compat; assumption|]. split; [apply cosn_scale; [lra|exact H]|]. intros y. rewrite E. ring. Qed.
Lemma has_ext s f g : has s f -> (forall y, f y = g y) -> has s g.
Proof. intros (c & h & Hc & H & E) F. exists c, h. split; [exact Hc|]. split; [exact H|]. intros y. rewrite <- F. apply E. Qed.
Lemma has_square s f : has (S s) f -> has 1 f -> has (S (S s)) (fun y => f y * f y).
Proof.
  intros Hs H1. pose proof (has_cosn _ _ H1) as F. destruct Hs as (c & g & Hc & G & E1), H1 as (d & h & Hd & H & E2).
  exists (c * d / 2), (fun y => c * d / 2 * cos (INR s * y) + c * cos (INR (S s) * y) * h y + g y * f y).
  assert (P : 0 < c * d) by (apply Rmult_lt_0_compat; assumption). split; [lra|]. split.
  - apply (cosn_add (fun y => c * d / 2 * cos (INR s * y) + c * cos (INR (S s) * y) * h y)); [apply (cosn_add (fun y => c * d / 2 * cos (INR s * y)))|apply cosn_mul; assumption].
    + apply cosn_cos. lra.
    + apply (cosn_mul (fun y => c * cos (INR (S s) * y))); [apply cosn_cos; lra|exact H].
  - intros y. transitivity (c * cos (INR (S s) * y) * (d * cos (INR 1 * y) + h y) + g y * f y); [rewrite <- E2, E1; ring|].
    replace (INR (S (S s)) * y) with (INR (S s) * y + INR 1 * y) by (rewrite (S_INR (S s)); cbn [INR]; ring). replace (INR s * y) with (INR (S s) * y - INR 1 * y) by (rewrite (S_INR s); cbn [INR]; ring).
    rewrite cos_plus, cos_minus. field.
Qed.

Definition xf c y := c * ((1 + cos y) / 2).
Lemma xf_has c : 0 < c -> has 1 (xf c).
Proof.
  intros Hc. exists (c / 2), (fun _ => c / 2). split; [lra|]. split; [apply cosn_const; lra|]. intros y. unfold xf. cbn [INR]. rewrite Rmult_1_l. field.
Qed.
Lemma appr_cosn' c k : 0 < c -> cosn (fun y => appr k (xf c y)).
Proof. intros Hc. apply appr_cosn. lra. Qed.
Lemma appr_has1 c k : 0 < c -> has 1 (fun y => appr (S k) (xf c y)).
Proof. intros Hc. cbn [appr]. apply (has_scale 1 (/ 2)); [lra|]. apply (has_add 1 (xf c)); [apply xf_has; exact Hc|apply (cosn_mul (fun y => appr k (xf c y))); apply appr_cosn'; exact Hc]. Qed.
Lemma appr_has c k : 0 < c -> has (S k) (fun y => appr (S k) (xf c y)).
Proof.
  intros Hc. induction k as [|k IH]; [apply appr_has1; exact Hc|]. set (p := fun y => appr (S k) (xf c y)) in *.
  apply (has_ext _ (fun y => / 2 * (p y * p y + xf c y))).
  - apply has_scale; [lra|]. apply (has_add _ (fun y => p y * p y)); [apply has_square; [exact IH|apply appr_has1; exact Hc]|]. apply (has_cosn 1). apply xf_has. exact Hc.
  - intros y. unfold p. cbn [appr]. ring.
Qed.
Lemma appr_step c k : 0 < c -> cosn (fun y => appr (S k) (xf c y) - appr k (xf c y)).
Proof.
  intros Hc. induction k as [|k IH].
  - apply (cosn_ext (fun y => / 2 * xf c y)); [apply cosn_scale; [lra|apply (has_cosn 1), xf_has; exact Hc]|]. intros y. cbn [appr]. ring.
  - apply (cosn_ext (fun y => / 2 * ((appr (S k) (xf c y) - appr k (xf c y)) * (appr (S k) (xf c y) + appr k (xf c y))))).
    + apply cosn_scale; [lra|]. apply (cosn_mul _ (fun y => appr (S k) (xf c y) + appr k (xf c y)) IH). apply (cosn_add (fun y => appr (S k) (xf c y))); apply appr_cosn'; exact Hc.
    + intros y. cbn [appr]. ring.
Qed.
Lemma appr_steps c k d : 0 < c -> cosn (fun y => appr (k + d) (xf c y) - appr k (xf c y)).
Proof.
  intros Hc. induction d as [|d IH].
  - apply (cosn_ext (fun _ => 0)); [apply cosn_const; lra|]. intros y. rewrite Nat.add_0_r. ring.
  - apply (cosn_ext (fun y => (appr (S (k + d)) (xf c y) - appr (k + d) (xf c y)) + (appr (k + d) (xf c y) - appr k (xf c y)))).
    + apply (cosn_add (fun y => appr (S (k + d)) (xf c y) - appr (k + d) (xf c y))); [apply appr_step; exact Hc|exact IH].
    + intros y. rewrite Nat.add_succ_r. ring.
Qed.

Section Compare.
Variable n : nat.
Hypothesis n_pos : (1 <= n)%nat.
Let N := (2 * n)%nat.
Definition zper (l : nat) : R := 2 * (2 * PI * INR l / INR N).
Definition zanti (l : nat) : R := 2 * (PI / INR N + 2 * PI * INR l / INR N).
Definition dif (f : R -> R) : R := rsumn N (fun l => f (zper l)) - rsumn N (fun l => f (zanti l)).
Lemma dif_add f g : dif (fun y => f y + g y) = dif f + dif g.
Proof. unfold dif. rewrite !rsumn_add. ring. Qed.
Lemma dif_scale c f : dif (fun y => c * f y) = c * dif f.
Proof. unfold dif. rewrite !rsumn_mul_l. ring. Qed.
Lemma dif_ext f g : (forall y, f y = g y) -> dif f = dif g.
Proof. intros E. unfold dif. rewrite (rsumn_ext N _ (fun l => g (zper l))), (rsumn_ext N (fun l => f (zanti l)) (fun l => g (zanti l))) by auto. reflexivity. Qed.
Lemma nR_pos : 0 < INR n.
Proof. apply lt_0_INR. lia. Qed.
Lemma NR : INR N = 2 * INR n.
Proof. unfold N. rewrite mult_INR. reflexivity. Qed.
Lemma dif_cos s : dif (fun y => cos (INR s * y)) = (if Req_EM_T (sin (PI * INR s / INR n)) 0 then INR N * (1 - cos (PI * INR s / INR n)) else 0).
Proof.
  pose proof nR_pos as Pn. set (t := 2 * PI * INR s / INR n). replace (PI * INR s / INR n) with (t / 2) by (unfold t; field; lra). unfold dif.
  rewrite (rsumn_ext N (fun l => cos (INR s * zper l)) (fun l => cos (0 + INR l * t))) by (intros l _; f_equal; unfold zper, t; rewrite NR; field; lra).
  rewrite (rsumn_ext N (fun l => cos (INR s * zanti l)) (fun l => cos (t / 2 + INR l * t))) by (intros l _; f_equal; unfold zanti, t; rewrite NR; field; lra).
  destruct (Req_EM_T (sin (t / 2)) 0) as [H|H].
  - rewrite !cos_sum_1 by exact H. rewrite cos_0. ring.
  - assert (Q : INR N * t = 2 * PI * IZR (2 * Z.of_nat s)) by (unfold t; rewrite NR, mult_IZR, <- INR_IZR_INZ; field; lra). rewrite !(cos_sum_0 _ _ _ _ Q H). ring.
Qed.
Lemma dif_cosn f : cosn f -> 0 <= dif f.
Proof.
  intros F. induction F as [c s Hc|f1 f2 F1 I1 F2 I2|f1 f2 F1 I1 E].
  - rewrite dif_scale, dif_cos. apply Rmult_le_pos; [exact Hc|]. destruct (Req_EM_T _ 0); [|lra]. apply Rmult_le_pos; [apply pos_INR|]. pose proof (COS_bound (PI * INR s / INR n)). lra.
  - rewrite dif_add. lra.
  - rewrite <- (dif_ext f1 f2 E). exact I1.
Qed.
Lemma dif_has f : has n f -> 0 < dif f.
Proof.
  intros (c & g & Hc & G & E). rewrite (dif_ext f _ E), dif_add, dif_scale, dif_cos. pose proof (dif_cosn g G) as D. pose proof nR_pos as Pn.
  replace (PI * INR n / INR n) with PI by (field; lra). rewrite cos_PI, sin_PI. destruct (Req_EM_T 0 0) as [_|F]; [|lra]. assert (0 < c * (INR N * (1 - - 1))) by (apply Rmult_lt_0_compat; [exact Hc|rewrite NR; lra]). lra.
Qed.
Lemma root_strict c : 0 < c <= 1 -> rsumn N (fun l => sqrt (1 - xf c (zper l))) < rsumn N (fun l => sqrt (1 - xf c (zanti l))).
Proof.
  intros Hc. assert (X : forall y, 0 <= xf c y <= 1) by (intros y; unfold xf; pose proof (COS_bound y); nra).
  set (SP := rsumn N _). set (SA := rsumn N _). assert (Pn : 0 < INR N) by (rewrite NR; pose proof nR_pos; lra).
  assert (D0 : 0 < dif (fun y => appr n (xf c y))).
  { apply dif_has. replace n with (S (n - 1)) by lia. apply appr_has. lra. }
  set (D := dif (fun y => appr n (xf c y))) in *.
  assert (B : forall d, D - INR N * (2 / (INR (n + d) + 2)) <= SA - SP).
  { intros d. set (k := (n + d)%nat). pose proof (dif_cosn _ (appr_steps c n d ltac:(lra))) as C. fold k in C.
    assert (C' : D <= dif (fun y => appr k (xf c y))).
    { rewrite (dif_ext (fun y => appr k (xf c y)) (fun y => appr n (xf c y) + (appr k (xf c y) - appr n (xf c y)))) by (intros; ring). rewrite dif_add. fold D. lra. }
    assert (A1 : rsumn N (fun l => appr k (xf c (zper l)) + sqrt (1 - xf c (zper l))) <= rsumn N (fun _ => 1)).
    { apply rsumn_le. intros l _. destruct (appr_bound _ k (X (zper l))) as [_ [Q _]]. lra. }
    assert (A2 : rsumn N (fun _ => 1 + - (2 / (INR k + 2))) <= rsumn N (fun l => appr k (xf c (zanti l)) + sqrt (1 - xf c (zanti l)))).
    { apply rsumn_le. intros l _. destruct (appr_bound _ k (X (zanti l))) as [_ [_ Q]]. lra. }
    rewrite rsumn_const, rsumn_add in A1, A2. fold SP in A1. fold SA in A2. unfold dif in C'. lra. }
  destruct (Rlt_dec SP SA) as [H|H]; [exact H|]. exfalso.
  destruct (archimed (INR N * 2 / D)) as [A _]. set (z := up _) in *.
  assert (Z0 : (0 <= z)%Z). { apply le_IZR. apply Rlt_le, (Rle_lt_trans _ (INR N * 2 / D)); [|exact A]. apply Rlt_le, Rdiv_lt_0_compat; lra. }
  specialize (B (Z.to_nat z)). rewrite plus_INR, (INR_IZR_INZ (Z.to_nat z)), Z2Nat.id in B by exact Z0. pose proof nR_pos as Pn'. assert (P : 0 < INR n + IZR z + 2) by (apply IZR_le in Z0; lra).
  assert (B' : D <= INR N * (2 / (INR n + IZR z + 2))) by lra. apply (Rmult_le_compat_r (INR n + IZR z + 2)) in B'; [|lra]. replace (INR N * (2 / (INR n + IZR z + 2)) * (INR n + IZR z + 2)) with (INR N * 2) in B' by (field; lra).
  apply (Rmult_lt_compat_r D) in A; [|exact D0]. replace (INR N * 2 / D * D) with (INR N * 2) in A by (field; lra). nra.
Qed.
Theorem excitation_strict gamma : 1 < Rabs gamma ->
  rsumn N (fun l => excitation gamma (2 * PI * INR l / INR N)) < rsumn N (fun l => excitation gamma (PI / INR N + 2 * PI * INR l / INR N)).
Proof.
  intros Hg. set (a := Rabs gamma) in *. assert (Ha : 1 < a * a) by nra. assert (Ia : 0 < / (a * a) < 1) by (split; [apply Rinv_0_lt_compat; lra|rewrite <- Rinv_1; apply Rinv_lt_contravar; lra]). set (c := 1 - / (a * a)). assert (Hc : 0 < c <= 1) by (unfold c; lra).
  assert (E : forall k, excitation gamma k = a * sqrt (1 - xf c (2 * k))).
  { intros k. unfold excitation, xf. rewrite <- (sqrt_square a) at 1 by lra. assert (X : 0 <= 1 - c * ((1 + cos (2 * k)) / 2)) by (pose proof (COS_bound (2 * k)); nra). rewrite <- sqrt_mult by nra. f_equal.
    rewrite <- (pow2_abs gamma). fold a. rewrite cos_2a_cos. pose proof (sc2 k) as Q. assert (a * a * c = a * a - 1) by (unfold c; field; lra). nra. }
  rewrite (rsumn_ext N _ _ (fun l _ => E _)), (rsumn_ext N (fun l => excitation gamma (PI / INR N + 2 * PI * INR l / INR N)) _ (fun l _ => E _)). rewrite !rsumn_mul_l. apply Rmult_lt_compat_l; [lra|]. apply (root_strict c Hc).
Qed.
End Compare.
