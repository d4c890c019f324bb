(** Inner products of complex matrices: Cauchy-Schwarz, and equality for proportional ones. *)
From Coq Require Import Reals Lra Psatz.
From Verif Require Export PfKronPovm Match.
Open Scope nat_scope.

Definition mat (K : StarRing) : Type := list nat -> list nat -> K.
(** [<A, B>], the sum of [conj (A i j) * B i j] *)
Definition hsin {K : StarRing} (hs : list nat) (A B : mat K) : K := msum hs (fun is => msum hs (fun js => kconj (A is js) * B is js))%K.

Section Gen.
Context {K : StarRing}.
Add Ring Kr : (k_ring K).
Lemma hsin_ext hs (A A' B B' : mat K) : (forall is js, inr is hs -> inr js hs -> A is js = A' is js) -> (forall is js, inr is hs -> inr js hs -> B is js = B' is js) -> hsin hs A B = hsin hs A' B'.
Proof. intros H1 H2. apply msum_ext. intros is Hi. apply msum_ext. intros js Hj. rewrite H1, H2 by assumption. reflexivity. Qed.
Lemma hsin_conj hs (A B : mat K) : kconj (hsin hs A B) = hsin hs B A.
Proof. unfold hsin. rewrite msum_conj. apply msum_ext. intros is _. rewrite msum_conj. apply msum_ext. intros js _. rewrite kconj_mul, kconj_invol. ring. Qed.
Lemma hsin_lin hs (A B C : mat K) p q : hsin hs A (fun is js => p * B is js + q * C is js)%K = (p * hsin hs A B + q * hsin hs A C)%K.
Proof.
  unfold hsin. rewrite <- !msum_mul_l, <- msum_add. apply msum_ext. intros is _. rewrite <- !msum_mul_l, <- msum_add. apply msum_ext. intros js _. ring.
Qed.
Lemma hsin_expand hs (A B : mat K) p q : let D := (fun is js => p * A is js + q * B is js)%K in
  hsin hs D D = (kconj p * p * hsin hs A A + kconj p * q * hsin hs A B + kconj q * p * hsin hs B A + kconj q * q * hsin hs B B)%K.
Proof.
  intros D. unfold D at 2. rewrite hsin_lin. rewrite <- (hsin_conj hs A D), <- (hsin_conj hs B D). unfold D. rewrite !hsin_lin, !kconj_add, !kconj_mul, !hsin_conj. ring.
Qed.
Lemma hsin_scale hs (A B : mat K) z : (forall is js, inr is hs -> inr js hs -> A is js = (z * B is js)%K) ->
  hsin hs B A = (z * hsin hs B B)%K /\ hsin hs A A = (kconj z * z * hsin hs B B)%K.
Proof.
  intros H. split.
  - rewrite (hsin_ext _ _ B _ (fun is js => z * B is js + k0 * B is js)%K); [rewrite hsin_lin; ring|reflexivity|]. intros is js Hi Hj. rewrite H by assumption. ring.
  - rewrite (hsin_ext _ _ (fun is js => z * B is js + k0 * B is js)%K _ (fun is js => z * B is js + k0 * B is js)%K).
    + rewrite hsin_expand, kconj_0. ring.
    + intros is js Hi Hj. rewrite H by assumption. ring.
    + intros is js Hi Hj. rewrite H by assumption. ring.
Qed.
End Gen.

Add Ring Cr : (k_ring CS).
Lemma hsin_nonneg hs (A : mat CS) : cnonneg (hsin hs A A).
Proof. unfold hsin. apply cnonneg_msum. intros is _. apply cnonneg_msum. intros js _. rewrite (Rmul_comm (k_ring CS)). apply cnonneg_sq. Qed.
Definition hsn2 (hs : list nat) (A : mat CS) : R := Cre (hsin hs A A).
Lemma hsn2_toC hs A : hsin hs A A = toC (hsn2 hs A).
Proof. destruct (hsin_nonneg hs A) as [H _]. apply cplx_eq; [reflexivity|exact H]. Qed.
Lemma hsn2_nonneg hs A : (0 <= hsn2 hs A)%R.
Proof. apply hsin_nonneg. Qed.
Lemma msum_nonneg_zero hs : forall f : list nat -> CS, (forall is, inr is hs -> cnonneg (f is)) -> msum hs f = k0 -> forall is, inr is hs -> f is = k0.
Proof.
  induction hs as [|h hs IH]; intros f Hf H is Hi.
  - inversion Hi; subst. exact H.
  - apply inr_cons_inv in Hi. destruct Hi as (i & is' & -> & Hi & His). cbn [msum] in H.
    apply (IH (fun l => f (i :: l))); [intros l Hl; apply Hf; apply inr_cons; assumption| |exact His].
    apply (sum_nonneg_zero h (fun k => msum hs (fun l => f (k :: l)))); [|exact H|exact Hi].
    intros k Hk. apply cnonneg_msum. intros l Hl. apply Hf. apply inr_cons; assumption.
Qed.
Lemma hsn2_zero hs A : hsn2 hs A = 0%R -> forall is js, inr is hs -> inr js hs -> A is js = k0.
Proof.
  intros H is js Hi Hj. pose proof (hsn2_toC hs A) as E. rewrite H in E. change (toC 0) with (k0 (s:=CS)) in E. unfold hsin in E.
  assert (N : forall a b, cnonneg (kconj (A a b) * A a b)%K) by (intros a b; rewrite (Rmul_comm (k_ring CS)); apply cnonneg_sq).
  pose proof (msum_nonneg_zero hs _ (fun a _ => cnonneg_msum hs _ (fun b _ => N a b)) E is Hi) as E2. cbv beta in E2.
  pose proof (msum_nonneg_zero hs _ (fun b _ => N is b) E2 js Hj) as E3. cbv beta in E3. apply sq_zero. rewrite <- E3. ring.
Qed.
Lemma cabs2_conj (z : CS) : toC (cabs2 z) = (kconj z * z)%K.
Proof. apply cplx_eq; cbn; unfold cabs2, Cre, Cim; ring. Qed.
Lemma cabs2_nonneg z : (0 <= cabs2 z)%R.
Proof. unfold cabs2. nra. Qed.
Lemma toC_inj a b : toC a = toC b -> a = b.
Proof. intros H. exact (f_equal Cre H). Qed.
(** The distance of [b A] from [<B, A> B] *)
Definition defect (hs : list nat) (A B : mat CS) : mat CS := fun is js => (toC (hsn2 hs B) * A is js + - hsin hs B A * B is js)%K.
Lemma defect_norm hs A B : hsn2 hs (defect hs A B) = (hsn2 hs B * (hsn2 hs A * hsn2 hs B - cabs2 (hsin hs A B)))%R.
Proof.
  apply toC_inj. rewrite <- hsn2_toC. unfold defect. rewrite hsin_expand, !hsn2_toC. rewrite <- (hsin_conj hs B A) at 1.
  replace (toC (hsn2 hs B * (hsn2 hs A * hsn2 hs B - cabs2 (hsin hs A B)))) with (toC (hsn2 hs B) * (toC (hsn2 hs A) * toC (hsn2 hs B) - toC (cabs2 (hsin hs A B))))%K by (apply cplx_eq; cbn; ring).
  rewrite cabs2_conj, <- (hsin_conj hs B A), kconj_invol, toC_conj, kconj_opp. ring.
Qed.
Theorem cauchy_schwarz hs A B : (cabs2 (hsin hs A B) <= hsn2 hs A * hsn2 hs B)%R.
Proof.
  destruct (Rle_lt_or_eq_dec _ _ (hsn2_nonneg hs B)) as [P|Z].
  - pose proof (hsn2_nonneg hs (defect hs A B)) as N. rewrite defect_norm in N. nra.
  - assert (E : hsin hs A B = k0).
    { unfold hsin. apply msum_zero. intros is Hi. apply msum_zero. intros js Hj. rewrite (hsn2_zero hs B (eq_sym Z) is js Hi Hj). ring. }
    rewrite E, <- Z. unfold cabs2. cbn. lra.
Qed.
(** Equality: [A] is a multiple of [B]. *)
Theorem cauchy_schwarz_eq hs A B : (0 < hsn2 hs A)%R -> (0 < hsn2 hs B)%R ->
  (cabs2 (hsin hs A B) = hsn2 hs A * hsn2 hs B)%R <-> exists z : CS, forall is js, inr is hs -> inr js hs -> A is js = (z * B is js)%K.
Proof.
  intros Pa Pb. split.
  - intros E. exists (toC (/ hsn2 hs B) * hsin hs B A)%K. intros is js Hi Hj.
    assert (Z : hsn2 hs (defect hs A B) = 0%R) by (rewrite defect_norm, E; ring).
    pose proof (hsn2_zero _ _ Z is js Hi Hj) as D. unfold defect in D.
    transitivity (toC (/ hsn2 hs B) * (toC (hsn2 hs B) * A is js))%K.
    + rewrite (Rmul_assoc (k_ring CS)), <- toC_mul, Rinv_l by lra. rewrite toC_1. ring.
    + transitivity (toC (/ hsn2 hs B) * ((toC (hsn2 hs B) * A is js + - hsin hs B A * B is js) + hsin hs B A * B is js))%K; [ring|]. rewrite D. ring.
  - intros (z & H). destruct (hsin_scale hs A B z H) as [E1 E2]. apply toC_inj. rewrite cabs2_conj, toC_mul, <- !hsn2_toC, E2, <- (hsin_conj hs B A), E1, kconj_invol, !kconj_mul.
    rewrite (hsin_conj hs B B). ring.
Qed.
(** Gram matrices (positive semidefinite ones) *)
Lemma hsin_gram hs A B : gram_rho hs A -> gram_rho hs B -> cnonneg (hsin hs B A).
Proof.
  intros (cs & v & Hv) (ds & u & Hu).
  assert (E : hsin hs B A = msum cs (fun c => msum ds (fun d => (fun z => z * kconj z) (msum hs (fun is => kconj (u d is) * v c is))))%K).
  { transitivity (msum cs (fun c => msum ds (fun d => msum hs (fun is => msum hs (fun js => (kconj (u d is) * v c is) * kconj (kconj (u d js) * v c js)))))%K).
    - unfold hsin. rewrite (msum_ext _ _ (fun is => msum cs (fun c => msum ds (fun d => msum hs (fun js => (kconj (u d is) * v c is) * kconj (kconj (u d js) * v c js)))))%K).
      + rewrite msum_swap. apply msum_ext. intros c _. apply msum_swap.
      + intros is Hi. rewrite (msum_ext _ _ (fun js => msum cs (fun c => msum ds (fun d => (kconj (u d is) * v c is) * kconj (kconj (u d js) * v c js))))%K).
        * rewrite msum_swap. apply msum_ext. intros c _. apply msum_swap.
        * intros js Hj. rewrite Hv, Hu by assumption. rewrite msum_conj, <- msum_mul_l. apply msum_ext. intros c _. rewrite <- msum_mul_r. apply msum_ext. intros d _. rewrite !kconj_mul, !kconj_invol. ring.
    - apply msum_ext. intros c _. apply msum_ext. intros d _. rewrite msum_conj, <- msum_mul_r. apply msum_ext. intros is _. rewrite <- msum_mul_l. reflexivity. }
  rewrite E. apply cnonneg_msum. intros c _. apply cnonneg_msum. intros d _. apply cnonneg_sq.
Qed.
Theorem cauchy_schwarz_gram hs A B : gram_rho hs A -> gram_rho hs B -> (0 < hsn2 hs A)%R -> (0 < hsn2 hs B)%R ->
  (cabs2 (hsin hs A B) = hsn2 hs A * hsn2 hs B)%R -> forall is js, inr is hs -> inr js hs -> A is js = (toC (sqrt (hsn2 hs A / hsn2 hs B)) * B is js)%K.
Proof.
  intros Ga Gb Pa Pb E. assert (Z : hsn2 hs (defect hs A B) = 0%R) by (rewrite defect_norm, E; ring).
  destruct (hsin_gram hs A B Ga Gb) as [Im Re].
  assert (Ed : hsin hs B A = toC (sqrt (hsn2 hs A * hsn2 hs B))).
  { rewrite <- (hsin_conj hs B A) in E. apply cplx_eq; [|exact Im]. change (Cre (toC (sqrt (hsn2 hs A * hsn2 hs B)))) with (sqrt (hsn2 hs A * hsn2 hs B)). rewrite <- E. unfold cabs2. cbn [kconj CS]. change (Cre (c_conj (hsin hs B A))) with (Cre (hsin hs B A)). change (Cim (c_conj (hsin hs B A))) with (- Cim (hsin hs B A))%R. rewrite Im.
    replace (Cre (hsin hs B A) * Cre (hsin hs B A) + - 0 * - 0)%R with (Rsqr (Cre (hsin hs B A))) by (unfold Rsqr; ring). rewrite sqrt_Rsqr by exact Re. reflexivity. }
  intros is js Hi Hj. pose proof (hsn2_zero _ _ Z is js Hi Hj) as D. unfold defect in D.
  assert (Eq : (sqrt (hsn2 hs A / hsn2 hs B) = / hsn2 hs B * sqrt (hsn2 hs A * hsn2 hs B))%R).
  { replace (hsn2 hs A / hsn2 hs B)%R with ((hsn2 hs A * hsn2 hs B) * (/ hsn2 hs B * / hsn2 hs B))%R by (field; lra).
    rewrite sqrt_mult_alt by nra. fold (Rsqr (/ hsn2 hs B)). rewrite sqrt_Rsqr; [ring|]. left. apply Rinv_0_lt_compat. exact Pb. }
  rewrite Eq, toC_mul, <- Ed.
  transitivity (toC (/ hsn2 hs B) * (toC (hsn2 hs B) * A is js))%K.
  - rewrite (Rmul_assoc (k_ring CS)), <- toC_mul, Rinv_l by lra. rewrite toC_1. ring.
  - transitivity (toC (/ hsn2 hs B) * ((toC (hsn2 hs B) * A is js + - hsin hs B A * B is js) + hsin hs B A * B is js))%K; [ring|]. rewrite D. ring.
Qed.
