(** Positive semidefinite complex matrices: every one is a sum of [w w^*], so Kronecker
    products of positive semidefinite matrices are positive semidefinite. *)
From Coq Require Import Reals Lra Psatz.
From Verif Require Export PfCPovm.
Open Scope nat_scope.
Add Ring Cr : (k_ring CS).

Definition quad (d : nat) (m : nat -> nat -> CS) (v : nat -> CS) : CS := bigsum d (fun a => bigsum d (fun b => kconj (v a) * m a b * v b))%K.
Lemma quad_S n m v : quad (S n) m v =
  (quad n m v + bigsum n (fun a => kconj (v a) * m a n) * v n + kconj (v n) * bigsum n (fun b => m n b * v b) + kconj (v n) * m n n * v n)%K.
Proof.
  unfold quad. cbn [bigsum]. rewrite bigsum_add. rewrite <- bigsum_mul_r, <- bigsum_mul_l.
  rewrite (bigsum_ext n (fun i => kconj (v n) * m n i * v i)%K (fun i => kconj (v n) * (m n i * v i))%K) by (intros; ring). ring.
Qed.
Lemma quad_ext n m v w : (forall a, a < n -> v a = w a) -> quad n m v = quad n m w.
Proof. intros H. unfold quad. apply bigsum_ext. intros a Ha. apply bigsum_ext. intros b Hb. rewrite !H by assumption. reflexivity. Qed.
Lemma quad_point n m a (x : CS) : a < n -> quad n m (fun b => x * delta a b)%K = (kconj x * m a a * x)%K.
Proof.
  intros Ha. unfold quad. rewrite (bigsum_ext _ _ (fun c => delta a c * (kconj x * m c a * x))%K).
  - apply (bigsum_delta_l n a (fun c => kconj x * m c a * x)%K Ha).
  - intros c Hc. rewrite (bigsum_ext _ _ (fun b => delta a b * (delta a c * (kconj x * m c b * x)))%K).
    + apply (bigsum_delta_l n a (fun b => delta a c * (kconj x * m c b * x))%K Ha).
    + intros b Hb. rewrite kconj_mul. replace (kconj (delta a c)) with (delta (K:=CS) a c); [ring|]. unfold delta. destruct (Nat.eqb a c); symmetry; [apply kconj_1|apply kconj_0].
Qed.
Definition ext (n : nat) (v : nat -> CS) (y : CS) : nat -> CS := fun b => if Nat.eqb b n then y else v b.
Lemma ext_n n v y : ext n v y n = y. Proof. unfold ext. rewrite Nat.eqb_refl. reflexivity. Qed.
Lemma ext_lt n v y b : b < n -> ext n v y b = v b. Proof. intros H. unfold ext. rewrite (proj2 (Nat.eqb_neq b n)) by lia. reflexivity. Qed.
Lemma quad_ext_S n m v y : quad (S n) m (ext n v y) =
  (quad n m v + bigsum n (fun a => kconj (v a) * m a n) * y + kconj y * bigsum n (fun b => m n b * v b) + kconj y * m n n * y)%K.
Proof.
  rewrite quad_S, ext_n. rewrite (quad_ext n m (ext n v y) v) by (intros; apply ext_lt; assumption).
  rewrite (bigsum_ext n (fun a => kconj (ext n v y a) * m a n)%K (fun a => kconj (v a) * m a n)%K) by (intros; rewrite ext_lt by assumption; reflexivity).
  rewrite (bigsum_ext n (fun b => m n b * ext n v y b)%K (fun b => m n b * v b)%K) by (intros; rewrite ext_lt by assumption; reflexivity). reflexivity.
Qed.
Lemma psd_two n m a : psd (S n) m -> a < n -> forall x y : CS, cnonneg (kconj x * m a a * x + kconj x * m a n * y + kconj y * m n a * x + kconj y * m n n * y)%K.
Proof.
  intros H Ha x y. specialize (H (ext n (fun b => x * delta a b)%K y)). change (cnonneg (quad (S n) m (ext n (fun b => x * delta a b)%K y))) in H. rewrite quad_ext_S, quad_point in H by exact Ha.
  rewrite (bigsum_ext n _ (fun c => delta a c * (kconj x * m c n))%K) in H.
  - rewrite (bigsum_delta_l n a (fun c => kconj x * m c n)%K Ha) in H. rewrite (bigsum_ext n _ (fun c => delta a c * (m n c * x))%K) in H by (intros; ring). rewrite (bigsum_delta_l n a (fun c => m n c * x)%K Ha) in H.
    replace (kconj x * m a a * x + kconj x * m a n * y + kconj y * m n a * x + kconj y * m n n * y)%K with (kconj x * m a a * x + kconj x * m a n * y + kconj y * (m n a * x) + kconj y * m n n * y)%K by ring. exact H.
  - intros c Hc. rewrite kconj_mul. replace (kconj (delta a c)) with (delta (K:=CS) a c); [ring|]. unfold delta. destruct (Nat.eqb a c); symmetry; [apply kconj_1|apply kconj_0].
Qed.
Lemma psd_diag n m : psd (S n) m -> cnonneg (m n n).
Proof.
  intros H. specialize (H (ext n (fun _ => k0) k1)). change (cnonneg (quad (S n) m (ext n (fun _ => k0) k1))) in H. rewrite quad_ext_S in H.
  replace (quad n m (fun _ => k0)) with (@k0 CS) in H.
  - rewrite !bigsum_zero in H by (intros; rewrite ?kconj_0; ring). replace (k0 + k0 * k1 + kconj k1 * k0 + kconj k1 * m n n * k1)%K with (m n n) in H; [exact H|]. rewrite kconj_1. ring.
  - symmetry. unfold quad. apply bigsum_zero. intros. apply bigsum_zero. intros. ring.
Qed.
Lemma psd_down n m : psd (S n) m -> psd n m.
Proof.
  intros H v. specialize (H (ext n v k0)). change (cnonneg (quad (S n) m (ext n v k0))) in H. rewrite quad_ext_S in H. change (cnonneg (quad n m v)).
  replace (quad n m v) with (quad n m v + bigsum n (fun a => kconj (v a) * m a n) * k0 + kconj k0 * bigsum n (fun b => m n b * v b) + kconj k0 * m n n * k0)%K; [exact H|]. rewrite kconj_0. ring.
Qed.
Lemma psd_diag_all n : forall m, psd n m -> forall a, a < n -> cnonneg (m a a).
Proof.
  induction n as [|n IH]; intros m H a Ha; [lia|]. destruct (Nat.eq_dec a n) as [->|N]; [apply psd_diag; exact H|]. apply (IH m (psd_down n m H)). lia.
Qed.
Lemma psd_herm_last n m a : psd (S n) m -> a < n -> m a n = kconj (m n a).
Proof.
  intros H Ha. pose proof (psd_two n m a H Ha) as T. pose proof (psd_diag n m H) as [D _]. pose proof (psd_diag_all _ _ (psd_down n m H) a Ha) as [E _].
  pose proof (T k1 k1) as [T1 _]. pose proof (T k1 Ci) as [T2 _]. clear T H. apply cplx_eq; unfold Cre, Cim in *; cbn in *; lra.
Qed.
Lemma psd_herm n : forall m, psd n m -> forall a b, a < n -> b < n -> m a b = kconj (m b a).
Proof.
  induction n as [|n IH]; intros m H a b Ha Hb; [lia|]. destruct (Nat.eq_dec a n) as [->|Na]; destruct (Nat.eq_dec b n) as [->|Nb].
  - destruct (psd_diag n m H) as [D _]. apply cplx_eq; unfold Cre, Cim in *; cbn in *; lra.
  - rewrite (psd_herm_last n m b H) by lia. rewrite kconj_invol. reflexivity.
  - apply psd_herm_last; [exact H|lia].
  - apply (IH m (psd_down n m H)); lia.
Qed.
Lemma psd_zero_last n m a : psd (S n) m -> m n n = k0 -> a < n -> m a n = k0.
Proof.
  intros H Z Ha. pose proof (psd_two n m a H Ha) as T. pose proof (psd_herm_last n m a H Ha) as Hh.
  destruct (psd_diag_all _ _ (psd_down n m H) a Ha) as [_ Dp].
  assert (Hn : m n a = kconj (m a n)) by (rewrite Hh, kconj_invol; reflexivity).
  set (A := Cre (m a a)) in *. set (N := (Cre (m a n) * Cre (m a n) + Cim (m a n) * Cim (m a n))%R).
  assert (Q : forall t : R, (0 <= A - 2 * t * N)%R).
  { intros t. destruct (T k1 (c_opp (c_mul (toC t) (kconj (m a n))))) as [_ Q]. rewrite Z, Hn in Q. unfold N, A. unfold Cre, Cim in *. cbn in Q |- *. nra. }
  assert (N0 : N = 0%R).
  { assert (0 <= N)%R by (unfold N; nra). destruct (Req_dec N 0) as [E|E]; [exact E|]. assert (0 < N)%R by lra. specialize (Q ((A + 1) / (2 * N))%R). replace (2 * ((A + 1) / (2 * N)) * N)%R with (A + 1)%R in Q by (field; lra). lra. }
  apply cplx_eq; unfold N in N0; change (Cre (@k0 CS)) with 0%R; change (Cim (@k0 CS)) with 0%R; nra.
Qed.
(** Cholesky *)
Theorem psd_gram d : forall m, psd d m -> exists k (w : nat -> nat -> CS), forall a b, a < d -> b < d -> m a b = bigsum k (fun c => w c a * kconj (w c b))%K.
Proof.
  induction d as [|n IH]; intros m H; [exists 0, (fun _ _ => k0); intros; lia|]. 
  destruct (psd_diag n m H) as [Dn Dp]. destruct (Req_dec (Cre (m n n)) 0) as [E|E].
  - assert (Z : m n n = k0) by (apply cplx_eq; assumption). destruct (IH m (psd_down n m H)) as (k & w & Hw).
    exists k, (fun c a => if Nat.eqb a n then k0 else w c a). intros a b Ha Hb.
    destruct (Nat.eq_dec a n) as [->|Na]; [|destruct (Nat.eq_dec b n) as [->|Nb]].
    + rewrite Nat.eqb_refl. rewrite bigsum_zero by (intros; ring). destruct (Nat.eq_dec b n) as [->|Nb]; [exact Z|]. assert (Hb' : b < n) by lia. assert (Q : kconj (m b n) = m n b) by (rewrite (psd_herm_last n m b H Hb'); apply kconj_invol). rewrite <- Q, (psd_zero_last n m b H Z Hb'). apply kconj_0.
    + rewrite Nat.eqb_refl. rewrite bigsum_zero by (intros; rewrite kconj_0; ring). apply psd_zero_last; auto; lia.
    + rewrite (proj2 (Nat.eqb_neq a n) Na), (proj2 (Nat.eqb_neq b n) Nb). apply Hw; lia.
  - set (c := Cre (m n n)) in *. assert (Hc : (0 < c)%R) by lra. assert (Ec : m n n = toC c) by (apply cplx_eq; [reflexivity|exact Dn]).
    set (ci := toC (/ c)). assert (Ecc : (ci * toC c)%K = k1) by (unfold ci; rewrite <- toC_mul; rewrite Rinv_l by lra; apply toC_1). assert (Eci : kconj ci = ci) by apply toC_conj.
    assert (Hh : forall a, a < n -> kconj (m a n) = m n a) by (intros a Ha; rewrite (psd_herm_last n m a H Ha); apply kconj_invol).
    set (m' := fun a b => (m a b - m a n * ci * m n b)%K).
    destruct (IH m') as (k & w & Hw).
    + intros v. change (cnonneg (quad n m' v)). set (s := bigsum n (fun b => m n b * v b)%K). specialize (H (ext n v (- (ci * s))%K)). change (cnonneg (quad (S n) m (ext n v (- (ci * s))%K))) in H. rewrite quad_ext_S in H. fold s in H.
      assert (Es : bigsum n (fun a => kconj (v a) * m a n)%K = kconj s). { unfold s. rewrite bigsum_conj. apply bigsum_ext. intros a Ha. rewrite kconj_mul, <- (Hh a Ha), kconj_invol. ring. }
      rewrite Es, Ec in H. rewrite kconj_opp, kconj_mul, Eci in H.
      assert (Eq : quad n m' v = (quad n m v - kconj s * ci * s)%K).
      { unfold quad, m'. rewrite (bigsum_ext n _ (fun a => bigsum n (fun b => kconj (v a) * m a b * v b) - (kconj (v a) * m a n) * (ci * s))%K).
        - rewrite bigsum_sub, bigsum_mul_r, Es. ring.
        - intros a Ha. unfold s. rewrite <- bigsum_mul_l. rewrite <- bigsum_mul_l. rewrite <- bigsum_sub. apply bigsum_ext. intros b Hb. ring. }
      rewrite Eq. replace (quad n m v - kconj s * ci * s)%K with (quad n m v + kconj s * - (ci * s) + - (ci * kconj s) * s + - (ci * kconj s) * toC c * - (ci * s))%K; [exact H|].
      replace (- (ci * kconj s) * toC c * - (ci * s))%K with ((ci * toC c) * (ci * kconj s * s))%K by ring. rewrite Ecc. ring.
    + set (r := toC (/ sqrt c)). assert (Er : (r * r)%K = ci). { unfold r, ci. rewrite <- toC_mul. f_equal. rewrite <- (sqrt_sqrt c) at 3 by lra. assert (0 < sqrt c)%R by (apply sqrt_lt_R0; exact Hc). field. lra. }
      assert (Erc : kconj r = r) by apply toC_conj.
      exists (S k), (fun l a => if Nat.eqb l k then r * m a n else if Nat.eqb a n then k0 else w l a)%K. intros a b Ha Hb. cbn [bigsum]. rewrite Nat.eqb_refl.
      assert (Last : (r * m a n * kconj (r * m b n))%K = (m a n * ci * m n b)%K).
      { rewrite kconj_mul, Erc. replace (r * m a n * (r * kconj (m b n)))%K with ((r * r) * m a n * kconj (m b n))%K by ring. rewrite Er. destruct (Nat.eq_dec b n) as [->|Nb]; [rewrite Ec, toC_conj; ring|]. rewrite Hh by lia. ring. }
      rewrite Last.
      destruct (Nat.eq_dec a n) as [->|Na]; [|destruct (Nat.eq_dec b n) as [->|Nb]].
      * rewrite bigsum_zero by (intros l Hl; rewrite (proj2 (Nat.eqb_neq l k)) by lia; rewrite Nat.eqb_refl; ring). rewrite Ec. replace (toC c * ci * m n b)%K with ((ci * toC c) * m n b)%K by ring. rewrite Ecc. ring.
      * rewrite bigsum_zero by (intros l Hl; rewrite (proj2 (Nat.eqb_neq l k)) by lia; rewrite Nat.eqb_refl, kconj_0; ring). rewrite Ec. replace (m a n * ci * toC c)%K with ((ci * toC c) * m a n)%K by ring. rewrite Ecc. ring.
      * rewrite (bigsum_ext k _ (fun c0 => w c0 a * kconj (w c0 b))%K).
        -- rewrite <- Hw by lia. unfold m'. ring.
        -- intros l Hl. rewrite (proj2 (Nat.eqb_neq l k)) by lia. rewrite (proj2 (Nat.eqb_neq a n) Na), (proj2 (Nat.eqb_neq b n) Nb). reflexivity.
Qed.
Lemma gram_psd d m k (w : nat -> nat -> CS) : (forall a b, a < d -> b < d -> m a b = bigsum k (fun c => w c a * kconj (w c b))%K) -> psd d m.
Proof.
  intros H v. rewrite (bigsum_ext d _ (fun a => bigsum k (fun c => bigsum d (fun b => (kconj (v a) * w c a) * (kconj (w c b) * v b))))%K).
  - rewrite bigsum_swap. apply cnonneg_sum. intros c _. rewrite (bigsum_ext d _ (fun a => (kconj (v a) * w c a) * bigsum d (fun b => kconj (w c b) * v b))%K) by (intros; apply bigsum_mul_l).
    rewrite bigsum_mul_r. set (z := bigsum d (fun a => kconj (v a) * w c a)%K). replace (bigsum d (fun b => kconj (w c b) * v b)%K) with (kconj z); [apply cnonneg_sq|].
    unfold z. rewrite bigsum_conj. apply bigsum_ext. intros b _. rewrite kconj_mul, kconj_invol. ring.
  - intros a Ha. rewrite bigsum_swap. apply bigsum_ext. intros b Hb. rewrite H by assumption. rewrite <- bigsum_mul_l, <- bigsum_mul_r. apply bigsum_ext. intros c _. ring.
Qed.
