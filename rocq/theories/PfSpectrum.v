(** The Schmidt values of a cut are the spectrum of the reduced states on both sides. *)
From Verif Require Import Oracles PfHistory PfBounds PfStates PfStates2.

Section S.
Context {K : StarRing}.
Add Ring Ksp : (k_ring K).

(** ** Sums over products with an orthonormal family *)
Lemma orth_sum (B : list nat) n (v : nat -> list nat -> K) (p q : nat -> K) :
  (forall c e, c < n -> e < n -> msum B (fun b => v c b * kconj (v e b))%K = delta c e) ->
  msum B (fun b => bigsum n (fun c => p c * v c b) * kconj (bigsum n (fun c => q c * v c b)))%K = bigsum n (fun c => p c * kconj (q c))%K.
Proof.
  intros H.
  rewrite (msum_ext B _ (fun b => bigsum n (fun c => bigsum n (fun e => (p c * kconj (q e)) * (v c b * kconj (v e b))))))%K.
  - rewrite msum_bigsum_swap. apply bigsum_ext. intros c Hc. rewrite msum_bigsum_swap.
    rewrite (bigsum_ext n _ (fun e => delta c e * (p c * kconj (q e)))%K).
    + apply (bigsum_delta_l n c (fun e => p c * kconj (q e))%K Hc).
    + intros e He. rewrite msum_mul_l, H by assumption. ring.
  - intros b _. rewrite <- bigsum_mul_r. apply bigsum_ext. intros c _. rewrite bigsum_conj, <- bigsum_mul_l. apply bigsum_ext. intros e _. rewrite (kconj_mul K). ring.
Qed.
(** a matrix in spectral form *)
Definition spectral (A : list nat) (n : nat) (lam : nat -> K) (u : nat -> list nat -> K) (M : list nat -> list nat -> K) : Prop :=
  (forall c e, c < n -> e < n -> msum A (fun a => kconj (u c a) * u e a)%K = delta c e) /\
  (forall a b, inr a A -> inr b A -> M a b = bigsum n (fun c => lam c * (u c a * kconj (u c b)))%K).
Lemma spectral_trace A n lam u M : spectral A n lam u M -> msum A (fun a => M a a) = bigsum n lam.
Proof.
  intros [H1 H2]. rewrite (msum_ext A _ (fun a => bigsum n (fun c => lam c * (kconj (u c a) * u c a)))%K) by (intros a Ha; rewrite (H2 a a Ha Ha); apply bigsum_ext; intros; ring).
  rewrite msum_bigsum_swap. apply bigsum_ext. intros c Hc. rewrite msum_mul_l, H1, delta_eq by assumption. ring.
Qed.
Lemma spectral_eigen A n lam u M c a : spectral A n lam u M -> c < n -> inr a A -> msum A (fun b => M a b * u c b)%K = (lam c * u c a)%K.
Proof.
  intros [H1 H2] Hc Ha. rewrite (msum_ext A _ (fun b => bigsum n (fun e => (lam e * u e a) * (kconj (u e b) * u c b))))%K.
  - rewrite msum_bigsum_swap. rewrite (bigsum_ext n _ (fun e => (lam e * u e a) * delta e c)%K).
    + apply (bigsum_delta_r n c (fun e => lam e * u e a)%K Hc).
    + intros e He. rewrite msum_mul_l, H1 by assumption. reflexivity.
  - intros b Hb. rewrite (H2 a b Ha Hb), <- bigsum_mul_r. apply bigsum_ext. intros e _. ring.
Qed.
Lemma spectral_kernel A n lam u M (w : list nat -> K) a : spectral A n lam u M -> inr a A ->
  (forall c, c < n -> msum A (fun b => kconj (u c b) * w b)%K = k0) -> msum A (fun b => M a b * w b)%K = k0.
Proof.
  intros [H1 H2] Ha H. rewrite (msum_ext A _ (fun b => bigsum n (fun e => (lam e * u e a) * (kconj (u e b) * w b))))%K.
  - rewrite msum_bigsum_swap. apply bigsum_zero. intros e He. rewrite msum_mul_l, H by assumption. ring.
  - intros b Hb. rewrite (H2 a b Ha Hb), <- bigsum_mul_r. apply bigsum_ext. intros e _. ring.
Qed.
Lemma spectral_purity A n lam u M : spectral A n lam u M -> msum A (fun a => msum A (fun b => M a b * M b a))%K = bigsum n (fun c => lam c * lam c)%K.
Proof.
  intros H. pose proof H as [H1 H2].
  rewrite (msum_ext A _ (fun a => bigsum n (fun c => (lam c * lam c) * (kconj (u c a) * u c a))))%K.
  - rewrite msum_bigsum_swap. apply bigsum_ext. intros c Hc. rewrite msum_mul_l, H1, delta_eq by assumption. ring.
  - intros a Ha. rewrite (msum_ext A _ (fun b => bigsum n (fun c => (lam c * kconj (u c a)) * (M a b * u c b))))%K.
    + rewrite msum_bigsum_swap. apply bigsum_ext. intros c Hc. rewrite msum_mul_l, (spectral_eigen A n lam u M c a H Hc Ha). ring.
    + intros b Hb. rewrite (H2 b a Hb Ha), <- bigsum_mul_l. apply bigsum_ext. intros c _. ring.
Qed.

(** ** The reduced states of an MPS at a cut *)
Lemma cut_spectral (x L R : ltens K) j s : mpa_ok x -> one_leg (mshape x) -> j <= llen x -> cut_svd x j s ->
  mps_reduction x (0, j) L -> mps_reduction x (j, llen x) R ->
  let ds := leg1 (mshape x) in
  exists u v, spectral (firstn j ds) (length s) (fun c => nth c s k0 * nth c s k0)%K u (fun is js => entry L (pairs is js)) /\
              spectral (skipn j ds) (length s) (fun c => nth c s k0 * nth c s k0)%K v (fun is js => entry R (pairs is js)) /\
              forall is js, inr is (firstn j ds) -> inr js (skipn j ds) ->
                entry x (singles (is ++ js)) = bigsum (length s) (fun c => nth c s k0 * (u c is * v c js))%K.
Proof.
  intros Hx H1 Hj (U & V & E1 & E2 & E3 & E4) (_ & _ & HL) (_ & _ & HR) ds. cbn [fst snd] in HL, HR. fold ds in HL, HR.
  assert (Es : mshape x = singles ds) by (apply one_leg_singles; exact H1).
  assert (Ef : firstn j (mshape x) = singles (firstn j ds)) by (rewrite Es; unfold singles; apply firstn_map).
  assert (Ek : skipn j (mshape x) = singles (skipn j ds)) by (rewrite Es; unfold singles; apply skipn_map).
  assert (Ln : length ds = llen x) by (unfold ds, leg1; rewrite map_length; apply mshape_length).
  assert (Sa : forall a b, singles (a ++ b) = singles a ++ singles b) by (intros; unfold singles; apply map_app).
  assert (X : forall is js, inr is (firstn j ds) -> inr js (skipn j ds) -> entry x (singles (is ++ js)) = bigsum (length s) (fun c => nth c s k0 * (U (singles is) c * V c (singles js)))%K).
  { intros is js Hi Hk. rewrite Sa, E1; [apply bigsum_ext; intros; ring| |]; unfold valid_idx; rewrite ?Ef, ?Ek; apply singles_valid; assumption. }
  assert (OU : forall c e, c < length s -> e < length s -> msum (firstn j ds) (fun is => kconj (U (singles is) c) * U (singles is) e)%K = delta c e)
    by (intros c e Hc He; rewrite <- (E2 c e Hc He), Ef, msums_singles; reflexivity).
  assert (OV : forall c e, c < length s -> e < length s -> msum (skipn j ds) (fun is => V c (singles is) * kconj (V e (singles is)))%K = delta c e)
    by (intros c e Hc He; rewrite <- (E3 c e Hc He), Ek, msums_singles; reflexivity).
  exists (fun c is => U (singles is) c), (fun c is => V c (singles is)). split; [|split; [|exact X]].
  - split; [exact OU|]. intros a b Ha Hb. rewrite HL; rewrite ?Nat.sub_0_r; [|exact Ha|exact Hb]. cbn [firstn msum].
    rewrite (msum_ext (skipn j ds) _ (fun m => bigsum (length s) (fun c => (nth c s k0 * U (singles a) c) * V c (singles m)) * kconj (bigsum (length s) (fun c => (nth c s k0 * U (singles b) c) * V c (singles m)))))%K.
    + rewrite (orth_sum (skipn j ds) (length s) (fun c m => V c (singles m)) _ _ OV). apply bigsum_ext. intros c Hc. rewrite (kconj_mul K), (E4 c Hc). ring.
    + intros m Hm. cbn [app]. rewrite (X a m Ha Hm), (X b m Hb Hm). f_equal; [|f_equal]; apply bigsum_ext; intros; ring.
  - assert (Tk : firstn (llen x - j) (skipn j ds) = skipn j ds) by (apply firstn_all2; rewrite skipn_length, Ln; lia).
    assert (T0 : skipn (llen x) ds = []) by (rewrite <- Ln; apply skipn_all). split.
    + intros c e Hc He. rewrite delta_sym, <- (OV e c He Hc). apply msum_ext. intros i _. ring.
    + intros a b Ha Hb. rewrite HR by (rewrite Tk; assumption). rewrite T0. cbn [msum].
      rewrite (msum_ext (firstn j ds) _ (fun m => bigsum (length s) (fun c => (nth c s k0 * V c (singles a)) * U (singles m) c) * kconj (bigsum (length s) (fun c => (nth c s k0 * V c (singles b)) * U (singles m) c))))%K.
      * rewrite (orth_sum (firstn j ds) (length s) (fun c m => U (singles m) c)).
        -- apply bigsum_ext. intros c Hc. rewrite (kconj_mul K), (E4 c Hc). ring.
        -- intros c e Hc He. rewrite delta_sym, <- (OU e c He Hc). apply msum_ext. intros i _. ring.
      * intros m Hm. rewrite !app_nil_r, (X m a Hm Ha), (X m b Hm Hb). f_equal; [|f_equal]; apply bigsum_ext; intros; ring.
Qed.
End S.
