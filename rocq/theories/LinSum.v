(** Finite sums as linear functionals: interchange of nested sums. *)
From Verif Require Export PfDots.

Section LinSum.
Context {K : StarRing}.
Add Ring Kr : (k_ring K).

Definition linf {I : Type} (S : (I -> K) -> K) : Prop :=
  (forall f g, (forall i, f i = g i) -> S f = S g) /\
  (forall f g, S (fun i => f i + g i)%K = (S f + S g)%K) /\
  (forall c f, S (fun i => c * f i)%K = (c * S f)%K).

Lemma lin_ext {I : Type} (S : (I -> K) -> K) f g : linf S -> (forall i, f i = g i) -> S f = S g.
Proof. intros H. apply H. Qed.
Lemma lin_add {I : Type} (S : (I -> K) -> K) f g : linf S -> S (fun i => f i + g i)%K = (S f + S g)%K.
Proof. intros H. apply H. Qed.
Lemma lin_mul_l {I : Type} (S : (I -> K) -> K) c f : linf S -> S (fun i => c * f i)%K = (c * S f)%K.
Proof. intros H. apply H. Qed.
Lemma lin_mul_r {I : Type} (S : (I -> K) -> K) c f : linf S -> S (fun i => f i * c)%K = (S f * c)%K.
Proof.
  intros H. rewrite (lin_ext S _ (fun i => c * f i)%K H) by (intros; ring). rewrite (lin_mul_l S c f H). ring.
Qed.
Lemma lin_zero {I : Type} (S : (I -> K) -> K) : linf S -> S (fun _ => k0) = k0.
Proof.
  intros H. rewrite (lin_ext S _ (fun _ => k0 * k0)%K H) by (intros; ring).
  rewrite (lin_mul_l S k0 (fun _ => k0) H). ring.
Qed.

Lemma lin_id {I : Type} (i : I) : linf (fun f => f i).
Proof. repeat split; auto. Qed.
Lemma lin_bigsum n : linf (bigsum n).
Proof.
  split; [intros; apply bigsum_ext; auto|]. split; [apply bigsum_add|apply bigsum_mul_l].
Qed.
Lemma lin_msum sh : linf (msum sh).
Proof. split; [intros; apply msum_ext; auto|]. split; [apply msum_add|apply msum_mul_l]. Qed.
Lemma lin_msums shs : linf (msums shs).
Proof. split; [intros; apply msums_ext; auto|]. split; [apply msums_add|apply msums_mul_l]. Qed.
Lemma lin_pair {I J : Type} (S : (I -> K) -> K) (T : I -> (J -> K) -> K) : linf S -> (forall i, linf (T i)) ->
  linf (fun F : I * J -> K => S (fun i => T i (fun j => F (i, j)))).
Proof.
  intros HS HT. split; [|split].
  - intros f g E. apply (lin_ext S); auto. intros i. apply (lin_ext (T i)); auto.
  - intros f g. rewrite <- (lin_add S _ _ HS). apply (lin_ext S); auto. intros i.
    apply (lin_add (T i)); auto.
  - intros c f. rewrite <- (lin_mul_l S _ _ HS). apply (lin_ext S); auto. intros i.
    apply (lin_mul_l (T i)); auto.
Qed.

Lemma lin_bigsum_swap {I : Type} (S : (I -> K) -> K) n F : linf S ->
  S (fun i => bigsum n (F i)) = bigsum n (fun k => S (fun i => F i k)).
Proof.
  intros H. induction n as [|n IH]; cbn [bigsum]; [apply lin_zero; auto|].
  rewrite (lin_add S _ _ H). rewrite IH. reflexivity.
Qed.
Lemma lin_msum_swap {I : Type} (S : (I -> K) -> K) sh : forall F, linf S ->
  S (fun i => msum sh (F i)) = msum sh (fun k => S (fun i => F i k)).
Proof.
  induction sh as [|d sh IH]; intros F H; [reflexivity|]. cbn [msum].
  rewrite (lin_bigsum_swap S d (fun i k => msum sh (fun idx => F i (k :: idx))) H). apply bigsum_ext. intros k _.
  apply (IH (fun i idx => F i (k :: idx)) H).
Qed.
Lemma lin_msums_swap {I : Type} (S : (I -> K) -> K) shs : forall F, linf S ->
  S (fun i => msums shs (F i)) = msums shs (fun k => S (fun i => F i k)).
Proof.
  induction shs as [|d sh IH]; intros F H; [reflexivity|]. cbn [msums].
  rewrite (lin_msum_swap S d (fun i k => msums sh (fun idx => F i (k :: idx))) H). apply msum_ext. intros k _.
  apply (IH (fun i idx => F i (k :: idx)) H).
Qed.
Lemma lin_prod {I J : Type} (S : (I -> K) -> K) (T : (J -> K) -> K) X Y : linf S -> linf T ->
  S (fun i => T (fun j => X i * Y j)%K) = (S X * T Y)%K.
Proof.
  intros HS HT. rewrite (lin_ext S _ (fun i => X i * T Y)%K HS).
  - apply lin_mul_r; auto.
  - intros i. apply lin_mul_l; auto.
Qed.
(** Two pairs of amplitudes joined by a bond. *)
Lemma lin_join {I J : Type} (S : (I -> K) -> K) (T : (J -> K) -> K) m X Y : linf S -> linf T ->
  S (fun i => T (fun j => bigsum m (fun e => bigsum m (fun e' => X i e e' * Y j e e'))))%K =
  bigsum m (fun e => bigsum m (fun e' => S (fun i => X i e e') * T (fun j => Y j e e')))%K.
Proof.
  intros HS HT.
  rewrite (lin_ext S _ (fun i => bigsum m (fun e => T (fun j => bigsum m (fun e' => X i e e' * Y j e e'))))%K HS)
    by (intros i; apply (lin_bigsum_swap T m (fun j e => bigsum m (fun e' => X i e e' * Y j e e'))%K HT)).
  rewrite (lin_bigsum_swap S m _ HS). apply bigsum_ext. intros e _.
  rewrite (lin_ext S _ (fun i => bigsum m (fun e' => T (fun j => X i e e' * Y j e e')))%K HS)
    by (intros i; apply (lin_bigsum_swap T m (fun j e' => X i e e' * Y j e e')%K HT)).
  rewrite (lin_bigsum_swap S m _ HS). apply bigsum_ext. intros e' _.
  apply (lin_prod S T (fun i => X i e e') (fun j => Y j e e') HS HT).
Qed.
End LinSum.
