(** Scalars and finite sums.

    The entries of numpy arrays are modelled by an arbitrary commutative ring
    with an involution (complex conjugation).  Exact arithmetic: rounding is not
    modelled. *)
From Coq Require Export List Arith Lia Ring Bool.
Export ListNotations.

Record StarRing : Type := mkStarRing {
  car :> Type;
  k0 : car;
  k1 : car;
  kadd : car -> car -> car;
  kmul : car -> car -> car;
  ksub : car -> car -> car;
  kopp : car -> car;
  kconj : car -> car;
  k_ring : ring_theory k0 k1 kadd kmul ksub kopp (@eq car);
  kconj_add : forall x y, kconj (kadd x y) = kadd (kconj x) (kconj y);
  kconj_mul : forall x y, kconj (kmul x y) = kmul (kconj x) (kconj y);
  kconj_invol : forall x, kconj (kconj x) = x
}.

Arguments k0 {_}.
Arguments k1 {_}.
Arguments kadd {_} _ _.
Arguments kmul {_} _ _.
Arguments ksub {_} _ _.
Arguments kopp {_} _.
Arguments kconj {_} _.

Declare Scope K_scope.
Delimit Scope K_scope with K.
Bind Scope K_scope with car.
Notation "0" := k0 : K_scope.
Notation "1" := k1 : K_scope.
Infix "+" := kadd : K_scope.
Infix "*" := kmul : K_scope.
Infix "-" := ksub : K_scope.
Notation "- x" := (kopp x) : K_scope.

Section Sums.
Context {K : StarRing}.
Add Ring Kr : (k_ring K).
Local Open Scope K_scope.

Lemma kconj_0 : kconj (0 : K) = 0.
Proof.
  assert (H : kconj (0:K) = kconj 0 + kconj 0).
  { rewrite <- kconj_add. f_equal. ring. }
  assert (H2 : kconj (0:K) - kconj 0 = kconj 0 + kconj 0 - kconj 0) by (rewrite <- H; reflexivity).
  ring_simplify in H2. symmetry; exact H2.
Qed.

Lemma kconj_1 : kconj (1 : K) = 1.
Proof.
  assert (H : kconj (1:K) * kconj (kconj 1) = kconj (1 * kconj 1)) by (symmetry; apply kconj_mul).
  rewrite kconj_invol in H.
  replace (kconj (1:K)) with (kconj (1:K) * 1) by ring.
  rewrite H. replace (1 * kconj (1:K)) with (kconj (1:K)) by ring. apply kconj_invol.
Qed.

Lemma kconj_opp x : kconj (- x : K) = - kconj x.
Proof.
  assert (H : kconj (- x + x) = kconj (-x) + kconj x) by apply kconj_add.
  replace (- x + x) with (0 : K) in H by ring. rewrite kconj_0 in H.
  replace (kconj (- x)) with (kconj (-x) + kconj x - kconj x) by ring.
  rewrite <- H. ring.
Qed.

Lemma kconj_sub x y : kconj (x - y : K) = kconj x - kconj y.
Proof.
  replace (x - y) with (x + - y) by ring. rewrite kconj_add, kconj_opp. ring.
Qed.

(** [bigsum n f] is f 0 + ... + f (n-1). *)
Fixpoint bigsum (n : nat) (f : nat -> K) : K :=
  match n with
  | O => 0
  | S m => bigsum m f + f m
  end.

Definition delta (i j : nat) : K := if Nat.eqb i j then 1 else 0.

Lemma delta_eq i : delta i i = 1.
Proof. unfold delta. rewrite Nat.eqb_refl. reflexivity. Qed.

Lemma delta_neq i j : i <> j -> delta i j = 0.
Proof. unfold delta. intro H. apply Nat.eqb_neq in H. rewrite H. reflexivity. Qed.

Lemma delta_sym i j : delta i j = delta j i.
Proof. unfold delta. rewrite Nat.eqb_sym. reflexivity. Qed.

Lemma delta_conj i j : kconj (delta i j) = delta i j.
Proof. unfold delta. destruct (Nat.eqb i j); [apply kconj_1|apply kconj_0]. Qed.

Lemma bigsum_ext n f g : (forall i, i < n -> f i = g i) -> bigsum n f = bigsum n g.
Proof.
  induction n as [|n IH]; intros H; [reflexivity|].
  cbn. rewrite IH by (intros; apply H; lia). rewrite H by lia. reflexivity.
Qed.

Lemma bigsum_zero n f : (forall i, i < n -> f i = 0) -> bigsum n f = 0.
Proof.
  induction n as [|n IH]; intros H; [reflexivity|].
  cbn. rewrite IH by (intros; apply H; lia). rewrite H by lia. ring.
Qed.

Lemma bigsum_add n f g : bigsum n (fun i => f i + g i) = bigsum n f + bigsum n g.
Proof. induction n as [|n IH]; cbn; [ring|rewrite IH; ring]. Qed.

Lemma bigsum_sub n f g : bigsum n (fun i => f i - g i) = bigsum n f - bigsum n g.
Proof. induction n as [|n IH]; cbn; [ring|rewrite IH; ring]. Qed.

Lemma bigsum_mul_l n c f : bigsum n (fun i => c * f i) = c * bigsum n f.
Proof. induction n as [|n IH]; cbn; [ring|rewrite IH; ring]. Qed.

Lemma bigsum_mul_r n c f : bigsum n (fun i => f i * c) = bigsum n f * c.
Proof. induction n as [|n IH]; cbn; [ring|rewrite IH; ring]. Qed.

Lemma bigsum_conj n f : kconj (bigsum n f) = bigsum n (fun i => kconj (f i)).
Proof.
  induction n as [|n IH]; cbn; [apply kconj_0|]. rewrite kconj_add, IH. reflexivity.
Qed.

Lemma bigsum_swap n m f :
  bigsum n (fun i => bigsum m (fun j => f i j)) = bigsum m (fun j => bigsum n (fun i => f i j)).
Proof.
  induction n as [|n IH]; cbn.
  - symmetry. apply bigsum_zero. reflexivity.
  - rewrite IH. rewrite <- bigsum_add. reflexivity.
Qed.

Lemma bigsum_single n k f :
  k < n -> (forall i, i < n -> i <> k -> f i = 0) -> bigsum n f = f k.
Proof.
  induction n as [|n IH]; intros Hk H; [lia|].
  cbn. destruct (Nat.eq_dec k n) as [->|Hne].
  - rewrite bigsum_zero by (intros; apply H; lia). ring.
  - rewrite IH by (try lia; intros; apply H; lia). rewrite (H n) by lia. ring.
Qed.

Lemma bigsum_delta_l n k f : k < n -> bigsum n (fun i => delta k i * f i) = f k.
Proof.
  intros Hk. rewrite (bigsum_single n k).
  - rewrite delta_eq. ring.
  - exact Hk.
  - intros i _ Hne. rewrite delta_neq by auto. ring.
Qed.

Lemma bigsum_delta_r n k f : k < n -> bigsum n (fun i => f i * delta i k) = f k.
Proof.
  intros Hk. rewrite (bigsum_single n k).
  - rewrite delta_eq. ring.
  - exact Hk.
  - intros i _ Hne. rewrite delta_neq by auto. ring.
Qed.

Lemma bigsum_split n m f :
  bigsum (n + m) f = bigsum n f + bigsum m (fun i => f (n + i)%nat).
Proof.
  induction m as [|m IH].
  - rewrite Nat.add_0_r. cbn. ring.
  - rewrite Nat.add_succ_r. cbn. rewrite IH. ring.
Qed.

Lemma bigsum_shift n f : bigsum (S n) f = f O + bigsum n (fun i => f (S i)).
Proof.
  change (S n) with (1 + n)%nat. rewrite bigsum_split. cbn. ring.
Qed.

Lemma bigsum_prod n m f :
  bigsum (n * m) f = bigsum n (fun i => bigsum m (fun j => f (i * m + j)%nat)).
Proof.
  induction n as [|n IH]; [reflexivity|].
  cbn [bigsum]. rewrite <- IH. replace (S n * m)%nat with (n * m + m)%nat by lia.
  rewrite bigsum_split. reflexivity.
Qed.

Lemma bigsum_mul n m f g :
  bigsum n f * bigsum m g = bigsum n (fun i => bigsum m (fun j => f i * g j)).
Proof.
  rewrite <- bigsum_mul_r. apply bigsum_ext. intros i _. rewrite <- bigsum_mul_l. reflexivity.
Qed.

Lemma bigsum_const0 n : bigsum n (fun _ => 0) = 0.
Proof. apply bigsum_zero. reflexivity. Qed.

Lemma bigsum_1 f : bigsum 1 f = f O.
Proof. cbn. ring. Qed.

Lemma bigsum_rev n f : bigsum n f = bigsum n (fun i => f (n - 1 - i)%nat).
Proof.
  revert f; induction n as [|n IH]; intros f; [reflexivity|].
  rewrite bigsum_shift. cbn [bigsum].
  rewrite (IH (fun i => f (S i))).
  replace (S n - 1 - n)%nat with O by lia.
  assert (E : bigsum n (fun i => f (S (n - 1 - i))) = bigsum n (fun i => f (S n - 1 - i)%nat)).
  { apply bigsum_ext. intros i Hi. f_equal. lia. }
  rewrite E. ring.
Qed.

End Sums.
