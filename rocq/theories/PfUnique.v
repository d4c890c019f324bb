(** Truncated singular value decompositions do not depend on the choice of the
    singular vectors. *)
From Coq Require Import Reals Lra Sorting.Sorted.
From Verif Require Export PfQuasi.
Local Open Scope R_scope.

Add Ring CSr4 : (k_ring CS).

Section Mat.
Context {X Y : Type}.
Variable I : list X.
Variable J : list Y.
Variable A : X -> Y -> CS.

Definition svd_of (n : nat) (u : nat -> X -> CS) (s : nat -> R) (v : nat -> Y -> CS) : Prop :=
  (forall i j, In i I -> In j J -> A i j = csum (seq 0 n) (fun k => u k i * toC (s k) * v k j)%K) /\ orth I n u /\
  (forall a b, (a < n)%nat -> (b < n)%nat -> csum J (fun j => v a j * kconj (v b j))%K = delta a b).

Lemma svd_adj_l n u s v c j : svd_of n u s v -> (c < n)%nat -> In j J -> ip I (u c) (fun i => A i j) = (toC (s c) * v c j)%K.
Proof.
  intros [HA [HU HV]] Hc Hj. transitivity (ip I (u c) (fun i => csum (seq 0 n) (fun k => toC (s k) * v k j * u k i)%K)).
  - apply ip_ext; [auto|]. intros i Hi. rewrite HA by assumption. apply csum_ext. intros k _. ring.
  - rewrite ip_sum_r, (csum_single n c); [|exact Hc|].
    + rewrite (HU c c) by assumption. rewrite delta_eq. ring.
    + intros b Hb Hn. rewrite (HU c b) by assumption. rewrite delta_neq by auto. ring.
Qed.
Lemma svd_adj_r n u s v c i : svd_of n u s v -> (c < n)%nat -> In i I -> csum J (fun j => A i j * kconj (v c j))%K = (u c i * toC (s c))%K.
Proof.
  intros [HA [HU HV]] Hc Hi. transitivity (csum J (fun j => csum (seq 0 n) (fun k => u k i * toC (s k) * (v k j * kconj (v c j)))%K)).
  - apply csum_ext. intros j Hj. rewrite HA by assumption. rewrite <- csum_mul_r. apply csum_ext. intros k _. ring.
  - rewrite csum_swap, (csum_single n c); [|exact Hc|].
    + rewrite csum_mul_l, HV by assumption. rewrite delta_eq. ring.
    + intros b Hb Hn. rewrite csum_mul_l, HV by assumption. rewrite delta_neq by auto. ring.
Qed.

Section Two.
Variables (n n' : nat) (u u' : nat -> X -> CS) (s s' : nat -> R) (v v' : nat -> Y -> CS).
Hypothesis H : svd_of n u s v.
Hypothesis H' : svd_of n' u' s' v'.
Lemma sv_pq c e : (c < n)%nat -> (e < n')%nat ->
  (toC (s c) * csum J (fun j => v c j * kconj (v' e j)))%K = (toC (s' e) * ip I (u c) (u' e))%K.
Proof.
  intros Hc He. transitivity (csum I (fun i => csum J (fun j => kconj (u c i) * A i j * kconj (v' e j))))%K.
  - rewrite csum_swap, <- csum_mul_l. apply csum_ext. intros j Hj. rewrite csum_mul_r. change (csum I (fun x => kconj (u c x) * A x j)%K) with (ip I (u c) (fun i => A i j)).
    rewrite (svd_adj_l n u s v c j H Hc Hj). ring.
  - unfold ip. rewrite <- csum_mul_l. apply csum_ext. intros i Hi.
    transitivity (kconj (u c i) * csum J (fun j => A i j * kconj (v' e j)))%K; [rewrite <- csum_mul_l; apply csum_ext; intros; ring|].
    rewrite (svd_adj_r n' u' s' v' e i H' He Hi). ring.
Qed.
End Two.

Lemma sv_orth n n' u u' s s' v v' c e : svd_of n u s v -> svd_of n' u' s' v' -> (c < n)%nat -> (e < n')%nat ->
  s c * s c <> s' e * s' e -> ip I (u c) (u' e) = k0.
Proof.
  intros H H' Hc He Hne. pose proof (sv_pq n n' u u' s s' v v' H H' c e Hc He) as E1.
  pose proof (sv_pq n' n u' u s' s v' v H' H e c He Hc) as E2.
  apply (f_equal kconj) in E2. rewrite !(kconj_mul CS), ip_conj, csum_conj in E2.
  replace (kconj (toC (s' e))) with (toC (s' e)) in E2 by (apply cplx_eq; cbn; ring). replace (kconj (toC (s c))) with (toC (s c)) in E2 by (apply cplx_eq; cbn; ring).
  rewrite (csum_ext J _ (fun j => v c j * kconj (v' e j))%K) in E2 by (intros; rewrite (kconj_mul CS), (kconj_invol CS); ring).
  set (p := ip I (u c) (u' e)) in *. set (q := csum J _) in *. clearbody p q. destruct p as [p1 p2], q as [q1 q2].
  pose proof (f_equal Cre E1) as A1. pose proof (f_equal Cim E1) as A2. pose proof (f_equal Cre E2) as B1. pose proof (f_equal Cim E2) as B2.
  cbn in A1, A2, B1, B2.
  assert (G : forall x y, s c * y = s' e * x -> s' e * y = s c * x -> x = 0).
  { intros x y F1 F2. assert (Z : (s c * s c - s' e * s' e) * x = 0).
    { transitivity (s c * (s c * x) - s' e * (s' e * x)); [ring|]. rewrite <- F1, <- F2. ring. }
    apply Rmult_integral in Z. destruct Z as [Z|Z]; [exfalso; apply Hne; lra|exact Z]. }
  apply cplx_eq; cbn.
  - apply (G p1 q1); lra.
  - apply (G p2 q2); lra.
Qed.

Definition part (k : nat) (u : nat -> X -> CS) (s : nat -> R) (v : nat -> Y -> CS) (i : X) (j : Y) : CS :=
  csum (seq 0 k) (fun c => u c i * toC (s c) * v c j)%K.

Lemma proj_other n n' u u' s s' v v' k e j : svd_of n u s v -> svd_of n' u' s' v' -> (k <= n)%nat -> (k <= n')%nat ->
  (forall c, (k <= c < n)%nat -> s c * s c <> s' e * s' e) -> (e < k)%nat -> In j J ->
  ip I (u' e) (fun i => A i j) = ip I (u' e) (fun i => part k u s v i j).
Proof.
  intros H H' Hk Hk' Hne He Hj. pose proof H as [HA _].
  transitivity (ip I (u' e) (fun i => csum (seq 0 n) (fun c => (toC (s c) * v c j) * u c i)%K)).
  - apply ip_ext; [auto|]. intros i Hi. rewrite HA by assumption. apply csum_ext. intros c _. ring.
  - rewrite ip_sum_r, (seq_cut k n Hk), csum_app.
    rewrite (csum_zero (seq k (n - k))).
    + transitivity (ip I (u' e) (fun i => csum (seq 0 k) (fun c => (toC (s c) * v c j) * u c i)%K)); [rewrite ip_sum_r; ring|].
      apply ip_ext; [auto|]. intros i Hi. apply csum_ext. intros c _. ring.
    + intros c Hc. apply in_seq in Hc. rewrite <- ip_conj, (sv_orth n n' u u' s s' v v' c e H H') by (try lia; apply Hne; lia).
      apply cplx_eq; cbn; ring.
Qed.
Lemma orth_norm {Z : Type} (l : list Z) d q (g : nat -> CS) : orth l d q -> n2 l (fun x => csum (seq 0 d) (fun a => g a * q a x))%K = rs (seq 0 d) (fun a => sq (g a)).
Proof.
  intros HQ. pose proof (least_squares l d q (fun _ => k0) (fun a => - g a)%K HQ) as L.
  assert (Z0 : forall c, ip l (q c) (fun _ => k0) = k0) by (intros c; apply csum_zero; intros; ring).
  rewrite (n2_ext l _ (fun x => csum (seq 0 d) (fun a => g a * q a x))%K) in L.
  2:{ intros x _. transitivity (k0 - csum (seq 0 d) (fun a => (- k1) * (g a * q a x)))%K; [f_equal; apply csum_ext; intros; ring|]. rewrite csum_mul_l. ring. }
  rewrite L. replace (n2 l (fun _ => k0)) with 0 by (unfold n2; rewrite (rs_ext _ _ (fun _ => 0)) by (intros; unfold sq; cbn; ring); rewrite rs_const; ring).
  rewrite (rs_ext (seq 0 d) (fun a => sq (ip l (q a) (fun _ => k0))) (fun _ => 0)) by (intros; rewrite Z0; unfold sq; cbn; ring). rewrite rs_const.
  rewrite (rs_ext (seq 0 d) _ (fun a => sq (g a))); [ring|]. intros a _. rewrite Z0. unfold sq. cbn. unfold Cre, Cim. ring.
Qed.
Lemma orth_less {Z : Type} (l : list Z) d k q : orth l d q -> (k <= d)%nat -> orth l k q.
Proof. intros H Hk a b Ha Hb. apply H; lia. Qed.

Theorem gap_unique n n' u u' s s' v v' k : svd_of n u s v -> svd_of n' u' s' v' -> (k <= n)%nat -> (k <= n')%nat ->
  (forall c e, (k <= c < n)%nat -> (e < k)%nat -> s c * s c <> s' e * s' e) ->
  (forall c e, (k <= c < n')%nat -> (e < k)%nat -> s' c * s' c <> s e * s e) ->
  forall i j, In i I -> In j J -> part k u s v i j = part k u' s' v' i j.
Proof.
  intros H H' Hk Hk' G G' i j Hi Hj. pose proof H as [_ [HU _]]. pose proof H' as [_ [HU' _]].
  set (b := fun i => part k u s v i j). set (b' := fun i => part k u' s' v' i j).
  assert (Eb' : forall i, b' i = csum (seq 0 k) (fun e => ip I (u' e) b * u' e i)%K).
  { intros x. unfold b', part. apply csum_ext. intros e He. apply in_seq in He. unfold b.
    rewrite <- (proj_other n n' u u' s s' v v' k e j H H' Hk Hk') by (try lia; try exact Hj; intros; apply G; lia).
    rewrite (svd_adj_l n' u' s' v' e j H') by (try lia; exact Hj). ring. }
  assert (Eb : forall i, b i = csum (seq 0 k) (fun e => ip I (u e) b' * u e i)%K).
  { intros x. unfold b, part. apply csum_ext. intros e He. apply in_seq in He. unfold b'.
    rewrite <- (proj_other n' n u' u s' s v' v k e j H' H Hk' Hk) by (try lia; try exact Hj; intros; apply G'; lia).
    rewrite (svd_adj_l n u s v e j H) by (try lia; exact Hj). ring. }
  pose proof (orth_less I n k u HU Hk) as O. pose proof (orth_less I n' k u' HU' Hk') as O'.
  assert (N' : n2 I b' = rs (seq 0 k) (fun e => sq (ip I (u' e) b))).
  { rewrite <- (orth_norm I k u' _ O'). apply n2_ext. intros x _. apply Eb'. }
  assert (N : n2 I b = rs (seq 0 k) (fun e => sq (ip I (u e) b'))).
  { rewrite <- (orth_norm I k u _ O). apply n2_ext. intros x _. apply Eb. }
  pose proof (bessel I k u b' O) as B1. rewrite <- N in B1.
  pose proof (least_squares I k u' b (fun e => ip I (u' e) b) O') as L.
  rewrite <- N' in L. rewrite (rs_ext (seq 0 k) (fun a => sq (ip I (u' a) b - ip I (u' a) b)%K) (fun _ => 0)) in L.
  2:{ intros a _. replace (ip I (u' a) b - ip I (u' a) b)%K with (k0 : CS) by ring. unfold sq. cbn. ring. }
  rewrite rs_const in L. rewrite (n2_ext I _ (fun x => b x - b' x)%K) in L by (intros x _; rewrite <- Eb'; reflexivity).
  pose proof (n2_nonneg I (fun x => b x - b' x)%K) as P.
  assert (Z : n2 I (fun x => b x - b' x)%K = 0) by nra.
  pose proof (rs_zero_all I (fun x => sq (b x - b' x)%K) (fun x _ => sq_nonneg _) Z i Hi) as Q. apply sq_0 in Q.
  change (b i = b' i). transitivity ((b i - b' i) + b' i)%K; [ring|]. rewrite Q. ring.
Qed.
End Mat.

(** ** Cuts *)
Local Open Scope nat_scope.
Definition sval (s : list CS) (c : nat) : R := Cre (nth c s k0).
Definition tailw (s : list CS) (m : nat) : R := rs (seq m (length s - m)) (fun c => sval s c * sval s c)%R.

Lemma sval_out s c : length s <= c -> sval s c = 0%R.
Proof. intros H. unfold sval. rewrite nth_overflow by exact H. reflexivity. Qed.
Lemma sval_nonneg s c : sorted_values s -> (0 <= sval s c)%R.
Proof. intros [SN _]. destruct (le_lt_dec (length s) c); [rewrite sval_out by assumption; lra|]. apply (real_value s c SN l). Qed.
Lemma sval_desc s i j : sorted_values s -> i <= j -> (sval s j <= sval s i)%R.
Proof.
  intros HS Hij. destruct (le_lt_dec (length s) j); [rewrite (sval_out s j) by assumption; apply sval_nonneg, HS|].
  destruct HS as [_ SD]. unfold sval. rewrite <- !map_Cre_nth. apply descending_nth; [exact SD|rewrite map_length; lia].
Qed.
Lemma tailw_step s m : tailw s m = (sval s m * sval s m + tailw s (S m))%R.
Proof.
  unfold tailw. destruct (le_lt_dec (length s) m).
  - replace (length s - m) with 0 by lia. replace (length s - S m) with 0 by lia. rewrite sval_out by assumption. cbn. ring.
  - replace (length s - m) with (S (length s - S m)) by lia. reflexivity.
Qed.
Lemma bigsum_min k n (f : nat -> CS) : (forall c, n <= c -> f c = k0) -> bigsum k f = bigsum (Nat.min k n) f.
Proof.
  intros H. induction k as [|k IH]; [reflexivity|]. cbn [bigsum]. destruct (le_lt_dec n k).
  - rewrite H, IH by assumption. replace (Nat.min (S k) n) with (Nat.min k n) by lia. ring.
  - replace (Nat.min (S k) n) with (S (Nat.min k n)) by lia. cbn [bigsum]. rewrite IH. replace (Nat.min k n) with k by lia. reflexivity.
Qed.
Lemma nth_term (s : list CS) c (a b : CS) : length s <= c -> (a * nth c s k0 * b)%K = k0.
Proof. intros H. rewrite nth_overflow by exact H. ring. Qed.

Section Cut.
Variable sh : list (list nat).
Variable j : nat.
Hypothesis Hj : j <= length sh.

(** Only the values that exist matter. *)
Lemma cut_min (A B : list (list nat) -> CS) s k k' : Nat.min k (length s) = Nat.min k' (length s) -> cut_trunc sh A B j s k -> cut_trunc sh A B j s k'.
Proof.
  intros E [U [V [H1 H2]]]. exists U, V. split; [|exact H2]. intros a b Ha Hb. destruct (H1 a b Ha Hb) as [E1 E2]. split; [exact E1|].
  rewrite E2, (bigsum_min k (length s)), E, <- bigsum_min by (intros; apply nth_term; assumption). reflexivity.
Qed.
Lemma cut_any (A B : list (list nat) -> CS) s k m : cut_trunc sh A B j s k -> exists B', cut_trunc sh A B' j s m.
Proof.
  intros [U [V [H1 H2]]]. exists (fun is => bigsum m (fun c => U (firstn j is) c * nth c s k0 * V c (skipn j is))%K), U, V.
  split; [|exact H2]. intros a b Ha Hb. split; [apply (H1 a b Ha Hb)|]. rewrite (firstn_l sh j Hj a b Ha), (skipn_l sh j Hj a b Ha). reflexivity.
Qed.
Lemma cut_rank_of (A B : list (list nat) -> CS) s k : cut_trunc sh A B j s k -> cut_rank sh B j (Nat.min k (length s)).
Proof.
  intros [U [V [H1 _]]]. exists (fun c is => U is c * nth c s k0)%K, V. intros a b Ha Hb. rewrite (proj2 (H1 a b Ha Hb)).
  apply bigsum_min. intros. apply nth_term. assumption.
Qed.
Lemma cut_dec (A B : list (list nat) -> CS) s k : cut_trunc sh A B j s k -> sorted_values s -> exists u v,
  svd_of (enum (firstn j sh)) (enum (skipn j sh)) (fun a b => A (a ++ b)) (length s) u (sval s) v /\
  forall a b, In a (enum (firstn j sh)) -> In b (enum (skipn j sh)) -> B (a ++ b) = part (Nat.min k (length s)) u (sval s) v a b.
Proof.
  intros [U [V [H1 [H2 [H3 _]]]]] [SN _]. exists (fun c is => U is c), V. split; [split; [|split]|].
  - intros a b Ha Hb. apply In_enum in Ha, Hb. rewrite (proj1 (H1 a b Ha Hb)), csum_seq. apply bigsum_ext. intros c Hc. unfold sval. rewrite <- (proj1 (real_value s c SN Hc)). reflexivity.
  - intros a b Ha Hb. unfold ip. rewrite <- (H2 a b Ha Hb), msums_enum. reflexivity.
  - intros a b Ha Hb. rewrite <- (H3 a b Ha Hb), msums_enum. reflexivity.
  - intros a b Ha Hb. apply In_enum in Ha, Hb. rewrite (proj2 (H1 a b Ha Hb)). unfold part. rewrite csum_seq, (bigsum_min k (length s)) by (intros; apply nth_term; assumption).
    apply bigsum_ext. intros c Hc. unfold sval. rewrite <- (proj1 (real_value s c SN ltac:(lia))). reflexivity.
Qed.

(** The error of a truncation is the weight of the values that are dropped. *)
Lemma cut_dist (A B : list (list nat) -> CS) s k : cut_trunc sh A B j s k -> sorted_values s -> adist sh A B = tailw s k.
Proof.
  intros HC HS. destruct (cut_dec A B s k HC HS) as [u [v [[HA [HU HV]] HB]]]. rewrite (adist_cut sh j).
  set (t := fun c => if c <? k then 0%R else sval s c).
  rewrite (frob (enum (firstn j sh)) (enum (skipn j sh)) (length s) (fun a b => A (a ++ b) - B (a ++ b))%K u v t).
  - unfold tailw, t. destruct (le_lt_dec (length s) k) as [L|L].
    + replace (length s - k) with 0 by lia. rewrite (rs_ext _ _ (fun _ => 0%R)); [rewrite rs_const; cbn; ring|]. intros c Hc. apply in_seq in Hc.
      destruct (Nat.ltb_spec c k); [ring|lia].
    + rewrite (seq_cut k (length s)), rs_app by lia. rewrite (rs_ext (seq 0 k) _ (fun _ => 0%R)).
      * rewrite rs_const, Rmult_0_r, Rplus_0_l. apply rs_ext. intros c Hc. apply in_seq in Hc. destruct (Nat.ltb_spec c k); [lia|reflexivity].
      * intros c Hc. apply in_seq in Hc. destruct (Nat.ltb_spec c k); [ring|lia].
  - intros a b Ha Hb. rewrite (HA a b Ha Hb), (HB a b Ha Hb). unfold part. set (m := Nat.min k (length s)).
    rewrite !(seq_cut m (length s)), !csum_app by lia.
    rewrite (csum_zero (seq 0 m) (fun c => u c a * toC (t c) * v c b)%K).
    + rewrite (csum_ext (seq m (length s - m)) (fun c => u c a * toC (t c) * v c b)%K (fun c => u c a * toC (sval s c) * v c b)%K); [ring|].
      intros c Hc. apply in_seq in Hc. unfold t. destruct (Nat.ltb_spec c k); [lia|reflexivity].
    + intros c Hc. apply in_seq in Hc. unfold t. destruct (Nat.ltb_spec c k); [|lia]. apply cplx_eq; cbn; ring.
  - exact HU.
  - exact HV.
Qed.

Lemma tailw_le (A B B' : list (list nat) -> CS) s s' k k' m : cut_trunc sh A B j s k -> cut_trunc sh A B' j s' k' -> sorted_values s -> sorted_values s' -> (tailw s' m <= tailw s m)%R.
Proof.
  intros H H' HS HS'. destruct (cut_any A B s k m H) as [C HC]. destruct (cut_any A B' s' k' m H') as [C' HC'].
  pose proof (cut_lower sh A C' C j s' m _ HC' HS' (cut_rank_of A C s m HC) ltac:(lia)) as L.
  rewrite (cut_dist A C s m HC HS), dweight_rs in L by apply HS'. exact L.
Qed.

(** The singular values of a cut are determined by the array. *)
Theorem values_unique (A B B' : list (list nat) -> CS) s s' k k' c : cut_trunc sh A B j s k -> cut_trunc sh A B' j s' k' -> sorted_values s -> sorted_values s' -> sval s c = sval s' c.
Proof.
  intros H H' HS HS'. assert (T : forall m, tailw s m = tailw s' m).
  { intros m. apply Rle_antisym; [exact (tailw_le A B' B s' s k' k m H' H HS' HS)|exact (tailw_le A B B' s s' k k' m H H' HS HS')]. }
  pose proof (T c) as T1. rewrite (tailw_step s c), (tailw_step s' c), (T (S c)) in T1.
  pose proof (sval_nonneg s c HS). pose proof (sval_nonneg s' c HS'). nra.
Qed.

(** The first [k] values are separated from the others, or the others vanish. *)
Definition gap (s : list CS) (k : nat) : Prop := sval s k = 0%R \/ (0 < k /\ (sval s k < sval s (k - 1))%R).

Lemma adist_zero (A B : list (list nat) -> CS) : adist sh A B = 0%R -> forall is, valid_idx is sh -> A is = B is.
Proof.
  intros H is Hi. apply In_enum in Hi. pose proof (rs_zero_all (enum sh) (fun is => sq (A is - B is)%K) (fun x _ => sq_nonneg _) H is Hi) as Q. apply sq_0 in Q.
  transitivity ((A is - B is) + B is)%K; [ring|]. rewrite Q. ring.
Qed.

Theorem trunc_unique (A B B' : list (list nat) -> CS) s s' k : cut_trunc sh A B j s k -> cut_trunc sh A B' j s' k -> sorted_values s -> sorted_values s' -> gap s k ->
  forall is, valid_idx is sh -> B is = B' is.
Proof.
  intros H H' HS HS' G is Hi. assert (V : forall c, sval s c = sval s' c) by (intros c; exact (values_unique A B B' s s' k k c H H' HS HS')).
  destruct G as [G|[Hk G]].
  - assert (Z : forall t, sorted_values t -> sval t k = 0%R -> tailw t k = 0%R).
    { intros t Ht H0. unfold tailw. rewrite (rs_ext _ _ (fun _ => 0%R)); [rewrite rs_const; ring|]. intros c Hc. apply in_seq in Hc.
      pose proof (sval_desc t k c Ht ltac:(lia)). pose proof (sval_nonneg t c Ht). assert (ZZ : sval t c = 0%R) by lra. rewrite ZZ. ring. }
    rewrite <- (adist_zero A B) by (try exact Hi; rewrite (cut_dist A B s k H HS); apply Z; assumption).
    apply adist_zero; [|exact Hi]. rewrite (cut_dist A B' s' k H' HS'). apply Z; [exact HS'|]. rewrite <- V. exact G.
  - assert (L : forall t, sorted_values t -> (sval t k < sval t (k - 1))%R -> k <= length t).
    { intros t Ht HG. destruct (le_lt_dec k (length t)); [assumption|]. exfalso. rewrite (sval_out t (k - 1)) in HG by lia. pose proof (sval_nonneg t k Ht). lra. }
    pose proof (L s HS G) as L1. assert (G' : (sval s' k < sval s' (k - 1))%R) by (rewrite <- !V; exact G). pose proof (L s' HS' G') as L2.
    destruct (cut_dec A B s k H HS) as [u [v [S1 S2]]]. destruct (cut_dec A B' s' k H' HS') as [u' [v' [S1' S2']]].
    assert (Hi' : Forall2 inr is (firstn j sh ++ skipn j sh)) by (rewrite firstn_skipn; exact Hi).
    apply Forall2_app_inv_r in Hi'. destruct Hi' as [a [b [Ha [Hb ->]]]]. apply In_enum in Ha, Hb.
    rewrite (S2 a b Ha Hb), (S2' a b Ha Hb), !Nat.min_l by assumption.
    assert (SEP : forall c e, k <= c -> e < k -> (sval s c * sval s c <> sval s e * sval s e)%R).
    { intros c e Hc He. pose proof (sval_desc s k c HS Hc). pose proof (sval_desc s e (k - 1) HS ltac:(lia)). pose proof (sval_nonneg s c HS). nra. }
    apply (gap_unique _ _ _ _ _ u u' (sval s) (sval s') v v' k S1 S1' L1 L2); [| |exact Ha|exact Hb].
    + intros c e Hc He. rewrite <- V. apply SEP; lia.
    + intros c e Hc He. rewrite <- V. apply SEP; lia.
Qed.
End Cut.

(** ** Sweeps *)
(** The values at one cut: sorted, and as many kept as [kap] says. *)
Definition taken (kap : list CS -> nat) (y : list CS * nat) : Prop :=
  sorted_values (fst y) /\ snd y = Nat.min (length (fst y)) (kap (fst y)).

Theorem truncs_unique sh kap : (forall s s', sorted_values s -> sorted_values s' -> (forall c, sval s c = sval s' c) -> kap s = kap s') ->
  forall js ys ys' (A A' B B' : list (list nat) -> CS), Forall (fun j => j <= length sh) js -> (forall is, valid_idx is sh -> A is = A' is) ->
  truncs sh A js ys B -> truncs sh A' js ys' B' ->
  Forall (fun y => taken kap y /\ gap (fst y) (kap (fst y))) ys -> Forall (taken kap) ys' ->
  (forall is, valid_idx is sh -> B is = B' is) /\ Forall2 (fun y y' => forall c, sval (fst y) c = sval (fst y') c) ys ys'.
Proof.
  intros HK. induction js as [|j js IH]; intros [|[s k] ys] [|[s' k'] ys'] A A' B B' HJ HA HT HT' HF HF'; cbn [truncs] in *; try contradiction.
  - split; [|constructor]. intros is Hi. rewrite HT, HT' by exact Hi. apply HA, Hi.
  - destruct HT as [C [HC HT]]. destruct HT' as [C' [HC' HT']].
    pose proof (Forall_inv HF) as [[S1 S2] S3]. pose proof (Forall_inv HF') as [S1' S2']. cbn [fst snd] in *.
    pose proof (Forall_inv HJ) as Hj.
    assert (HC2 : cut_trunc sh A C' j s' k').
    { destruct HC' as [U [V [H1 H2]]]. exists U, V. split; [|exact H2]. intros a b Ha Hb. destruct (H1 a b Ha Hb) as [E1 E2]. split; [|exact E2].
      rewrite HA; [exact E1|]. rewrite <- (firstn_skipn j sh). apply Forall2_app; assumption. }
    assert (V : forall c, sval s c = sval s' c) by (intros c; exact (values_unique sh j Hj A C C' s s' k k' c HC HC2 S1 S1')).
    assert (EK : kap s = kap s') by (apply HK; assumption).
    assert (EC : forall is, valid_idx is sh -> C is = C' is).
    { apply (trunc_unique sh j Hj A C C' s s' (kap s)); try assumption.
      - apply (cut_min sh j A C s k); [lia|exact HC].
      - apply (cut_min sh j A C' s' k'); [rewrite EK; lia|exact HC2]. }
    destruct (IH ys ys' C C' B B' (Forall_inv_tail HJ) EC HT HT' (Forall_inv_tail HF) (Forall_inv_tail HF')) as [R1 R2].
    split; [exact R1|]. constructor; [exact V|exact R2].
Qed.
