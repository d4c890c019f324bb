(** Sequences of truncated singular value decompositions are quasi-optimal. *)
From Coq Require Import Reals Lra Sorting.Sorted.
From Verif Require Export PfRelErr PfEckart.
Local Open Scope nat_scope.

Add Ring CSr2 : (k_ring CS).

(** ** All index tuples *)
Fixpoint enum1 (sh : list nat) : list (list nat) :=
  match sh with [] => [[]] | d :: r => flat_map (fun i => map (cons i) (enum1 r)) (seq 0 d) end.
Fixpoint enum (shs : list (list nat)) : list (list (list nat)) :=
  match shs with [] => [[]] | sh :: r => flat_map (fun c => map (cons c) (enum r)) (enum1 sh) end.

Lemma In_enum1 sh : forall i, In i (enum1 sh) <-> inr i sh.
Proof.
  induction sh as [|d sh IH]; intros i; cbn [enum1].
  - split; [intros [<-|[]]; constructor|intros H; apply inr_nil_inv in H; cbn; auto].
  - rewrite in_flat_map. split.
    + intros [x [Hx Hi]]. apply in_seq in Hx. apply in_map_iff in Hi. destruct Hi as [j [<- Hj]]. apply inr_cons; [lia|apply IH, Hj].
    + intros H. inversion H as [|x ? j ? Hx Hj]; subst. exists x. split; [apply in_seq; lia|]. apply in_map, IH, Hj.
Qed.
Lemma In_enum shs : forall i, In i (enum shs) <-> valid_idx i shs.
Proof.
  induction shs as [|sh shs IH]; intros i; cbn [enum].
  - split; [intros [<-|[]]; constructor|intros H; inversion H; cbn; auto].
  - rewrite in_flat_map. split.
    + intros [x [Hx Hi]]. apply In_enum1 in Hx. apply in_map_iff in Hi. destruct Hi as [j [<- Hj]]. constructor; [exact Hx|apply IH, Hj].
    + intros H. inversion H as [|x ? j ? Hx Hj]; subst. exists x. split; [apply In_enum1; exact Hx|]. apply in_map, IH, Hj.
Qed.
Lemma msum_enum sh : forall f : list nat -> CS, msum sh f = csum (enum1 sh) f.
Proof.
  induction sh as [|d sh IH]; intros f; cbn [msum enum1]; [cbn [csum fold_right]; ring|].
  rewrite csum_flat_map, <- csum_seq. apply csum_ext. intros i _. rewrite csum_map. apply IH.
Qed.
Lemma msums_enum shs : forall f : list (list nat) -> CS, msums shs f = csum (enum shs) f.
Proof.
  induction shs as [|sh shs IH]; intros f; cbn [msums enum]; [cbn [csum fold_right]; ring|].
  rewrite csum_flat_map, msum_enum. apply csum_ext. intros i _. rewrite csum_map. apply IH.
Qed.
Lemma rs_enum_app s1 s2 (f : list (list nat) -> R) : rs (enum (s1 ++ s2)) f = rs (enum s1) (fun a => rs (enum s2) (fun b => f (a ++ b))).
Proof.
  apply toC_eq. rewrite <- !csum_toC, <- !msums_enum, msums_app. apply msums_ext. intros a _. rewrite <- csum_toC, <- msums_enum. reflexivity.
Qed.

(** Squared distance of two arrays of shape [sh]. *)
Definition adist (sh : list (list nat)) (A B : list (list nat) -> CS) : R := rs (enum sh) (fun is => sq (A is - B is)%K).
Lemma adist_dist (x y : ltens CS) : dist2_of x y = toC (adist (mshape x) (entry x) (entry y)).
Proof. unfold dist2_of, adist. rewrite msums_enum, <- csum_toC. apply csum_ext. intros is _. symmetry. apply sq_conj. Qed.
Lemma adist_nonneg sh A B : (0 <= adist sh A B)%R.
Proof. apply rs_nonneg. intros. apply sq_nonneg. Qed.
Lemma adist_cut sh j A B : adist sh A B = rs (enum (firstn j sh)) (fun a => rs (enum (skipn j sh)) (fun b => sq (A (a ++ b) - B (a ++ b))%K)).
Proof. unfold adist. rewrite <- (firstn_skipn j sh) at 1. apply rs_enum_app. Qed.

(** [Y] is a sum of [r] products across the cut after [j] sites. *)
Definition cut_rank (sh : list (list nat)) (Y : list (list nat) -> CS) (j r : nat) : Prop :=
  exists (x : nat -> list (list nat) -> CS) (y : nat -> list (list nat) -> CS),
    forall is1 is2, valid_idx is1 (firstn j sh) -> valid_idx is2 (skipn j sh) ->
      Y (is1 ++ is2) = bigsum r (fun c => x c is1 * y c is2)%K.

(** ** One cut *)
Lemma real_value (s : list CS) c : Forall cnonneg s -> c < length s -> nth c s k0 = toC (Cre (nth c s k0)) /\ (0 <= Cre (nth c s k0))%R.
Proof.
  intros H Hc. rewrite Forall_forall in H. destruct (H _ (nth_In s k0 Hc)) as [H1 H2]. split; [apply cplx_eq; cbn; [reflexivity|exact H1]|exact H2].
Qed.
Lemma descending_nth l : descending l -> forall i j, i <= j < length l -> (nth j l 0 <= nth i l 0)%R.
Proof.
  induction l as [|x l IH]; intros HD i j Hij; [cbn in Hij; lia|]. destruct HD as [HF HD]. destruct i as [|i], j as [|j]; cbn [nth length] in *; try lia; [lra| |].
  - rewrite Forall_forall in HF. apply HF, nth_In. lia.
  - apply IH; [exact HD|lia].
Qed.
Lemma map_Cre_nth (s : list CS) c : nth c (map Cre s) 0%R = Cre (nth c s k0).
Proof. change 0%R with (Cre k0). apply map_nth. Qed.

Lemma dweight_rs s k : Forall cnonneg s -> dweight (s, k) = toC (rs (seq k (length s - k)) (fun c => Cre (nth c s k0) * Cre (nth c s k0))%R).
Proof.
  intros H. unfold dweight. cbn [fst snd]. rewrite <- csum_toC.
  assert (E : forall n a (f : nat -> CS), csum (seq a n) f = bigsum n (fun c => f (a + c))).
  { induction n as [|n IH]; intros a f; [reflexivity|]. rewrite seq_S, csum_app, IH. cbn [csum fold_right bigsum]. ring. }
  rewrite E. apply bigsum_ext. intros c Hc. destruct (real_value s (k + c) H ltac:(lia)) as [E1 _]. rewrite E1 at 1 2. rewrite <- toC_mul. reflexivity.
Qed.

Lemma cut_lower sh A A' Y j s k r : cut_trunc sh A A' j s k -> sorted_values s -> cut_rank sh Y j r -> Nat.min (length s) r <= k ->
  (Cre (dweight (s, k)) <= adist sh A Y)%R.
Proof.
  intros [U [V [H1 [H2 [H3 H4]]]]] [SN SD] [x [y HY]] Hr. rewrite dweight_rs by exact SN. cbn [Cre toC fst].
  apply Rle_trans with (rs (seq r (length s - r)) (fun c => Cre (nth c s k0) * Cre (nth c s k0))%R).
  - destruct (le_lt_dec (length s) k) as [L|L].
    + replace (length s - k) with 0 by lia. cbn [seq rs fold_right]. apply rs_nonneg. intros c _. nra.
    + replace (length s - r) with ((k - r) + (length s - k)) by lia. rewrite seq_app, rs_app. replace (r + (k - r)) with k by lia.
      match goal with |- (_ <= ?a + _)%R => assert (0 <= a)%R by (apply rs_nonneg; intros; nra) end. lra.
  - rewrite (adist_cut sh j).
    eapply Rle_trans; [apply (eckart_young (enum (firstn j sh)) (enum (skipn j sh)) (length s) (fun a b => A (a ++ b)) (fun c is => U is c) V (fun c => Cre (nth c s k0)))|].
    + intros a b Ha Hb. apply In_enum in Ha, Hb. rewrite (proj1 (H1 a b Ha Hb)), csum_seq. apply bigsum_ext. intros c Hc. rewrite <- (proj1 (real_value s c SN Hc)). reflexivity.
    + intros a b Ha Hb. unfold ip. rewrite <- (H2 a b Ha Hb), msums_enum. reflexivity.
    + intros a b Ha Hb. rewrite <- (H3 a b Ha Hb), msums_enum. reflexivity.
    + intros c Hc. apply (real_value s c SN Hc).
    + intros a b Hab. rewrite <- !map_Cre_nth. apply descending_nth; [exact SD|rewrite map_length; lia].
    + right. apply rs_ext. intros a Ha. apply rs_ext. intros b Hb. apply In_enum in Ha, Hb. f_equal. f_equal. rewrite (HY a b Ha Hb), <- csum_seq. reflexivity.
Qed.

(** ** Projections onto the kept singular vectors *)
Section Proj.
Variable sh : list (list nat).
Variable j : nat.
Hypothesis Hj : j <= length sh.
Variable k : nat.

Lemma len_l is : valid_idx is (firstn j sh) -> length is = j.
Proof. intros H. rewrite (Forall2_len _ _ _ _ _ H), firstn_length. lia. Qed.
Lemma firstn_l is1 is2 : valid_idx is1 (firstn j sh) -> firstn j (is1 ++ is2) = is1.
Proof. intros H. pose proof (len_l is1 H). rewrite firstn_app, firstn_all2, H0, Nat.sub_diag, firstn_O, app_nil_r by lia. reflexivity. Qed.
Lemma skipn_l is1 is2 : valid_idx is1 (firstn j sh) -> skipn j (is1 ++ is2) = is2.
Proof. intros H. pose proof (len_l is1 H). rewrite skipn_app, skipn_all2, H0, Nat.sub_diag by lia. reflexivity. Qed.

Definition projl (U : list (list nat) -> nat -> CS) (Y : list (list nat) -> CS) (is : list (list nat)) : CS :=
  csum (seq 0 k) (fun c => csum (enum (firstn j sh)) (fun a => kconj (U a c) * Y (a ++ skipn j is)) * U (firstn j is) c)%K.
Definition projr (V : nat -> list (list nat) -> CS) (Y : list (list nat) -> CS) (is : list (list nat)) : CS :=
  csum (seq 0 k) (fun c => csum (enum (skipn j sh)) (fun b => Y (firstn j is ++ b) * kconj (V c b)) * V c (skipn j is))%K.

Lemma projl_contr U A Y : orth (enum (firstn j sh)) k (fun c is => U is c) -> (adist sh (projl U A) (projl U Y) <= adist sh A Y)%R.
Proof.
  intros HU. rewrite !(adist_cut sh j), (rs_swap (enum (firstn j sh))), (rs_swap (enum (firstn j sh))). apply rs_le. intros b Hb.
  set (w := fun a => (A (a ++ b) - Y (a ++ b))%K).
  pose proof (least_squares (enum (firstn j sh)) k (fun c is => U is c) (fun _ => k0) (fun c => - ip (enum (firstn j sh)) (fun is => U is c) w)%K HU) as L.
  pose proof (bessel (enum (firstn j sh)) k (fun c is => U is c) w HU) as BB.
  apply Rle_trans with (rs (seq 0 k) (fun c => sq (ip (enum (firstn j sh)) (fun is => U is c) w))); [|exact BB]. right.
  assert (Z : forall c, ip (enum (firstn j sh)) (fun is => U is c) (fun _ => k0) = k0) by (intros c; apply csum_zero; intros; ring).
  transitivity (n2 (enum (firstn j sh)) (fun a => k0 - csum (seq 0 k) (fun c => - ip (enum (firstn j sh)) (fun is => U is c) w * U a c))%K).
  - apply rs_ext. intros a Ha. apply In_enum in Ha. f_equal. unfold projl. rewrite (firstn_l a b Ha), (skipn_l a b Ha), <- csum_sub.
    transitivity (csum (seq 0 k) (fun c => - (- ip (enum (firstn j sh)) (fun is => U is c) w * U a c)))%K.
    + apply csum_ext. intros c _. unfold ip, w. rewrite (csum_ext _ (fun x => kconj (U x c) * (A (x ++ b) - Y (x ++ b)))%K (fun x => kconj (U x c) * A (x ++ b) - kconj (U x c) * Y (x ++ b))%K) by (intros; ring).
      rewrite csum_sub. ring.
    + transitivity (csum (seq 0 k) (fun c => (- k1) * (- ip (enum (firstn j sh)) (fun is => U is c) w * U a c)))%K; [apply csum_ext; intros; ring|].
      rewrite csum_mul_l. ring.
  - rewrite L. assert (E0 : n2 (enum (firstn j sh)) (fun _ => k0) = 0%R) by (unfold n2; rewrite (rs_ext _ _ (fun _ => 0%R)) by (intros; unfold sq; cbn; ring); rewrite rs_const; ring).
    rewrite E0. rewrite (rs_ext (seq 0 k) (fun a => sq (ip (enum (firstn j sh)) (fun is => U is a) (fun _ => k0))) (fun _ => 0%R)) by (intros; rewrite Z; unfold sq; cbn; ring).
    rewrite rs_const.
    rewrite (rs_ext (seq 0 k) _ (fun c => sq (ip (enum (firstn j sh)) (fun is => U is c) w))); [ring|]. intros c _. rewrite Z. unfold sq. cbn. unfold Cre, Cim. ring.
Qed.

Lemma projr_contr V A Y : (forall c e, c < k -> e < k -> csum (enum (skipn j sh)) (fun is => V c is * kconj (V e is))%K = delta c e) ->
  (adist sh (projr V A) (projr V Y) <= adist sh A Y)%R.
Proof.
  intros HV. rewrite !(adist_cut sh j). apply rs_le. intros a Ha. apply In_enum in Ha.
  set (J := enum (skipn j sh)). set (w := fun b => (A (a ++ b) - Y (a ++ b))%K).
  assert (HO : orth J k V).
  { intros c e Hc He. unfold ip. transitivity (delta e c : CS); [|unfold delta; destruct (Nat.eqb_spec c e), (Nat.eqb_spec e c); congruence]. rewrite <- (HV e c He Hc). apply csum_ext. intros b _. ring. }
  pose proof (least_squares J k V (fun _ => k0) (fun c => - ip J (V c) w)%K HO) as L.
  pose proof (bessel J k V w HO) as BB.
  apply Rle_trans with (rs (seq 0 k) (fun c => sq (ip J (V c) w))); [|exact BB]. right.
  assert (Z : forall c, ip J (V c) (fun _ => k0) = k0) by (intros c; apply csum_zero; intros; ring).
  transitivity (n2 J (fun b => k0 - csum (seq 0 k) (fun c => - ip J (V c) w * V c b))%K).
  - apply rs_ext. intros b Hb. f_equal. unfold projr. rewrite (firstn_l a b Ha), (skipn_l a b Ha), <- csum_sub.
    transitivity (csum (seq 0 k) (fun c => (- k1) * (- ip J (V c) w * V c b)))%K.
    + apply csum_ext. intros c _. unfold ip, w. rewrite (csum_ext J (fun x => kconj (V c x) * (A (a ++ x) - Y (a ++ x)))%K (fun x => A (a ++ x) * kconj (V c x) - Y (a ++ x) * kconj (V c x))%K) by (intros; ring).
      rewrite csum_sub. fold J. ring.
    + rewrite csum_mul_l. ring.
  - rewrite L. assert (E0 : n2 J (fun _ => k0) = 0%R) by (unfold n2; rewrite (rs_ext _ _ (fun _ => 0%R)) by (intros; unfold sq; cbn; ring); rewrite rs_const; ring).
    rewrite E0. rewrite (rs_ext (seq 0 k) (fun a0 => sq (ip J (V a0) (fun _ => k0))) (fun _ => 0%R)) by (intros; rewrite Z; unfold sq; cbn; ring).
    rewrite rs_const.
    rewrite (rs_ext (seq 0 k) _ (fun c => sq (ip J (V c) w))); [ring|]. intros c _. rewrite Z. unfold sq. cbn. unfold Cre, Cim. ring.
Qed.

(** The truncated array is the projection of the array. *)
Lemma trunc_proj A A' s : cut_trunc sh A A' j s k -> k <= length s -> exists U V,
  orth (enum (firstn j sh)) k (fun c is => U is c) /\
  (forall c e, c < k -> e < k -> csum (enum (skipn j sh)) (fun is => V c is * kconj (V e is))%K = delta c e) /\
  (forall is, valid_idx is sh -> A' is = projl U A is) /\ (forall is, valid_idx is sh -> A' is = projr V A is).
Proof.
  intros [U [V [H1 [H2 [H3 H4]]]]] Hk. exists U, V. split; [|split; [|split]].
  - intros c e Hc He. unfold ip. rewrite <- msums_enum. apply H2; lia.
  - intros c e Hc He. rewrite <- msums_enum. apply H3; lia.
  - intros is Hi. assert (Hi' : Forall2 inr is (firstn j sh ++ skipn j sh)) by (rewrite firstn_skipn; exact Hi).
    apply Forall2_app_inv_r in Hi'. destruct Hi' as [a [b [Ha [Hb ->]]]]. rewrite (proj2 (H1 a b Ha Hb)), <- csum_seq. unfold projl. rewrite (firstn_l a b Ha), (skipn_l a b Ha).
    apply csum_ext. intros c Hc. apply in_seq in Hc.
    transitivity (nth c s k0 * V c b * U a c)%K; [ring|]. f_equal.
    transitivity (csum (enum (firstn j sh)) (fun a' => csum (seq 0 (length s)) (fun e => (nth e s k0 * V e b) * (kconj (U a' c) * U a' e))))%K.
    + rewrite csum_swap. rewrite (csum_single _ c); [|lia|].
      * rewrite csum_mul_l, <- msums_enum, H2, delta_eq by lia. ring.
      * intros e He Hn. rewrite csum_mul_l, <- msums_enum, H2, delta_neq by lia. ring.
    + apply csum_ext. intros a' Ha'. apply In_enum in Ha'. rewrite (proj1 (H1 a' b Ha' Hb)), <- csum_seq, <- csum_mul_l. apply csum_ext. intros e _. ring.
  - intros is Hi. assert (Hi' : Forall2 inr is (firstn j sh ++ skipn j sh)) by (rewrite firstn_skipn; exact Hi).
    apply Forall2_app_inv_r in Hi'. destruct Hi' as [a [b [Ha [Hb ->]]]]. rewrite (proj2 (H1 a b Ha Hb)), <- csum_seq. unfold projr. rewrite (firstn_l a b Ha), (skipn_l a b Ha).
    apply csum_ext. intros c Hc. apply in_seq in Hc. f_equal.
    transitivity (csum (enum (skipn j sh)) (fun b' => csum (seq 0 (length s)) (fun e => (U a e * nth e s k0) * (V e b' * kconj (V c b')))))%K.
    + rewrite csum_swap. rewrite (csum_single _ c); [|lia|].
      * rewrite csum_mul_l, <- msums_enum, H3, delta_eq by lia. ring.
      * intros e He Hn. rewrite csum_mul_l, <- msums_enum, H3, delta_neq by lia. ring.
    + apply csum_ext. intros b' Hb'. apply In_enum in Hb'. rewrite (proj1 (H1 a b' Ha Hb')), <- csum_seq, <- csum_mul_r. apply csum_ext. intros e _. ring.
Qed.

Lemma firstn_firstn' {T : Type} (l : list T) i j' : i <= j' -> firstn i (firstn j' l) = firstn i l.
Proof. intros H. rewrite firstn_firstn, Nat.min_l by exact H. reflexivity. Qed.
Lemma Forall2_firstn {S T : Type} (P : S -> T -> Prop) l m : Forall2 P l m -> forall i, Forall2 P (firstn i l) (firstn i m).
Proof. induction 1; intros [|i]; cbn; constructor; auto. Qed.
Lemma Forall2_skipn {S T : Type} (P : S -> T -> Prop) l m : Forall2 P l m -> forall i, Forall2 P (skipn i l) (skipn i m).
Proof. induction 1; intros [|i]; cbn; try constructor; auto. Qed.
Lemma skipn_plus {T : Type} (l : list T) : forall a b, skipn a (skipn b l) = skipn (b + a) l.
Proof. induction l as [|x l IH]; intros a [|b]; cbn; try reflexivity; [destruct a; reflexivity|apply IH]. Qed.
Lemma firstn_skipn_mid {T : Type} (l : list T) a b : a <= b -> firstn a l ++ firstn (b - a) (skipn a l) = firstn b l.
Proof. intros H. rewrite <- (firstn_skipn a (firstn b l)), firstn_firstn' by exact H. f_equal. rewrite firstn_skipn_comm. f_equal. f_equal. lia. Qed.

(** Projecting the left part keeps the ranks of the cuts further right. *)
Lemma projl_rank U Y j' r : j <= j' -> j' <= length sh -> cut_rank sh Y j' r -> cut_rank sh (projl U Y) j' r.
Proof.
  intros Hjj Hj' [x [y HY]].
  exists (fun c is => csum (seq 0 k) (fun e => csum (enum (firstn j sh)) (fun a => kconj (U a e) * x c (a ++ skipn j is)) * U (firstn j is) e)%K), y.
  intros is1 is2 I1 I2. unfold projl.
  assert (L1 : length is1 = j') by (rewrite (Forall2_len _ _ _ _ _ I1), firstn_length; lia).
  assert (F : firstn j (is1 ++ is2) = firstn j is1) by (rewrite firstn_app; replace (j - length is1) with 0 by lia; rewrite firstn_O, app_nil_r; reflexivity).
  assert (S : skipn j (is1 ++ is2) = skipn j is1 ++ is2) by (rewrite skipn_app; replace (j - length is1) with 0 by lia; reflexivity).
  rewrite F, S, <- csum_seq.
  transitivity (csum (seq 0 k) (fun e => csum (seq 0 r) (fun c => csum (enum (firstn j sh)) (fun a => kconj (U a e) * x c (a ++ skipn j is1)) * U (firstn j is1) e * y c is2)))%K.
  - apply csum_ext. intros e _. transitivity (csum (seq 0 r) (fun c => (csum (enum (firstn j sh)) (fun a => kconj (U a e) * x c (a ++ skipn j is1)) * y c is2) * U (firstn j is1) e))%K; [|apply csum_ext; intros; ring].
    rewrite csum_mul_r. f_equal.
    transitivity (csum (enum (firstn j sh)) (fun a => csum (seq 0 r) (fun c => kconj (U a e) * x c (a ++ skipn j is1) * y c is2)))%K.
    + apply csum_ext. intros a Ha. apply In_enum in Ha. rewrite app_assoc, HY; [|clear - Ha I1 Hjj|exact I2].
      * rewrite <- csum_seq, <- csum_mul_l. apply csum_ext. intros c _. ring.
      * rewrite <- (firstn_skipn j (firstn j' sh)), firstn_firstn' by exact Hjj. apply Forall2_app; [exact Ha|]. apply Forall2_skipn, I1.
    + rewrite csum_swap. apply csum_ext. intros c _. apply csum_mul_r.
  - rewrite csum_swap. apply csum_ext. intros c _. apply csum_mul_r.
Qed.
Lemma projr_rank V Y j' r : j' <= j -> cut_rank sh Y j' r -> cut_rank sh (projr V Y) j' r.
Proof.
  intros Hjj [x [y HY]].
  exists x, (fun c is => csum (seq 0 k) (fun e => csum (enum (skipn j sh)) (fun b => y c (firstn (j - j') is ++ b) * kconj (V e b)) * V e (skipn (j - j') is))%K).
  intros is1 is2 I1 I2. unfold projr.
  assert (L1 : length is1 = j') by (rewrite (Forall2_len _ _ _ _ _ I1), firstn_length; lia).
  assert (F : firstn j (is1 ++ is2) = is1 ++ firstn (j - j') is2) by (rewrite firstn_app, firstn_all2, L1 by lia; reflexivity).
  assert (S : skipn j (is1 ++ is2) = skipn (j - j') is2) by (rewrite skipn_app, skipn_all2, L1 by lia; reflexivity).
  rewrite F, S, <- csum_seq.
  transitivity (csum (seq 0 k) (fun e => csum (seq 0 r) (fun c => x c is1 * (csum (enum (skipn j sh)) (fun b => y c (firstn (j - j') is2 ++ b) * kconj (V e b)) * V e (skipn (j - j') is2)))))%K.
  - apply csum_ext. intros e _. transitivity (csum (seq 0 r) (fun c => (x c is1 * csum (enum (skipn j sh)) (fun b => y c (firstn (j - j') is2 ++ b) * kconj (V e b))) * V e (skipn (j - j') is2)))%K; [|apply csum_ext; intros; ring].
    rewrite csum_mul_r. f_equal.
    transitivity (csum (enum (skipn j sh)) (fun b => csum (seq 0 r) (fun c => x c is1 * (y c (firstn (j - j') is2 ++ b) * kconj (V e b)))))%K.
    + apply csum_ext. intros b Hb. apply In_enum in Hb. rewrite <- app_assoc, HY; [|exact I1|].
      * rewrite <- csum_seq, <- csum_mul_r. apply csum_ext. intros c _. ring.
      * rewrite <- (firstn_skipn (j - j') (skipn j' sh)). apply Forall2_app; [apply Forall2_firstn, I2|]. rewrite skipn_plus. replace (j' + (j - j')) with j by lia. exact Hb.
    + rewrite csum_swap. apply csum_ext. intros c _. apply csum_mul_l.
  - rewrite csum_swap. apply csum_ext. intros c _. apply csum_mul_l.
Qed.
End Proj.

Lemma adist_ext sh A B A' B' : (forall is, valid_idx is sh -> A' is = A is) -> (forall is, valid_idx is sh -> B' is = B is) -> adist sh A' B' = adist sh A B.
Proof. intros H1 H2. apply rs_ext. intros is Hi. apply In_enum in Hi. rewrite H1, H2 by exact Hi. reflexivity. Qed.

(** ** All cuts *)
Definition cut_rel (sh : list (list nat)) (Y : nat -> list (list nat) -> CS) (p : nat * (list CS * nat)) : Prop :=
  let '(j, (s, k)) := p in
  j <= length sh /\ sorted_values s /\ k <= length s /\ exists r, cut_rank sh (Y j) j r /\ Nat.min (length s) r <= k.

Lemma dweights_cons y ys : Cre (dweights (y :: ys) : CS) = (Cre (dweight y) + Cre (dweights ys))%R.
Proof. reflexivity. Qed.

Lemma sweep_quasi (rel : nat -> nat -> Prop) sh :
  (rel = le \/ rel = ge) -> forall js ys A B Y, StronglySorted rel js -> truncs sh A js ys B -> Forall (cut_rel sh Y) (combine js ys) ->
  (Cre (dweights ys) <= rs js (fun j => adist sh A (Y j)))%R.
Proof.
  intros Hrel. induction js as [|j js IH]; intros [|[s k] ys] A B Y HS HT HF; cbn [truncs combine] in *; try contradiction; [cbn; lra|].
  destruct HT as [A' [HC HT]]. pose proof (Forall_inv HF) as H0. pose proof (Forall_inv_tail HF) as HF'. destruct H0 as [Hj [Hs [Hk [r [HY Hr]]]]]. inversion HS as [|? ? HS' HR]; subst.
  rewrite dweights_cons, rs_cons. pose proof (cut_lower sh A A' (Y j) j s k r HC Hs HY Hr) as L.
  assert (R : (Cre (dweights ys) <= rs js (fun j' => adist sh A (Y j')))%R); [|lra].
  destruct (trunc_proj sh j Hj k A A' s HC Hk) as [U [V [HU [HV [PU PV]]]]].
  assert (HR' : forall p, In p (combine js ys) -> rel j (fst p)).
  { intros [j' y] Hp. apply in_combine_l in Hp. rewrite Forall_forall in HR. exact (HR j' Hp). }
  destruct Hrel as [->| ->].
  - eapply Rle_trans; [apply (IH ys A' B (fun j' => projl sh j k U (Y j')) HS' HT)|].
    + rewrite Forall_forall in *. intros [j' [s' k']] Hp. specialize (HF' _ Hp). specialize (HR' _ Hp). cbn [fst] in HR'.
      destruct HF' as [Hj' [Hs' [Hk' [r' [HY' Hr']]]]]. repeat (split; [assumption|]). exists r'. split; [|exact Hr']. apply projl_rank; assumption.
    + apply rs_le. intros j' _. rewrite (adist_ext sh (projl sh j k U A) (projl sh j k U (Y j')) A' (projl sh j k U (Y j')) PU (fun _ _ => eq_refl)).
      apply projl_contr; assumption.
  - eapply Rle_trans; [apply (IH ys A' B (fun j' => projr sh j k V (Y j')) HS' HT)|].
    + rewrite Forall_forall in *. intros [j' [s' k']] Hp. specialize (HF' _ Hp). specialize (HR' _ Hp). cbn [fst] in HR'.
      destruct HF' as [Hj' [Hs' [Hk' [r' [HY' Hr']]]]]. repeat (split; [assumption|]). exists r'. split; [|exact Hr']. apply projr_rank; assumption.
    + apply rs_le. intros j' _. rewrite (adist_ext sh (projr sh j k V A) (projr sh j k V (Y j')) A' (projr sh j k V (Y j')) PV (fun _ _ => eq_refl)).
      apply projr_contr; assumption.
Qed.
