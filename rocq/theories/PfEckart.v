(** Best approximation by a sum of few products: an array with singular values
    [s_0 >= s_1 >= ...] has at least the squared distance [sum_(k >= r) s_k^2] from
    every sum of [r] products. *)
From Coq Require Import Reals Lra List Lia.
From Verif Require Import Index Cplx.
Import ListNotations.
Local Open Scope R_scope.

Add Ring CSr : (k_ring CS).

(** ** Sums over lists *)
Definition csum {X : Type} (l : list X) (f : X -> CS) : CS := fold_right (fun x acc => kadd (f x) acc) k0 l.
Definition rs {X : Type} (l : list X) (f : X -> R) : R := fold_right (fun x acc => f x + acc) 0 l.

Section Sums.
Context {X Y : Type}.
Lemma csum_cons (x : X) l f : csum (x :: l) f = (f x + csum l f)%K. Proof. reflexivity. Qed.
Lemma rs_cons (x : X) l f : rs (x :: l) f = f x + rs l f. Proof. reflexivity. Qed.
Lemma csum_ext (l : list X) f g : (forall x, In x l -> f x = g x) -> csum l f = csum l g.
Proof. induction l as [|x l IH]; intros H; [reflexivity|]. rewrite !csum_cons, (H x (or_introl eq_refl)), (IH (fun y Hy => H y (or_intror Hy))). reflexivity. Qed.
Lemma rs_ext (l : list X) f g : (forall x, In x l -> f x = g x) -> rs l f = rs l g.
Proof. induction l as [|x l IH]; intros H; [reflexivity|]. rewrite !rs_cons, (H x (or_introl eq_refl)), (IH (fun y Hy => H y (or_intror Hy))). reflexivity. Qed.
Lemma csum_add (l : list X) f g : csum l (fun x => f x + g x)%K = (csum l f + csum l g)%K.
Proof. induction l as [|x l IH]; [cbn [csum fold_right]; ring|]. rewrite !csum_cons, IH. ring. Qed.
Lemma csum_sub (l : list X) f g : csum l (fun x => f x - g x)%K = (csum l f - csum l g)%K.
Proof. induction l as [|x l IH]; [cbn [csum fold_right]; ring|]. rewrite !csum_cons, IH. ring. Qed.
Lemma rs_add (l : list X) f g : rs l (fun x => f x + g x) = rs l f + rs l g.
Proof. induction l as [|x l IH]; [cbn; ring|]. rewrite !rs_cons, IH. ring. Qed.
Lemma rs_sub (l : list X) f g : rs l (fun x => f x - g x) = rs l f - rs l g.
Proof. induction l as [|x l IH]; [cbn; ring|]. rewrite !rs_cons, IH. ring. Qed.
Lemma csum_mul_l (l : list X) c f : csum l (fun x => c * f x)%K = (c * csum l f)%K.
Proof. induction l as [|x l IH]; [cbn [csum fold_right]; ring|]. rewrite !csum_cons, IH. ring. Qed.
Lemma csum_mul_r (l : list X) c f : csum l (fun x => f x * c)%K = (csum l f * c)%K.
Proof. induction l as [|x l IH]; [cbn [csum fold_right]; ring|]. rewrite !csum_cons, IH. ring. Qed.
Lemma rs_mul_l (l : list X) c f : rs l (fun x => c * f x) = c * rs l f.
Proof. induction l as [|x l IH]; [cbn; ring|]. rewrite !rs_cons, IH. ring. Qed.
Lemma csum_conj (l : list X) f : kconj (csum l f) = csum l (fun x => kconj (f x)).
Proof. induction l as [|x l IH]; [apply cplx_eq; cbn; ring|]. rewrite !csum_cons, (kconj_add CS), IH. reflexivity. Qed.
Lemma csum_zero (l : list X) f : (forall x, In x l -> f x = k0) -> csum l f = k0.
Proof. induction l as [|x l IH]; intros H; [reflexivity|]. rewrite csum_cons, (H x (or_introl eq_refl)), (IH (fun y Hy => H y (or_intror Hy))). ring. Qed.
Lemma csum_swap (l : list X) (m : list Y) f : csum l (fun x => csum m (fun y => f x y)) = csum m (fun y => csum l (fun x => f x y)).
Proof.
  revert f. induction m as [|y m IH]; intros f; [apply csum_zero; reflexivity|].
  transitivity (csum l (fun x => f x y + csum m (fun y0 => f x y0))%K); [apply csum_ext; reflexivity|]. rewrite csum_add, IH. reflexivity.
Qed.
Lemma rs_swap (l : list X) (m : list Y) f : rs l (fun x => rs m (fun y => f x y)) = rs m (fun y => rs l (fun x => f x y)).
Proof.
  revert f. induction m as [|y m IH]; intros f.
  - cbn [rs fold_right]. induction l as [|x l IH]; [reflexivity|]. rewrite rs_cons, IH. ring.
  - transitivity (rs l (fun x => f x y + rs m (fun y0 => f x y0))); [apply rs_ext; reflexivity|]. rewrite rs_add, IH. reflexivity.
Qed.
Lemma rs_le (l : list X) f g : (forall x, In x l -> f x <= g x) -> rs l f <= rs l g.
Proof. induction l as [|x l IH]; intros H; [cbn; lra|]. rewrite !rs_cons. pose proof (H x (or_introl eq_refl)). assert (rs l f <= rs l g) by (apply IH; intros; apply H; cbn; auto). lra. Qed.
Lemma rs_nonneg (l : list X) f : (forall x, In x l -> 0 <= f x) -> 0 <= rs l f.
Proof. induction l as [|x l IH]; intros H; [cbn; lra|]. rewrite !rs_cons. pose proof (H x (or_introl eq_refl)). assert (0 <= rs l f) by (apply IH; intros; apply H; cbn; auto). lra. Qed.
Lemma rs_zero_all (l : list X) f : (forall x, In x l -> 0 <= f x) -> rs l f = 0 -> forall x, In x l -> f x = 0.
Proof.
  induction l as [|a l IH]; intros H E x Hx; [destruct Hx|]. rewrite rs_cons in E. pose proof (H a (or_introl eq_refl)).
  assert (0 <= rs l f) by (apply rs_nonneg; intros; apply H; cbn; auto).
  destruct Hx as [<-|Hx]; [lra|]. apply IH; [intros; apply H; cbn; auto|lra|exact Hx].
Qed.
Lemma rs_const (l : list X) c : rs l (fun _ => c) = INR (length l) * c.
Proof. induction l as [|x l IH]; [cbn; ring|]. rewrite rs_cons, IH. cbn [length]. rewrite S_INR. ring. Qed.
Lemma csum_app (l m : list X) f : csum (l ++ m) f = (csum l f + csum m f)%K.
Proof. induction l as [|x l IH]; [cbn [csum fold_right app]; fold (csum m f); ring|]. cbn [app]. rewrite !csum_cons, IH. ring. Qed.
Lemma rs_app (l m : list X) f : rs (l ++ m) f = rs l f + rs m f.
Proof. induction l as [|x l IH]; [cbn [rs fold_right app]; fold (rs m f); ring|]. cbn [app]. rewrite !rs_cons, IH. ring. Qed.
Lemma csum_toC (l : list X) f : csum l (fun x => toC (f x)) = toC (rs l f).
Proof. induction l as [|x l IH]; [reflexivity|]. rewrite csum_cons, rs_cons, toC_add, IH. reflexivity. Qed.
End Sums.
Lemma csum_map {X Y : Type} (g : Y -> X) l f : csum (map g l) f = csum l (fun y => f (g y)).
Proof. induction l as [|x l IH]; [reflexivity|]. cbn [map]. rewrite !csum_cons, IH. reflexivity. Qed.
Lemma csum_flat_map {X Y : Type} (g : Y -> list X) l f : csum (flat_map g l) f = csum l (fun y => csum (g y) f).
Proof. induction l as [|x l IH]; [reflexivity|]. cbn [flat_map]. rewrite csum_app, csum_cons, IH. reflexivity. Qed.

Lemma csum_seq n (f : nat -> CS) : csum (seq 0 n) f = bigsum n f.
Proof. induction n as [|n IH]; [reflexivity|]. rewrite seq_S, csum_app, IH. cbn [bigsum csum fold_right plus]. ring. Qed.
Lemma csum_single n k (f : nat -> CS) : (k < n)%nat -> (forall j, (j < n)%nat -> j <> k -> f j = k0) -> csum (seq 0 n) f = f k.
Proof. intros Hk H. rewrite csum_seq. apply bigsum_single; assumption. Qed.

(** ** Inner products *)
Definition sq (z : CS) : R := Cre z * Cre z + Cim z * Cim z.
Lemma sq_conj z : toC (sq z) = (kconj z * z)%K. Proof. apply cplx_eq; cbn; unfold sq, Cre, Cim; ring. Qed.
Lemma sq_nonneg z : 0 <= sq z. Proof. unfold sq. nra. Qed.
Lemma sq_0 z : sq z = 0 -> z = k0. Proof. unfold sq. intros H. apply cplx_eq; cbn; nra. Qed.
Lemma sq_mul x y : sq (x * y)%K = sq x * sq y. Proof. unfold sq. cbn. unfold Cre, Cim. ring. Qed.
Lemma sq_toC x : sq (toC x) = x * x. Proof. unfold sq. cbn. ring. Qed.
Lemma sq_kconj z : sq (kconj z) = sq z. Proof. unfold sq. cbn. unfold Cre, Cim. ring. Qed.
Lemma toC_eq x y : toC x = toC y -> x = y. Proof. intros H. exact (f_equal Cre H). Qed.

Definition ip {X : Type} (l : list X) (f g : X -> CS) : CS := csum l (fun x => kconj (f x) * g x)%K.
Definition n2 {X : Type} (l : list X) (f : X -> CS) : R := rs l (fun x => sq (f x)).
Definition orth {X : Type} (l : list X) (d : nat) (q : nat -> X -> CS) : Prop :=
  forall a b, (a < d)%nat -> (b < d)%nat -> ip l (q a) (q b) = delta a b.

Section Inner.
Context {X : Type}.
Variable l : list X.
Lemma ip_n2 f : ip l f f = toC (n2 l f).
Proof. unfold ip, n2. rewrite <- csum_toC. apply csum_ext. intros x _. symmetry. apply sq_conj. Qed.
Lemma ip_conj f g : kconj (ip l f g) = ip l g f.
Proof. unfold ip. rewrite csum_conj. apply csum_ext. intros x _. rewrite (kconj_mul CS), (kconj_invol CS). ring. Qed.
Lemma ip_sub_r f g h : ip l f (fun x => g x - h x)%K = (ip l f g - ip l f h)%K.
Proof. unfold ip. rewrite <- csum_sub. apply csum_ext. intros x _. ring. Qed.
Lemma ip_sum_r {Y : Type} (m : list Y) f (c : Y -> CS) (g : Y -> X -> CS) :
  ip l f (fun x => csum m (fun y => c y * g y x))%K = csum m (fun y => c y * ip l f (g y))%K.
Proof.
  unfold ip. transitivity (csum l (fun x => csum m (fun y => c y * (kconj (f x) * g y x)))%K).
  - apply csum_ext. intros x _. rewrite <- csum_mul_l. apply csum_ext. intros y _. ring.
  - rewrite csum_swap. apply csum_ext. intros y _. apply csum_mul_l.
Qed.
Lemma ip_ext f g f' g' : (forall x, In x l -> f x = f' x) -> (forall x, In x l -> g x = g' x) -> ip l f g = ip l f' g'.
Proof. intros H1 H2. apply csum_ext. intros x Hx. rewrite H1, H2 by exact Hx. reflexivity. Qed.
Lemma n2_ext f g : (forall x, In x l -> f x = g x) -> n2 l f = n2 l g.
Proof. intros H. apply rs_ext. intros x Hx. rewrite H by exact Hx. reflexivity. Qed.
Lemma n2_nonneg f : 0 <= n2 l f.
Proof. apply rs_nonneg. intros. apply sq_nonneg. Qed.

(** Least squares for orthonormal vectors. *)
Lemma least_squares d q v (g : nat -> CS) : orth l d q ->
  n2 l (fun x => v x - csum (seq 0 d) (fun a => g a * q a x))%K =
  n2 l v - rs (seq 0 d) (fun a => sq (ip l (q a) v)) + rs (seq 0 d) (fun a => sq (g a - ip l (q a) v)%K).
Proof.
  intros HQ. apply toC_eq. rewrite <- ip_n2.
  set (w := fun x => csum (seq 0 d) (fun a => g a * q a x)%K).
  assert (E1 : ip l v w = csum (seq 0 d) (fun a => g a * kconj (ip l (q a) v))%K).
  { unfold w. rewrite ip_sum_r. apply csum_ext. intros a _. rewrite ip_conj. reflexivity. }
  assert (E2 : ip l w v = csum (seq 0 d) (fun a => kconj (g a) * ip l (q a) v)%K).
  { rewrite <- ip_conj, E1, csum_conj. apply csum_ext. intros a _. rewrite (kconj_mul CS), (kconj_invol CS). reflexivity. }
  assert (E3 : ip l w w = csum (seq 0 d) (fun a => kconj (g a) * g a)%K).
  { unfold w at 2. rewrite ip_sum_r. apply csum_ext. intros a Ha. apply in_seq in Ha. rewrite <- ip_conj. unfold w. rewrite ip_sum_r, csum_conj.
    rewrite (csum_single d a); [|lia|].
    - rewrite (HQ a a) by lia. rewrite delta_eq, !(kconj_mul CS). replace (kconj (k1 : CS)) with (k1 : CS) by (apply cplx_eq; cbn; ring). ring.
    - intros b Hb Hn. rewrite (HQ a b) by lia. rewrite delta_neq by auto. rewrite (kconj_mul CS). replace (kconj (k0 : CS)) with (k0 : CS) by (apply cplx_eq; cbn; ring). ring. }
  assert (E : ip l (fun x => v x - w x)%K (fun x => v x - w x)%K = (ip l v v - ip l w v - ip l v w + ip l w w)%K).
  { rewrite ip_sub_r. rewrite <- (ip_conj v), <- (ip_conj w), !ip_sub_r, !kconj_sub, !ip_conj. ring. }
  transitivity (ip l (fun x => v x - w x)%K (fun x => v x - w x)%K); [reflexivity|]. rewrite E, E1, E2, E3, ip_n2.
  replace (toC (n2 l v - rs (seq 0 d) (fun a => sq (ip l (q a) v)) + rs (seq 0 d) (fun a => sq (g a - ip l (q a) v)%K)))
    with (toC (n2 l v) - csum (seq 0 d) (fun a => toC (sq (ip l (q a) v))) + csum (seq 0 d) (fun a => toC (sq (g a - ip l (q a) v)%K)))%K
    by (rewrite !csum_toC; apply cplx_eq; cbn; ring).
  match goal with |- (?n - ?a - ?b + ?c)%K = (?n - ?e + ?f)%K => assert (H : (c - a - b)%K = (f - e)%K) end.
  { rewrite <- !csum_sub. apply csum_ext. intros a _. rewrite !sq_conj, kconj_sub. ring. }
  match goal with |- (?n - ?a - ?b + ?c)%K = (?n - ?e + ?f)%K => transitivity (n + (c - a - b))%K; [ring|]; rewrite H; ring end.
Qed.
Lemma bessel d q v : orth l d q -> rs (seq 0 d) (fun a => sq (ip l (q a) v)) <= n2 l v.
Proof.
  intros HQ. pose proof (least_squares d q v (fun a => ip l (q a) v) HQ) as H.
  pose proof (n2_nonneg (fun x => v x - csum (seq 0 d) (fun a => ip l (q a) v * q a x))%K) as N. rewrite H in N.
  assert (Z : rs (seq 0 d) (fun a => sq (ip l (q a) v - ip l (q a) v)%K) = 0).
  { rewrite (rs_ext _ _ (fun _ => 0)); [rewrite rs_const; ring|]. intros a _. replace (ip l (q a) v - ip l (q a) v)%K with (k0 : CS) by ring. unfold sq. cbn. ring. }
  rewrite Z in N. lra.
Qed.
Lemma lsq_lower d q v g : orth l d q ->
  n2 l v - rs (seq 0 d) (fun a => sq (ip l (q a) v)) <= n2 l (fun x => v x - csum (seq 0 d) (fun a => g a * q a x))%K.
Proof.
  intros HQ. rewrite (least_squares d q v g HQ). assert (0 <= rs (seq 0 d) (fun a => sq (g a - ip l (q a) v)%K)) by (apply rs_nonneg; intros; apply sq_nonneg). lra.
Qed.
Lemma orth_n2 d q a : orth l d q -> (a < d)%nat -> n2 l (q a) = 1.
Proof. intros H Ha. apply toC_eq. rewrite <- ip_n2, (H a a) by assumption. rewrite delta_eq. reflexivity. Qed.
End Inner.

(** ** Gram-Schmidt *)
Lemma gram_schmidt {X : Type} (l : list X) : forall r (x : nat -> X -> CS), exists d q (h : nat -> nat -> CS),
  (d <= r)%nat /\ orth l d q /\ forall c i, (c < r)%nat -> In i l -> x c i = csum (seq 0 d) (fun a => h c a * q a i)%K.
Proof.
  induction r as [|r IH]; intros x; [exists 0%nat, (fun _ _ => k0), (fun _ _ => k0); repeat split; [lia|intros a b Ha; lia|intros; lia]|].
  destruct (IH x) as [d [q [h [Hd [HQ HX]]]]].
  set (w := fun i => (x r i - csum (seq 0 d) (fun a => ip l (q a) (x r) * q a i))%K).
  assert (OW : forall a, (a < d)%nat -> ip l (q a) w = k0).
  { intros a Ha. unfold w. rewrite ip_sub_r, ip_sum_r, (csum_single d a); [|exact Ha|].
    - rewrite (HQ a a Ha Ha), delta_eq. ring.
    - intros b Hb Hn. rewrite (HQ a b Ha Hb), delta_neq by auto. ring. }
  destruct (Req_dec (n2 l w) 0) as [Z|NZ].
  - exists d, q, (fun c a => if Nat.eqb c r then ip l (q a) (x r) else h c a). split; [lia|]. split; [exact HQ|].
    intros c i Hc Hi. destruct (Nat.eqb_spec c r) as [->|Hn].
    + pose proof (sq_0 _ (rs_zero_all l _ (fun y _ => sq_nonneg _) Z i Hi)) as E. cbn beta in E. unfold w in E.
      transitivity ((x r i - csum (seq 0 d) (fun a => ip l (q a) (x r) * q a i)) + csum (seq 0 d) (fun a => ip l (q a) (x r) * q a i))%K; [ring|]. rewrite E. ring.
    + apply HX; [lia|exact Hi].
  - set (N := sqrt (n2 l w)). assert (NP : 0 < n2 l w) by (pose proof (n2_nonneg l w); lra).
    assert (N0 : N <> 0) by (unfold N; pose proof (sqrt_lt_R0 _ NP); lra).
    assert (NN : N * N = n2 l w) by (unfold N; apply sqrt_sqrt; lra).
    set (q' := fun a i => if Nat.ltb a d then q a i else (toC (/ N) * w i)%K).
    assert (Q1 : forall a, (a < d)%nat -> q' a = q a) by (intros a Ha; unfold q'; destruct (Nat.ltb_spec a d); [reflexivity|lia]).
    assert (Q2 : q' d = fun i => (toC (/ N) * w i)%K) by (unfold q'; rewrite Nat.ltb_irrefl; reflexivity).
    assert (IL : forall f c g, ip l f (fun i => c * g i)%K = (c * ip l f g)%K).
    { intros f c g. unfold ip. rewrite <- csum_mul_l. apply csum_ext. intros i _. ring. }
    exists (S d), q', (fun c a => if Nat.eqb c r then (if Nat.eqb a d then toC N else ip l (q a) (x r)) else (if Nat.eqb a d then k0 else h c a)).
    split; [lia|]. split.
    + intros a b Ha Hb. destruct (Nat.eq_dec a d) as [->|Na]; destruct (Nat.eq_dec b d) as [->|Nb].
      * rewrite Q2, IL, <- ip_conj, IL, ip_n2, delta_eq, (kconj_mul CS), !toC_conj, <- !toC_mul, <- NN. unfold toC. cbn. f_equal. field. exact N0.
      * rewrite Q2, (Q1 b) by lia. rewrite <- ip_conj, IL, OW, delta_neq by lia. apply cplx_eq; cbn; ring.
      * rewrite Q2, (Q1 a) by lia. rewrite IL, OW, delta_neq by lia. ring.
      * rewrite !Q1 by lia. apply HQ; lia.
    + intros c i Hc Hi. rewrite seq_S, csum_app. cbn [csum fold_right plus]. rewrite Nat.eqb_refl, Q2.
      destruct (Nat.eqb_spec c r) as [->|Hn].
      * rewrite (csum_ext _ _ (fun a => ip l (q a) (x r) * q a i)%K).
        -- transitivity (csum (seq 0 d) (fun a => ip l (q a) (x r) * q a i) + (toC N * toC (/ N)) * w i)%K; [|ring].
           rewrite <- toC_mul, Rinv_r by exact N0. rewrite toC_1. unfold w. ring.
        -- intros a Ha. apply in_seq in Ha. rewrite Q1 by lia. destruct (Nat.eqb_spec a d); [lia|reflexivity].
      * rewrite (HX c i) by (lia || exact Hi). rewrite (csum_ext _ (fun a => h c a * q a i)%K (fun a => (if Nat.eqb a d then k0 else h c a) * q' a i)%K); [ring|].
        intros a Ha. apply in_seq in Ha. rewrite Q1 by lia. destruct (Nat.eqb_spec a d); [lia|reflexivity].
Qed.

(** ** Weights at most one *)
Lemma seq_cut r n : (r <= n)%nat -> seq 0 n = seq 0 r ++ seq r (n - r).
Proof. intros H. rewrite <- seq_app. f_equal. lia. Qed.
Lemma weighted_le n r (s w : nat -> R) : (r < n)%nat -> (forall i j, (i <= j < n)%nat -> s j <= s i) -> (forall i, (i < n)%nat -> 0 <= s i) ->
  (forall i, (i < n)%nat -> 0 <= w i <= 1) -> rs (seq 0 n) w <= INR r ->
  rs (seq 0 n) (fun i => s i * w i) <= rs (seq 0 r) s.
Proof.
  intros Hr HD H0 HW HS. set (t := s r).
  assert (T0 : 0 <= t) by (apply H0; lia).
  assert (H : rs (seq 0 n) (fun i => (s i - t) * w i) <= rs (seq 0 r) (fun i => s i - t)).
  { rewrite (seq_cut r n), rs_app by lia.
    assert (A : rs (seq 0 r) (fun i => (s i - t) * w i) <= rs (seq 0 r) (fun i => s i - t)).
    { apply rs_le. intros i Hi. apply in_seq in Hi. destruct (HW i ltac:(lia)). assert (t <= s i) by (apply HD; lia). nra. }
    assert (B : rs (seq r (n - r)) (fun i => (s i - t) * w i) <= rs (seq r (n - r)) (fun _ => 0)).
    { apply rs_le. intros i Hi. apply in_seq in Hi. destruct (HW i ltac:(lia)). assert (s i <= t) by (apply HD; lia). nra. }
    rewrite rs_const in B. lra. }
  rewrite rs_sub, rs_const, seq_length in H.
  assert (E : rs (seq 0 n) (fun i => s i * w i) = rs (seq 0 n) (fun i => (s i - t) * w i) + t * rs (seq 0 n) w).
  { rewrite <- rs_mul_l, <- rs_add. apply rs_ext. intros. ring. }
  rewrite E. nra.
Qed.

(** ** The bound *)
Section Eckart.
Context {X Y : Type}.
Variable I : list X.
Variable J : list Y.
Variable n : nat.
Variable A : X -> Y -> CS.
Variable u : nat -> X -> CS.
Variable v : nat -> Y -> CS.
Variable s : nat -> R.
Hypothesis HA : forall i j, In i I -> In j J -> A i j = csum (seq 0 n) (fun k => u k i * toC (s k) * v k j)%K.
Hypothesis HU : orth I n u.
Hypothesis HV : forall a b, (a < n)%nat -> (b < n)%nat -> csum J (fun j => v a j * kconj (v b j))%K = delta a b.

Lemma comb_norm (c : nat -> CS) : n2 J (fun j => csum (seq 0 n) (fun k => c k * v k j))%K = rs (seq 0 n) (fun k => sq (c k)).
Proof.
  apply toC_eq. rewrite <- ip_n2, <- csum_toC. unfold ip.
  transitivity (csum J (fun j => csum (seq 0 n) (fun b => csum (seq 0 n) (fun a => kconj (c b) * c a * (v a j * kconj (v b j))))))%K.
  - apply csum_ext. intros j _. rewrite csum_conj, <- csum_mul_r. apply csum_ext. intros b _. rewrite <- csum_mul_l. apply csum_ext. intros a _. rewrite (kconj_mul CS). ring.
  - rewrite csum_swap. apply csum_ext. intros b Hb. apply in_seq in Hb. rewrite csum_swap.
    rewrite (csum_single n b); [|lia|].
    + rewrite csum_mul_l, (HV b b), delta_eq, sq_conj by lia. ring.
    + intros a Ha Hn. rewrite csum_mul_l, (HV a b), delta_neq by lia. ring.
Qed.

Lemma frob : rs I (fun i => rs J (fun j => sq (A i j))) = rs (seq 0 n) (fun k => s k * s k).
Proof.
  transitivity (rs I (fun i => rs (seq 0 n) (fun k => sq (u k i * toC (s k))%K))).
  - apply rs_ext. intros i Hi. rewrite <- comb_norm. apply rs_ext. intros j Hj. f_equal. apply HA; assumption.
  - rewrite rs_swap. apply rs_ext. intros k Hk. apply in_seq in Hk.
    rewrite (rs_ext _ _ (fun i => s k * s k * sq (u k i))) by (intros; rewrite sq_mul, sq_toC; ring). rewrite rs_mul_l.
    pose proof (orth_n2 I n u k HU ltac:(lia)) as N. unfold n2 in N. rewrite N. ring.
Qed.

Hypothesis S0 : forall k, (k < n)%nat -> 0 <= s k.
Hypothesis SD : forall i j, (i <= j < n)%nat -> s j <= s i.
Theorem eckart_young r (x : nat -> X -> CS) (y : nat -> Y -> CS) :
  rs (seq r (n - r)) (fun k => s k * s k) <=
  rs I (fun i => rs J (fun j => sq (A i j - csum (seq 0 r) (fun c => x c i * y c j))%K)).
Proof.
  destruct (le_lt_dec n r) as [L|L].
  { replace (n - r)%nat with 0%nat by lia. cbn [seq rs fold_right]. apply rs_nonneg. intros. apply rs_nonneg. intros. apply sq_nonneg. }
  destruct (gram_schmidt I r x) as [d [q [h [Hd [HQ HX]]]]].
  set (g := fun j a => csum (seq 0 r) (fun c => h c a * y c j)%K).
  rewrite rs_swap.
  assert (LB : rs J (fun j => n2 I (fun i => A i j) - rs (seq 0 d) (fun a => sq (ip I (q a) (fun i => A i j)))) <=
               rs J (fun j => rs I (fun i => sq (A i j - csum (seq 0 r) (fun c => x c i * y c j))%K))).
  { apply rs_le. intros j Hj. eapply Rle_trans; [apply (lsq_lower I d q (fun i => A i j) (g j) HQ)|]. right. apply rs_ext. intros i Hi. f_equal. f_equal.
    unfold g. transitivity (csum (seq 0 d) (fun a => csum (seq 0 r) (fun c => h c a * y c j * q a i)))%K.
    - apply csum_ext. intros a _. rewrite <- csum_mul_r. reflexivity.
    - rewrite csum_swap. apply csum_ext. intros c Hc. apply in_seq in Hc. rewrite (HX c i) by (lia || exact Hi). rewrite <- csum_mul_r. apply csum_ext. intros a _. ring. }
  eapply Rle_trans; [|exact LB]. clear LB. rewrite rs_sub.
  set (w := fun k => rs (seq 0 d) (fun a => sq (ip I (q a) (u k)))).
  assert (E1 : rs J (fun j => n2 I (fun i => A i j)) = rs (seq 0 n) (fun k => s k * s k)).
  { unfold n2. rewrite rs_swap. exact frob. }
  assert (E2 : rs J (fun j => rs (seq 0 d) (fun a => sq (ip I (q a) (fun i => A i j)))) = rs (seq 0 n) (fun k => s k * s k * w k)).
  { rewrite rs_swap. unfold w.
    rewrite (rs_ext (seq 0 n) _ (fun k => rs (seq 0 d) (fun a => s k * s k * sq (ip I (q a) (u k))))) by (intros; rewrite rs_mul_l; reflexivity).
    rewrite (rs_swap (seq 0 n)). apply rs_ext. intros a _.
    transitivity (rs (seq 0 n) (fun k => sq (ip I (q a) (u k) * toC (s k))%K)); [|apply rs_ext; intros k _; rewrite sq_mul, sq_toC; ring].
    rewrite <- comb_norm. apply rs_ext. intros j Hj. f_equal.
    rewrite (ip_ext I _ _ (q a) (fun i => csum (seq 0 n) (fun k => (toC (s k) * v k j) * u k i)%K)); [|reflexivity|].
    - rewrite ip_sum_r. apply csum_ext. intros k _. ring.
    - intros i Hi. rewrite HA by assumption. apply csum_ext. intros k _. ring. }
  rewrite E1, E2.
  assert (W : rs (seq 0 n) (fun k => s k * s k * w k) <= rs (seq 0 r) (fun k => s k * s k)).
  { apply weighted_le; [exact L| | | |].
    - intros i j Hij. pose proof (SD i j Hij). pose proof (S0 j ltac:(lia)). nra.
    - intros i Hi. pose proof (S0 i Hi). nra.
    - intros i Hi. split; [apply rs_nonneg; intros; apply sq_nonneg|]. unfold w. rewrite <- (orth_n2 I n u i HU Hi). apply bessel, HQ.
    - unfold w. rewrite rs_swap. apply Rle_trans with (rs (seq 0 d) (fun _ => 1)).
      + apply rs_le. intros a Ha. apply in_seq in Ha. rewrite <- (orth_n2 I d q a HQ) by lia.
        rewrite (rs_ext _ _ (fun k => sq (ip I (u k) (q a)))); [apply bessel, HU|]. intros k _. rewrite <- ip_conj, sq_kconj. reflexivity.
      + rewrite rs_const, seq_length. apply le_INR in Hd. lra. }
  assert (C : rs (seq 0 n) (fun k => s k * s k) = rs (seq 0 r) (fun k => s k * s k) + rs (seq r (n - r)) (fun k => s k * s k))
    by (rewrite (seq_cut r n) by lia; apply rs_app).
  lra.
Qed.
End Eckart.
