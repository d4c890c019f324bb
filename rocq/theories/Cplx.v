(** Complex numbers over the real numbers of the standard library, as scalars. *)
From Coq Require Import Reals Lra.
From Verif Require Export Scalar.
Open Scope R_scope.

Definition cplx : Type := (R * R)%type.
Definition c_add (x y : cplx) : cplx := (fst x + fst y, snd x + snd y).
Definition c_sub (x y : cplx) : cplx := (fst x - fst y, snd x - snd y).
Definition c_opp (x : cplx) : cplx := (- fst x, - snd x).
Definition c_mul (x y : cplx) : cplx := (fst x * fst y - snd x * snd y, fst x * snd y + snd x * fst y).
Definition c_conj (x : cplx) : cplx := (fst x, - snd x).

Lemma c_ring : ring_theory ((0, 0) : cplx) ((1, 0) : cplx) c_add c_mul c_sub c_opp (@eq cplx).
Proof.
  constructor; intros; repeat match goal with x : cplx |- _ => destruct x end;
    unfold c_add, c_mul, c_sub, c_opp; cbn [fst snd]; f_equal; ring.
Qed.
Lemma c_conj_add x y : c_conj (c_add x y) = c_add (c_conj x) (c_conj y).
Proof. destruct x, y. unfold c_add, c_conj. cbn [fst snd]. f_equal. ring. Qed.
Lemma c_conj_mul x y : c_conj (c_mul x y) = c_mul (c_conj x) (c_conj y).
Proof. destruct x, y. unfold c_mul, c_conj. cbn [fst snd]. f_equal; ring. Qed.
Lemma c_conj_invol x : c_conj (c_conj x) = x.
Proof. destruct x. unfold c_conj. cbn [fst snd]. f_equal. ring. Qed.
Definition CS : StarRing := mkStarRing cplx (0, 0) (1, 0) c_add c_mul c_sub c_opp c_conj c_ring c_conj_add c_conj_mul c_conj_invol.

(** Real numbers, with the identity as conjugation. *)
Lemma r_ring : ring_theory 0 1 Rplus Rmult Rminus Ropp (@eq R).
Proof. constructor; intros; ring. Qed.
Definition RS : StarRing := mkStarRing R 0 1 Rplus Rmult Rminus Ropp (fun x => x) r_ring (fun _ _ => eq_refl) (fun _ _ => eq_refl) (fun _ => eq_refl).

Definition toC (x : R) : CS := (x, 0).
Definition Ci : CS := (0, 1).
Definition Cre (x : CS) : R := fst x.
Definition Cim (x : CS) : R := snd x.
(** A non-negative real number. *)
Definition cnonneg (x : CS) : Prop := Cim x = 0 /\ 0 <= Cre x.

Lemma cplx_eq (x y : CS) : Cre x = Cre y -> Cim x = Cim y -> x = y.
Proof. destruct x, y. unfold Cre, Cim. cbn. intros -> ->. reflexivity. Qed.
Lemma toC_add x y : toC (x + y) = (toC x + toC y)%K.
Proof. apply cplx_eq; cbn; ring. Qed.
Lemma toC_mul x y : toC (x * y) = (toC x * toC y)%K.
Proof. apply cplx_eq; cbn; ring. Qed.
Lemma toC_conj x : kconj (toC x) = toC x.
Proof. apply cplx_eq; cbn; ring. Qed.
Lemma toC_1 : toC 1 = k1. Proof. reflexivity. Qed.
Lemma toC_0 : toC 0 = k0. Proof. reflexivity. Qed.
Lemma Ci_sq : (Ci * Ci)%K = (- k1)%K.
Proof. apply cplx_eq; cbn; ring. Qed.
Lemma Ci_conj : kconj Ci = (- Ci)%K.
Proof. apply cplx_eq; cbn; ring. Qed.
Lemma c_no2 (x : CS) : (x + x)%K = k0 -> x = k0.
Proof. intros H. pose proof (f_equal Cre H) as H1. pose proof (f_equal Cim H) as H2. cbn in H1, H2. apply cplx_eq; cbn; unfold Cre, Cim; lra. Qed.
Lemma cnonneg_sq (z : CS) : cnonneg (z * kconj z)%K.
Proof. destruct z as [a b]. split; cbn; [ring|]. nra. Qed.
Lemma cnonneg_toC x : 0 <= x -> cnonneg (toC x).
Proof. intros H. split; [reflexivity|exact H]. Qed.
Lemma cnonneg_mul (x y : CS) : cnonneg x -> cnonneg y -> cnonneg (x * y)%K.
Proof. destruct x as [a b], y as [c d]. intros [H1 H2] [H3 H4]. cbn in *. subst b d. split; cbn; nra. Qed.
Lemma cnonneg_add (x y : CS) : cnonneg x -> cnonneg y -> cnonneg (x + y)%K.
Proof. destruct x as [a b], y as [c d]. intros [H1 H2] [H3 H4]. cbn in *. subst b d. split; cbn; lra. Qed.
Lemma cnonneg_sum n (f : nat -> CS) : (forall i, (i < n)%nat -> cnonneg (f i)) -> cnonneg (bigsum n f).
Proof.
  induction n as [|n IH]; intros H; [split; cbn; lra|]. cbn [bigsum]. apply cnonneg_add; [apply IH; intros; apply H; lia|apply H; lia].
Qed.
(** A sum of squares that vanishes: every summand vanishes. *)
Lemma sq_zero (z : CS) : (z * kconj z)%K = k0 -> z = k0.
Proof. destruct z as [a b]. intros H. pose proof (f_equal Cre H) as H1. cbn in H1. apply cplx_eq; cbn; nra. Qed.
Lemma sum_nonneg_zero n (f : nat -> CS) : (forall i, (i < n)%nat -> cnonneg (f i)) -> bigsum n f = k0 -> forall i, (i < n)%nat -> f i = k0.
Proof.
  induction n as [|n IH]; intros H E i Hi; [lia|]. cbn [bigsum] in E.
  pose proof (cnonneg_sum n f ltac:(intros; apply H; lia)) as [A1 A2]. destruct (H n ltac:(lia)) as [B1 B2].
  pose proof (f_equal Cre E) as E1. cbn in E1. unfold Cre, Cim in *.
  destruct (Nat.eq_dec i n) as [->|N].
  - apply cplx_eq; unfold Cre, Cim; cbn; lra.
  - apply IH; [intros; apply H; lia| |lia]. apply cplx_eq; unfold Cre, Cim; cbn; lra.
Qed.
Lemma toC_sum n (f : nat -> R) : toC ((fix s k := match k with O => 0 | S m => s m + f m end) n) = bigsum n (fun i => toC (f i)).
Proof. induction n as [|n IH]; [reflexivity|]. rewrite toC_add, IH. reflexivity. Qed.
(** The number [n] as a sum of ones. *)
Lemma kn_CS n : bigsum (K:=CS) n (fun _ => k1) = toC (INR n).
Proof. induction n as [|n IH]; [reflexivity|]. cbn [bigsum]. rewrite IH, S_INR. apply cplx_eq; cbn; ring. Qed.
