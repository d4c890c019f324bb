(** Gaussian integers as an executable star ring, for concrete cases. *)
From Verif Require Export Scalar.
From Coq Require Import ZArith.

Definition gz : Type := (Z * Z)%type.
Definition gz_add (x y : gz) : gz := (fst x + fst y, snd x + snd y)%Z.
Definition gz_sub (x y : gz) : gz := (fst x - fst y, snd x - snd y)%Z.
Definition gz_opp (x : gz) : gz := (- fst x, - snd x)%Z.
Definition gz_mul (x y : gz) : gz := (fst x * fst y - snd x * snd y, fst x * snd y + snd x * fst y)%Z.
Definition gz_conj (x : gz) : gz := (fst x, - snd x)%Z.

Lemma gz_ring : ring_theory ((0, 0)%Z : gz) ((1, 0)%Z : gz) gz_add gz_mul gz_sub gz_opp (@eq gz).
Proof.
  constructor; intros; repeat match goal with x : gz |- _ => destruct x end;
    unfold gz_add, gz_mul, gz_sub, gz_opp; cbn [fst snd]; f_equal; ring.
Qed.

Lemma gz_conj_add x y : gz_conj (gz_add x y) = gz_add (gz_conj x) (gz_conj y).
Proof. destruct x, y. unfold gz_add, gz_conj. cbn [fst snd]. f_equal. ring. Qed.
Lemma gz_conj_mul x y : gz_conj (gz_mul x y) = gz_mul (gz_conj x) (gz_conj y).
Proof. destruct x, y. unfold gz_mul, gz_conj. cbn [fst snd]. f_equal; ring. Qed.
Lemma gz_conj_invol x : gz_conj (gz_conj x) = x.
Proof. destruct x. unfold gz_conj. cbn [fst snd]. f_equal. ring. Qed.
Definition GZ : StarRing :=
  mkStarRing gz (0, 0)%Z (1, 0)%Z gz_add gz_mul gz_sub gz_opp gz_conj gz_ring gz_conj_add gz_conj_mul gz_conj_invol.

Definition g (a b : Z) : GZ := (a, b).
Definition gi (a : Z) : GZ := (a, 0%Z).
