(** Anticommuting operators on functions of spin configurations: the signed flips [xop], [yop], their
    linear combinations [lop], and the parity of a configuration.  Used to find the ground state
    energy of the cyclic XY model. *)
From Verif Require Import CanonSpec PfPhysics PfReindex PfSymm PfCxyE0.
Open Scope nat_scope.
Section Fock.
Context {K : StarRing}.
Add Ring Kr : (k_ring K).
Variable N : nat.
Notation vec := (list nat -> K).
Definition fl (j : nat) (is : list nat) : list nat := flip j j is.
Definition sgn (i : nat) : K := if Nat.eqb i 0 then k1 else (- k1)%K.
(** The sign of the number of ones before site [j] *)
Fixpoint sg (j : nat) (is : list nat) : K := match j with O => k1 | S j => (sg j is * sgn (nth j is 0%nat))%K end.

Lemma sgn_sq i : (sgn i * sgn i)%K = k1.
Proof. unfold sgn. destruct (Nat.eqb i 0); ring. Qed.
Lemma sg_sq j is : (sg j is * sg j is)%K = k1.
Proof. induction j as [|j IH]; cbn [sg]; [ring|]. transitivity ((sg j is * sg j is) * (sgn (nth j is 0%nat) * sgn (nth j is 0%nat)))%K; [ring|]. rewrite IH, sgn_sq. ring. Qed.
Lemma sgn_flip i : i < 2 -> sgn (1 - i) = (- sgn i)%K.
Proof. intros H. destruct i as [|[|]]; try lia; unfold sgn; cbn [Nat.sub Nat.eqb]; ring. Qed.
Lemma fl_inr j is : inr is (conf N) -> inr (fl j is) (conf N).
Proof. apply flip_inr. Qed.
Lemma fl_fl j is : inr is (conf N) -> fl j (fl j is) = is.
Proof. apply flip_flip. Qed.
Lemma nth_fl j k is : k < length is -> nth k (fl j is) 0 = if Nat.eqb k j then 1 - nth k is 0 else nth k is 0.
Proof. intros H. unfold fl. rewrite nth_flip by exact H. rewrite orb_diag. reflexivity. Qed.
Lemma fl_len j is : length (fl j is) = length is.
Proof. apply flip_len. Qed.
Lemma fl_comm j k is : fl j (fl k is) = fl k (fl j is).
Proof.
  apply (nth_ext _ _ 0 0); [rewrite !fl_len; reflexivity|]. intros i Hi. rewrite !fl_len in Hi. rewrite !nth_fl by (rewrite ?fl_len; exact Hi). destruct (Nat.eqb i j), (Nat.eqb i k); reflexivity.
Qed.
Lemma flip_fl j k is : j <> k -> flip j k is = fl j (fl k is).
Proof.
  intros Ne. apply (nth_ext _ _ 0 0); [rewrite !fl_len, flip_len; reflexivity|]. intros i Hi. rewrite flip_len in Hi. rewrite nth_flip by exact Hi. rewrite !nth_fl by (rewrite ?fl_len; exact Hi).
  destruct (Nat.eqb_spec i j), (Nat.eqb_spec i k); try reflexivity. congruence.
Qed.
Lemma sg_fl l j is : inr is (conf N) -> l <= N -> sg l (fl j is) = if j <? l then (- sg l is)%K else sg l is.
Proof.
  intros Hi Hl. apply conf_iff in Hi. destruct Hi as [L H]. induction l as [|l IH]; [reflexivity|]. cbn [sg]. rewrite IH by lia. rewrite nth_fl by lia.
  destruct (Nat.eqb_spec l j) as [->|Ne].
  - rewrite sgn_flip by (apply H; lia). destruct (Nat.ltb_spec j j); [lia|]. destruct (Nat.ltb_spec j (S j)); [|lia]. ring.
  - destruct (Nat.ltb_spec j l), (Nat.ltb_spec j (S l)); try lia; ring.
Qed.

(** Signed flips; their linear combinations *)
Definition xop j (u : vec) : vec := fun is => (sg j is * u (fl j is))%K.
Definition yop j (u : vec) : vec := fun is => (sg (S j) is * u (fl j is))%K.
Definition lop (p q : nat -> K) (u : vec) : vec := fun is => bigsum N (fun j => p j * xop j u is + q j * yop j u is)%K.
Lemma lop_ext p q u w : (forall is, inr is (conf N) -> u is = w is) -> forall is, inr is (conf N) -> lop p q u is = lop p q w is.
Proof. intros H is Hi. apply bigsum_ext. intros j _. unfold xop, yop. rewrite H by (apply fl_inr; exact Hi). reflexivity. Qed.
Lemma lop_term p q u is : lop p q u is = bigsum N (fun j => (p j + q j * sgn (nth j is 0%nat)) * sg j is * u (fl j is))%K.
Proof. apply bigsum_ext. intros j _. unfold xop, yop. cbn [sg]. ring. Qed.
(** The canonical anticommutation relations *)
Theorem lop_anti p q p' q' u is : inr is (conf N) ->
  (lop p q (lop p' q' u) is + lop p' q' (lop p q u) is)%K = (bigsum N (fun j => (p j * p' j - q j * q' j) + (p j * p' j - q j * q' j)) * u is)%K.
Proof.
  intros Hi. assert (Hc := Hi). apply conf_iff in Hc. destruct Hc as [L H].
  assert (T : forall p q p' q', lop p q (lop p' q' u) is = bigsum N (fun j => bigsum N (fun l =>
     ((p j + q j * sgn (nth j is 0%nat)) * sg j is) * ((p' l + q' l * sgn (nth l (fl j is) 0%nat)) * sg l (fl j is)) * u (fl l (fl j is))))%K).
  { clear. intros p q p' q'. rewrite lop_term. apply bigsum_ext. intros j _. rewrite lop_term, <- bigsum_mul_l. apply bigsum_ext. intros l _. ring. }
  rewrite (T p q p' q'), (T p' q' p q). rewrite (bigsum_swap N N (fun j l => ((p' j + q' j * sgn (nth j is 0%nat)) * sg j is) * ((p l + q l * sgn (nth l (fl j is) 0%nat)) * sg l (fl j is)) * u (fl l (fl j is)))%K).
  rewrite <- bigsum_add, <- bigsum_mul_r. apply bigsum_ext. intros j Hj. rewrite <- bigsum_add.
  rewrite (bigsum_single N j); [| exact Hj |].
  - cbn beta. rewrite !fl_fl by exact Hi. rewrite !nth_fl by lia. rewrite Nat.eqb_refl. rewrite !sgn_flip by (apply H; lia). rewrite !sg_fl by (assumption || lia). rewrite Nat.ltb_irrefl.
    set (s := sgn _). set (t := sg j is). pose proof (sgn_sq (nth j is 0)) as Es. fold s in Es. pose proof (sg_sq j is) as Et. fold t in Et.
    transitivity ((p j * p' j - q j * q' j * (s * s) + (p j * p' j - q j * q' j * (s * s))) * (t * t) * u is)%K; [ring|]. rewrite Es, Et. ring.
  - intros l Hl Ne. cbn beta. rewrite (fl_comm j l). rewrite !nth_fl by lia. destruct (Nat.eqb_spec l j); [congruence|]. destruct (Nat.eqb_spec j l); [congruence|]. rewrite !sg_fl by (assumption || lia).
    destruct (Nat.ltb_spec j l), (Nat.ltb_spec l j); try lia; ring.
Qed.
Lemma lop_lin p q c u w is : lop p q (fun js => c * u js + w js)%K is = (c * lop p q u is + lop p q w is)%K.
Proof. unfold lop. rewrite <- bigsum_mul_l, <- bigsum_add. apply bigsum_ext. intros j _. unfold xop, yop. ring. Qed.
Lemma lop_scale p q c u is : lop p q (fun js => c * u js)%K is = (c * lop p q u is)%K.
Proof. unfold lop. rewrite <- bigsum_mul_l. apply bigsum_ext. intros j _. unfold xop, yop. ring. Qed.
Lemma lop_zero p q u : (forall is, inr is (conf N) -> u is = k0) -> forall is, inr is (conf N) -> lop p q u is = k0.
Proof. intros H is Hi. apply bigsum_zero. intros j _. unfold xop, yop. rewrite H by (apply fl_inr; exact Hi). ring. Qed.
(** Each combination changes the parity. *)
Definition parity (e : K) (u : vec) : Prop := forall is, inr is (conf N) -> (sg N is * u is)%K = (e * u is)%K.
Lemma parity_lop e p q u : parity e u -> parity (- e)%K (lop p q u).
Proof.
  intros P is Hi. rewrite lop_term, <- !bigsum_mul_l. apply bigsum_ext. intros j Hj. pose proof (P (fl j is) (fl_inr j is Hi)) as Q. rewrite sg_fl in Q by (assumption || lia).
  destruct (Nat.ltb_spec j N); [|lia]. set (a := (_ * sg j is)%K). transitivity (- (a * (- sg N is * u (fl j is))))%K; [ring|]. rewrite Q. ring.
Qed.

(** ** The Hamiltonian on vectors of parity -1, with the cyclic numbering of the sites *)
Definition nxt s := Nat.modulo (S s) N.
Lemma nxt_lt s : 0 < N -> nxt s < N.
Proof. intros H. apply Nat.mod_upper_bound. lia. Qed.
Lemma xy_xx e u is s : 2 <= N -> inr is (conf N) -> parity e u -> s < N ->
  xop (nxt s) (yop s u) is = if Nat.eqb (S s) N then (- e * u (fl s (fl (nxt s) is)))%K else u (fl s (fl (nxt s) is)).
Proof.
  intros HN Hi P Hs. unfold nxt, xop, yop. destruct (Nat.eqb_spec (S s) N) as [E|E].
  - rewrite E, Nat.mod_same by lia. cbn [sg]. rewrite sg_fl by (assumption || lia). destruct (Nat.ltb_spec 0 N); [|lia].
    pose proof (P (fl s (fl 0 is)) (fl_inr _ _ (fl_inr _ _ Hi))) as Q. rewrite !sg_fl in Q by (try apply fl_inr; assumption || lia). destruct (Nat.ltb_spec s N); [|lia]. destruct (Nat.ltb_spec 0 N); [|lia].
    transitivity (- (- - sg N is * u (fl s (fl 0 is))))%K; [ring|]. rewrite Q. ring.
  - rewrite Nat.mod_small by lia. rewrite sg_fl by (assumption || lia). destruct (Nat.ltb_spec (S s) (S s)); [lia|]. transitivity ((sg (S s) is * sg (S s) is) * u (fl s (fl (S s) is)))%K; [ring|]. rewrite sg_sq. ring.
Qed.
Lemma xy_yy e u is s : 2 <= N -> inr is (conf N) -> parity e u -> s < N ->
  xop s (yop (nxt s) u) is = (- (sgn (nth s is 0%nat) * sgn (nth (nxt s) is 0%nat)) * (if Nat.eqb (S s) N then - e * u (fl s (fl (nxt s) is)) else u (fl s (fl (nxt s) is))))%K.
Proof.
  intros HN Hi P Hs. unfold nxt, xop, yop. rewrite (fl_comm s). destruct (Nat.eqb_spec (S s) N) as [E|E].
  - rewrite E, Nat.mod_same by lia. rewrite (sg_fl 1) by (assumption || lia). destruct (Nat.ltb_spec s 1); [lia|].
    pose proof (P (fl 0 (fl s is)) (fl_inr _ _ (fl_inr _ _ Hi))) as Q. rewrite !sg_fl in Q by (try apply fl_inr; assumption || lia). destruct (Nat.ltb_spec s N); [|lia]. destruct (Nat.ltb_spec 0 N); [|lia].
    replace (- e * u (fl 0 (fl s is)))%K with (- (e * u (fl 0 (fl s is))))%K by ring. rewrite <- Q. replace (sg N is) with (sg (S s) is) by (rewrite E; reflexivity). cbn [sg]. set (t := sgn (nth s is 0)). pose proof (sgn_sq (nth s is 0)) as Es. fold t in Es.
    transitivity (sg s is * sgn (nth 0 is 0%nat) * u (fl 0 (fl s is)) * k1)%K; [ring|]. rewrite <- Es. ring.
  - rewrite Nat.mod_small by lia. rewrite (sg_fl (S (S s))) by (assumption || lia). destruct (Nat.ltb_spec s (S (S s))); [|lia]. cbn [sg].
    transitivity ((sg s is * sg s is) * (- (sgn (nth s is 0%nat) * sgn (nth (S s) is 0%nat)) * u (fl (S s) (fl s is))))%K; [ring|]. rewrite sg_sq. ring.
Qed.
End Fock.
