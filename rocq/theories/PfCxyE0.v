(** Proofs about [cXY_E0]: its value, its bounds, and where it is the ground state energy. *)
From Coq Require Import Reals ZArith Lra.
From Verif Require Import Pmf CanonSpec PfPhysics PfReindex PfHS PfSymm CxyE0.
Open Scope R_scope.

(** ** The formula *)
Fixpoint rsumn (n : nat) (f : nat -> R) : R := match n with O => 0 | S n => rsumn n f + f n end.
Lemma rsum_app l l' : rsum (l ++ l') = rsum l + rsum l'.
Proof. induction l as [|x l IH]; cbn; [unfold rsum; ring|]. unfold rsum in *. cbn. rewrite IH. ring. Qed.
Lemma rsum_seq f n : rsum (map f (seq 0 n)) = rsumn n f.
Proof. induction n as [|n IH]; [reflexivity|]. rewrite seq_S, map_app, rsum_app, IH. cbn. unfold rsum. cbn. ring. Qed.
Lemma rsumn_ext n f g : (forall k, (k < n)%nat -> f k = g k) -> rsumn n f = rsumn n g.
Proof. induction n as [|n IH]; intros H; [reflexivity|]. cbn. rewrite IH by (intros; apply H; lia). rewrite H by lia. reflexivity. Qed.
Lemma rsumn_le n f g : (forall k, (k < n)%nat -> f k <= g k) -> rsumn n f <= rsumn n g.
Proof. induction n as [|n IH]; intros H; [cbn; lra|]. cbn. assert (rsumn n f <= rsumn n g) by (apply IH; intros; apply H; lia). pose proof (H n ltac:(lia)). lra. Qed.
Lemma rsumn_const n c : rsumn n (fun _ => c) = INR n * c.
Proof. induction n as [|n IH]; [cbn; ring|]. cbn [rsumn]. rewrite IH, S_INR. ring. Qed.

(** The excitation energy at the angle [k]: [sqrt(cos(k)^2 + gamma^2 sin(k)^2)] *)
Definition excitation (gamma k : R) : R := sqrt (cos k ^ 2 + gamma ^ 2 * sin k ^ 2).
Lemma sc2 k : sin k ^ 2 + cos k ^ 2 = 1.
Proof. pose proof (sin2_cos2 k) as H. unfold Rsqr in H. cbn [pow]. lra. Qed.
Lemma lambda2_alt gamma k : lambda2 gamma k = cos k ^ 2 + gamma ^ 2 * sin k ^ 2.
Proof. unfold lambda2. pose proof (sc2 k). nra. Qed.
Lemma lambda2_nonneg gamma k : 0 <= lambda2 gamma k.
Proof. rewrite lambda2_alt. pose proof (pow2_ge_0 (cos k)). pose proof (pow2_ge_0 (sin k)). pose proof (pow2_ge_0 gamma). nra. Qed.
Lemma lambda2_shift gamma k : lambda2 gamma (k - PI) = lambda2 gamma k.
Proof. unfold lambda2. replace (sin (k - PI)) with (- sin k); [ring|]. rewrite sin_minus, cos_PI, sin_PI. ring. Qed.
Lemma momentum_alt N l : IZR N <> 0 -> momentum N l = 2 * PI * INR l / IZR N - PI.
Proof. intros H. unfold momentum. field. exact H. Qed.

Lemma odd_double N : (N mod 2 = 0 /\ N mod 4 <> 0 <-> exists m, N = 4 * m + 2)%Z.
Proof.
  split.
  - intros [H2 H4]. exists (N / 4)%Z. pose proof (Z.div_mod N 4 ltac:(lia)). pose proof (Z.mod_pos_bound N 4 ltac:(lia)).
    pose proof (Z.div_mod N 2 ltac:(lia)). lia.
  - intros [m ->]. split.
    + replace (4 * m + 2)%Z with (0 + (2 * m + 1) * 2)%Z by lia. rewrite Z.mod_add by lia. reflexivity.
    + replace (4 * m + 2)%Z with (2 + m * 4)%Z by lia. rewrite Z.mod_add by lia. discriminate.
Qed.
Lemma cXY_E0_val N gamma : (exists m, N = 4 * m + 2)%Z ->
  cXY_E0 N gamma = Ok (- (1 / 2) * rsumn (Z.to_nat N) (fun l => excitation gamma (2 * PI * INR l / IZR N))).
Proof.
  intros H. assert (N <> 0)%Z as H0 by (destruct H; lia). apply odd_double in H. destruct H as [H2 H4]. unfold cXY_E0. rewrite H2. cbn [Z.eqb negb orb].
  apply Z.eqb_neq in H4. rewrite H4. rewrite rsum_seq. do 2 f_equal. apply rsumn_ext. intros l _. unfold excitation.
  rewrite momentum_alt by (intros E; apply H0; apply eq_IZR; exact E). rewrite lambda2_shift, lambda2_alt. reflexivity.
Qed.
Lemma cXY_E0_err N gamma : cXY_E0 N gamma = Err ValueError <-> ~ (exists m, N = 4 * m + 2)%Z.
Proof.
  split.
  - intros E H. rewrite (cXY_E0_val N gamma H) in E. discriminate.
  - intros H. rewrite <- odd_double in H. unfold cXY_E0. destruct (Z.eqb_spec (N mod 2) 0) as [E|E]; [|reflexivity]. destruct (Z.eqb_spec (N mod 4) 0) as [E'|E']; [reflexivity|]. exfalso. auto.
Qed.
Lemma excitation_mono gamma gamma' k : Rabs gamma <= Rabs gamma' -> excitation gamma k <= excitation gamma' k.
Proof.
  intros H. apply sqrt_le_1_alt. apply Rplus_le_compat_l. apply Rmult_le_compat_r; [apply pow2_ge_0|]. rewrite <- (pow2_abs gamma), <- (pow2_abs gamma').
  apply pow_incr. split; [apply Rabs_pos|exact H].
Qed.
Lemma excitation_1 gamma k : Rabs gamma = 1 -> excitation gamma k = 1.
Proof. intros H. unfold excitation. rewrite <- (pow2_abs gamma), H. replace (cos k ^ 2 + 1 ^ 2 * sin k ^ 2) with 1 by (pose proof (sc2 k); lra). apply sqrt_1. Qed.
Lemma excitation_abs gamma k : excitation (Rabs gamma) k = excitation gamma k.
Proof. unfold excitation. rewrite pow2_abs. reflexivity. Qed.
Lemma excitation_low gamma k : Rabs gamma <= 1 -> Rabs gamma <= excitation gamma k.
Proof.
  intros H. rewrite <- (sqrt_pow2 (Rabs gamma)) at 1 by apply Rabs_pos. apply sqrt_le_1_alt. rewrite pow2_abs. pose proof (sc2 k). pose proof (pow2_ge_0 (cos k)).
  assert (gamma ^ 2 <= 1) by (rewrite <- (pow2_abs gamma); pose proof (Rabs_pos gamma); nra). nra.
Qed.
Lemma excitation_high gamma k : 1 <= Rabs gamma -> excitation gamma k <= Rabs gamma.
Proof.
  intros H. rewrite <- (sqrt_pow2 (Rabs gamma)) at 1 by apply Rabs_pos. apply sqrt_le_1_alt. rewrite pow2_abs. pose proof (sc2 k). pose proof (pow2_ge_0 (cos k)).
  assert (1 <= gamma ^ 2) by (rewrite <- (pow2_abs gamma); pose proof (Rabs_pos gamma); nra). nra.
Qed.

(** ** The ground state energy of a chain of spins one-half *)
Open Scope nat_scope.
Notation conf N := (repeat 2 N).
Section Ground.
Add Ring Cr : (k_ring CS).
(** The vector [H v], the form [<v, H v>] and the squared norm *)
Definition happly (H : list nat -> list nat -> CS) N (v : list nat -> CS) is : CS := msum (conf N) (fun js => H is js * v js)%K.
Definition hform H N v : CS := msum (conf N) (fun is => kconj (v is) * happly H N v is)%K.
Definition vnorm2 N (v : list nat -> CS) : CS := msum (conf N) (fun is => kconj (v is) * v is)%K.
(** [e] is an eigenvalue, and no vector has a smaller expectation value. *)
Definition ground_energy H N (e : R) : Prop :=
  (exists v, (exists is, inr is (conf N) /\ v is <> k0) /\ forall is, inr is (conf N) -> happly H N v is = (toC e * v is)%K) /\
  forall v, (e * Cre (vnorm2 N v) <= Cre (hform H N v))%R.

Lemma vnorm2_nonneg N v : cnonneg (vnorm2 N v).
Proof.
  unfold vnorm2. rewrite msum_flat. set (w := fun n => _). assert (Q : forall n, cnonneg (w n)).
  { intros n. unfold w. destruct (v (unravel (conf N) n)) as [x y]. split; unfold Cre, Cim; cbn; [ring|nra]. }
  clearbody w. induction (size (conf N)) as [|m IH]; [split; cbn; lra|]. cbn [bigsum]. specialize (Q m). revert IH Q. destruct (bigsum m w), (w m). intros [A B] [A' B']. unfold cnonneg, Cre, Cim in *. cbn in *. split; lra.
Qed.
Lemma vnorm2_pos N v is : inr is (conf N) -> v is <> k0 -> (0 < Cre (vnorm2 N v))%R.
Proof.
  intros Hi Hv. destruct (vnorm2_nonneg N v) as [I P]. destruct P as [P|P]; [exact P|]. exfalso. apply Hv.
  assert (Z : vnorm2 N v = k0) by (apply cplx_eq; unfold Cre, Cim in *; cbn; [symmetry; exact P|exact I]).
  pose proof (msum_nonneg_zero (conf N) (fun is => kconj (v is) * v is)%K) as Q. specialize (Q ltac:(intros js _; cbn beta; destruct (v js) as [x y]; split; unfold Cre, Cim; cbn; [ring|nra]) Z is Hi).
  cbn beta in Q. destruct (v is) as [x y]. pose proof (f_equal Cre Q) as E. unfold Cre in E. cbn in E. destruct (Rplus_sqr_eq_0 x y) as [-> ->]; [unfold Rsqr; lra|reflexivity].
Qed.
Theorem ground_energy_unique H N e e' : ground_energy H N e -> ground_energy H N e' -> e = e'.
Proof.
  intros [(v & (is & Hi & Hv) & E) L] [(v' & (is' & Hi' & Hv') & E') L'].
  assert (F : forall x w, (forall is, inr is (conf N) -> happly H N w is = (toC x * w is)%K) -> Cre (hform H N w) = (x * Cre (vnorm2 N w))%R).
  { intros x w Q. unfold hform, vnorm2. rewrite (msum_ext _ _ (fun is => toC x * (kconj (w is) * w is))%K); [|intros js Hj; rewrite (Q js Hj); ring].
    rewrite msum_mul_l. destruct (msum _ _) as [a b]. unfold Cre. cbn. ring. }
  pose proof (L v') as A. rewrite (F _ _ E') in A. pose proof (L' v) as B. rewrite (F _ _ E) in B.
  pose proof (vnorm2_pos N v is Hi Hv). pose proof (vnorm2_pos N v' is' Hi' Hv'). nra.
Qed.

(** ** The terms of the XY model as flips of two spins *)
Definition flip a b (is : list nat) : list nat := map (fun k => if Nat.eqb k a || Nat.eqb k b then 1 - nth k is 0 else nth k is 0) (seq 0 (length is)).
Lemma flip_len a b is : length (flip a b is) = length is.
Proof. unfold flip. rewrite map_length. apply seq_length. Qed.
Lemma nth_flip a b is k : k < length is -> nth k (flip a b is) 0 = if Nat.eqb k a || Nat.eqb k b then 1 - nth k is 0 else nth k is 0.
Proof.
  intros H. unfold flip. set (f := fun k => _). rewrite (nth_indep _ 0 (f 0)) by (rewrite map_length, seq_length; exact H). rewrite map_nth, seq_nth by exact H. reflexivity.
Qed.
Lemma conf_iff is N : inr is (conf N) <-> length is = N /\ forall k, k < N -> nth k is 0 < 2.
Proof.
  split.
  - intros H. pose proof (inr_length _ _ H) as L. rewrite repeat_length in L. split; [exact L|]. intros k Hk. pose proof (nth_inr is _ k H ltac:(rewrite repeat_length; lia)) as Q. rewrite nth_rep in Q by exact Hk. exact Q.
  - revert N. induction is as [|i is IH]; intros N [L H]; cbn in L; subst N; [constructor|]. cbn. constructor; [exact (H 0 ltac:(lia))|]. apply IH. split; [reflexivity|]. intros k Hk. exact (H (S k) ltac:(lia)).
Qed.
Lemma flip_inr a b is N : inr is (conf N) -> inr (flip a b is) (conf N).
Proof.
  rewrite !conf_iff. intros [L H]. rewrite flip_len. split; [exact L|]. intros k Hk. rewrite nth_flip by lia. pose proof (H k Hk). destruct (_ || _); lia.
Qed.
Lemma flip_flip a b is N : inr is (conf N) -> flip a b (flip a b is) = is.
Proof.
  intros Hi. apply conf_iff in Hi. destruct Hi as [L H]. apply (nth_ext _ _ 0 0); [rewrite !flip_len; reflexivity|]. intros k Hk. rewrite !flip_len in Hk.
  rewrite nth_flip by (rewrite flip_len; exact Hk). rewrite nth_flip by exact Hk. pose proof (H k ltac:(lia)). destruct (_ || _); lia.
Qed.
Lemma msum_flip a b N f : msum (conf N) (fun is => f (flip a b is)) = msum (conf N) f :> CS.
Proof.
  symmetry. apply (msum_reindex (conf N) (conf N) (flip a b) (flip a b)); intros i Hi; (split; [apply flip_inr; exact Hi|apply (flip_flip a b i N Hi)]).
Qed.
Lemma on_pair_flip (f : nat -> nat -> nat -> nat -> CS) c a b N is js : inr is (conf N) -> inr js (conf N) -> a < N -> b < N ->
  (forall i1 i2 j1 j2, i1 < 2 -> i2 < 2 -> j1 < 2 -> j2 < 2 -> f i1 i2 j1 j2 = if Nat.eqb j1 (1 - i1) && Nat.eqb j2 (1 - i2) then c i1 i2 else k0) ->
  on_pair f a b is js = (list_delta (flip a b is) js * c (nth a is 0%nat) (nth b is 0%nat))%K.
Proof.
  intros Hi Hj Ha Hb Hf. apply conf_iff in Hi, Hj. destruct Hi as [Li Hi], Hj as [Lj Hj]. unfold on_pair, list_delta.
  destruct (list_eqb (flip a b is) js) eqn:E.
  - apply list_eqb_eq in E. subst js. rewrite Hf by auto. rewrite !nth_flip by lia. rewrite !Nat.eqb_refl, orb_true_r. cbn [orb]. rewrite !Nat.eqb_refl. cbn [andb].
    replace (forallb _ _) with true; [ring|]. symmetry. apply forallb_forall. intros k Hk. apply in_seq in Hk. rewrite nth_flip by lia. destruct (Nat.eqb k a || Nat.eqb k b); [reflexivity|]. cbn [orb]. apply Nat.eqb_refl.
  - destruct (forallb _ _) eqn:F; [|ring]. rewrite Hf by auto. destruct (_ && _) eqn:G; [|ring]. exfalso. apply andb_true_iff in G. destruct G as [G1 G2]. apply Nat.eqb_eq in G1, G2.
    assert (flip a b is = js); [|subst js; rewrite list_eqb_refl in E; discriminate]. apply (nth_ext _ _ 0 0); [rewrite flip_len; lia|]. intros k Hk. rewrite flip_len in Hk. rewrite nth_flip by exact Hk.
    rewrite forallb_forall in F. specialize (F k ltac:(apply in_seq; lia)). destruct (Nat.eqb_spec k a) as [ka|]; [rewrite ka; cbn [orb]; symmetry; exact G1|]. destruct (Nat.eqb_spec k b) as [kb|]; [rewrite kb; cbn [orb]; symmetry; exact G2|]. cbn [orb] in *. apply Nat.eqb_eq in F. exact F.
Qed.

(** The couplings: [gamma / 2] between equal spins, [1 / 2] between different ones *)
Definition coup (gamma : R) (i j : nat) : R := if Nat.eqb i j then (gamma / 2)%R else (1 / 2)%R.
Definition xyH (gamma : R) N (is js : list nat) : CS :=
  bigsum N (fun s => list_delta (flip s (Nat.modulo (S s) N) is) js * toC (coup gamma (nth s is 0%nat) (nth (Nat.modulo (S s) N) is 0%nat)))%K.
Lemma xx_yy_coup gamma i1 i2 j1 j2 : i1 < 2 -> i2 < 2 -> j1 < 2 -> j2 < 2 ->
  (toC ((1 + gamma) * (1 / 4)) * (xx i1 j1 * xx i2 j2) + toC ((1 - gamma) * (1 / 4)) * (yy Ci i1 j1 * yy Ci i2 j2))%K =
  (if Nat.eqb j1 (1 - i1) && Nat.eqb j2 (1 - i2) then toC (coup gamma i1 i2) else k0 : CS).
Proof.
  intros H1 H2 H3 H4. destruct i1 as [|[|]]; try lia; destruct i2 as [|[|]]; try lia; destruct j1 as [|[|]]; try lia; destruct j2 as [|[|]]; try lia;
    apply cplx_eq; cbn; field.
Qed.
Lemma xyH_spec gamma N (terms : list (ltens CS)) : 2 <= N -> length terms = N ->
  (forall k i1 i2 j1 j2, k < N -> i1 < 2 -> i2 < 2 -> j1 < 2 -> j2 < 2 ->
       elem (nth k terms (mkLt [] 0 0)) i1 i2 j1 j2 = (toC ((1 + gamma) * (1 / 4)) * (xx i1 j1 * xx i2 j2) + toC ((1 - gamma) * (1 / 4)) * (yy Ci i1 j1 * yy Ci i2 j2))%K) ->
  forall is js, inr is (conf N) -> inr js (conf N) -> cyclic_sum terms is js = xyH gamma N is js.
Proof.
  intros HN L He is js Hi Hj. unfold cyclic_sum, xyH. rewrite L. apply bigsum_ext. intros s Hs.
  apply (on_pair_flip _ (fun i j => toC (coup gamma i j)) s (Nat.modulo (S s) N) N); [exact Hi|exact Hj|exact Hs|apply Nat.mod_upper_bound; lia|].
  intros. rewrite He by assumption. apply xx_yy_coup; assumption.
Qed.
Lemma happly_xy gamma N v is : inr is (conf N) ->
  happly (xyH gamma N) N v is = bigsum N (fun s => toC (coup gamma (nth s is 0%nat) (nth (Nat.modulo (S s) N) is 0%nat)) * v (flip s (Nat.modulo (S s) N) is))%K.
Proof.
  intros Hi. unfold happly, xyH. 
  rewrite (msum_ext _ _ (fun js => bigsum N (fun s => list_delta (flip s (Nat.modulo (S s) N) is) js * (toC (coup gamma (nth s is 0%nat) (nth (Nat.modulo (S s) N) is 0%nat)) * v js)))%K).
  - rewrite msum_bigsum_swap. apply bigsum_ext. intros s Hs.
    rewrite (msum_list_delta (conf N) (flip s (Nat.modulo (S s) N) is) (fun js => toC (coup gamma (nth s is 0%nat) (nth (Nat.modulo (S s) N) is 0%nat)) * v js)%K) by (apply flip_inr; exact Hi). reflexivity.
  - intros js _. rewrite <- bigsum_mul_r. apply bigsum_ext. intros s _. ring.
Qed.

(** ** The lower bound *)
Lemma Cre_add (x y : CS) : Cre (x + y)%K = (Cre x + Cre y)%R.
Proof. destruct x, y. reflexivity. Qed.
Lemma Cre_bigsum_le n (f g : nat -> CS) : (forall k, k < n -> (Cre (f k) <= Cre (g k))%R) -> (Cre (bigsum n f) <= Cre (bigsum n g))%R.
Proof. induction n as [|n IH]; intros H; [apply Rle_refl|]. cbn [bigsum]. rewrite !Cre_add. apply Rplus_le_compat; [apply IH; intros; apply H; lia|apply H; lia]. Qed.
Lemma Cre_msum_le sh : forall f g : list nat -> CS, (forall is, inr is sh -> (Cre (f is) <= Cre (g is))%R) -> (Cre (msum sh f) <= Cre (msum sh g))%R.
Proof. induction sh as [|d sh IH]; intros f g H; cbn [msum]; [apply H; constructor|]. apply Cre_bigsum_le. intros k Hk. apply IH. intros is Hi. apply H. constructor; assumption. Qed.
Lemma bigsum_toC n c : bigsum n (fun _ => toC c) = toC (INR n * c) :> CS.
Proof. induction n as [|n IH]; [apply cplx_eq; cbn; ring|]. cbn [bigsum]. rewrite IH, S_INR. apply cplx_eq; cbn; ring. Qed.
Definition top (gamma : R) : R := Rmax 1 (Rabs gamma).
Lemma coup_le gamma i j : (Rabs (coup gamma i j) <= top gamma / 2)%R.
Proof.
  unfold coup, top. pose proof (Rmax_l 1 (Rabs gamma)). pose proof (Rmax_r 1 (Rabs gamma)). destruct (Nat.eqb i j); unfold Rdiv; rewrite Rabs_mult, (Rabs_right (/ 2)) by lra; [|rewrite Rabs_R1]; lra.
Qed.
Lemma pair_low c M (x y : CS) : (Rabs c <= M)%R -> (Cre (toC (- M / 2) * (kconj x * x + kconj y * y))%K <= Cre (kconj x * (toC c * y))%K)%R.
Proof.
  intros H. destruct x as [x1 x2], y as [y1 y2]. unfold Cre. cbn. pose proof (Rle_abs c). pose proof (Rle_abs (- c)) as H'. rewrite Rabs_Ropp in H'. 
  assert (P : (0 <= M + c)%R) by lra. assert (Q : (0 <= M - c)%R) by lra. pose proof (Rle_0_sqr (x1 + y1)) as A. pose proof (Rle_0_sqr (x1 - y1)) as B. pose proof (Rle_0_sqr (x2 + y2)) as C. pose proof (Rle_0_sqr (x2 - y2)) as D. unfold Rsqr in *.
  pose proof (Rmult_le_pos _ _ P A). pose proof (Rmult_le_pos _ _ Q B). pose proof (Rmult_le_pos _ _ P C). pose proof (Rmult_le_pos _ _ Q D). lra.
Qed.
Theorem xy_low gamma N v : 1 <= N -> (- (INR N / 2) * top gamma * Cre (vnorm2 N v) <= Cre (hform (xyH gamma N) N v))%R.
Proof.
  intros HN. unfold hform. 
  rewrite (msum_ext _ _ (fun is => bigsum N (fun s => kconj (v is) * (toC (coup gamma (nth s is 0%nat) (nth (Nat.modulo (S s) N) is 0%nat)) * v (flip s (Nat.modulo (S s) N) is))))%K).
  2:{ intros is Hi. rewrite happly_xy by exact Hi. symmetry. apply bigsum_mul_l. }
  rewrite msum_bigsum_swap.
  apply (Rle_trans _ (Cre (bigsum N (fun _ => toC (- (top gamma / 2)) * vnorm2 N v)%K))).
  - rewrite (bigsum_mul_r N (vnorm2 N v) (fun _ => toC (- (top gamma / 2)))), bigsum_toC. destruct (vnorm2 N v) as [a b]. unfold Cre. cbn. right. field.
  - apply Cre_bigsum_le. intros s Hs. apply (Rle_trans _ (Cre (msum (conf N) (fun is => toC (- (top gamma / 2) / 2) * (kconj (v is) * v is + kconj (v (flip s (Nat.modulo (S s) N) is)) * v (flip s (Nat.modulo (S s) N) is)))%K))).
    + rewrite msum_mul_l, msum_add. rewrite (msum_flip s (Nat.modulo (S s) N) N (fun is => kconj (v is) * v is)%K). fold (vnorm2 N v). destruct (vnorm2 N v) as [a b]. unfold Cre. cbn. right. field.
    + apply Cre_msum_le. intros is _. apply pair_low. apply coup_le.
Qed.

(** ** Two sites *)
Lemma conf2 (P : list nat -> Prop) : P [0; 0] -> P [0; 1] -> P [1; 0] -> P [1; 1] -> forall is, inr is (conf 2) -> P is.
Proof.
  intros A B C D is Hi. apply conf_iff in Hi. destruct Hi as [L H]. destruct is as [|i [|j [|]]]; try discriminate. pose proof (H 0 ltac:(lia)) as H0. pose proof (H 1 ltac:(lia)) as H1. cbn in H0, H1.
  destruct i as [|[|]]; try lia; destruct j as [|[|]]; try lia; assumption.
Qed.
Theorem xy_two gamma : ground_energy (xyH gamma 2) 2 (- top gamma).
Proof.
  split.
  2:{ intros v. pose proof (xy_low gamma 2 v ltac:(lia)) as H. replace (- (INR 2 / 2) * top gamma)%R with (- top gamma)%R in H by (cbn; field). exact H. }
  unfold top. destruct (Rle_dec (Rabs gamma) 1) as [Hg|Hg].
  - rewrite Rmax_left by exact Hg. exists (fun is => match is with [0; 1] => toC 1 | [1; 0] => toC (-1) | _ => toC 0 end). split.
    + exists [0; 1]. split; [repeat constructor|]. cbn. intros E. apply (f_equal Cre) in E. cbn in E. lra.
    + intros is Hi. rewrite happly_xy by exact Hi. revert is Hi. apply conf2; apply cplx_eq; cbn; unfold coup; cbn; field.
  - assert (Hg' : (1 < Rabs gamma)%R) by lra. rewrite Rmax_right by lra.
    destruct (Rle_dec 0 gamma) as [Hs|Hs].
    + rewrite (Rabs_right gamma) by lra. exists (fun is => match is with [0; 0] => toC 1 | [1; 1] => toC (-1) | _ => toC 0 end). split.
      * exists [0; 0]. split; [repeat constructor|]. cbn. intros E. apply (f_equal Cre) in E. cbn in E. lra.
      * intros is Hi. rewrite happly_xy by exact Hi. revert is Hi. apply conf2; apply cplx_eq; cbn; unfold coup; cbn; field.
    + rewrite (Rabs_left gamma) by lra. exists (fun is => match is with [0; 0] => toC 1 | [1; 1] => toC 1 | _ => toC 0 end). split.
      * exists [0; 0]. split; [repeat constructor|]. cbn. intros E. apply (f_equal Cre) in E. cbn in E. lra.
      * intros is Hi. rewrite happly_xy by exact Hi. revert is Hi. apply conf2; apply cplx_eq; cbn; unfold coup; cbn; field.
Qed.

(** ** [gamma = 1] and [gamma = -1]: alternating product states *)
Fixpoint bprod (n : nat) (f : nat -> CS) : CS := match n with O => k1 | S n => (bprod n f * f n)%K end.
Lemma bprod_ext n f g : (forall k, k < n -> f k = g k) -> bprod n f = bprod n g.
Proof. induction n as [|n IH]; intros H; [reflexivity|]. cbn. rewrite IH by (intros; apply H; lia). rewrite H by lia. reflexivity. Qed.
Lemma bprod_out n a f : a < n -> bprod n f = (f a * bprod n (fun k => if Nat.eqb k a then k1 else f k))%K.
Proof.
  induction n as [|n IH]; intros H; [lia|]. cbn [bprod]. destruct (Nat.eq_dec a n) as [->|Ne].
  - rewrite Nat.eqb_refl. rewrite (bprod_ext n (fun k => if Nat.eqb k n then k1 else f k) f); [ring|]. intros k Hk. destruct (Nat.eqb_spec k n); [lia|reflexivity].
  - rewrite IH by lia. destruct (Nat.eqb_spec n a); [lia|]. ring.
Qed.
Lemma bprod_two n a b f : a < n -> b < n -> a <> b -> bprod n f = (f a * f b * bprod n (fun k => if Nat.eqb k a || Nat.eqb k b then k1 else f k))%K.
Proof.
  intros Ha Hb Ne. rewrite (bprod_out n a f Ha), (bprod_out n b _ Hb). destruct (Nat.eqb_spec b a); [congruence|].
  rewrite (bprod_ext n _ (fun k => if Nat.eqb k a || Nat.eqb k b then k1 else f k)); [ring|]. intros k _. destruct (Nat.eqb k a), (Nat.eqb k b); reflexivity.
Qed.
Definition prodstate (w : nat -> CS) N (is : list nat) : CS := bprod N (fun k => if Nat.eqb (nth k is 0) 0 then k1 else w k).
Lemma neel_eig gamma N (w : nat -> CS) : 2 <= N -> Nat.even N = true -> Rabs gamma = 1%R ->
  (forall a b, Nat.even a <> Nat.even b -> toC gamma * (w a * w b) = toC (-1) /\ toC gamma = toC (-1) * (w a * w b) /\ w b = toC (-1) * w a)%K ->
  ground_energy (xyH gamma N) N (- (INR N / 2)).
Proof.
  intros HN Ev Hg Hw. split.
  2:{ intros v. pose proof (xy_low gamma N v ltac:(lia)) as H. unfold top in H. rewrite Hg, Rmax_left in H by lra. replace (- (INR N / 2) * 1)%R with (- (INR N / 2))%R in H by ring. exact H. }
  exists (prodstate w N). split.
  - exists (repeat 0 N). split.
    + apply conf_iff. split; [apply repeat_length|]. intros k Hk. rewrite nth_rep by exact Hk. lia.
    + assert (E : prodstate w N (repeat 0 N) = k1).
      { unfold prodstate. rewrite (bprod_ext _ _ (fun _ => k1)); [clear; induction N as [|N IH]; [reflexivity|]; cbn [bprod]; rewrite IH; ring|]. intros k Hk. rewrite nth_rep by exact Hk. reflexivity. }
      rewrite E. intros F. apply (f_equal Cre) in F. cbn in F. lra.
  - intros is Hi. rewrite happly_xy by exact Hi. rewrite (bigsum_ext _ _ (fun _ => toC (- (1 / 2)) * prodstate w N is)%K).
    + rewrite (bigsum_mul_r N (prodstate w N is) (fun _ => toC (- (1 / 2)))), bigsum_toC. f_equal. apply cplx_eq; cbn; [field|reflexivity].
    + intros s Hs. set (b := Nat.modulo (S s) N). assert (Hb : b < N) by (apply Nat.mod_upper_bound; lia).
      assert (Par : Nat.even s <> Nat.even b).
      { unfold b. destruct (Nat.eq_dec (S s) N) as [E|E].
        - rewrite E, Nat.mod_same by lia. rewrite <- E, Nat.even_succ, <- Nat.negb_even in Ev. cbn. destruct (Nat.even s); discriminate.
        - rewrite Nat.mod_small by lia. rewrite Nat.even_succ, <- Nat.negb_even. destruct (Nat.even s); discriminate. }
      assert (Ne : s <> b) by (intros E; apply Par; congruence).
      apply conf_iff in Hi. destruct Hi as [L H]. unfold prodstate. rewrite (bprod_two N s b (fun k => if Nat.eqb (nth k is 0) 0 then k1 else w k) Hs Hb Ne).
      rewrite (bprod_two N s b (fun k => if Nat.eqb (nth k (flip s b is) 0) 0 then k1 else w k) Hs Hb Ne).
      rewrite (bprod_ext N (fun k => if Nat.eqb k s || Nat.eqb k b then k1 else if Nat.eqb (nth k (flip s b is) 0) 0 then k1 else w k) (fun k => if Nat.eqb k s || Nat.eqb k b then k1 else if Nat.eqb (nth k is 0) 0 then k1 else w k)).
      2:{ intros k Hk. rewrite nth_flip by lia. destruct (_ || _); reflexivity. }
      set (P := bprod N _). rewrite !nth_flip by lia. rewrite !Nat.eqb_refl, orb_true_r. cbn [orb].
      pose proof (H s Hs) as Is. pose proof (H b Hb) as Ib. destruct (Hw s b Par) as (W1 & W2 & W3). unfold coup.
      assert (Hh : toC (gamma / 2) = (toC (1 / 2) * toC gamma)%K) by (apply cplx_eq; cbn; field). assert (Hn : toC (- (1 / 2)) = (toC (1 / 2) * toC (-1))%K) by (apply cplx_eq; cbn; field).
      assert (Hm : (toC (-1) * toC (-1))%K = k1) by (apply cplx_eq; cbn; ring).
      destruct (nth s is 0) as [|[|]]; try lia; destruct (nth b is 0) as [|[|]]; try lia; cbn [Nat.eqb Nat.sub]; rewrite ?Hh, ?Hn.
      * transitivity (toC (1 / 2) * (toC gamma * (w s * w b)) * P)%K; [ring|]. rewrite W1. ring.
      * rewrite W3. transitivity (toC (1 / 2) * (w s * P) * (toC (-1) * toC (-1)))%K; [rewrite Hm; ring|ring].
      * rewrite W3. ring.
      * rewrite W2. ring.
Qed.
Theorem xy_ising gamma N : 2 <= N -> Nat.even N = true -> Rabs gamma = 1%R -> ground_energy (xyH gamma N) N (- (INR N / 2)).
Proof.
  intros HN Ev Hg. destruct (Rle_dec 0 gamma) as [Hs|Hs].
  - rewrite Rabs_right in Hg by lra. subst gamma. apply (neel_eig 1 N (fun k => if Nat.even k then toC (-1) else toC 1) HN Ev Rabs_R1).
    intros a b Hab. destruct (Nat.even a), (Nat.even b); try congruence; (split; [|split]); apply cplx_eq; cbn; ring.
  - assert (Hg' := Hg). rewrite Rabs_left in Hg by lra. assert (gamma = -1)%R by lra. subst gamma. apply (neel_eig (-1) N (fun k => if Nat.even k then Ci else (0, -1)%R) HN Ev Hg').
    intros a b Hab. destruct (Nat.even a), (Nat.even b); try congruence; (split; [|split]); apply cplx_eq; cbn; ring.
Qed.

Lemma ground_energy_ext H H' N e : (forall is js, inr is (conf N) -> inr js (conf N) -> H is js = H' is js) -> ground_energy H N e -> ground_energy H' N e.
Proof.
  intros E [(v & Hv & A) B]. assert (Q : forall w is, inr is (conf N) -> happly H' N w is = happly H N w is) by (intros w is Hi; apply msum_ext; intros js Hj; rewrite (E is js Hi Hj); reflexivity).
  split.
  - exists v. split; [exact Hv|]. intros is Hi. rewrite Q by exact Hi. apply A. exact Hi.
  - intros w. replace (hform H' N w) with (hform H N w); [apply B|]. apply msum_ext. intros is Hi. rewrite Q by exact Hi. reflexivity.
Qed.
End Ground.
