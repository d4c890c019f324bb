(** Shapes and multi-indices of numpy arrays in row-major (C) order. *)
From Verif Require Export Scalar.
From Coq Require Export Permutation.

Definition size (sh : list nat) : nat := fold_right Nat.mul 1 sh.
Arguments size : simpl never.

(** Row-major position of a multi-index; [np.ravel_multi_index]. *)
Fixpoint ravel (sh idx : list nat) : nat :=
  match sh, idx with
  | d :: sh', i :: idx' => i * size sh' + ravel sh' idx'
  | _, _ => 0
  end.

(** Inverse; [np.unravel_index]. *)
Fixpoint unravel (sh : list nat) (n : nat) : list nat :=
  match sh with
  | [] => []
  | d :: sh' => (n / size sh') :: unravel sh' (n mod size sh')
  end.

(** [inr idx sh]: the multi-index is valid for the shape. *)
Definition inr (idx sh : list nat) : Prop := Forall2 lt idx sh.

Fixpoint inrb (idx sh : list nat) : bool :=
  match idx, sh with
  | [], [] => true
  | i :: idx', d :: sh' => Nat.ltb i d && inrb idx' sh'
  | _, _ => false
  end.

Lemma inrb_iff idx sh : inrb idx sh = true <-> inr idx sh.
Proof.
  revert sh; induction idx as [|i idx IH]; destruct sh as [|d sh]; cbn; split; intro H;
    try discriminate; try (constructor; fail); try (inversion H; fail).
  - apply andb_true_iff in H. destruct H as [H1 H2]. constructor.
    + apply Nat.ltb_lt; exact H1.
    + apply IH; exact H2.
  - inversion H; subst. apply andb_true_iff. split; [apply Nat.ltb_lt; assumption|apply IH; assumption].
Qed.

Lemma inr_length idx sh : inr idx sh -> length idx = length sh.
Proof. induction 1; cbn; congruence. Qed.

Lemma inr_nil : inr [] [].
Proof. constructor. Qed.

Lemma inr_cons i d idx sh : i < d -> inr idx sh -> inr (i :: idx) (d :: sh).
Proof. constructor; assumption. Qed.

Lemma inr_cons_iff i d idx sh : inr (i :: idx) (d :: sh) <-> i < d /\ inr idx sh.
Proof. split; [intro H; inversion H; auto|intros [? ?]; constructor; auto]. Qed.

Lemma inr_app i1 i2 s1 s2 : inr i1 s1 -> inr i2 s2 -> inr (i1 ++ i2) (s1 ++ s2).
Proof. apply Forall2_app. Qed.

Lemma inr_app_inv idx s1 s2 :
  inr idx (s1 ++ s2) -> exists i1 i2, idx = i1 ++ i2 /\ inr i1 s1 /\ inr i2 s2.
Proof.
  intro H. apply Forall2_app_inv_r in H.
  destruct H as [l1 [l2 [H1 [H2 ->]]]]. exists l1, l2. auto.
Qed.

Lemma inr_single i d : i < d -> inr [i] [d].
Proof. intro. constructor; [assumption|constructor]. Qed.

Lemma inr_single_inv idx d : inr idx [d] -> exists i, idx = [i] /\ i < d.
Proof.
  intro H. inversion H as [|i d' l l' Hi Hl]; subst. inversion Hl; subst. eauto.
Qed.

Lemma inr_nil_inv idx : inr idx [] -> idx = [].
Proof. intro H. inversion H. reflexivity. Qed.

Lemma size_nil : size [] = 1.
Proof. reflexivity. Qed.

Lemma size_cons d sh : size (d :: sh) = d * size sh.
Proof. reflexivity. Qed.

Lemma size_app s1 s2 : size (s1 ++ s2) = size s1 * size s2.
Proof. induction s1 as [|d s1 IH]; cbn [app]; rewrite ?size_cons, ?size_nil; [lia|rewrite IH; lia]. Qed.

Lemma size_single d : size [d] = d.
Proof. unfold size; cbn. lia. Qed.

Lemma size_pos sh : Forall (fun d => 0 < d) sh -> 0 < size sh.
Proof. induction 1; rewrite ?size_nil, ?size_cons; [lia|]. nia. Qed.

Lemma size_perm s1 s2 : Permutation s1 s2 -> size s1 = size s2.
Proof. induction 1; rewrite ?size_cons; lia. Qed.

Lemma ravel_lt idx sh : inr idx sh -> ravel sh idx < size sh.
Proof.
  induction 1 as [|i d idx sh Hi Hr IH]; [cbn; rewrite size_nil; lia|].
  cbn [ravel]. rewrite size_cons. nia.
Qed.

Lemma ravel_app s1 s2 i1 i2 :
  inr i1 s1 -> ravel (s1 ++ s2) (i1 ++ i2) = ravel s1 i1 * size s2 + ravel s2 i2.
Proof.
  induction 1 as [|i d idx sh Hi Hr IH]; [reflexivity|].
  cbn [app ravel]. rewrite IH, size_app. lia.
Qed.

Lemma unravel_length sh n : length (unravel sh n) = length sh.
Proof. revert n; induction sh as [|d sh IH]; intros n; cbn; [reflexivity|rewrite IH; reflexivity]. Qed.

Lemma unravel_inr sh n : n < size sh -> inr (unravel sh n) sh.
Proof.
  revert n; induction sh as [|d sh IH]; intros n Hn; cbn; [constructor|].
  rewrite size_cons in Hn.
  assert (0 < size sh) by nia.
  constructor.
  - apply Nat.div_lt_upper_bound; lia.
  - apply IH. apply Nat.mod_upper_bound. lia.
Qed.

Lemma ravel_unravel sh n : n < size sh -> ravel sh (unravel sh n) = n.
Proof.
  revert n; induction sh as [|d sh IH]; intros n Hn; cbn [ravel unravel].
  - rewrite size_nil in Hn. lia.
  - rewrite size_cons in Hn. assert (0 < size sh) by nia.
    rewrite IH by (apply Nat.mod_upper_bound; lia).
    rewrite (Nat.div_mod n (size sh)) at 3 by lia. lia.
Qed.

Lemma div_pair i m j : j < m -> (i * m + j) / m = i.
Proof. intros. rewrite Nat.div_add_l by lia. rewrite Nat.div_small by lia. lia. Qed.

Lemma mod_pair i m j : j < m -> (i * m + j) mod m = j.
Proof. intros. rewrite Nat.add_comm, Nat.mod_add by lia. apply Nat.mod_small; lia. Qed.

Lemma unravel_ravel sh idx : inr idx sh -> unravel sh (ravel sh idx) = idx.
Proof.
  induction 1 as [|i d idx sh Hi Hr IH]; [reflexivity|].
  cbn [ravel unravel]. pose proof (ravel_lt _ _ Hr) as Hlt.
  rewrite div_pair, mod_pair by lia. rewrite IH. reflexivity.
Qed.

Lemma ravel_inj sh i j : inr i sh -> inr j sh -> ravel sh i = ravel sh j -> i = j.
Proof.
  intros Hi Hj E. rewrite <- (unravel_ravel sh i Hi), <- (unravel_ravel sh j Hj), E. reflexivity.
Qed.

Lemma unravel_app s1 s2 n :
  n < size s1 * size s2 -> unravel (s1 ++ s2) n = unravel s1 (n / size s2) ++ unravel s2 (n mod size s2).
Proof.
  intros Hn.
  assert (H2 : 0 < size s2) by nia.
  assert (Hq : n / size s2 < size s1) by (apply Nat.div_lt_upper_bound; lia).
  assert (Hm : n mod size s2 < size s2) by (apply Nat.mod_upper_bound; lia).
  apply (ravel_inj (s1 ++ s2)).
  - apply unravel_inr. rewrite size_app. lia.
  - apply inr_app; apply unravel_inr; assumption.
  - rewrite ravel_unravel by (rewrite size_app; lia).
    rewrite ravel_app by (apply unravel_inr; assumption).
    rewrite !ravel_unravel by assumption.
    rewrite (Nat.div_mod n (size s2)) at 1 by lia. lia.
Qed.

(** ** Sums over multi-indices *)
Section MSum.
Context {K : StarRing}.
Add Ring Kr : (k_ring K).
Local Open Scope K_scope.

Fixpoint msum (sh : list nat) (f : list nat -> K) : K :=
  match sh with
  | [] => f []
  | d :: sh' => bigsum d (fun i => msum sh' (fun idx => f (i :: idx)))
  end.

Lemma msum_ext sh f g : (forall idx, inr idx sh -> f idx = g idx) -> msum sh f = msum sh g.
Proof.
  revert f g; induction sh as [|d sh IH]; intros f g H; cbn.
  - apply H. constructor.
  - apply bigsum_ext. intros i Hi. apply IH. intros idx Hidx. apply H. constructor; assumption.
Qed.

Lemma msum_flat sh f : msum sh f = bigsum (size sh) (fun n => f (unravel sh n)).
Proof.
  revert f; induction sh as [|d sh IH]; intros f.
  - rewrite size_nil. cbn. ring.
  - cbn [msum]. rewrite size_cons, bigsum_prod. apply bigsum_ext. intros i Hi.
    rewrite IH. apply bigsum_ext. intros j Hj. cbn [unravel].
    rewrite div_pair, mod_pair by lia. reflexivity.
Qed.

Lemma msum_app s1 s2 f :
  msum (s1 ++ s2) f = msum s1 (fun i => msum s2 (fun j => f (i ++ j))).
Proof.
  revert f; induction s1 as [|d s1 IH]; intros f; [reflexivity|].
  cbn. apply bigsum_ext. intros i Hi. rewrite IH. reflexivity.
Qed.

Lemma msum_zero sh f : (forall idx, inr idx sh -> f idx = 0) -> msum sh f = 0.
Proof.
  revert f; induction sh as [|d sh IH]; intros f H; cbn.
  - apply H. constructor.
  - apply bigsum_zero. intros i Hi. apply IH. intros idx Hidx. apply H. constructor; assumption.
Qed.

Lemma msum_add sh f g : msum sh (fun i => f i + g i) = msum sh f + msum sh g.
Proof.
  revert f g; induction sh as [|d sh IH]; intros f g; cbn; [reflexivity|].
  rewrite <- bigsum_add. apply bigsum_ext. intros i _. apply IH.
Qed.

Lemma msum_sub sh f g : msum sh (fun i => f i - g i) = msum sh f - msum sh g.
Proof.
  revert f g; induction sh as [|d sh IH]; intros f g; cbn; [reflexivity|].
  rewrite <- bigsum_sub. apply bigsum_ext. intros i _. apply IH.
Qed.

Lemma msum_mul_l sh c f : msum sh (fun i => c * f i) = c * msum sh f.
Proof.
  revert f; induction sh as [|d sh IH]; intros f; cbn; [reflexivity|].
  rewrite <- bigsum_mul_l. apply bigsum_ext. intros i _. apply IH.
Qed.

Lemma msum_mul_r sh c f : msum sh (fun i => f i * c) = msum sh f * c.
Proof.
  revert f; induction sh as [|d sh IH]; intros f; cbn; [reflexivity|].
  rewrite <- bigsum_mul_r. apply bigsum_ext. intros i _. apply IH.
Qed.

Lemma msum_conj sh f : kconj (msum sh f) = msum sh (fun i => kconj (f i)).
Proof.
  revert f; induction sh as [|d sh IH]; intros f; cbn; [reflexivity|].
  rewrite bigsum_conj. apply bigsum_ext. intros i _. apply IH.
Qed.

Lemma msum_bigsum_swap sh n f :
  msum sh (fun i => bigsum n (fun k => f i k)) = bigsum n (fun k => msum sh (fun i => f i k)).
Proof.
  revert f; induction sh as [|d sh IH]; intros f; cbn; [reflexivity|].
  rewrite bigsum_swap. apply bigsum_ext. intros i _. apply IH.
Qed.

Lemma msum_swap s1 s2 f :
  msum s1 (fun i => msum s2 (fun j => f i j)) = msum s2 (fun j => msum s1 (fun i => f i j)).
Proof.
  revert f; induction s1 as [|d s1 IH]; intros f; cbn; [reflexivity|].
  rewrite msum_bigsum_swap. apply bigsum_ext. intros i _. apply IH.
Qed.

Lemma msum_single sh k f :
  inr k sh -> (forall i, inr i sh -> i <> k -> f i = 0) -> msum sh f = f k.
Proof.
  intros Hk; revert f; induction Hk as [|i d k sh Hi Hk IH]; intros f H; [reflexivity|].
  cbn [msum]. rewrite (bigsum_single d i); [|exact Hi|].
  - apply IH. intros j Hj Hne. apply H; [constructor; assumption|congruence].
  - intros j Hj Hne. apply msum_zero. intros idx Hidx. apply H; [constructor; assumption|congruence].
Qed.

End MSum.

(** ** Gathering and scattering axes *)
Definition gather (axes l : list nat) : list nat := map (fun k => nth k l 0) axes.

Fixpoint find_pos (k : nat) (l : list nat) : nat :=
  match l with
  | [] => 0
  | x :: l' => if Nat.eqb k x then 0 else S (find_pos k l')
  end.

(** [scatter axes idx] is the list [j] with [j[axes[k]] = idx[k]]. *)
Definition scatter (axes idx : list nat) : list nat :=
  map (fun k => nth (find_pos k axes) idx 0) (seq 0 (length axes)).

Definition memb (k : nat) (l : list nat) : bool := existsb (Nat.eqb k) l.

(** Axes of [range(n)] that are not in [axes], ascending. *)
Definition freeaxes (n : nat) (axes : list nat) : list nat :=
  filter (fun k => negb (memb k axes)) (seq 0 n).

Definition is_perm (axes : list nat) : Prop := Permutation axes (seq 0 (length axes)).

Lemma memb_iff k l : memb k l = true <-> In k l.
Proof.
  unfold memb. rewrite existsb_exists. split.
  - intros [x [Hx E]]. apply Nat.eqb_eq in E. subst. exact Hx.
  - intros H. exists k. split; [exact H|apply Nat.eqb_refl].
Qed.

Lemma memb_false_iff k l : memb k l = false <-> ~ In k l.
Proof. rewrite <- memb_iff. destruct (memb k l); split; intro H; congruence || (exfalso; apply H; reflexivity). Qed.

Lemma gather_length axes l : length (gather axes l) = length axes.
Proof. apply map_length. Qed.

Lemma gather_app a1 a2 l : gather (a1 ++ a2) l = gather a1 l ++ gather a2 l.
Proof. apply map_app. Qed.

Lemma scatter_length axes idx : length (scatter axes idx) = length axes.
Proof. unfold scatter. rewrite map_length, seq_length. reflexivity. Qed.

Lemma find_pos_lt k l : In k l -> find_pos k l < length l.
Proof.
  induction l as [|x l IH]; cbn; [tauto|]. intros H.
  destruct (Nat.eqb_spec k x) as [->|Hne]; [lia|].
  destruct H as [->|H]; [congruence|]. specialize (IH H). lia.
Qed.

Lemma find_pos_nth k l : In k l -> nth (find_pos k l) l 0 = k.
Proof.
  induction l as [|x l IH]; cbn; [tauto|]. intros H.
  destruct (Nat.eqb_spec k x) as [->|Hne]; [reflexivity|].
  destruct H as [->|H]; [congruence|]. apply IH; exact H.
Qed.

Lemma find_pos_nodup l i : NoDup l -> i < length l -> find_pos (nth i l 0) l = i.
Proof.
  intros Hnd; revert i; induction Hnd as [|x l Hx Hnd IH]; intros i Hi; cbn in Hi; [lia|].
  destruct i as [|i]; cbn.
  - rewrite Nat.eqb_refl. reflexivity.
  - destruct (Nat.eqb_spec (nth i l 0) x) as [E|Hne].
    + exfalso. apply Hx. rewrite <- E. apply nth_In. lia.
    + f_equal. apply IH. lia.
Qed.

Lemma is_perm_nodup axes : is_perm axes -> NoDup axes.
Proof. intros H. eapply Permutation_NoDup; [apply Permutation_sym; exact H|apply seq_NoDup]. Qed.

Lemma is_perm_in axes k : is_perm axes -> (In k axes <-> k < length axes).
Proof.
  intros H. split; intro Hk.
  - eapply Permutation_in in Hk; [|exact H]. apply in_seq in Hk. lia.
  - eapply Permutation_in; [apply Permutation_sym; exact H|]. apply in_seq. lia.
Qed.

Lemma nth_map0 (A : Type) (f : A -> nat) (d : A) l i :
  i < length l -> nth i (map f l) 0 = f (nth i l d).
Proof. intros Hi. rewrite (nth_indep _ 0 (f d)) by (rewrite map_length; exact Hi). apply map_nth. Qed.

Lemma scatter_gather axes l : is_perm axes -> length l = length axes -> scatter axes (gather axes l) = l.
Proof.
  intros Hp Hl. apply (nth_ext _ _ 0 0); [rewrite scatter_length; auto|].
  intros i Hi. rewrite scatter_length in Hi. unfold scatter.
  rewrite (nth_map0 nat _ 0) by (rewrite seq_length; exact Hi).
  rewrite seq_nth by exact Hi. cbn [Nat.add].
  assert (Hin : In i axes) by (apply is_perm_in; assumption).
  unfold gather. rewrite (nth_map0 nat _ 0) by (apply find_pos_lt; exact Hin).
  rewrite find_pos_nth by exact Hin. reflexivity.
Qed.

Lemma gather_scatter axes idx : is_perm axes -> length idx = length axes -> gather axes (scatter axes idx) = idx.
Proof.
  intros Hp Hl. apply (nth_ext _ _ 0 0); [rewrite gather_length; auto|].
  intros i Hi. rewrite gather_length in Hi. unfold gather.
  rewrite (nth_map0 nat _ 0) by exact Hi.
  assert (Hin : In (nth i axes 0) axes) by (apply nth_In; exact Hi).
  apply is_perm_in in Hin; [|exact Hp].
  unfold scatter. rewrite (nth_map0 nat _ 0) by (rewrite seq_length; exact Hin).
  rewrite seq_nth by exact Hin. cbn [Nat.add].
  rewrite find_pos_nodup; [reflexivity|apply is_perm_nodup; exact Hp|exact Hi].
Qed.

Lemma gather_inr axes idx sh :
  inr idx sh -> (forall k, In k axes -> k < length sh) -> inr (gather axes idx) (gather axes sh).
Proof.
  intros H Hax. unfold gather. induction axes as [|k axes IH]; cbn; [constructor|].
  constructor.
  - specialize (Hax k (or_introl eq_refl)).
    revert k Hax. clear IH. induction H as [|i d idx sh Hi Hr IH]; intros k Hk; cbn in Hk; [lia|].
    destruct k; cbn; [exact Hi|apply IH; lia].
  - apply IH. intros k' Hk'. apply Hax. right; exact Hk'.
Qed.

Lemma scatter_inr axes idx sh :
  is_perm axes -> length sh = length axes -> inr idx (gather axes sh) -> inr (scatter axes idx) sh.
Proof.
  intros Hp Hl H.
  pose proof (inr_length _ _ H) as HL. rewrite gather_length in HL.
  unfold inr in *.
  assert (Hg : forall i, i < length axes -> nth i (scatter axes idx) 0 < nth i sh 0).
  { intros i Hi. unfold scatter.
    rewrite (nth_map0 nat _ 0) by (rewrite seq_length; exact Hi).
    rewrite seq_nth by exact Hi. cbn [Nat.add].
    assert (Hin : In i axes) by (apply is_perm_in; assumption).
    pose proof (find_pos_lt _ _ Hin) as Hlt.
    assert (Hn : forall p (a b : list nat), Forall2 lt a b -> p < length a -> nth p a 0 < nth p b 0).
    { clear. intros p a b HF. revert p. induction HF as [|x y a b Hxy HF IH]; intros p Hp; cbn in Hp; [lia|].
      destruct p; cbn; [exact Hxy|apply IH; lia]. }
    specialize (Hn (find_pos i axes) _ _ H).
    rewrite HL in Hn. specialize (Hn Hlt).
    unfold gather in Hn. rewrite (nth_map0 nat _ 0) in Hn by exact Hlt.
    rewrite find_pos_nth in Hn by exact Hin. exact Hn. }
  assert (Hl2 : length (scatter axes idx) = length sh) by (rewrite scatter_length; auto).
  rewrite <- Hl in Hg.
  revert Hl2 Hg. generalize (scatter axes idx). intros a. clear.
  revert a; induction sh as [|d sh IH]; intros a Hl Hg; destruct a as [|x a]; cbn in Hl; try lia; constructor.
  - apply (Hg 0). cbn. lia.
  - apply IH; [lia|]. intros i Hi. apply (Hg (S i)). cbn. lia.
Qed.

Lemma gather_seq_mid a b c : gather (seq (length a) (length b)) (a ++ b ++ c) = b.
Proof.
  unfold gather.
  apply (nth_ext _ _ 0 0); [rewrite map_length, seq_length; reflexivity|].
  intros i Hi. rewrite map_length, seq_length in Hi.
  rewrite (nth_map0 nat _ 0) by (rewrite seq_length; exact Hi).
  rewrite seq_nth by exact Hi.
  rewrite app_nth2 by lia. rewrite app_nth1 by lia. f_equal. lia.
Qed.

Lemma gather_seq_mid' n m a b c :
  length a = n -> length b = m -> gather (seq n m) (a ++ b ++ c) = b.
Proof. intros <- <-. apply gather_seq_mid. Qed.

Lemma gather_seq0 l : gather (seq 0 (length l)) l = l.
Proof. rewrite <- (app_nil_r l) at 2. apply (gather_seq_mid [] l []). Qed.

Lemma gather_seq0' n l : length l = n -> gather (seq 0 n) l = l.
Proof. intros <-. apply gather_seq0. Qed.

Lemma gather_nil l : gather [] l = [].
Proof. reflexivity. Qed.

Lemma gather_one k l : gather [k] l = [nth k l 0].
Proof. reflexivity. Qed.

Lemma is_perm_seq n : is_perm (seq 0 n).
Proof. unfold is_perm. rewrite seq_length. apply Permutation_refl. Qed.

Lemma scatter_unique axes l idx :
  is_perm axes -> length l = length axes -> gather axes l = idx -> scatter axes idx = l.
Proof. intros Hp Hl <-. apply scatter_gather; assumption. Qed.

Lemma gather_perm axes sh : is_perm axes -> length sh = length axes -> Permutation (gather axes sh) sh.
Proof.
  intros Hp Hl. rewrite <- (gather_seq0 sh) at 2. rewrite Hl. unfold gather. apply Permutation_map. exact Hp.
Qed.

Lemma filter_perm_partition (A : Type) (p : A -> bool) l :
  Permutation l (filter (fun x => negb (p x)) l ++ filter p l).
Proof.
  induction l as [|x l IH]; cbn; [constructor|].
  destruct (p x); cbn.
  - eapply perm_trans; [apply perm_skip; exact IH|]. apply Permutation_middle.
  - apply perm_skip. exact IH.
Qed.

Lemma freeaxes_perm n axes :
  NoDup axes -> (forall k, In k axes -> k < n) -> Permutation (freeaxes n axes ++ axes) (seq 0 n).
Proof.
  intros Hnd Hlt.
  eapply perm_trans; [|apply Permutation_sym; apply (filter_perm_partition _ (fun k => memb k axes))].
  unfold freeaxes. apply Permutation_app_head.
  apply NoDup_Permutation; [exact Hnd|apply NoDup_filter; apply seq_NoDup|].
  intros k. rewrite filter_In, in_seq, memb_iff. specialize (Hlt k). intuition lia.
Qed.

Lemma freeaxes_in n axes k : In k (freeaxes n axes) <-> k < n /\ ~ In k axes.
Proof.
  unfold freeaxes. rewrite filter_In, in_seq, negb_true_iff, memb_false_iff. intuition lia.
Qed.

Lemma freeaxes_length n axes :
  NoDup axes -> (forall k, In k axes -> k < n) -> length (freeaxes n axes) = n - length axes.
Proof.
  intros Hnd Hlt. pose proof (freeaxes_perm n axes Hnd Hlt) as H.
  apply Permutation_length in H. rewrite app_length, seq_length in H. lia.
Qed.

Lemma freeaxes_is_perm n axes :
  NoDup axes -> (forall k, In k axes -> k < n) -> is_perm (freeaxes n axes ++ axes).
Proof.
  intros Hnd Hlt. unfold is_perm.
  pose proof (freeaxes_perm n axes Hnd Hlt) as H.
  pose proof (Permutation_length H) as HL. rewrite seq_length in HL. rewrite HL. exact H.
Qed.

Lemma freeaxes_is_perm' n axes :
  NoDup axes -> (forall k, In k axes -> k < n) -> is_perm (axes ++ freeaxes n axes).
Proof.
  intros Hnd Hlt. pose proof (freeaxes_is_perm n axes Hnd Hlt) as H. unfold is_perm in *.
  rewrite app_length in *. rewrite Nat.add_comm.
  eapply perm_trans; [apply Permutation_app_comm|exact H].
Qed.

(** Splitting a multi-index of a concatenated shape into site indices. *)
Lemma inr_concat_inv idx shs :
  inr idx (concat shs) -> exists idxs, idx = concat idxs /\ Forall2 inr idxs shs.
Proof.
  revert idx; induction shs as [|sh shs IH]; intros idx H.
  - apply inr_nil_inv in H. subst. exists []. split; [reflexivity|constructor].
  - cbn in H. apply inr_app_inv in H. destruct H as [i1 [i2 [-> [H1 H2]]]].
    destruct (IH _ H2) as [idxs [-> HF]]. exists (i1 :: idxs). split; [reflexivity|].
    constructor; assumption.
Qed.

Lemma inr_concat idxs shs : Forall2 inr idxs shs -> inr (concat idxs) (concat shs).
Proof.
  induction 1 as [|i sh idxs shs Hi HF IH]; cbn; [constructor|]. apply inr_app; assumption.
Qed.
