(** Change of variables in sums over multi-indices. *)
From Verif Require Export PfDots.

Definition idxs (sh : list nat) : list (list nat) := map (unravel sh) (seq 0 (size sh)).

Lemma in_idxs sh i : In i (idxs sh) <-> inr i sh.
Proof.
  unfold idxs. rewrite in_map_iff. split.
  - intros [n [<- Hn]]. apply in_seq in Hn. apply unravel_inr. lia.
  - intros H. exists (ravel sh i). split; [apply unravel_ravel; exact H|]. apply in_seq. pose proof (ravel_lt _ _ H). lia.
Qed.

Lemma nodup_idxs sh : NoDup (idxs sh).
Proof.
  unfold idxs. apply NoDup_nth with (d := unravel sh 0). rewrite map_length, seq_length. intros i j Hi Hj E.
  rewrite (map_nth (unravel sh) (seq 0 (size sh)) 0), (map_nth (unravel sh) (seq 0 (size sh)) 0) in E.
  rewrite !seq_nth in E by assumption. cbn in E.
  rewrite <- (ravel_unravel sh i Hi), <- (ravel_unravel sh j Hj), E. reflexivity.
Qed.

Lemma NoDup_map_inj2 (A B : Type) (f : A -> B) l :
  (forall x y, In x l -> In y l -> f x = f y -> x = y) -> NoDup l -> NoDup (map f l).
Proof.
  intros H Hd. induction Hd as [|x l Hx Hd IH]; [constructor|]. cbn. constructor.
  - rewrite in_map_iff. intros [y [E Hy]]. apply H in E; [subst; contradiction|right; exact Hy|left; reflexivity].
  - apply IH. intros a b Ha Hb. apply H; right; assumption.
Qed.

Section Reindex.
Context {K : StarRing}.
Add Ring Kr : (k_ring K).

Definition lsum (l : list K) : K := fold_right kadd k0 l.

Lemma lsum_app l m : lsum (l ++ m) = (lsum l + lsum m)%K.
Proof. unfold lsum. induction l as [|x l IH]; cbn [app fold_right]; [ring|]. rewrite IH. ring. Qed.

Lemma lsum_perm l m : Permutation l m -> lsum l = lsum m.
Proof. intros H. unfold lsum. induction H; cbn [fold_right]; try congruence; ring. Qed.

Lemma bigsum_lsum n (f : nat -> K) : bigsum n f = lsum (map f (seq 0 n)).
Proof.
  induction n as [|n IH]; [reflexivity|]. rewrite seq_S, map_app, lsum_app. cbn [bigsum Nat.add map]. rewrite IH. unfold lsum at 3. cbn [fold_right]. ring.
Qed.

Lemma msum_lsum sh (f : list nat -> K) : msum sh f = lsum (map f (idxs sh)).
Proof. rewrite msum_flat, bigsum_lsum. unfold idxs. rewrite map_map. reflexivity. Qed.

Lemma msum_reindex s1 s2 (phi psi : list nat -> list nat) (f : list nat -> K) :
  (forall i, inr i s1 -> inr (phi i) s2 /\ psi (phi i) = i) ->
  (forall j, inr j s2 -> inr (psi j) s1 /\ phi (psi j) = j) ->
  msum s2 f = msum s1 (fun i => f (phi i)).
Proof.
  intros H1 H2. rewrite !msum_lsum. rewrite <- (map_map phi f). apply lsum_perm. apply Permutation_map.
  apply NoDup_Permutation; [apply nodup_idxs| |].
  - apply NoDup_map_inj2; [|apply nodup_idxs].
    intros x y Hx Hy E. apply in_idxs in Hx, Hy. rewrite <- (proj2 (H1 x Hx)), <- (proj2 (H1 y Hy)), E. reflexivity.
  - intros j. rewrite in_idxs, in_map_iff. split.
    + intros Hj. exists (psi j). destruct (H2 j Hj). split; [assumption|]. apply in_idxs; assumption.
    + intros [i [<- Hi]]. apply in_idxs in Hi. apply H1; exact Hi.
Qed.

(** Permuting the axes of the summation index. *)
Lemma msum_gather axes sh (f : list nat -> K) : is_perm axes -> length sh = length axes ->
  msum (gather axes sh) f = msum sh (fun i => f (gather axes i)).
Proof.
  intros P L. apply (msum_reindex _ _ _ (scatter axes)).
  - intros i Hi. split.
    + apply gather_inr; [exact Hi|]. intros k Hk. apply is_perm_in in Hk; [lia|exact P].
    + apply scatter_gather; [exact P|]. rewrite (inr_length _ _ Hi). exact L.
  - intros j Hj. split.
    + apply scatter_inr; assumption.
    + apply gather_scatter; [exact P|]. rewrite (inr_length _ _ Hj), gather_length. reflexivity.
Qed.

(** Same row-major positions. *)
Lemma msum_ravel s1 s2 (f : list nat -> K) : size s1 = size s2 ->
  msum s2 f = msum s1 (fun i => f (unravel s2 (ravel s1 i))).
Proof.
  intros E. apply (msum_reindex _ _ _ (fun j => unravel s1 (ravel s2 j))).
  - intros i Hi. pose proof (ravel_lt _ _ Hi). split; [apply unravel_inr; lia|].
    rewrite ravel_unravel by lia. apply unravel_ravel; exact Hi.
  - intros j Hj. pose proof (ravel_lt _ _ Hj). split; [apply unravel_inr; lia|].
    rewrite ravel_unravel by lia. apply unravel_ravel; exact Hj.
Qed.

End Reindex.
