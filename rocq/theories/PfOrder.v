(** Global and local index order (array_transforms.py 14-81). *)
From Verif Require Export PfShape.

(** ** Two mutually inverse functions on axis numbers *)
Definition g2l_axis (s p left right k : nat) : nat :=
  if Nat.ltb k left then k else if Nat.ltb k (left + s * p) then left + (k - left) / p + s * ((k - left) mod p) else k.
Definition l2g_axis (s p left right k : nat) : nat :=
  if Nat.ltb k left then k else if Nat.ltb k (left + s * p) then left + p * ((k - left) mod s) + (k - left) / s else k.

Lemma nth_flat_block (f : nat -> list nat) p : 0 < p -> (forall i, length (f i) = p) -> forall s a m, m < s * p ->
  nth m (flat_map f (seq a s)) 0 = nth (m mod p) (f (a + m / p)) 0.
Proof.
  intros Hp Hl. induction s as [|s IH]; intros a m Hm; [lia|]. cbn [seq flat_map].
  destruct (Nat.lt_ge_cases m p) as [H|H].
  - rewrite app_nth1 by (rewrite Hl; exact H). rewrite Nat.mod_small, Nat.div_small, Nat.add_0_r by exact H. reflexivity.
  - rewrite app_nth2 by (rewrite Hl; exact H). rewrite Hl, IH by (cbn in Hm; lia).
    assert (E : m = (m - p) + 1 * p) by lia. rewrite E at 3 4. rewrite Nat.mod_add, Nat.div_add by lia. f_equal. f_equal. lia.
Qed.

Lemma flat_block_length (f : nat -> list nat) p : (forall i, length (f i) = p) -> forall s a, length (flat_map f (seq a s)) = s * p.
Proof. intros Hl. induction s as [|s IH]; intros a; [reflexivity|]. cbn [seq flat_map]. rewrite app_length, Hl, IH. reflexivity. Qed.

Lemma order_nth (f : nat -> list nat) p s left right n : (forall i, length (f i) = p) -> n = left + s * p + right ->
  length (seq 0 left ++ flat_map f (seq 0 s) ++ seq (n - right) right) = n /\
  forall k, k < n -> nth k (seq 0 left ++ flat_map f (seq 0 s) ++ seq (n - right) right) 0 =
    if Nat.ltb k left then k else if Nat.ltb k (left + s * p) then nth ((k - left) mod p) (f ((k - left) / p)) 0 else k.
Proof.
  intros Hl E. split; [rewrite !app_length, !seq_length, (flat_block_length f p Hl); lia|]. intros k Hk.
  destruct (Nat.ltb_spec k left).
  - rewrite app_nth1 by (rewrite seq_length; lia). apply seq_nth; lia.
  - rewrite app_nth2 by (rewrite seq_length; lia). rewrite seq_length. destruct (Nat.ltb_spec k (left + s * p)).
    + rewrite app_nth1 by (rewrite (flat_block_length f p Hl); lia).
      destruct (Nat.eq_dec p 0) as [->|Hp]; [lia|]. rewrite (nth_flat_block f p) by (auto; lia). reflexivity.
    + rewrite app_nth2 by (rewrite (flat_block_length f p Hl); lia). rewrite (flat_block_length f p Hl), seq_nth by lia. lia.
Qed.

Lemma mix_lt a b c d : a < c -> b < d -> a + c * b < c * d.
Proof. intros Ha Hb. assert (c * S b <= c * d) by (apply Nat.mul_le_mono_l; lia). rewrite Nat.mul_succ_r in H. lia. Qed.
Lemma nth_gather axes l k : k < length axes -> nth k (gather axes l) 0 = nth (nth k axes 0) l 0.
Proof. intros H. unfold gather. rewrite (nth_map0 _ _ 0) by exact H. reflexivity. Qed.

Section Order.
Variables n s left right p : nat.
Hypothesis Hn : n = left + s * p + right.
Hypothesis Hs : 0 < s.

Lemma plegs_eq : (n - (left + right)) / s = p.
Proof. rewrite Hn. replace (left + s * p + right - (left + right)) with (p * s) by lia. apply Nat.div_mul. lia. Qed.
Lemma plegs_mod : (n - (left + right)) mod s = 0.
Proof. rewrite Hn. replace (left + s * p + right - (left + right)) with (p * s) by lia. apply Nat.mod_mul. lia. Qed.

Lemma g2l_nth : length (g2l_order n s left right) = n /\ forall k, k < n -> nth k (g2l_order n s left right) 0 = g2l_axis s p left right k.
Proof.
  unfold g2l_order. rewrite plegs_eq.
  destruct (order_nth (fun i => map (fun j => left + i + s * j) (seq 0 p)) p s left right n) as [H1 H2];
    [intros; rewrite map_length, seq_length; reflexivity|exact Hn|]. split; [exact H1|]. intros k Hk. rewrite H2 by exact Hk.
  unfold g2l_axis. destruct (Nat.ltb_spec k left); [reflexivity|]. destruct (Nat.ltb_spec k (left + s * p)); [|reflexivity].
  assert (p <> 0) by (intros ->; lia). rewrite (nth_map0 _ _ 0) by (rewrite seq_length; apply Nat.mod_upper_bound; lia).
  rewrite seq_nth by (apply Nat.mod_upper_bound; lia). reflexivity.
Qed.
Lemma l2g_nth : length (l2g_order n s left right) = n /\ forall k, k < n -> nth k (l2g_order n s left right) 0 = l2g_axis s p left right k.
Proof.
  unfold l2g_order. rewrite plegs_eq.
  destruct (order_nth (fun j => map (fun i => left + p * i + j) (seq 0 s)) s p left right n) as [H1 H2];
    [intros; rewrite map_length, seq_length; reflexivity|rewrite (Nat.mul_comm p s); exact Hn|]. split; [exact H1|]. intros k Hk. rewrite H2 by exact Hk.
  unfold l2g_axis. destruct (k <? left); [reflexivity|]. rewrite (Nat.mul_comm p s). destruct (Nat.ltb_spec k (left + s * p)); [|reflexivity].
  rewrite (nth_map0 _ _ 0) by (rewrite seq_length; apply Nat.mod_upper_bound; lia).
  rewrite seq_nth by (apply Nat.mod_upper_bound; lia). reflexivity.
Qed.


Lemma g2l_axis_lt k : k < n -> g2l_axis s p left right k < n.
Proof.
  intros Hk. unfold g2l_axis. destruct (Nat.ltb_spec k left); [exact Hk|]. destruct (Nat.ltb_spec k (left + s * p)); [|exact Hk].
  assert (p <> 0) by (intros ->; lia).
  pose proof (mix_lt ((k - left) / p) ((k - left) mod p) s p) as M.
  specialize (M ltac:(apply Nat.div_lt_upper_bound; lia) ltac:(apply Nat.mod_upper_bound; lia)). lia.
Qed.
Lemma l2g_axis_lt k : k < n -> l2g_axis s p left right k < n.
Proof.
  intros Hk. unfold l2g_axis. destruct (Nat.ltb_spec k left); [exact Hk|]. destruct (Nat.ltb_spec k (left + s * p)); [|exact Hk].
  pose proof (mix_lt ((k - left) / s) ((k - left) mod s) p s) as M.
  specialize (M ltac:(apply Nat.div_lt_upper_bound; lia) ltac:(apply Nat.mod_upper_bound; lia)). lia.
Qed.

Lemma g2l_l2g_axis k : k < n -> g2l_axis s p left right (l2g_axis s p left right k) = k.
Proof.
  intros Hk. unfold l2g_axis. destruct (Nat.ltb_spec k left) as [H|H]; [unfold g2l_axis; destruct (Nat.ltb_spec k left); lia|].
  destruct (Nat.ltb_spec k (left + s * p)) as [H'|H'].
  2:{ unfold g2l_axis. destruct (Nat.ltb_spec k left); [lia|]. destruct (Nat.ltb_spec k (left + s * p)); lia. }
  set (m := k - left). assert (Hm : m < s * p) by (unfold m; lia).
  assert (Hp : p <> 0) by (intros ->; lia).
  assert (Hq : m / s < p) by (apply Nat.div_lt_upper_bound; lia).
  assert (Hr : m mod s < s) by (apply Nat.mod_upper_bound; lia).
  pose proof (mix_lt (m / s) (m mod s) p s Hq Hr) as M.
  unfold g2l_axis. destruct (Nat.ltb_spec (left + p * (m mod s) + m / s) left); [lia|].
  destruct (Nat.ltb_spec (left + p * (m mod s) + m / s) (left + s * p)); [|lia].
  replace (left + p * (m mod s) + m / s - left) with (m / s + (m mod s) * p) by lia.
  rewrite Nat.div_add, Nat.mod_add by exact Hp. rewrite (Nat.div_small (m / s)), (Nat.mod_small (m / s)) by exact Hq.
  pose proof (Nat.div_mod m s ltac:(lia)). unfold m in *. lia.
Qed.
Lemma l2g_g2l_axis k : k < n -> l2g_axis s p left right (g2l_axis s p left right k) = k.
Proof.
  intros Hk. unfold g2l_axis. destruct (Nat.ltb_spec k left) as [H|H]; [unfold l2g_axis; destruct (Nat.ltb_spec k left); lia|].
  destruct (Nat.ltb_spec k (left + s * p)) as [H'|H'].
  2:{ unfold l2g_axis. destruct (Nat.ltb_spec k left); [lia|]. destruct (Nat.ltb_spec k (left + s * p)); lia. }
  set (m := k - left). assert (Hm : m < s * p) by (unfold m; lia).
  assert (Hp : p <> 0) by (intros ->; lia).
  assert (Hq : m / p < s) by (apply Nat.div_lt_upper_bound; lia).
  assert (Hr : m mod p < p) by (apply Nat.mod_upper_bound; lia).
  pose proof (mix_lt (m / p) (m mod p) s p Hq Hr) as M.
  unfold l2g_axis. destruct (Nat.ltb_spec (left + m / p + s * (m mod p)) left); [lia|].
  destruct (Nat.ltb_spec (left + m / p + s * (m mod p)) (left + s * p)); [|lia].
  replace (left + m / p + s * (m mod p) - left) with (m / p + (m mod p) * s) by lia.
  rewrite Nat.div_add, Nat.mod_add by lia. rewrite (Nat.div_small (m / p)), (Nat.mod_small (m / p)) by exact Hq.
  pose proof (Nat.div_mod m p Hp). unfold m in *. lia.
Qed.

Lemma inverse_perm (o : list nat) (phi psi : nat -> nat) : length o = n -> (forall k, k < n -> nth k o 0 = phi k) ->
  (forall k, k < n -> phi k < n) -> (forall k, k < n -> psi (phi k) = k) -> is_perm o.
Proof.
  intros L N B I. unfold is_perm. apply NoDup_Permutation_bis.
  - rewrite (NoDup_nth o 0). intros i j Hi Hj E. rewrite L in *. rewrite !N in E by assumption. rewrite <- (I i), <- (I j), E by assumption. reflexivity.
  - rewrite seq_length. lia.
  - intros k Hk. apply (In_nth _ _ 0) in Hk. destruct Hk as [i [Hi E]]. rewrite L in *. apply in_seq. rewrite <- E, N by exact Hi. specialize (B i Hi). lia.
Qed.
Lemma g2l_perm : is_perm (g2l_order n s left right).
Proof. destruct g2l_nth as [H1 H2]. apply (inverse_perm _ _ _ H1 H2 g2l_axis_lt l2g_g2l_axis). Qed.
Lemma l2g_perm : is_perm (l2g_order n s left right).
Proof. destruct l2g_nth as [H1 H2]. apply (inverse_perm _ _ _ H1 H2 l2g_axis_lt g2l_l2g_axis). Qed.

Lemma gather_l2g_g2l l : length l = n -> gather (l2g_order n s left right) (gather (g2l_order n s left right) l) = l.
Proof.
  intros L. destruct g2l_nth as [G1 G2]. destruct l2g_nth as [L1 L2].
  apply (nth_ext _ _ 0 0); [rewrite gather_length; lia|]. intros k Hk. rewrite gather_length, L1 in Hk.
  rewrite nth_gather by lia. rewrite L2 by exact Hk. rewrite nth_gather by (rewrite G1; apply l2g_axis_lt; exact Hk).
  rewrite G2 by (apply l2g_axis_lt; exact Hk). rewrite g2l_l2g_axis by exact Hk. reflexivity.
Qed.
Lemma gather_g2l_l2g l : length l = n -> gather (g2l_order n s left right) (gather (l2g_order n s left right) l) = l.
Proof.
  intros L. destruct g2l_nth as [G1 G2]. destruct l2g_nth as [L1 L2].
  apply (nth_ext _ _ 0 0); [rewrite gather_length; lia|]. intros k Hk. rewrite gather_length, G1 in Hk.
  rewrite nth_gather by lia. rewrite G2 by exact Hk. rewrite nth_gather by (rewrite L1; apply g2l_axis_lt; exact Hk).
  rewrite L2 by (apply g2l_axis_lt; exact Hk). rewrite l2g_g2l_axis by exact Hk. reflexivity.
Qed.
End Order.

Section OrderNd.
Context {K : StarRing}.

Lemma transpose_transpose (a : nd K) o1 o2 : ndwf a -> is_perm o1 -> is_perm o2 -> length o1 = ndim a -> length o2 = ndim a ->
  (forall l, length l = ndim a -> gather o2 (gather o1 l) = l) -> transpose (transpose a o1) o2 = a.
Proof.
  intros Hw P1 P2 L1 L2 I.
  assert (E : shp (transpose (transpose a o1) o2) = shp a) by (rewrite !shp_transpose; apply I; reflexivity).
  apply nd_eq; [apply wf_transpose|exact Hw|exact E|]. rewrite E. intros idx Hi.
  assert (Li := inr_length _ _ Hi). change (length (shp a)) with (ndim a) in Li.
  rewrite <- (I idx Li) at 1. rewrite get_transpose_gather.
  - apply get_transpose_gather; auto.
  - exact P2.
  - unfold ndim. rewrite shp_transpose, gather_length. lia.
  - rewrite shp_transpose. apply gather_inr; [exact Hi|]. intros k Hk. apply (is_perm_in o1 k P1) in Hk. unfold ndim in L1. lia.
Qed.

(** [A[L, i_1..i_s, j_1..j_s, ..., R]] becomes [A[L, i_1, j_1, ..., i_2, j_2, ..., R]]. *)
Theorem global_to_local_spec (a : nd K) s p left right : ndwf a -> 0 < s -> ndim a = left + s * p + right ->
  exists b, global_to_local a s left right = Ok b /\ ndwf b /\ ndim b = ndim a /\
    local_to_global b s left right = Ok a /\
    (forall idx, inr idx (shp a) -> exists idx', inr idx' (shp b) /\ get b idx' = get a idx /\
       (forall k, k < left -> nth k idx' 0 = nth k idx 0) /\
       (forall i j, i < s -> j < p -> nth (left + i * p + j) idx' 0 = nth (left + j * s + i) idx 0) /\
       (forall k, k < right -> nth (left + s * p + k) idx' 0 = nth (left + s * p + k) idx 0)).
Proof.
  intros Hw Hs Hn. set (n := ndim a) in *. destruct (g2l_nth n s left right p Hn Hs) as [G1 G2].
  destruct (l2g_nth n s left right p Hn Hs) as [L1 L2].
  pose proof (g2l_perm n s left right p Hn Hs) as P1. pose proof (l2g_perm n s left right p Hn Hs) as P2.
  exists (transpose a (g2l_order n s left right)).
  assert (Eb : ndim (transpose a (g2l_order n s left right)) = n) by (unfold ndim; rewrite shp_transpose, gather_length; exact G1).
  split; [|split; [apply wf_transpose|split; [exact Eb|split]]].
  - unfold global_to_local. fold n. destruct (Nat.eqb_spec s 0); [lia|]. rewrite (plegs_mod n s left right p Hn Hs). reflexivity.
  - unfold local_to_global. rewrite Eb. destruct (Nat.eqb_spec s 0); [lia|]. rewrite (plegs_mod n s left right p Hn Hs). cbn [passert Nat.eqb].
    f_equal. apply transpose_transpose; auto. intros l Hl. apply (gather_l2g_g2l n s left right p); auto.
  - intros idx Hi. assert (Li := inr_length _ _ Hi). change (length (shp a)) with n in Li.
    exists (gather (g2l_order n s left right) idx).
    split; [rewrite shp_transpose; apply gather_inr; [exact Hi|]; intros k Hk; apply (is_perm_in _ k P1) in Hk; unfold n, ndim in *; lia|].
    split; [apply get_transpose_gather; auto|].
    assert (N : forall k, k < n -> nth k (gather (g2l_order n s left right) idx) 0 = nth (g2l_axis s p left right k) idx 0).
    { intros k Hk. rewrite nth_gather by lia. rewrite G2 by exact Hk. reflexivity. }
    split; [|split].
    + intros k Hk. rewrite N by lia. unfold g2l_axis. destruct (Nat.ltb_spec k left); [reflexivity|lia].
    + intros i j Hik Hjk.
      assert (M : i * p + j < s * p). { rewrite Nat.add_comm, (Nat.mul_comm i p), (Nat.mul_comm s p). apply mix_lt; assumption. }
      rewrite N by lia. unfold g2l_axis. destruct (Nat.ltb_spec (left + i * p + j) left); [lia|].
      destruct (Nat.ltb_spec (left + i * p + j) (left + s * p)); [|lia].
      replace (left + i * p + j - left) with (j + i * p) by lia. rewrite Nat.div_add, Nat.mod_add by lia.
      rewrite Nat.div_small, Nat.mod_small by exact Hjk. f_equal. lia.
    + intros k Hk. rewrite N by lia. unfold g2l_axis. destruct (Nat.ltb_spec (left + s * p + k) left); [lia|].
      destruct (Nat.ltb_spec (left + s * p + k) (left + s * p)); [lia|]. reflexivity.
Qed.
Theorem local_to_global_spec (a : nd K) s p left right : ndwf a -> 0 < s -> ndim a = left + s * p + right ->
  exists b, local_to_global a s left right = Ok b /\ ndwf b /\ ndim b = ndim a /\
    global_to_local b s left right = Ok a /\
    (forall idx, inr idx (shp a) -> exists idx', inr idx' (shp b) /\ get b idx' = get a idx /\
       (forall k, k < left -> nth k idx' 0 = nth k idx 0) /\
       (forall i j, i < s -> j < p -> nth (left + j * s + i) idx' 0 = nth (left + i * p + j) idx 0) /\
       (forall k, k < right -> nth (left + s * p + k) idx' 0 = nth (left + s * p + k) idx 0)).
Proof.
  intros Hw Hs Hn. set (n := ndim a) in *. destruct (g2l_nth n s left right p Hn Hs) as [G1 G2].
  destruct (l2g_nth n s left right p Hn Hs) as [L1 L2].
  pose proof (g2l_perm n s left right p Hn Hs) as P1. pose proof (l2g_perm n s left right p Hn Hs) as P2.
  exists (transpose a (l2g_order n s left right)).
  assert (Eb : ndim (transpose a (l2g_order n s left right)) = n) by (unfold ndim; rewrite shp_transpose, gather_length; exact L1).
  split; [|split; [apply wf_transpose|split; [exact Eb|split]]].
  - unfold local_to_global. fold n. destruct (Nat.eqb_spec s 0); [lia|]. rewrite (plegs_mod n s left right p Hn Hs). reflexivity.
  - unfold global_to_local. rewrite Eb. destruct (Nat.eqb_spec s 0); [lia|]. rewrite (plegs_mod n s left right p Hn Hs). cbn [passert Nat.eqb].
    f_equal. apply transpose_transpose; auto. intros l Hl. apply (gather_g2l_l2g n s left right p); auto.
  - intros idx Hi. assert (Li := inr_length _ _ Hi). change (length (shp a)) with n in Li.
    exists (gather (l2g_order n s left right) idx).
    split; [rewrite shp_transpose; apply gather_inr; [exact Hi|]; intros k Hk; apply (is_perm_in _ k P2) in Hk; unfold n, ndim in *; lia|].
    split; [apply get_transpose_gather; auto|].
    assert (N : forall k, k < n -> nth k (gather (l2g_order n s left right) idx) 0 = nth (l2g_axis s p left right k) idx 0).
    { intros k Hk. rewrite nth_gather by lia. rewrite L2 by exact Hk. reflexivity. }
    split; [|split].
    + intros k Hk. rewrite N by lia. unfold l2g_axis. destruct (Nat.ltb_spec k left); [reflexivity|lia].
    + intros i j Hik Hjk.
      assert (M : j * s + i < s * p). { rewrite Nat.add_comm, (Nat.mul_comm j s). apply mix_lt; assumption. }
      rewrite N by lia. unfold l2g_axis. destruct (Nat.ltb_spec (left + j * s + i) left); [lia|].
      destruct (Nat.ltb_spec (left + j * s + i) (left + s * p)); [|lia].
      replace (left + j * s + i - left) with (i + j * s) by lia. rewrite Nat.div_add, Nat.mod_add by lia.
      rewrite Nat.div_small, Nat.mod_small by exact Hik. f_equal. lia.
    + intros k Hk. rewrite N by lia. unfold l2g_axis. destruct (Nat.ltb_spec (left + s * p + k) left); [lia|].
      destruct (Nat.ltb_spec (left + s * p + k) (left + s * p)); [lia|]. reflexivity.
Qed.
Theorem global_to_local_error (a : nd K) s left right : 0 < s -> (ndim a - (left + right)) mod s <> 0 ->
  global_to_local a s left right = Err AssertionError /\ local_to_global a s left right = Err AssertionError.
Proof.
  intros Hs H. unfold global_to_local, local_to_global. destruct (Nat.eqb_spec s 0); [lia|].
  apply Nat.eqb_neq in H. rewrite H. split; reflexivity.
Qed.

(** ** full_rank *)
Theorem full_rank_spec (ldims : list (list nat)) k : S k < length ldims ->
  nth k (full_rank ldims) 0 = Nat.min (size (concat (firstn (S k) ldims))) (size (concat (skipn (S k) ldims))) /\
  length (full_rank ldims) = length ldims - 1.
Proof.
  assert (C : forall l, size (map size l) = size (concat l)).
  { induction l as [|x l IH]; [reflexivity|]. cbn [map concat]. rewrite size_cons, size_app, IH. reflexivity. }
  intros H. split; [|unfold full_rank; rewrite map_length, seq_length; reflexivity].
  unfold full_rank. rewrite (nth_map0 _ _ 0) by (rewrite seq_length; lia). rewrite seq_nth by lia.
  change (1 + k) with (S k). rewrite <- !C, <- firstn_map, <- skipn_map. reflexivity.
Qed.
End OrderNd.
