(** Dense helpers: partial traces, Kronecker products, [matdot]. *)
From Coq Require Import Sorting.Sorted.
From Verif Require Export ExtMath PfDot.
Open Scope nat_scope.

(** ** Lists *)
Lemma free_one (n k : nat) : k < n -> freeaxes n [k] = seq 0 k ++ seq (S k) (n - S k).
Proof.
  intros H. unfold freeaxes. replace (seq 0 n) with (seq 0 k ++ k :: seq (S k) (n - S k)).
  - rewrite filter_app. cbn [filter]. replace (negb (memb k [k])) with false by (cbn; rewrite Nat.eqb_refl; reflexivity).
    rewrite !filter_id; [reflexivity| |].
    + intros j Hj. apply in_seq in Hj. cbn. destruct (Nat.eqb_spec j k); [lia|reflexivity].
    + intros j Hj. apply in_seq in Hj. cbn. destruct (Nat.eqb_spec j k); [lia|reflexivity].
  - pose proof (seq_app k (S (n - S k)) 0) as E. replace (k + S (n - S k)) with n in E by lia. symmetry. exact E.
Qed.
Lemma free_two (n k : nat) : k < n -> freeaxes (n + n) [k; k + n] = freeaxes n [k] ++ map (Nat.add n) (freeaxes n [k]).
Proof.
  intros H. unfold freeaxes. rewrite seq_app, filter_app. f_equal.
  - apply filter_ext_in. intros j Hj. apply in_seq in Hj. cbn. destruct (Nat.eqb_spec j k), (Nat.eqb_spec j (k + n)); try reflexivity; lia.
  - cbn [Nat.add]. assert (E : forall m s, seq (n + s) m = map (Nat.add n) (seq s m)).
    { induction m as [|m IH]; intros s; [reflexivity|]. cbn [seq map]. f_equal. rewrite <- IH. f_equal. lia. }
    rewrite <- (Nat.add_0_r n) at 1. rewrite E. generalize (seq_NoDup n 0). clear E.
    assert (HF : forall l : list nat, filter (fun i => negb (memb i [k; k + n])) (map (Nat.add n) l) = map (Nat.add n) (filter (fun i => negb (memb i [k])) l)).
    { induction l as [|j l IH]; [reflexivity|]. cbn [map filter]. rewrite IH. cbn. destruct (Nat.eqb_spec (n + j) k), (Nat.eqb_spec (n + j) (k + n)), (Nat.eqb_spec j k); try reflexivity; lia. }
    intros _. rewrite HF. reflexivity.
Qed.
Lemma gather_shift n axes l m : length l = n -> gather (map (Nat.add n) axes) (l ++ m) = gather axes m.
Proof.
  intros H. unfold gather. rewrite map_map. apply map_ext. intros k. rewrite app_nth2 by lia. f_equal. lia.
Qed.
Lemma gather_low axes l m : (forall k, In k axes -> k < length l) -> gather axes (l ++ m) = gather axes l.
Proof. intros H. unfold gather. apply map_ext_in. intros k Hk. apply app_nth1. apply H. exact Hk. Qed.

Lemma app_inv_len {A : Type} (a b c d : list A) : a ++ b = c ++ d -> length a = length c -> a = c /\ b = d.
Proof.
  revert c. induction a as [|x a IH]; intros [|y c] E L; cbn in *; try lia; [auto|]. injection E as -> E. destruct (IH c E) as [-> ->]; [lia|auto].
Qed.

Section Ext.
Context {K : StarRing}.
Add Ring Kr : (k_ring K).

(** ** [partial_trace] *)
(** The index with entries [cs] at the positions [S] and [is] at the others. *)
Definition at_sites (n : nat) (S is cs : list nat) : list nat := fuse n S is cs.

Lemma trace_pair (a : nd K) n ds es k : shp a = ds ++ es -> length ds = n -> length es = n -> k < n -> nth k ds 0 = nth k es 0 ->
  let r := trace_axes a k (k + n) in
  shp r = gather (freeaxes n [k]) ds ++ gather (freeaxes n [k]) es /\ ndwf r /\
  forall is js, inr is (gather (freeaxes n [k]) ds) -> inr js (gather (freeaxes n [k]) es) ->
    get r (is ++ js) = bigsum (nth k ds 0) (fun c => get a (at_sites n [k] is [c] ++ at_sites n [k] js [c])).
Proof.
  intros E Ld Le Hk Ek. cbn zeta. unfold trace_axes. assert (Nd : ndim a = n + n) by (unfold ndim; rewrite E, app_length; lia).
  rewrite Nd, (free_two n k Hk).
  assert (Hin : forall j, In j (freeaxes n [k]) -> j < n) by (intros j Hj; unfold freeaxes in Hj; apply filter_In in Hj; destruct Hj as [Hj _]; apply in_seq in Hj; lia).
  assert (Sh : gather (freeaxes n [k] ++ map (Nat.add n) (freeaxes n [k])) (shp a) = gather (freeaxes n [k]) ds ++ gather (freeaxes n [k]) es).
  { rewrite E, gather_app, gather_shift by exact Ld. f_equal. apply gather_low. rewrite Ld. exact Hin. }
  rewrite Sh. split; [reflexivity|]. split; [apply wf_tab|]. intros is js Hi Hj. rewrite get_tab by (apply inr_app; assumption).
  rewrite E. rewrite (app_nth1 ds es) by lia. rewrite (app_nth2 ds es) by lia. replace (k + n - length ds) with k by lia. rewrite <- Ek, Nat.min_id.
  apply bigsum_ext. intros c Hc. f_equal.
  assert (D : NoDup [k]) by (repeat constructor; auto). assert (B : forall j, In j [k] -> j < n) by (intros j [<-|[]]; exact Hk).
  pose proof (inr_length _ _ Hi) as Li. pose proof (inr_length _ _ Hj) as Lj. rewrite gather_length in Li, Lj.
  assert (Lf : length (freeaxes n [k]) = n - 1) by (rewrite (free_one n k Hk), app_length, !seq_length; lia).
  destruct (fuse_spec n [k] is [c] D B) as (F1 & F2 & F3); [lia|reflexivity|].
  destruct (fuse_spec n [k] js [c] D B) as (G1 & G2 & G3); [lia|reflexivity|].
  unfold at_sites. set (I := fuse n [k] is [c]) in *. set (J := fuse n [k] js [c]) in *.
  assert (HP : is_perm ((freeaxes n [k] ++ map (Nat.add n) (freeaxes n [k])) ++ [k; k + n])).
  { rewrite <- (free_two n k Hk). unfold is_perm. rewrite app_length.
    assert (L2 : length (freeaxes (n + n) [k; k + n]) = n + n - 2) by (rewrite (free_two n k Hk), app_length, map_length; lia).
    rewrite L2. cbn [length]. replace (n + n - 2 + 2) with (n + n) by lia. apply freeaxes_perm.
    - repeat constructor; cbn; try lia.
    - intros j [<-|[<-|[]]]; lia. }
  rewrite <- (scatter_gather _ (I ++ J) HP).
  - f_equal. rewrite !gather_app, gather_shift by exact F1. rewrite gather_low by (rewrite F1; exact Hin). rewrite F2, G2.
    f_equal. cbn. unfold gather in F3, G3. cbn in F3, G3. injection F3 as F3. injection G3 as G3.
    rewrite app_nth1 by lia. rewrite app_nth2 by lia. replace (k + n - length I) with k by lia. congruence.
  - rewrite !app_length, map_length. cbn. lia.
Qed.


Lemma at_one n k is c : k < n -> length is = n - 1 -> at_sites n [k] is [c] = insert_at k c is.
Proof.
  intros Hk L. unfold at_sites.
  assert (D : NoDup [k]) by (repeat constructor; auto). assert (B : forall j, In j [k] -> j < n) by (intros j [<-|[]]; exact Hk).
  rewrite <- (fuse_unique n [k] (insert_at k c is) D B).
  - f_equal.
    + rewrite (free_one n k Hk). unfold insert_at. rewrite <- (firstn_skipn k is) at 1. rewrite gather_app. f_equal.
      * rewrite gather_low by (intros j Hj; apply in_seq in Hj; rewrite firstn_length; lia). symmetry. apply gather_seq0'. rewrite firstn_length. lia.
      * change (c :: skipn k is) with ([c] ++ skipn k is). rewrite app_assoc. symmetry. rewrite <- (app_nil_r (skipn k is)) at 1.
        rewrite gather_seq_mid'; [reflexivity|rewrite app_length, firstn_length; cbn; lia|rewrite skipn_length; lia].
    + cbn. f_equal. unfold insert_at. rewrite app_nth2; rewrite firstn_length; [|lia]. replace (k - Nat.min k (length is)) with 0 by lia. reflexivity.
  - unfold insert_at. rewrite app_length, firstn_length. cbn [length]. rewrite skipn_length. lia.
Qed.
Lemma nth_insert_lt j k c (l : list nat) : j < k -> k <= length l -> nth j (insert_at k c l) 0 = nth j l 0.
Proof.
  intros H Hk. unfold insert_at. rewrite app_nth1 by (rewrite firstn_length; lia). rewrite <- (firstn_skipn k l) at 2.
  rewrite app_nth1 by (rewrite firstn_length; lia). reflexivity.
Qed.
Lemma nth_insert_ge j k c (l : list nat) : k <= j -> k <= length l -> nth (S j) (insert_at k c l) 0 = nth j l 0.
Proof.
  intros H Hk. unfold insert_at. rewrite app_nth2 by (rewrite firstn_length; lia). rewrite firstn_length.
  replace (S j - Nat.min k (length l)) with (S (j - k)) by lia. cbn [nth]. rewrite <- (firstn_skipn k l) at 2.
  rewrite (app_nth2 (firstn k l)) by (rewrite firstn_length; lia). rewrite firstn_length. f_equal. lia.
Qed.
Lemma nth_insert_eq k c (l : list nat) : k <= length l -> nth k (insert_at k c l) 0 = c.
Proof.
  intros H. unfold insert_at. rewrite app_nth2 by (rewrite firstn_length; lia). rewrite firstn_length. replace (k - Nat.min k (length l)) with 0 by lia. reflexivity.
Qed.
Lemma free_snoc n S k : k < n -> (forall j, In j S -> j < k) ->
  freeaxes n (S ++ [k]) = filter (fun j => negb (memb j S)) (seq 0 k) ++ seq (k + 1) (n - 1 - k) /\
  freeaxes (n - 1) S = filter (fun j => negb (memb j S)) (seq 0 k) ++ seq k (n - 1 - k).
Proof.
  intros Hk HS.
  assert (N : forall j, k <= j -> memb j S = false).
  { intros j Hj. destruct (memb j S) eqn:E; [|reflexivity]. apply existsb_exists in E. destruct E as (i & Hi & E). apply Nat.eqb_eq in E. specialize (HS i Hi). lia. }
  split; unfold freeaxes.
  - pose proof (seq_app k (1 + (n - 1 - k)) 0) as E. replace (k + (1 + (n - 1 - k))) with n in E by lia. rewrite E, seq_app, !filter_app. cbn [Nat.add seq filter].
    assert (MA : forall j, memb j (S ++ [k]) = memb j S || (j =? k)) by (intros j; unfold memb; rewrite existsb_app; cbn; rewrite orb_false_r; reflexivity).
    rewrite MA, N by lia. rewrite Nat.eqb_refl. cbn [orb negb app]. f_equal.
    + apply filter_ext_in. intros j Hj. apply in_seq in Hj. rewrite MA. destruct (Nat.eqb_spec j k); [lia|]. rewrite orb_false_r. reflexivity.
    + apply filter_id. intros j Hj. apply in_seq in Hj. rewrite MA, N by lia. destruct (Nat.eqb_spec j k); [lia|reflexivity].
  - pose proof (seq_app k (n - 1 - k) 0) as E. replace (k + (n - 1 - k)) with (n - 1) in E by lia. rewrite E, filter_app. f_equal.
    cbn [Nat.add]. apply filter_id. intros j Hj. apply in_seq in Hj. rewrite N by lia. reflexivity.
Qed.
Lemma gather_free_insert n S k c l : k < n -> (forall j, In j S -> j < k) -> length l = n - 1 ->
  gather (freeaxes n (S ++ [k])) (insert_at k c l) = gather (freeaxes (n - 1) S) l.
Proof.
  intros Hk HS L. destruct (free_snoc n S k Hk HS) as [-> ->]. rewrite !gather_app. f_equal; unfold gather.
  - apply map_ext_in. intros j Hj. apply filter_In in Hj. destruct Hj as [Hj _]. apply in_seq in Hj. apply nth_insert_lt; lia.
  - rewrite Nat.add_1_r, <- seq_shift, map_map. apply map_ext_in. intros j Hj. apply in_seq in Hj. apply nth_insert_ge; lia.
Qed.
Lemma gather_free_remove n S k l : k < n -> (forall j, In j S -> j < k) -> length l = n ->
  gather (freeaxes (n - 1) S) (gather (freeaxes n [k]) l) = gather (freeaxes n (S ++ [k])) l.
Proof.
  intros Hk HS L. set (m := gather (freeaxes n [k]) l).
  assert (Lm : length m = n - 1) by (unfold m; rewrite gather_length, free_one, app_length, !seq_length by exact Hk; lia).
  assert (E : l = insert_at k (nth k l 0) m).
  { rewrite <- at_one with (n := n) by (auto; lia). unfold at_sites, m. change [nth k l 0] with (gather [k] l). symmetry. apply fuse_unique; auto.
    - repeat constructor; auto.
    - intros j [<-|[]]. exact Hk. }
  rewrite E at 1. symmetry. apply gather_free_insert; auto.
Qed.
Lemma gather_low_remove n S k l : k < n -> (forall j, In j S -> j < k) -> length l = n ->
  gather S (gather (freeaxes n [k]) l) = gather S l.
Proof.
  intros Hk HS L. set (m := gather (freeaxes n [k]) l).
  assert (Lm : length m = n - 1) by (unfold m; rewrite gather_length, free_one, app_length, !seq_length by exact Hk; lia).
  assert (E : l = insert_at k (nth k l 0) m).
  { rewrite <- at_one with (n := n) by (auto; lia). unfold at_sites, m. change [nth k l 0] with (gather [k] l). symmetry. apply fuse_unique; auto.
    - repeat constructor; auto.
    - intros j [<-|[]]. exact Hk. }
  rewrite E. apply map_ext_in. intros j Hj. symmetry. apply nth_insert_lt; [auto|lia].
Qed.

Lemma at_snoc n S k is cs c : k < n -> (forall j, In j S -> j < k) -> NoDup S -> length is + length S = n - 1 -> length cs = length S ->
  at_sites n (S ++ [k]) is (cs ++ [c]) = at_sites n [k] (at_sites (n - 1) S is cs) [c].
Proof.
  intros Hk HS ND Li Lc.
  assert (Lf : length (freeaxes (n - 1) S) = length is).
  { pose proof (Permutation_length (freeaxes_perm (n - 1) S ND ltac:(intros j Hj; specialize (HS j Hj); lia))) as P. rewrite app_length, seq_length in P. lia. }
  destruct (fuse_spec (n - 1) S is cs ND) as (F1 & F2 & F3); [intros j Hj; specialize (HS j Hj); lia|lia|exact Lc|].
  rewrite at_one by (auto; unfold at_sites; exact F1). unfold at_sites in *. set (J := fuse (n - 1) S is cs) in *.
  assert (ND2 : NoDup (S ++ [k])).
  { apply NoDup_Add with (a := k) (l := S); [|split; [exact ND|intros H; specialize (HS k H); lia]].
    rewrite <- (app_nil_r S) at 1. apply Add_app. }
  rewrite <- (fuse_unique n (S ++ [k]) (insert_at k c J) ND2).
  - f_equal.
    + rewrite gather_free_insert by auto. symmetry. exact F2.
    + rewrite gather_app. f_equal.
      * rewrite <- F3. apply map_ext_in. intros j Hj. symmetry. apply nth_insert_lt; [auto|lia].
      * cbn. rewrite nth_insert_eq by lia. reflexivity.
  - intros j Hj. apply in_app_or in Hj. destruct Hj as [Hj|[<-|[]]]; [specialize (HS j Hj); lia|lia].
  - unfold insert_at. rewrite app_length, firstn_length. cbn [length]. rewrite skipn_length. lia.
Qed.

(** Strictly ascending site lists. *)
Definition ascending (S : list nat) : Prop := StronglySorted lt S.
Lemma asc_snoc S k : ascending (S ++ [k]) -> ascending S /\ (forall j, In j S -> j < k).
Proof.
  induction S as [|j S IH]; intros H; [split; [constructor|intros ? []]|]. inversion H as [|? ? H1 H2]; subst. destruct (IH H1) as [I1 I2].
  rewrite Forall_app in H2. destruct H2 as [H2 H3]. split; [constructor; assumption|]. intros i [<-|Hi]; [inversion H3; auto|auto].
Qed.
Lemma asc_nodup S : ascending S -> NoDup S.
Proof.
  induction 1 as [|k S H IH F]; constructor; auto. intros Hk. rewrite Forall_forall in F. specialize (F k Hk). lia.
Qed.
Lemma msum_snoc p d (f : list nat -> K) : msum (p ++ [d]) f = msum p (fun is => bigsum d (fun c => f (is ++ [c]))).
Proof. rewrite msum_app. apply msum_ext. intros is _. cbn [msum]. reflexivity. Qed.

Lemma pyidx_nat n k : k < n -> pyidx n (Z.of_nat k) = Some k.
Proof. intros H. unfold pyidx. destruct (Z.leb_spec 0 (Z.of_nat k)); [|lia]. rewrite Nat2Z.id. destruct (Z.ltb_spec (Z.of_nat k) (Z.of_nat n)); [reflexivity|lia]. Qed.

Theorem partial_trace_spec S : forall (a : nd K) n ds es, ascending S -> (forall j, In j S -> j < n) ->
  shp a = ds ++ es -> ndwf a -> length ds = n -> length es = n -> gather S ds = gather S es ->
  exists r, partial_trace a (map Z.of_nat S) = Ok r /\ ndwf r /\ shp r = gather (freeaxes n S) ds ++ gather (freeaxes n S) es /\
    forall is js, inr is (gather (freeaxes n S) ds) -> inr js (gather (freeaxes n S) es) ->
      get r (is ++ js) = msum (gather S ds) (fun cs => get a (at_sites n S is cs ++ at_sites n S js cs)).
Proof.
  induction S as [|k S IH] using rev_ind; intros a n ds es HA HB Es W Ld Le HE.
  - exists a. split; [reflexivity|]. split; [exact W|].
    assert (EF : freeaxes n [] = seq 0 n) by (apply filter_id; reflexivity). rewrite EF, !gather_seq0' by assumption. split; [exact Es|].
    intros is js Hi Hj. cbn. assert (X : forall l, length l = n -> at_sites n [] l [] = l).
    { intros l Ll. unfold at_sites. rewrite <- (fuse_unique n [] l) at 2; [|constructor|intros ? []|exact Ll]. rewrite EF, gather_seq0' by exact Ll. reflexivity. }
    rewrite !X; [reflexivity| |]; [apply inr_length in Hj; lia|apply inr_length in Hi; lia].
  - destruct (asc_snoc S k HA) as [HA' HS]. pose proof (asc_nodup S HA') as ND.
    assert (Hk : k < n) by (apply HB; apply in_or_app; right; left; reflexivity).
    rewrite !gather_app in HE. apply app_inv_len in HE; [|rewrite !gather_length; reflexivity]. destruct HE as [HE1 HE2]. injection HE2 as HE2.
    destruct (trace_pair a n ds es k Es Ld Le Hk HE2) as (R1 & R2 & R3). cbn zeta in *. set (b := trace_axes a k (k + n)) in *.
    assert (Lf : length (freeaxes n [k]) = n - 1) by (rewrite (free_one n k Hk), app_length, !seq_length; lia).
    assert (LfS : length (freeaxes (n - 1) S) + length S = n - 1).
    { pose proof (Permutation_length (freeaxes_perm (n - 1) S ND ltac:(intros j Hj; specialize (HS j Hj); lia))) as P. rewrite app_length, seq_length in P. lia. }
    destruct (IH b (n - 1) (gather (freeaxes n [k]) ds) (gather (freeaxes n [k]) es) HA') as (r & E1 & E2 & E3 & E4); auto.
    + intros j Hj. specialize (HS j Hj). lia.
    + rewrite gather_length. exact Lf.
    + rewrite gather_length. exact Lf.
    + rewrite !gather_low_remove by assumption. exact HE1.
    + exists r. split.
      { unfold partial_trace in *. rewrite map_app, rev_app_distr. cbn [map rev app partial_trace_rev].
        assert (Nd : ndim a = n + n) by (unfold ndim; rewrite Es, app_length; lia).
        rewrite Nd. replace (n + n) with (n * 2) by lia. rewrite Nat.mod_mul, Nat.div_mul by lia. cbn [Nat.eqb passert].
        unfold np_trace, norm_axis. rewrite Nd, pyidx_nat by lia. rewrite <- Nat2Z.inj_add, pyidx_nat by lia.
        destruct (Nat.eqb_spec k (k + n)); [lia|]. cbn [negb praise_unless bind]. exact E1. }
      split; [exact E2|]. rewrite E3, !gather_free_remove by assumption. split; [reflexivity|].
      intros is js Hi Hj. rewrite <- (gather_free_remove n S k ds) in Hi by assumption. rewrite <- (gather_free_remove n S k es) in Hj by assumption.
      rewrite (E4 is js Hi Hj), gather_low_remove by assumption.
      rewrite gather_app. cbn [gather map]. rewrite msum_snoc. apply msum_ext. intros cs Hcs.
      pose proof (inr_length _ _ Hi) as Li. pose proof (inr_length _ _ Hj) as Lj. pose proof (inr_length _ _ Hcs) as Lc. rewrite gather_length in Li, Lj, Lc.
      assert (I1 : inr (at_sites (n - 1) S is cs) (gather (freeaxes n [k]) ds)).
      { apply fuse_inr; auto; [intros j Hj'; specialize (HS j Hj'); lia|rewrite gather_length; exact Lf|rewrite gather_low_remove by assumption; exact Hcs]. }
      assert (I2 : inr (at_sites (n - 1) S js cs) (gather (freeaxes n [k]) es)).
      { apply fuse_inr; auto; [intros j Hj'; specialize (HS j Hj'); lia|rewrite gather_length; exact Lf|rewrite gather_low_remove by assumption; rewrite <- HE1; exact Hcs]. }
      rewrite R3 by assumption. apply bigsum_ext. intros c Hc. rewrite !at_snoc by (auto; lia). reflexivity.
Qed.
End Ext.
