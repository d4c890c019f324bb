(** Proofs about dump and load. *)
From Coq Require Import DecimalString DecimalNat.
From Verif Require Export Store PfBounds.
Open Scope nat_scope.

Lemma str_nat_inj a b : str_nat a = str_nat b -> a = b.
Proof.
  unfold str_nat. intros H. apply (f_equal NilZero.uint_of_string) in H.
  assert (E : forall d, d <> Decimal.Nil -> NilZero.uint_of_string (NilZero.string_of_uint d) = Some d) by (intros d Hd; apply NilZero.usu; exact Hd).
  assert (Hn : forall n, Nat.to_uint n <> Decimal.Nil).
  { intros n C. pose proof (Unsigned.of_to n) as H1. pose proof (Unsigned.to_of (Nat.to_uint n)) as H2. rewrite H1, C in H2. cbn in H2. discriminate. }
  rewrite !E in H by apply Hn. injection H as H. apply (f_equal Nat.of_uint) in H. rewrite !Unsigned.of_to in H. exact H.
Qed.

Section Pf.
Context {K : StarRing}.
Implicit Types (x : ltens K) (g : group K).

Lemma lookup_write g s t g' s' : write g s t = Ok g' -> lookup s' (g_data g') = if String.eqb s' s then Some t else lookup s' (g_data g).
Proof. unfold write. destruct (lookup s (g_data g)); [discriminate|]. intros E. injection E as <-. reflexivity. Qed.

Lemma dump_loop ts : forall k g, (forall i, k <= i < k + length ts -> lookup (str_nat i) (g_data g) = None) ->
  exists g', foldM (fun g p => write g (str_nat (fst p)) (snd p)) (combine (seq k (length ts)) ts) g = Ok g' /\
    g_len g' = g_len g /\ g_cform g' = g_cform g /\
    (forall i, i < length ts -> lookup (str_nat (k + i)) (g_data g') = nth_error ts i) /\
    (forall s, (forall i, k <= i < k + length ts -> s <> str_nat i) -> lookup s (g_data g') = lookup s (g_data g)).
Proof.
  induction ts as [|t ts IH]; intros k g H.
  - exists g. cbn. repeat split; auto. intros i Hi. cbn in Hi. lia.
  - cbn [length seq combine foldM fst snd]. cbn [length] in H.
    assert (E : write g (str_nat k) t = Ok (mkGroup ((str_nat k, t) :: g_data g) (g_len g) (g_cform g))) by (unfold write; rewrite H by lia; reflexivity).
    rewrite E. cbn [bind].
    destruct (IH (S k) (mkGroup ((str_nat k, t) :: g_data g) (g_len g) (g_cform g))) as (g' & E1 & E2 & E3 & E4 & E5).
    { intros i Hi. cbn [g_data lookup]. destruct (String.eqb_spec (str_nat i) (str_nat k)) as [C|_]; [apply str_nat_inj in C; lia|]. apply H. lia. }
    exists g'. split; [exact E1|]. split; [exact E2|]. split; [exact E3|]. split.
    + intros [|i] Hi.
      * rewrite Nat.add_0_r. rewrite E5; [cbn [g_data lookup]; rewrite String.eqb_refl; reflexivity|]. intros i' Hi' C. apply str_nat_inj in C. lia.
      * replace (k + S i) with (S k + i) by lia. rewrite E4 by lia. reflexivity.
    + intros s Hs. rewrite E5 by (intros i Hi; apply Hs; lia). cbn [g_data lookup].
      destruct (String.eqb_spec s (str_nat k)) as [C|_]; [exfalso; apply (Hs k); [lia|exact C]|reflexivity].
Qed.

Lemma mapM_lookup (l : list (string * nd K)) ts : forall k,
  (forall i, i < length ts -> lookup (str_nat (k + i)) l = nth_error ts i) ->
  mapM (fun i => match lookup (str_nat i) l with Some t => Ok t | None => Err KeyError end) (seq k (length ts)) = Ok ts.
Proof.
  induction ts as [|t ts IH]; intros k H; [reflexivity|]. cbn [length seq mapM].
  pose proof (H 0 ltac:(cbn; lia)) as H0. rewrite Nat.add_0_r in H0. cbn in H0. rewrite H0. cbn [bind].
  rewrite IH; [reflexivity|]. intros i Hi. replace (S k + i) with (k + S i) by lia. apply (H (S i)). cbn. lia.
Qed.

(** No dataset of the group is named like a site. *)
Definition no_site_names g n := forall i, i < n -> lookup (str_nat i) (g_data g) = None.

Lemma dump_spec x g : no_site_names g (llen x) ->
  exists g', dump_group x g = Ok g' /\ g_len g' = Some (llen x) /\ g_cform g' = Some (canonical_form x) /\
    (forall i, i < llen x -> lookup (str_nat i) (g_data g') = nth_error (lts x) i) /\
    (forall s, (forall i, i < llen x -> s <> str_nat i) -> lookup s (g_data g') = lookup s (g_data g)).
Proof.
  intros H. destruct (dump_loop (lts x) 0 (mkGroup (g_data g) (Some (llen x)) (Some (canonical_form x)))) as (g' & E1 & E2 & E3 & E4 & E5).
  { intros i Hi. apply H. unfold llen. lia. }
  exists g'. split; [exact E1|]. split; [exact E2|]. split; [exact E3|]. split; [exact E4|]. intros s Hs. apply E5. intros i Hi. apply Hs. unfold llen. lia.
Qed.

Lemma load_dumped x g : no_site_names g (llen x) ->
  (do g' <- dump_group x g; load g') = lt_init (lts x) (Some (lcan x), Some (rcan x)).
Proof.
  intros H. destruct (dump_spec x g H) as (g' & E1 & E2 & E3 & E4 & _). rewrite E1. cbn [bind]. unfold load. rewrite E2.
  unfold llen. rewrite (mapM_lookup (g_data g') (lts x) 0 E4). cbn [bind]. rewrite E3. reflexivity.
Qed.

Theorem load_dump x g : no_site_names g (llen x) -> mpa_ok x -> cform_ok x -> (do g' <- dump_group x g; load g') = Ok x.
Proof.
  intros H Hx Hc. rewrite load_dumped by exact H. exact (mpa_copy_id x Hx Hc).
Qed.
Theorem dump_taken x g : (exists i, i < llen x /\ lookup (str_nat i) (g_data g) <> None) -> dump_group x g = Err ValueError.
Proof.
  intros (i & Hi & H). unfold dump_group.
  assert (G : forall ts k g, (exists i, i < length ts /\ lookup (str_nat (k + i)) (g_data g) <> None) ->
     foldM (fun g p => write g (str_nat (fst p)) (snd p)) (combine (seq k (length ts)) ts) g = Err ValueError).
  { clear. induction ts as [|t ts IH]; intros k g (i & Hi & H); cbn [length] in Hi; [lia|]. cbn [length seq combine foldM fst snd].
    unfold write at 1. destruct (lookup (str_nat k) (g_data g)) eqn:E; [reflexivity|]. cbn [bind].
    apply IH. destruct i as [|i]; [rewrite Nat.add_0_r in H; congruence|]. exists i. split; [lia|]. cbn [g_data lookup].
    replace (S k + i) with (k + S i) by lia. destruct (String.eqb _ _); [discriminate|exact H]. }
  apply G. exists i. split; [exact Hi|]. exact H.
Qed.
Theorem load_missing g n i : g_len g = Some n -> i < n -> lookup (str_nat i) (g_data g) = None -> load g = Err KeyError.
Proof.
  intros E Hi H. unfold load. rewrite E.
  assert (G : forall m k, k <= i < k + m -> mapM (fun i => match lookup (str_nat i) (g_data g) with Some t => Ok t | None => Err KeyError end) (seq k m) = Err KeyError).
  { induction m as [|m IH]; intros k Hk; [lia|]. cbn [seq mapM]. destruct (Nat.eq_dec k i) as [->|N]; [rewrite H; reflexivity|].
    destruct (lookup (str_nat k) (g_data g)); [|reflexivity]. cbn [bind]. rewrite IH by lia. reflexivity. }
  rewrite G by lia. reflexivity.
Qed.
End Pf.
