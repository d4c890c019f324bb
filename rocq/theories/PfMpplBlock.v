(** [MPPovmList.block] and [MPPovmList.repeat] (mppovm.py 1218-1275). *)
From Verif Require Export PfPovmEmbed.
Open Scope nat_scope.

Lemma mapM_f2 {A B : Type} (f : A -> res B) (P : A -> B -> Prop) l : Forall (fun a => exists b, f a = Ok b /\ P a b) l ->
  exists bs, mapM f l = Ok bs /\ Forall2 P l bs.
Proof.
  induction 1 as [|a l (b & E & Hb) H (bs & Ebs & IH)]; [exists []; split; [reflexivity|constructor]|].
  exists (b :: bs). split; [cbn [mapM]; rewrite E; cbn [bind]; rewrite Ebs; reflexivity|constructor; auto].
Qed.
Lemma f2_nth {A B : Type} (P : A -> B -> Prop) l m : Forall2 P l m -> forall k d e, k < length l -> P (nth k l d) (nth k m e).
Proof. induction 1 as [|a b l m H HF IH]; intros k d e Hk; [cbn in Hk; lia|]. destruct k; [exact H|]. apply IH. cbn in Hk; lia. Qed.
(** [zip] of lists of the same length *)
Lemma zipn_same {A : Type} (d : A) m : forall (ls : list (list A)), ls <> [] -> Forall (fun l => length l = m) ls ->
  forall n, m <= n -> zipn n ls = map (fun k => map (fun l => nth k l d) ls) (seq 0 m).
Proof.
  induction m as [|m IH]; intros ls N H n Hn.
  - destruct n as [|n]; [reflexivity|]. cbn [zipn]. destruct ls as [|l ls]; [congruence|]. inversion H as [|? ? H1 _]; subst. destruct l; [|discriminate]. reflexivity.
  - destruct n as [|n]; [lia|]. cbn [zipn].
    rewrite (mapM_ok _ _ _ (fun l => nth 0 l d)). 2:{ intros l Hl. rewrite Forall_forall in H. specialize (H l Hl). destruct l; [discriminate|reflexivity]. }
    destruct ls as [|l0 ls']; [congruence|]. set (ls := l0 :: ls') in *. cbn [seq map]. f_equal.
    rewrite (IH (map (@tl A) ls)); [|discriminate| |lia].
    2:{ apply Forall_map. eapply Forall_impl; [|exact H]. cbn. intros [|a l] Hl; cbn in *; lia. }
    rewrite <- seq_shift, map_map. apply map_ext. intros k. rewrite map_map. apply map_ext_in. intros l Hl. rewrite Forall_forall in H. specialize (H l Hl). destruct l; [discriminate|reflexivity].
Qed.
Lemma zip_all_same {A : Type} (d : A) m (ls : list (list A)) : ls <> [] -> Forall (fun l => length l = m) ls ->
  zip_all ls = map (fun k => map (fun l => nth k l d) ls) (seq 0 m).
Proof.
  intros N H. apply zipn_same; auto. destruct ls as [|l ls]; [congruence|]. inversion H; subst. cbn [map fold_right]. apply Nat.le_max_l.
Qed.
Lemma nth_rows {A : Type} (d : A) w (f : nat -> list A) : (forall k, length (f k) = w) -> forall n s k i, k < n -> i < w -> nth (k * w + i) (concat (map f (seq s n))) d = nth i (f (s + k)) d.
Proof.
  intros H. induction n as [|n IH]; intros s k i Hk Hi; [lia|]. cbn [seq map concat]. destruct k as [|k].
  - rewrite app_nth1 by (rewrite H; lia). rewrite Nat.add_0_r. reflexivity.
  - rewrite app_nth2 by (rewrite H; cbn; lia). rewrite H. replace (S k * w + i - w) with (k * w + i) by (cbn; lia). rewrite IH by lia. f_equal. f_equal. lia.
Qed.
Lemma length_rows {A : Type} w (f : nat -> list A) : (forall k, length (f k) = w) -> forall n s, length (concat (map f (seq s n))) = n * w.
Proof. intros H. induction n as [|n IH]; intros s; [reflexivity|]. cbn [seq map concat]. rewrite app_length, H, IH. reflexivity. Qed.

Section Lists.
Context {K : StarRing}.
Lemma mppl_new_ok (zs : list (ltens K)) n : Forall (fun z => llen z = n /\ exists ns hs, povm_ok z ns hs) zs -> mppl_new zs = Ok zs.
Proof.
  intros Fl. unfold mppl_new. replace (forallb _ zs) with true.
  - cbn [passert]. induction Fl as [|z zs [_ (ns & hs & Pz)] Fl IH]; [reflexivity|]. cbn [mapM]. rewrite (povm_checks_ok z ns hs) by apply Pz. cbn [bind]. rewrite IH. reflexivity.
  - symmetry. destruct zs as [|z zs']; [reflexivity|]. apply forallb_forall. intros w Hw. rewrite Forall_forall in Fl. apply Nat.eqb_eq.
    rewrite (proj1 (Fl w Hw)), (proj1 (Fl z (or_introl eq_refl))). reflexivity.
Qed.
Definition nope : ltens K := mkLt [] 0 0.
(** POVM number [k * len + i] of the result is member [i] at the sites [k, k + 1, ...]. *)
Theorem mppl_block_spec (xs : list (ltens K)) L n d : xs <> [] -> L <= n ->
  Forall (fun x => llen x = L /\ exists ns, povm_ok x ns (repeat d L)) xs ->
  exists zs, mppl_block xs (Z.of_nat n) = Ok zs /\ length zs = (n - L + 1) * length xs /\
    forall k i, k <= n - L -> i < length xs -> let z := nth (k * length xs + i) zs nope in
      embed (nth i xs nope) (Z.of_nat n) (Z.of_nat k) (LdInt d) = Ok z /\ llen z = n /\ embedded (nth i xs nope) z (repeat d n) k.
Proof.
  intros N Hn H. set (P := fun (x z : ltens K) (s : nat) => embed x (Z.of_nat n) (Z.of_nat s) (LdInt d) = Ok z /\ llen z = n /\ (exists ns hs, povm_ok z ns hs) /\ embedded x z (repeat d n) s).
  destruct (mapM_f2 (fun x => block x (Z.of_nat n)) (fun x b => Forall2 (fun s z => P x z s) (seq 0 (n - L + 1)) b) xs) as (bs & Eb & Fb).
  { eapply Forall_impl; [|exact H]. cbn beta. intros x (Lx & ns & Px). destruct (block_spec x ns (repeat d L) n d Px) as (zs & Ez & Fz); [apply Forall_forall; intros e He; apply repeat_spec in He; exact He|lia|].
    exists zs. split; [exact Ez|]. rewrite Lx in Fz. clear - Fz. induction Fz as [|s z l zs (A1 & A2 & A3 & A4) _ IH]; constructor; auto. unfold P. eauto 8. }
  pose proof (Forall2_len _ _ _ _ _ Fb) as Lb. assert (Hb : Forall (fun b => length b = n - L + 1) bs).
  { clear - Fb. induction Fb as [|x b xs bs F _ IH]; constructor; auto. apply Forall2_len in F. rewrite seq_length in F. auto. }
  assert (Nb : bs <> []) by (intros ->; destruct xs; [congruence|discriminate]).
  set (f := fun k => map (fun l => nth k l nope) bs). assert (Lf : forall k, length (f k) = length xs) by (intros k; unfold f; rewrite map_length; auto).
  exists (concat (map f (seq 0 (n - L + 1)))).
  assert (G : forall k i, k <= n - L -> i < length xs -> P (nth i xs nope) (nth (k * length xs + i) (concat (map f (seq 0 (n - L + 1)))) nope) k).
  { intros k i Hk Hi. rewrite (nth_rows nope (length xs) f Lf) by lia. cbn [Nat.add]. unfold f. rewrite (nth_indep (map (fun l => nth k l nope) bs) nope (nth k (@nil (ltens K)) nope)) by (rewrite map_length; lia).
    rewrite (map_nth (fun l => nth k l nope)). pose proof (f2_nth _ _ _ Fb i nope [] Hi) as F. cbn beta in F.
    pose proof (f2_nth _ _ _ F k 0 nope ltac:(rewrite seq_length; lia)) as Q. cbn beta in Q. rewrite seq_nth in Q by lia. exact Q. }
  split; [|split].
  - unfold mppl_block. rewrite Eb. cbn [bind]. rewrite (zip_all_same nope (n - L + 1)) by assumption. apply (mppl_new_ok _ n). apply Forall_forall. intros z Hz.
    apply (In_nth _ _ nope) in Hz. destruct Hz as (j & Hj & <-). rewrite (length_rows (length xs) f Lf) in Hj. assert (0 < length xs) by (destruct xs; [congruence|cbn; lia]).
    rewrite (Nat.div_mod j (length xs)) by lia. rewrite (Nat.mul_comm (length xs)). destruct (G (j / length xs) (j mod length xs)) as (_ & A2 & A3 & _); [|apply Nat.mod_upper_bound; lia|split; assumption].
    assert (j / length xs < n - L + 1); [|lia]. apply Nat.div_lt_upper_bound; lia.
  - apply (length_rows (length xs) f Lf).
  - intros k i Hk Hi z. destruct (G k i Hk Hi) as (A1 & A2 & _ & A4). auto.
Qed.
Theorem mppl_repeat_spec (xs : list (ltens K)) n : 0 < n ->
  Forall (fun x => (exists ns hs, povm_ok x ns hs) /\ (n mod llen x = 0 \/ nth (n mod llen x - 1) (ranks x) 0 = 1)) xs ->
  exists zs, mppl_repeat xs n = Ok zs /\ Forall2 (fun x z => prepeat x n = Ok z /\ llen z = n) xs zs.
Proof.
  intros Hn H. destruct (mapM_f2 (fun x => prepeat x n) (fun x z => prepeat x n = Ok z /\ llen z = n /\ exists ns hs, povm_ok z ns hs) xs) as (zs & Ez & Fz).
  { eapply Forall_impl; [|exact H]. cbn beta. intros x ((ns & hs & Px) & Hr). destruct (prepeat_spec x ns hs n Px Hn Hr) as (z & E & Lz & Pz & _). exists z. eauto 8. }
  exists zs. split.
  - unfold mppl_repeat. rewrite Ez. cbn [bind]. apply (mppl_new_ok _ n). clear - Fz. induction Fz as [|x z xs zs (_ & A & B) _ IH]; constructor; auto.
  - clear - Fz. induction Fz as [|x z xs zs (A & B & _) _ IH]; constructor; auto.
Qed.
End Lists.
