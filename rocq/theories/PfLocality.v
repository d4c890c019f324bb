(** Which sites [update] and [canonicalize] may change, without any assumption on the
    tensors or the factorisations. *)
From Coq Require Import String.
From Verif Require Export PfCanon2.
Open Scope string_scope.
Open Scope list_scope.
Open Scope nat_scope.

Lemma bind_inv {A B : Type} (r : res A) (f : A -> res B) z : bind r f = Ok z -> exists y, r = Ok y /\ f y = Ok z.
Proof. destruct r; [eauto|discriminate]. Qed.
Lemma passert_inv {A : Type} b (r : res A) z : passert b r = Ok z -> b = true /\ r = Ok z.
Proof. destruct b; [auto|discriminate]. Qed.

(** Equal lengths, equal entries outside of [a, b). *)
Definition agree {A : Type} (a b : Z) (xs ys : list A) : Prop :=
  length xs = length ys /\ forall k, (Z.of_nat k < a \/ b <= Z.of_nat k)%Z -> nth_error xs k = nth_error ys k.
Lemma agree_refl {A : Type} a b (xs : list A) : agree a b xs xs.
Proof. split; auto. Qed.
Lemma agree_trans {A : Type} a b (xs ys zs : list A) : agree a b xs ys -> agree a b ys zs -> agree a b xs zs.
Proof. intros [L1 H1] [L2 H2]. split; [congruence|]. intros k Hk. rewrite H1, H2 by exact Hk. reflexivity. Qed.
Lemma agree_weaken {A : Type} a b a' b' (xs ys : list A) : agree a b xs ys -> (a' <= a)%Z -> (b <= b')%Z -> agree a' b' xs ys.
Proof. intros [L H] Ha Hb. split; [exact L|]. intros k Hk. apply H. lia. Qed.
Lemma nth_error_set_nth {A : Type} n (x : A) l k : k <> n -> nth_error (set_nth n x l) k = nth_error l k.
Proof.
  revert n k. induction l as [|y l IH]; intros n k H; [destruct n; reflexivity|].
  destruct n, k; cbn; try congruence; try reflexivity. apply IH. congruence.
Qed.
Lemma nth_error_set_nth_eq {A : Type} n (x : A) l : n < length l -> nth_error (set_nth n x l) n = Some x.
Proof. revert n. induction l as [|y l IH]; intros n H; [cbn in H; lia|]. destruct n; cbn in *; [reflexivity|apply IH; lia]. Qed.
Lemma pyget_nat {A : Type} (l : list A) k : pyget l (Z.of_nat k) = match nth_error l k with Some t => Ok t | None => Err IndexError end.
Proof.
  unfold pyget, pyidx. destruct (Z.leb_spec 0 (Z.of_nat k)); [|lia].
  destruct (Z.ltb_spec (Z.of_nat k) (Z.of_nat (length l))).
  - rewrite Nat2Z.id. reflexivity.
  - destruct (nth_error l k) eqn:E; [|reflexivity]. assert (k < length l) by (apply nth_error_Some; congruence). lia.
Qed.
Lemma pyget_agree {A : Type} a b (xs ys : list A) k : agree a b xs ys -> (Z.of_nat k < a \/ b <= Z.of_nat k)%Z ->
  pyget xs (Z.of_nat k) = pyget ys (Z.of_nat k).
Proof. intros [_ H] Hk. rewrite !pyget_nat, H by exact Hk. reflexivity. Qed.
Lemma pyget_lt {A : Type} (l : list A) z t : pyget l z = Ok t -> (z < Z.of_nat (length l))%Z.
Proof.
  unfold pyget, pyidx. destruct (Z.leb_spec 0 z); [|intros _; lia].
  destruct (Z.ltb_spec z (Z.of_nat (length l))); [auto|discriminate].
Qed.

Section Locality.
Context {K : StarRing}.

Lemma update1_local (x : ltens K) k t f z : lt_update1 x k t f = Ok z -> (0 <= k)%Z ->
  agree k (k + 1) (lts x) (lts z) /\ lcan z = fst (upd_form (lcan x) (rcan x) k f) /\ rcan z = snd (upd_form (lcan x) (rcan x) k f).
Proof.
  unfold lt_update1, pyidx. intros H Hk. destruct (Z.leb_spec 0 k); [|lia].
  destruct (Z.ltb_spec k (Z.of_nat (llen x))); [|discriminate].
  assert (A : agree k (k + 1) (lts x) (set_nth (Z.to_nat k) t (lts x))).
  { split; [symmetry; apply set_nth_length|]. intros j Hj. symmetry. apply nth_error_set_nth. lia. }
  unfold upd_form. destruct (flag_is f "left" && (0 <=? lcan x - k)%Z)%bool; [injection H as <-; auto|].
  destruct (flag_is f "right" && (-1 <=? k - rcan x)%Z)%bool; injection H as <-; auto.
Qed.
Lemma upd_form_bound l r k f : (Z.min k l <= fst (upd_form l r k f))%Z /\ (snd (upd_form l r k f) <= Z.max (k + 1) r)%Z.
Proof. unfold upd_form. destruct (_ && _)%bool; cbn [fst snd]; [lia|]. destruct (_ && _)%bool; cbn [fst snd]; lia. Qed.

Lemma update_loop_local a b ts : forall (x : ltens K) ps fs z, lt_update_loop x ts ps fs = Ok z -> (0 <= a)%Z ->
  Forall (fun p => a <= p < b)%Z ps ->
  agree a b (lts x) (lts z) /\ (Z.min a (lcan x) <= lcan z)%Z /\ (rcan z <= Z.max b (rcan x))%Z.
Proof.
  assert (N : forall x z : ltens K, Ok x = Ok z -> agree a b (lts x) (lts z) /\ (Z.min a (lcan x) <= lcan z)%Z /\ (rcan z <= Z.max b (rcan x))%Z).
  { intros x z H. injection H as <-. split; [apply agree_refl|lia]. }
  induction ts as [|t ts IH]; intros x ps fs z H Ha Hp; [apply N; exact H|].
  destruct ps as [|p ps]; [apply N; exact H|]. destruct fs as [|f fs]; [apply N; exact H|].
  cbn [lt_update_loop] in H. apply bind_inv in H. destruct H as (y & E & H).
  inversion Hp as [|? ? P1 P2]; subst.
  destruct (update1_local x p t f y E ltac:(lia)) as (A & Fl & Fr).
  destruct (IH y ps fs z H Ha P2) as (A' & Gl & Gr).
  pose proof (upd_form_bound (lcan x) (rcan x) p f) as Hb.
  split; [apply (agree_trans a b _ (lts y)); [apply (agree_weaken p (p + 1)); [exact A|lia|lia]|exact A']|lia].
Qed.

Lemma update_slice_inv (x : ltens K) a b ts c z : lt_update_slice x (mkSlice (Some a) (Some b) None) ts c = Ok z ->
  (0 <= a)%Z -> (0 <= b)%Z ->
  lt_update_loop x ts (pyrange (Z.min a (Z.of_nat (llen x))) (Z.min b (Z.of_nat (llen x))) 1)
    (match c with COne None => repeat None (List.length ts) | COne (Some str) => str_chars str | CSeq l => l end) = Ok z.
Proof.
  intros H Ha Hb. unfold lt_update_slice in H.
  assert (EI : slice_indices (mkSlice (Some a) (Some b) None) (llen x) = Ok (Z.min a (Z.of_nat (llen x)), Z.min b (Z.of_nat (llen x)), 1%Z)).
  { unfold slice_indices. cbn [s_start s_stop s_step]. destruct (Z.ltb_spec a 0); [lia|]. destruct (Z.ltb_spec b 0); [lia|]. reflexivity. }
  rewrite EI in H. cbn [bind] in H.
  apply bind_inv in H. destruct H as (cur & _ & H). apply bind_inv in H. destruct H as (c0 & _ & H).
  apply bind_inv in H. destruct H as (t0 & _ & H). apply bind_inv in H. destruct H as (n0 & _ & H).
  apply passert_inv in H. destruct H as (_ & H). apply bind_inv in H. destruct H as (u & _ & H).
  apply bind_inv in H. destruct H as (curl & _ & H). apply bind_inv in H. destruct H as (c1 & _ & H).
  apply bind_inv in H. destruct H as (tl & _ & H). apply bind_inv in H. destruct H as (n1 & _ & H).
  apply passert_inv in H. exact (proj2 H).
Qed.
Lemma update_slice_local (x : ltens K) a b ts c z : lt_update_slice x (mkSlice (Some a) (Some b) None) ts c = Ok z ->
  (0 <= a)%Z -> (0 <= b)%Z ->
  agree a b (lts x) (lts z) /\ (Z.min a (lcan x) <= lcan z)%Z /\ (rcan z <= Z.max b (rcan x))%Z.
Proof.
  intros H Ha Hb. apply update_slice_inv in H; [|exact Ha|exact Hb].
  apply update_loop_local with (a := a) (b := b) in H; auto.
  apply Forall_forall. intros p Hp. unfold pyrange in Hp. apply in_map_iff in Hp. destruct Hp as (k & <- & Hk).
  apply in_seq in Hk. unfold range_len in Hk. change (0 <? 1)%Z with true in Hk. cbv iota in Hk. rewrite Z.div_1_r in Hk. lia.
Qed.
(** Two neighbouring sites: the recorded form as well. *)
Lemma update_pair_form (x : ltens K) k t u f1 f2 z :
  lt_update_slice x (mkSlice (Some k) (Some (k + 2)%Z) None) [t; u] (CSeq [f1; f2]) = Ok z -> (0 <= k)%Z -> (k + 1 < Z.of_nat (llen x))%Z ->
  let p := upd_form (lcan x) (rcan x) k f1 in
  let q := upd_form (fst p) (snd p) (k + 1) f2 in
  lcan z = fst q /\ rcan z = snd q.
Proof.
  intros H Hk Hn. apply update_slice_inv in H; [|lia|lia].
  rewrite (Z.min_l k), (Z.min_l (k + 2)) in H by lia. rewrite range_two in H. cbn [lt_update_loop] in H.
  apply bind_inv in H. destruct H as (y & E1 & H). apply bind_inv in H. destruct H as (w & E2 & H). injection H as <-.
  destruct (update1_local _ _ _ _ _ E1 Hk) as (_ & A1 & A2). destruct (update1_local _ _ _ _ _ E2 ltac:(lia)) as (_ & B1 & B2).
  cbn zeta. rewrite <- A1, <- A2. auto.
Qed.

Section QR.
Variable qr : nd K -> res (nd K * nd K).

Lemma rcanon_step_local (x : ltens K) s z : rcanon_step qr x s = Ok z -> (0 <= s)%Z -> lcan x = s ->
  agree s (s + 2) (lts x) (lts z) /\ lcan z = (s + 1)%Z /\ (rcan z <= Z.max (s + 2) (rcan x))%Z.
Proof.
  unfold rcanon_step. intros H Hs Hl.
  apply bind_inv in H. destruct H as (t & _ & H). apply bind_inv in H. destruct H as (d & _ & H).
  apply bind_inv in H. destruct H as (m & _ & H). apply bind_inv in H. destruct H as ([q r] & _ & H).
  apply bind_inv in H. destruct H as (q' & _ & H). apply bind_inv in H. destruct H as (u & Eu & H).
  apply bind_inv in H. destruct H as (u' & _ & H). apply pyget_lt in Eu.
  destruct (update_slice_local _ _ _ _ _ _ H Hs ltac:(lia)) as (A & _ & R).
  destruct (update_pair_form _ _ _ _ _ _ _ H Hs Eu) as (L & _).
  split; [exact A|]. split; [|exact R]. rewrite L. unfold upd_form. cbn [flag_is]. rewrite Hl, Z.sub_diag. cbn. lia.
Qed.
Lemma lcanon_step_local (x : ltens K) s z : lcanon_step qr x s = Ok z -> (1 <= s)%Z -> rcan x = (s + 1)%Z ->
  agree (s - 1) (s + 1) (lts x) (lts z) /\ rcan z = s /\ (Z.min (s - 1) (lcan x) <= lcan z)%Z.
Proof.
  unfold lcanon_step. intros H Hs Hr.
  apply bind_inv in H. destruct H as (t & Et & H). apply bind_inv in H. destruct H as (d & _ & H).
  apply bind_inv in H. destruct H as (m & _ & H). apply bind_inv in H. destruct H as ([q r] & _ & H).
  apply bind_inv in H. destruct H as (q' & _ & H). apply bind_inv in H. destruct H as (u & _ & H).
  apply bind_inv in H. destruct H as (u' & _ & H). apply pyget_lt in Et. unfold llen in *.
  destruct (update_slice_local _ _ _ _ _ _ H ltac:(lia) ltac:(lia)) as (A & L & _).
  replace (s + 1)%Z with ((s - 1) + 2)%Z in H by lia.
  destruct (update_pair_form _ _ _ _ _ _ _ H ltac:(lia) ltac:(unfold llen; lia)) as (_ & R).
  split; [exact A|]. split; [|exact L]. rewrite R. unfold upd_form. cbn [flag_is fst snd andb].
  replace (s - 1 + 1)%Z with s by lia. rewrite Hr.
  replace (String.eqb "right" "left" && _)%bool with false by reflexivity.
  destruct (Z.leb_spec (-1) (s - Z.max s (s + 1))); [|lia]. cbn. lia.
Qed.

Lemma rcanon_loop_local n : forall x z, foldM (rcanon_step qr) (map (fun k => (lcan x + Z.of_nat k)%Z) (seq 0 n)) x = Ok z ->
  (0 <= lcan x)%Z ->
  agree (lcan x) (lcan x + Z.of_nat n + 1) (lts x) (lts z) /\ lcan z = (lcan x + Z.of_nat n)%Z /\ (rcan z <= Z.max (lcan x + Z.of_nat n + 1) (rcan x))%Z.
Proof.
  induction n as [|n IH]; intros x z H Hl.
  - injection H as <-. split; [apply agree_refl|lia].
  - rewrite seq_map_shift in H. cbn [foldM] in H. apply bind_inv in H. destruct H as (y & E & H).
    replace (lcan x + Z.of_nat 0)%Z with (lcan x) in E by lia.
    destruct (rcanon_step_local _ _ _ E Hl eq_refl) as (A & L & R).
    assert (EM : map (fun k => (lcan x + Z.of_nat (S k))%Z) (seq 0 n) = map (fun k => (lcan y + Z.of_nat k)%Z) (seq 0 n)).
    { apply map_ext. intros k. lia. }
    rewrite EM in H. destruct (IH y z H ltac:(lia)) as (A' & L' & R').
    split; [apply (agree_trans _ _ _ (lts y)); eapply agree_weaken; eauto; lia|lia].
Qed.
Lemma lcanon_loop_local n : forall x z, foldM (lcanon_step qr) (map (fun k => (rcan x - 1 - Z.of_nat k)%Z) (seq 0 n)) x = Ok z ->
  (Z.of_nat n < rcan x)%Z ->
  agree (rcan x - Z.of_nat n - 1) (rcan x) (lts x) (lts z) /\ rcan z = (rcan x - Z.of_nat n)%Z /\ (Z.min (rcan x - Z.of_nat n - 1) (lcan x) <= lcan z)%Z.
Proof.
  induction n as [|n IH]; intros x z H Hl.
  - injection H as <-. split; [apply agree_refl|lia].
  - rewrite seq_map_shift in H. cbn [foldM] in H. apply bind_inv in H. destruct H as (y & E & H).
    replace (rcan x - 1 - Z.of_nat 0)%Z with (rcan x - 1)%Z in E by lia.
    destruct (lcanon_step_local _ _ _ E ltac:(lia) ltac:(lia)) as (A & L & R).
    assert (EM : map (fun k => (rcan x - 1 - Z.of_nat (S k))%Z) (seq 0 n) = map (fun k => (rcan y - 1 - Z.of_nat k)%Z) (seq 0 n)).
    { apply map_ext. intros k. lia. }
    rewrite EM in H. destruct (IH y z H ltac:(lia)) as (A' & L' & R').
    split; [apply (agree_trans _ _ _ (lts y)); eapply agree_weaken; eauto; lia|lia].
Qed.

(** [canonicalize(left=p)] changes sites from [lcan] to [p] only. *)
Lemma canon_left_local (x z : ltens K) p : canonicalize qr x (CAInt p) CANone = Ok z ->
  (0 <= p)%Z -> (0 <= lcan x)%Z -> (rcan x <= Z.of_nat (llen x))%Z ->
  agree (lcan x) (p + 1) (lts x) (lts z) /\ lcan z = Z.max (lcan x) p /\ (0 <= lcan z)%Z /\ (rcan z <= Z.of_nat (llen z))%Z.
Proof.
  intros H Hp Hl Hr. unfold canonicalize in H. cbn [canonical_form] in H.
  destruct (Z.ltb_spec p 0) as [C|C] in H; [lia|clear C].
  destruct (Z.ltb_spec (Z.of_nat (llen x)) 0) as [C|C] in H; [lia|clear C].
  destruct (negb _) in H; [discriminate|]. destruct (negb _) in H; [discriminate|].
  destruct (Z.ltb_spec p (Z.of_nat (llen x))) as [Pn|] in H; [|discriminate]. cbn [negb] in H.
  apply bind_inv in H. destruct H as (y & E & H).
  destruct (Z.ltb_spec (Z.of_nat (llen x)) (rcan x)) as [C|C] in H; [lia|clear C]. injection H as <-.
  destruct (Z.ltb_spec (lcan x) p) as [C|C] in E.
  - unfold rcanonicalize in E. apply passert_inv in E. destruct E as (_ & E). rewrite pyrange_up in E by lia.
    destruct (rcanon_loop_local _ _ _ E Hl) as (A & L & R). rewrite Z2Nat.id in * by lia.
    assert (llen y = llen x) as EL by (symmetry; exact (proj1 A)). rewrite EL.
    split; [eapply agree_weaken; eauto; lia|lia].
  - injection E as <-. split; [apply agree_refl|lia].
Qed.
Lemma canon_right_local (x z : ltens K) p : canonicalize qr x CANone (CAInt p) = Ok z ->
  (1 <= p)%Z -> (0 <= lcan x)%Z -> (rcan x <= Z.of_nat (llen x))%Z ->
  agree (p - 1) (rcan x) (lts x) (lts z) /\ rcan z = Z.min (rcan x) p /\ (0 <= lcan z)%Z /\ (rcan z <= Z.of_nat (llen z))%Z.
Proof.
  intros H Hp Hl Hr. unfold canonicalize in H. cbn [canonical_form] in H.
  destruct (Z.ltb_spec 0 0) as [C|C] in H; [lia|clear C].
  destruct (Z.ltb_spec p 0) as [C|C] in H; [lia|clear C].
  destruct (negb _) in H; [discriminate|]. destruct (negb _) in H; [discriminate|].
  destruct (Z.ltb_spec 0 p) as [Pn|] in H; [|discriminate]. cbn [negb] in H.
  destruct (Z.ltb_spec (lcan x) 0) as [C|C] in H; [lia|clear C]. cbn [bind] in H.
  destruct (Z.ltb_spec p (rcan x)) as [C|C] in H.
  - unfold lcanonicalize in H. apply passert_inv in H. destruct H as (_ & E). rewrite pyrange_down in E by lia.
    assert (EQ : Z.to_nat (rcan x - 1 - (p - 1)) = Z.to_nat (rcan x - p)) by lia. rewrite EQ in E.
    destruct (lcanon_loop_local (Z.to_nat (rcan x - p)) x z) as (A & L & R); [exact E|lia|]. rewrite Z2Nat.id in * by lia.
    assert (llen z = llen x) as EL by (symmetry; exact (proj1 A)). rewrite EL.
    split; [eapply agree_weaken; eauto; lia|lia].
  - injection H as <-. split; [apply agree_refl|lia].
Qed.
End QR.
End Locality.
