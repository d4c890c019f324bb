(** Expectation values of sums of local operators from the reduced states. *)
From Verif Require PfPovmEmbed.
From Verif Require Import Oracles PfHistory PfStates PfStates2 PfSymm PfEmbed PfHam PfEig3 PfContract PfEnv2.

Section S.
Context {K : StarRing}.
Add Ring Ken : (k_ring K).

Lemma eye_delta d : forall n p q, inr p (repeat d n) -> inr q (repeat d n) -> kprod (map (get (eye (K:=K) d)) (pairs p q)) = list_delta p q.
Proof.
  induction n as [|n IH]; intros p q Hp Hq; cbn [repeat] in *.
  - apply inr_nil_inv in Hp, Hq. subst. unfold list_delta. rewrite list_eqb_refl. reflexivity.
  - apply inr_cons_inv in Hp, Hq. destruct Hp as (i & p' & -> & Hi & Hp), Hq as (j & q' & -> & Hj & Hq).
    change (pairs (i :: p') (j :: q')) with ([i; j] :: pairs p' q'). cbn [map]. rewrite PfPovmEmbed.kprod_cons, (IH p' q' Hp Hq).
    rewrite NdFacts.get_eye by assumption. unfold list_delta. rewrite list_eqb_cons. unfold delta. destruct (Nat.eqb i j); cbn [andb]; ring.
Qed.

Lemma window_sum (A W B : list nat) (X : list nat -> K) (h : list nat -> list nat -> K) :
  msum (A ++ W ++ B) (fun is => msum (A ++ W ++ B) (fun js =>
    kconj (X is) * (list_delta (firstn (length A) is) (firstn (length A) js) *
                    h (firstn (length W) (skipn (length A) is)) (firstn (length W) (skipn (length A) js)) *
                    list_delta (skipn (length A + length W) is) (skipn (length A + length W) js)) * X js))%K =
  msum W (fun im => msum W (fun jm => h im jm * msum A (fun l => msum B (fun r => X (l ++ jm ++ r) * kconj (X (l ++ im ++ r))))))%K.
Proof.
  assert (C : forall l m r : list nat, inr l A -> inr m W ->
    firstn (length A) (l ++ m ++ r) = l /\ firstn (length W) (skipn (length A) (l ++ m ++ r)) = m /\ skipn (length A + length W) (l ++ m ++ r) = r).
  { intros l m r Hl Hm. rewrite <- (inr_length _ _ Hl), <- (inr_length _ _ Hm). rewrite firstn_app, firstn_all, Nat.sub_diag, app_nil_r.
    split; [reflexivity|]. rewrite skipn_app, skipn_all, Nat.sub_diag. cbn [app skipn]. split; [rewrite firstn_app, firstn_all, Nat.sub_diag; apply app_nil_r|].
    rewrite app_assoc, skipn_app, skipn_all2 by (rewrite app_length; lia). rewrite app_length, Nat.sub_diag. reflexivity. }
  rewrite msum_app.
  rewrite (msum_ext A _ (fun l => msum W (fun im => msum W (fun jm => h im jm * msum B (fun r => X (l ++ jm ++ r) * kconj (X (l ++ im ++ r)))))))%K.
  - rewrite msum_swap. apply msum_ext. intros im _. rewrite msum_swap. apply msum_ext. intros jm _. apply msum_mul_l.
  - intros l Hl. rewrite msum_app. apply msum_ext. intros im Hm.
    rewrite (msum_ext B _ (fun r => msum W (fun jm => h im jm * (X (l ++ jm ++ r) * kconj (X (l ++ im ++ r))))))%K.
    + rewrite msum_swap. apply msum_ext. intros jm _. apply msum_mul_l.
    + intros r Hr. rewrite msum_app. destruct (C l im r Hl Hm) as (C1 & C2 & C3). rewrite C1, C2, C3.
      rewrite (msum_ext A _ (fun l' => list_delta l l' * msum W (fun jm => h im jm * (X (l' ++ jm ++ r) * kconj (X (l ++ im ++ r))))))%K.
      * apply (msum_list_delta A l (fun l' => msum W (fun jm => h im jm * (X (l' ++ jm ++ r) * kconj (X (l ++ im ++ r)))))%K Hl).
      * intros l' Hl'. rewrite msum_app, <- msum_mul_l. apply msum_ext. intros jm Hj.
        rewrite (msum_ext B _ (fun r' => list_delta r r' * (list_delta l l' * (h im jm * (X (l' ++ jm ++ r') * kconj (X (l ++ im ++ r)))))))%K.
        -- apply (msum_list_delta B r (fun r' => list_delta l l' * (h im jm * (X (l' ++ jm ++ r') * kconj (X (l ++ im ++ r)))))%K Hr).
        -- intros r' Hr'. destruct (C l' jm r' Hl' Hj) as (D1 & D2 & D3). rewrite D1, D2, D3. ring.
Qed.

(** tr(h rho) for MPOs with site dimension [d] *)
Definition trace_prod (d : nat) (h r : ltens K) : K :=
  msum (repeat d (llen h)) (fun is => msum (repeat d (llen h)) (fun js => entry h (pairs is js) * entry r (pairs js is)))%K.

Lemma rep_split (d a w L : nat) : a + w <= L -> repeat d L = repeat d a ++ repeat d w ++ repeat d (L - a - w).
Proof. intros H. rewrite <- !repeat_app. f_equal. lia. Qed.
Lemma rep_firstn (d n m : nat) : n <= m -> firstn n (repeat d m) = repeat d n.
Proof. intros H. replace m with (n + (m - n)) by lia. rewrite repeat_app, firstn_app, repeat_length, Nat.sub_diag, firstn_O, app_nil_r. apply firstn_all2. rewrite repeat_length. lia. Qed.
Lemma rep_skipn (d n m : nat) : skipn n (repeat d m) = repeat d (m - n).
Proof. revert n; induction m as [|m IH]; intros [|n]; try reflexivity. cbn [repeat skipn Nat.sub]. apply IH. Qed.

Lemma term_value (x h r : ltens K) d L a : mshape x = singles (repeat d L) -> a + llen h <= L -> mps_reduction x (a, a + llen h) r ->
  msum (repeat d L) (fun is => msum (repeat d L) (fun js => kconj (entry x (singles is)) *
     (kprod (map (get (eye d)) (firstn a (pairs is js))) * entry h (firstn (llen h) (skipn a (pairs is js))) * kprod (map (get (eye d)) (skipn (a + llen h) (pairs is js)))) *
     entry x (singles js)))%K = trace_prod d h r.
Proof.
  intros Sx Ha (_ & _ & HR). cbn [fst snd] in HR. set (w := llen h) in *.
  assert (El : leg1 (mshape x) = repeat d L) by (rewrite Sx; unfold leg1, singles; rewrite map_map; cbn; apply map_id).
  rewrite El in HR. replace (a + w - a) with w in HR by lia.
  rewrite !rep_firstn, !rep_skipn in HR by (rewrite ?rep_skipn; lia). rewrite rep_firstn in HR by lia.
  assert (LA : length (repeat d a) = a) by apply repeat_length. assert (LW : length (repeat d w) = w) by apply repeat_length.
  transitivity (msum (repeat d a ++ repeat d w ++ repeat d (L - a - w)) (fun is => msum (repeat d a ++ repeat d w ++ repeat d (L - a - w)) (fun js => kconj (entry x (singles is)) *
     (list_delta (firstn (length (repeat d a)) is) (firstn (length (repeat d a)) js) * entry h (pairs (firstn (length (repeat d w)) (skipn (length (repeat d a)) is)) (firstn (length (repeat d w)) (skipn (length (repeat d a)) js))) *
      list_delta (skipn (length (repeat d a) + length (repeat d w)) is) (skipn (length (repeat d a) + length (repeat d w)) js)) * entry x (singles js))))%K.
  - rewrite <- (rep_split d a w L Ha), LA, LW. apply msum_ext. intros is Hi. apply msum_ext. intros js Hj. f_equal. f_equal.
    assert (Ln : length is = length js) by (rewrite (inr_length _ _ Hi), (inr_length _ _ Hj); reflexivity).
    rewrite !pairs_skipn, !pairs_firstn by exact Ln.
    assert (I1 : forall k, inr k (repeat d L) -> inr (firstn a k) (repeat d a) /\ inr (skipn (a + w) k) (repeat d (L - a - w))).
    { intros k Hk. rewrite (rep_split d a w L Ha) in Hk. apply inr_app_inv in Hk. destruct Hk as (k1 & k2 & -> & K1 & K2). apply inr_app_inv in K2. destruct K2 as (k3 & k4 & -> & K3 & K4).
      pose proof (inr_length _ _ K1) as L1. pose proof (inr_length _ _ K3) as L3. rewrite repeat_length in L1, L3. split.
      - rewrite firstn_app, <- L1, firstn_all, Nat.sub_diag, firstn_O, app_nil_r, L1. exact K1.
      - rewrite app_assoc, skipn_app, skipn_all2 by (rewrite app_length; lia). rewrite app_length, L1, L3, Nat.sub_diag. exact K4. }
    rewrite (eye_delta d a) by (apply I1; assumption). rewrite (eye_delta d (L - a - w)) by (apply I1; assumption). reflexivity.
  - rewrite (window_sum (repeat d a) (repeat d w) (repeat d (L - a - w)) (fun is => entry x (singles is)) (fun is js => entry h (pairs is js))).
    unfold trace_prod. fold w. apply msum_ext. intros is Hi. apply msum_ext. intros js Hj. f_equal. rewrite HR by assumption.
    replace (L - (a + w)) with (L - a - w) by lia. reflexivity.
Qed.
End S.
