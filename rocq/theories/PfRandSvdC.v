(** When a sketch captures the matrix: the iterations do not matter over the complex
    numbers. *)
From Verif Require Export PfRandSvd Cplx.
From Coq Require Import Reals Lra Sorted.
Open Scope nat_scope.

Section Field.
Context {K : StarRing}.
Add Ring Kr : (k_ring K).
Definition field_like : Prop := forall x : K, x = k0 \/ exists y : K, (y * x)%K = k1.
(** Weights that undo squares *)
Lemma undo (F : field_like) (s : list K) : exists t : list K, forall c, (nth c s k0 * nth c s k0 * nth c s k0 * nth c t k0)%K = nth c s k0.
Proof.
  induction s as [|x s [t IH]].
  - exists []. intros [|c]; cbn; ring.
  - destruct (F x) as [->|[y Hy]].
    + exists (k0 :: t). intros [|c]; cbn; [ring|apply IH].
    + exists ((y * y)%K :: t). intros [|c]; cbn; [|apply IH]. transitivity ((y * x) * (y * x) * x)%K; [ring|]. rewrite Hy. ring.
Qed.

Variables (m n d sk : nat) (a u v om : mfun (K := K)) (s : list K).
Hypothesis Ea : eqm m n a (fun i j => bigsum d (fun c => u i c * nth c s k0 * v c j)%K).
Hypothesis Hu : eqm d d (mul m (adj u) u) idm.
Hypothesis Hv : eqm d d (mul n v (adj v)) idm.
Hypothesis Hs : forall c, c < d -> kconj (nth c s k0) = nth c s k0.
Lemma av : eqm m d (mul n a (adj v)) (fun i c => u i c * nth c s k0)%K.
Proof.
  intros i c Hi Hc. unfold mul, adj. rewrite (bigsum_ext n _ (fun j => bigsum d (fun e => u i e * nth e s k0 * (v e j * kconj (v c j))))%K).
  - rewrite bigsum_swap. rewrite (bigsum_ext d _ (fun e => u i e * nth e s k0 * delta e c)%K).
    + apply (bigsum_delta_r d c (fun e => u i e * nth e s k0)%K). exact Hc.
    + intros e He. rewrite bigsum_mul_l. f_equal. exact (Hv e c He Hc).
  - intros j Hj. rewrite Ea by assumption. rewrite <- bigsum_mul_r. apply bigsum_ext. intros e _. ring.
Qed.
Lemma ahu : eqm n d (mul m (adj a) u) (fun j c => kconj (v c j) * nth c s k0)%K.
Proof.
  intros j c Hj Hc. unfold mul, adj. rewrite (bigsum_ext m _ (fun i => bigsum d (fun e => kconj (v e j) * nth e s k0 * (kconj (u i e) * u i c)))%K).
  - rewrite bigsum_swap. rewrite (bigsum_ext d _ (fun e => kconj (v e j) * nth e s k0 * delta e c)%K).
    + apply (bigsum_delta_r d c (fun e => kconj (v e j) * nth e s k0)%K). exact Hc.
    + intros e He. rewrite bigsum_mul_l. f_equal. exact (Hu e c He Hc).
  - intros i Hi. rewrite Ea by assumption. rewrite bigsum_conj, <- bigsum_mul_r. apply bigsum_ext. intros e He. rewrite !kconj_mul, Hs by exact He. ring.
Qed.
(** [a a^H u = u s s] *)
Lemma aahu : eqm m d (mul n a (mul m (adj a) u)) (fun i c => u i c * nth c s k0 * nth c s k0)%K.
Proof.
  intros i c Hi Hc. rewrite (mul_ext m n d a a _ _ (eqm_refl _ _ _) ahu i c Hi Hc).
  transitivity (mul n a (adj v) i c * nth c s k0)%K; [|rewrite av by assumption; reflexivity].
  unfold mul, adj. rewrite <- bigsum_mul_r. apply bigsum_ext. intros j _. ring.
Qed.

Lemma captured_up (F : field_like) i : captured m n sk a om i -> captured m n sk a om (S i).
Proof.
  intros (x & Hx). destruct (undo F s) as [t Ht]. exists (mul n x (mul d (adj v) (fun c j => nth c t k0 * v c j)%K)).
  cbn [pw]. set (z := mul n a (pw m n a om i)) in *. set (g := fun c j => (nth c t k0 * v c j)%K).
  intros p q Hp Hq. rewrite <- mul_assoc.
  (* a a^H z x = a a^H a *)
  transitivity (mul n (mul n a (mul m (adj a) a)) (mul d (adj v) g) p q).
  { apply (mul_ext m n n); try assumption; [|apply eqm_refl]. intros p' q' Hp' Hq'. rewrite mul_assoc. apply (mul_ext m n n); try assumption; [apply eqm_refl|].
    intros p2 q2 H2 H2'. rewrite mul_assoc. apply (mul_ext n m n); try assumption. apply eqm_refl. }
  transitivity (mul d (mul n a (mul m (adj a) (fun i c => u i c * nth c s k0)%K)) g p q).
  { rewrite <- mul_assoc. apply (mul_ext m d n); try assumption; [|apply eqm_refl]. intros p' q' Hp' Hq'. rewrite mul_assoc. apply (mul_ext m n d); try assumption; [apply eqm_refl|].
    intros p2 q2 H2 H2'. rewrite mul_assoc. apply (mul_ext n m d); try assumption; [apply eqm_refl|exact av]. }
  rewrite Ea by assumption. unfold mul at 1. apply bigsum_ext. intros c Hc.
  transitivity (mul n a (mul m (adj a) u) p c * nth c s k0 * g c q)%K.
  { f_equal. unfold mul. rewrite <- bigsum_mul_r. apply bigsum_ext. intros e _. rewrite <- (Rmul_assoc (k_ring K)). f_equal. rewrite <- bigsum_mul_r. apply bigsum_ext. intros e' _. ring. }
  rewrite aahu by assumption. unfold g. transitivity (u p c * (nth c s k0 * nth c s k0 * nth c s k0 * nth c t k0) * v c q)%K; [ring|]. rewrite Ht. reflexivity.
Qed.
Lemma captured_any (F : field_like) i : captured m n sk a om 0 -> captured m n sk a om i.
Proof. intros H. induction i as [|i IH]; [exact H|apply captured_up; assumption]. Qed.
End Field.

Section Thin.
Context {K : StarRing}.
Add Ring Kr : (k_ring K).
Lemma thin_H (a : nd K) m n u s v : is_mat a m n -> thin_factors a m n u s v -> thin_factors (mat_H a) n m (mat_H v) s (mat_H u).
Proof.
  intros (Sa & Wa & Hm & Hn) (Su & Wu & Ls & Sv & Wv & E & Hu & Hv & Hs). unfold thin_factors. cbv zeta. rewrite (Nat.min_comm n m).
  split; [exact (shp_H _ _ _ Sv)|]. split; [apply wf_tab|]. split; [exact Ls|]. split; [exact (shp_H _ _ _ Su)|]. split; [apply wf_tab|].
  split; [|split; [|split; [|exact Hs]]].
  - intros i j Hi Hj. rewrite (get_H a m n) by assumption. rewrite E by assumption. rewrite bigsum_conj. apply bigsum_ext. intros c Hc.
    rewrite (get_H v _ _ _ _ Sv), (get_H u _ _ _ _ Su), !kconj_mul, (Hs c Hc) by assumption. ring.
  - intros c e Hc He. etransitivity; [|exact (Hv c e Hc He)]. apply bigsum_ext. intros i Hi. rewrite !(get_H v _ _ i _ Sv) by assumption. rewrite kconj_invol. reflexivity.
  - intros c e Hc He. etransitivity; [|exact (Hu c e Hc He)]. apply bigsum_ext. intros i Hi. rewrite !(get_H u _ _ _ i Su) by assumption. rewrite kconj_invol. reflexivity.
Qed.
Lemma captured_iters (a : nd K) m n sk om u s v : field_like (K := K) -> thin_factors a m n u s v ->
  forall i, captured m n sk (ent a) om 0 -> captured m n sk (ent a) om i.
Proof.
  intros F (Su & Wu & Ls & Sv & Wv & E & Hu & Hv & Hs) i. apply (captured_any m n (Nat.min m n) sk (ent a) (ent u) (ent v) om s); assumption.
Qed.
Lemma captured_iters_H (a : nd K) m n sk om u s v : field_like (K := K) -> is_mat a m n -> thin_factors a m n u s v ->
  forall i, captured n m sk (adj (ent a)) om 0 -> captured n m sk (adj (ent a)) om i.
Proof.
  intros F Ha Ht i H. destruct (mat_H_is a m n Ha) as [_ E]. apply (captured_ext n m sk (ent (mat_H a))); [exact E|].
  apply (captured_iters (mat_H a) n m sk om _ _ _ F (thin_H a m n u s v Ha Ht)). apply (captured_ext n m sk (adj (ent a))); [apply eqm_sym; exact E|exact H].
Qed.
End Thin.

Lemma cs_field : field_like (K := CS).
Proof.
  intros [x y]. destruct (Req_dec (x * x + y * y)%R 0%R) as [H|H].
  - left. assert (x = 0%R) by nra. assert (y = 0%R) by nra. subst. reflexivity.
  - right. exists (x / (x * x + y * y), - y / (x * x + y * y))%R. apply cplx_eq; cbn; field; exact H.
Qed.
Lemma rs_field : field_like (K := RS).
Proof.
  intros x. destruct (Req_dec x 0%R) as [->|H]; [left; reflexivity|right]. exists (/ x)%R. cbn. field. exact H.
Qed.

(** Order of the singular values *)
Lemma firstn_sorted {A : Type} (R : A -> A -> Prop) k : forall l, StronglySorted R l -> StronglySorted R (firstn k l).
Proof.
  induction k as [|k IH]; intros l H; [constructor|]. destruct H as [|x l H Hx]; [constructor|]. cbn. constructor; [apply IH; exact H|].
  rewrite Forall_forall in *. intros y Hy. apply Hx. rewrite <- (firstn_skipn k l). apply in_or_app. left. exact Hy.
Qed.
Lemma randomized_order {K : StarRing} (R : K -> K -> Prop) (qr lu : nd K -> res (nd K * nd K)) thin_svd draw known a k p n_iter nm tr u s v :
  (forall b u s v, thin_svd b = Ok (u, s, v) -> StronglySorted R s) ->
  randomized_svd qr lu thin_svd draw known a k p n_iter nm tr = Ok (u, s, v) -> StronglySorted R s.
Proof.
  intros HS. unfold randomized_svd. cbv zeta. set (it := match n_iter with Some i => i | None => _ end). set (b := match tr with Some x => x | None => _ end).
  destruct (approx_range_finder qr lu draw known (if b then mat_H a else a) (k + p) it nm) as [q|e]; [|discriminate]. cbn [bind].
  destruct (thin_svd _) as [[[uh s'] v']|e] eqn:E; [|discriminate]. cbn [bind]. apply HS in E.
  destruct b; intros H; injection H as _ <- _; apply firstn_sorted; exact E.
Qed.
(** The thin factors of a full SVD *)
Definition thin_of {K : StarRing} (svd : nd K -> res (nd K * list K * nd K)) (a : nd K) : res (nd K * list K * nd K) :=
  do r <- svd a; let '(u, s, v) := r in let d := Nat.min (nrows a) (ncols a) in Ok (take_cols d u, s, take_rows d v).
Lemma thin_of_sound {K : StarRing} (svd : nd K -> res (nd K * list K * nd K)) : svd_sound svd -> thin_sound (thin_of svd).
Proof.
  intros H m n a Ha. pose proof Ha as (Sa & Wa & Hm & Hn). pose proof (H m n a Ha) as Hf. unfold thin_of, nrows, ncols. rewrite Sa. cbn [nth].
  destruct (svd a) as [[[u s] v]|e]; cbn [bind]; [|exact Hf]. destruct Hf as (Su & Wu & Ls & Sv & Wv & E & Hu & Hv & Hs).
  set (d := Nat.min m n) in *.
  assert (Gu : forall i c, i < m -> c < d -> get (take_cols d u) [i; c] = get u [i; c]).
  { intros i c Hi Hc. unfold take_cols. rewrite Su. cbn [nth]. rewrite get_tab by (repeat constructor; try assumption; subst d; lia). reflexivity. }
  assert (Gv : forall c j, c < d -> j < n -> get (take_rows d v) [c; j] = get v [c; j]).
  { intros c j Hc Hj. unfold take_rows. rewrite Sv. cbn [nth]. rewrite get_tab by (repeat constructor; try assumption; subst d; lia). reflexivity. }
  unfold thin_factors. cbv zeta. fold d. split; [unfold take_cols; rewrite Su; cbn; f_equal; f_equal; subst d; lia|]. split; [apply wf_tab|]. split; [exact Ls|].
  split; [unfold take_rows; rewrite Sv; cbn; f_equal; subst d; lia|]. split; [apply wf_tab|]. split; [|split; [|split; [|exact Hs]]].
  - intros i j Hi Hj. rewrite E by assumption. apply bigsum_ext. intros c Hc. rewrite Gu, Gv by assumption. reflexivity.
  - intros c e Hc He. rewrite <- Hu by (subst d; lia). apply bigsum_ext. intros i Hi. rewrite !Gu by assumption. reflexivity.
  - intros c e Hc He. rewrite <- Hv by (subst d; lia). apply bigsum_ext. intros i Hi. rewrite !Gv by assumption. reflexivity.
Qed.
Lemma qr_lu_sound {K : StarRing} (qr : nd K -> res (nd K * nd K)) : qr_sound qr -> lu_sound qr.
Proof.
  intros H m n a Ha. pose proof (H m n a Ha) as Hf. destruct (qr a) as [[q r]|e]; [|exact Hf]. destruct Hf as (S1 & W1 & S2 & W2 & E & _). repeat split; assumption.
Qed.
