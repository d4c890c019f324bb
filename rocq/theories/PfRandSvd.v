(** The randomised SVD: shapes, orthonormality, the exact error and when the result is a
    truncated SVD. *)
From Verif Require Export RandSvd CanonSpec NdFacts.
Open Scope nat_scope.

Section Fun.
Context {K : StarRing}.
Add Ring Kr : (k_ring K).
Definition mfun : Type := nat -> nat -> K.
(** Products, adjoints and entries *)
Definition mul (k : nat) (f g : mfun) : mfun := fun i j => bigsum k (fun c => f i c * g c j)%K.
Definition adj (f : mfun) : mfun := fun i j => kconj (f j i).
Definition ent (a : nd K) : mfun := fun i j => get a [i; j].
Definition eqm (m n : nat) (f g : mfun) : Prop := forall i j, i < m -> j < n -> f i j = g i j.
Definition idm : mfun := fun i j => delta i j.
Definition diag (s : list K) : mfun := fun i j => (delta i j * nth j s k0)%K.

Lemma mul_assoc k l f g h i j : mul k (mul l f g) h i j = mul l f (mul k g h) i j.
Proof.
  unfold mul. rewrite (bigsum_ext k _ (fun c => bigsum l (fun e => f i e * g e c * h c j))%K) by (intros c _; rewrite <- bigsum_mul_r; reflexivity).
  rewrite bigsum_swap. apply bigsum_ext. intros e _. rewrite <- bigsum_mul_l. apply bigsum_ext. intros c _. ring.
Qed.
Lemma mul_ext m k n f f' g g' : eqm m k f f' -> eqm k n g g' -> eqm m n (mul k f g) (mul k f' g').
Proof. intros H1 H2 i j Hi Hj. unfold mul. apply bigsum_ext. intros c Hc. rewrite H1, H2 by assumption. reflexivity. Qed.
Lemma eqm_trans m n f g h : eqm m n f g -> eqm m n g h -> eqm m n f h.
Proof. intros H1 H2 i j Hi Hj. rewrite H1, H2 by assumption. reflexivity. Qed.
Lemma eqm_sym m n f g : eqm m n f g -> eqm m n g f.
Proof. intros H i j Hi Hj. rewrite H by assumption. reflexivity. Qed.
Lemma eqm_refl m n f : eqm m n f f.
Proof. intros i j _ _. reflexivity. Qed.
Lemma adj_mul k f g i j : adj (mul k f g) i j = mul k (adj g) (adj f) i j.
Proof. unfold adj, mul. rewrite bigsum_conj. apply bigsum_ext. intros c _. rewrite kconj_mul. ring. Qed.
Lemma adj_adj f i j : adj (adj f) i j = f i j.
Proof. unfold adj. apply kconj_invol. Qed.
Lemma adj_ext m n f g : eqm m n f g -> eqm n m (adj f) (adj g).
Proof. intros H i j Hi Hj. unfold adj. rewrite H by assumption. reflexivity. Qed.
Lemma mul_id_l m n f : eqm m n (mul m idm f) f.
Proof. intros i j Hi Hj. unfold mul, idm. apply (bigsum_delta_l m i (fun c => f c j)). exact Hi. Qed.
Lemma mul_id_r m n f : eqm m n (mul n f idm) f.
Proof. intros i j Hi Hj. unfold mul, idm. apply (bigsum_delta_r n j (fun c => f i c)). exact Hj. Qed.
Lemma mul_diag_l d n s g : eqm d n (mul d (diag s) g) (fun i j => nth i s k0 * g i j)%K.
Proof.
  intros i j Hi Hj. unfold mul, diag. rewrite (bigsum_ext d _ (fun c => delta i c * (nth c s k0 * g c j))%K) by (intros; ring). apply (bigsum_delta_l d i (fun c => nth c s k0 * g c j)%K). exact Hi.
Qed.
Lemma mul_diag_r m d s f : eqm m d (mul d f (diag s)) (fun i j => f i j * nth j s k0)%K.
Proof.
  intros i j Hi Hj. unfold mul, diag. rewrite (bigsum_ext d _ (fun c => f i c * nth j s k0 * delta c j)%K) by (intros; ring). apply (bigsum_delta_r d j (fun c => f i c * nth j s k0)%K). exact Hj.
Qed.
(** The squared distance of two matrices *)
Definition fro2 (m n : nat) (f : mfun) : K := bigsum m (fun i => bigsum n (fun j => kconj (f i j) * f i j))%K.

(** ** The arrays *)
Lemma mat_mul_is a b m k n : is_mat a m k -> is_mat b k n -> is_mat (mat_mul a b) m n /\ eqm m n (ent (mat_mul a b)) (mul k (ent a) (ent b)).
Proof.
  intros (Sa & Wa & Ha & Ha') (Sb & Wb & Hb & Hb'). unfold mat_mul, nrows, ncols. rewrite Sa, Sb. cbn [nth]. split.
  - split; [reflexivity|]. split; [apply wf_tab|]. auto.
  - intros i j Hi Hj. unfold ent. rewrite get_tab by (repeat constructor; assumption). reflexivity.
Qed.
Lemma mat_H_is a m n : is_mat a m n -> is_mat (mat_H a) n m /\ eqm n m (ent (mat_H a)) (adj (ent a)).
Proof.
  intros (Sa & Wa & Ha & Ha'). unfold mat_H, nrows, ncols. rewrite Sa. cbn [nth]. split.
  - split; [reflexivity|]. split; [apply wf_tab|]. auto.
  - intros i j Hi Hj. unfold ent. rewrite get_tab by (repeat constructor; assumption). reflexivity.
Qed.

(** ** Oracles: [lu] gives factors; the thin SVD *)
Definition lu_factors (a : nd K) (m n : nat) (l u : nd K) : Prop :=
  shp l = [m; Nat.min m n] /\ ndwf l /\ shp u = [Nat.min m n; n] /\ ndwf u /\
  forall i j, i < m -> j < n -> get a [i; j] = bigsum (Nat.min m n) (fun k => get l [i; k] * get u [k; j])%K.
Definition lu_sound (lu : nd K -> res (nd K * nd K)) : Prop :=
  forall m n a, is_mat a m n -> match lu a with Ok (l, u) => lu_factors a m n l u | Err e => e = LinAlgError end.
Definition thin_factors (a : nd K) (m n : nat) (u : nd K) (s : list K) (v : nd K) : Prop :=
  let r := Nat.min m n in
  shp u = [m; r] /\ ndwf u /\ List.length s = r /\ shp v = [r; n] /\ ndwf v /\
  (forall i j, i < m -> j < n -> get a [i; j] = bigsum r (fun k => get u [i; k] * nth k s k0 * get v [k; j])%K) /\
  (forall k l, k < r -> l < r -> bigsum m (fun i => kconj (get u [i; k]) * get u [i; l])%K = delta k l) /\
  (forall k l, k < r -> l < r -> bigsum n (fun j => get v [k; j] * kconj (get v [l; j]))%K = delta k l) /\
  (forall k, k < r -> kconj (nth k s k0) = nth k s k0).
Definition thin_sound (svd : nd K -> res (nd K * list K * nd K)) : Prop :=
  forall m n a, is_mat a m n -> match svd a with Ok (u, s, v) => thin_factors a m n u s v | Err e => e = LinAlgError end.
Definition lu_fails (lu : nd K -> res (nd K * nd K)) : Prop := exists m n a, is_mat a m n /\ lu a = Err LinAlgError.

(** ** The projected matrix *)
(** [q] has orthonormal columns; [b = q^H a = uh s v]. *)
Section Core.
Variables (m n r : nat) (a q uh v : mfun) (s : list K).
Let d0 := Nat.min r n.
Hypothesis Hq : eqm r r (mul m (adj q) q) idm.
Hypothesis Hb : eqm r n (mul m (adj q) a) (mul d0 (mul d0 uh (diag s)) v).
Hypothesis Hu : eqm d0 d0 (mul r (adj uh) uh) idm.
Hypothesis Hv : eqm d0 d0 (mul n v (adj v)) idm.
Let u := mul r q uh.
Lemma core_u : eqm d0 d0 (mul m (adj u) u) idm.
Proof.
  intros i j Hi Hj. unfold u. transitivity (mul m (mul r (adj uh) (adj q)) (mul r q uh) i j).
  { unfold mul at 1 4. apply bigsum_ext. intros c _. rewrite adj_mul. reflexivity. }
  rewrite mul_assoc. transitivity (mul r (adj uh) uh i j); [|apply Hu; assumption].
  apply (mul_ext d0 r d0); [apply eqm_refl| |assumption|assumption]. intros c e Hc He. rewrite <- mul_assoc.
  rewrite (mul_ext r r d0 _ idm _ uh Hq (eqm_refl _ _ _) c e Hc He). apply (mul_id_l r d0); assumption.
Qed.
(** [u^H a = s v] *)
Lemma core_left : eqm d0 n (mul m (adj u) a) (mul d0 (diag s) v).
Proof.
  intros i j Hi Hj. unfold u. transitivity (mul m (mul r (adj uh) (adj q)) a i j).
  { unfold mul at 1 3. apply bigsum_ext. intros c _. rewrite adj_mul. reflexivity. }
  rewrite mul_assoc. rewrite (mul_ext d0 r n _ (adj uh) _ _ (eqm_refl _ _ _) Hb i j Hi Hj).
  transitivity (mul r (adj uh) (mul d0 uh (mul d0 (diag s) v)) i j).
  { unfold mul at 1 4. apply bigsum_ext. intros c _. rewrite mul_assoc. reflexivity. }
  rewrite <- mul_assoc. rewrite (mul_ext d0 d0 n _ idm _ (mul d0 (diag s) v) Hu (eqm_refl _ _ _) i j Hi Hj). apply (mul_id_l d0 n); assumption.
Qed.
(** [q q^H a = u s v] *)
Lemma core_proj : eqm m n (mul r q (mul m (adj q) a)) (mul d0 (mul d0 u (diag s)) v).
Proof.
  intros i j Hi Hj. rewrite (mul_ext m r n q q _ _ (eqm_refl _ _ _) Hb i j Hi Hj). unfold u.
  rewrite <- mul_assoc. unfold mul at 1 4. apply bigsum_ext. intros c _. f_equal. rewrite <- mul_assoc. reflexivity.
Qed.
(** [q q^H a v^H = u s] *)
Lemma core_right : eqm m n (mul r q (mul m (adj q) a)) a -> eqm m d0 (mul n a (adj v)) (mul d0 u (diag s)).
Proof.
  intros Hc i j Hi Hj. rewrite (mul_ext m n d0 a (mul d0 (mul d0 u (diag s)) v) (adj v) (adj v)); [|eapply eqm_trans; [apply eqm_sym; exact Hc|exact core_proj]|apply eqm_refl|assumption|assumption].
  rewrite mul_assoc. rewrite (mul_ext m d0 d0 _ (mul d0 u (diag s)) _ idm (eqm_refl _ _ _) Hv i j Hi Hj). apply (mul_id_r m d0); assumption.
Qed.
End Core.

(** The error of [u s v] if [u^H a = s v]: what is missing from the squares of [a]. *)
Lemma error_left m n d a u v s : eqm d d (mul m (adj u) u) idm -> eqm d n (mul m (adj u) a) (mul d (diag s) v) ->
  eqm d d (mul n v (adj v)) idm -> (forall c, c < d -> kconj (nth c s k0) = nth c s k0) ->
  fro2 m n (fun i j => a i j - mul d (mul d u (diag s)) v i j)%K = (fro2 m n a - bigsum d (fun c => nth c s k0 * nth c s k0))%K.
Proof.
  intros Hu Hl Hv Hs.
  assert (E : eqm m n (mul d (mul d u (diag s)) v) (mul d u (fun c j => nth c s k0 * v c j)%K)).
  { intros i j Hi Hj. rewrite mul_assoc. apply (mul_ext m d n); [apply eqm_refl|apply mul_diag_l|assumption|assumption]. }
  set (w := fun c j => (nth c s k0 * v c j)%K) in *.
  assert (Hl' : eqm d n (mul m (adj u) a) w) by (eapply eqm_trans; [exact Hl|apply mul_diag_l]).
  (* the squares of u w *)
  assert (Q : fro2 d n w = bigsum d (fun c => nth c s k0 * nth c s k0)%K).
  { unfold fro2. apply bigsum_ext. intros c Hc. unfold w. rewrite (bigsum_ext n _ (fun j => nth c s k0 * nth c s k0 * (v c j * kconj (v c j)))%K).
    - rewrite bigsum_mul_l. pose proof (Hv c c Hc Hc) as Hvc. unfold mul, adj, idm in Hvc. rewrite Hvc. unfold delta. rewrite Nat.eqb_refl. ring.
    - intros j _. rewrite kconj_mul, Hs by exact Hc. ring. }
  rewrite <- Q.
  assert (col : forall j, j < n -> bigsum m (fun i => kconj (a i j - mul d u w i j) * (a i j - mul d u w i j))%K = (bigsum m (fun i => kconj (a i j) * a i j) - bigsum d (fun c => kconj (w c j) * w c j))%K).
  { intros j Hj.
    assert (C1 : bigsum m (fun i => kconj (mul d u w i j) * a i j)%K = bigsum d (fun c => kconj (w c j) * w c j)%K).
    { rewrite (bigsum_ext m _ (fun i => bigsum d (fun c => kconj (w c j) * (kconj (u i c) * a i j)))%K).
      - rewrite bigsum_swap. apply bigsum_ext. intros c Hc. rewrite bigsum_mul_l. f_equal. exact (Hl' c j Hc Hj).
      - intros i _. unfold mul. rewrite bigsum_conj, <- bigsum_mul_r. apply bigsum_ext. intros c _. rewrite kconj_mul. ring. }
    assert (C2 : bigsum m (fun i => kconj (a i j) * mul d u w i j)%K = bigsum d (fun c => kconj (w c j) * w c j)%K).
    { transitivity (kconj (bigsum m (fun i => kconj (mul d u w i j) * a i j)%K)).
      - rewrite bigsum_conj. apply bigsum_ext. intros i _. rewrite kconj_mul, kconj_invol. ring.
      - rewrite C1, bigsum_conj. apply bigsum_ext. intros c _. rewrite kconj_mul, kconj_invol. ring. }
    assert (G : forall i x, (kconj (mul d u w i j) * x = bigsum d (fun c => kconj (w c j) * (kconj (u i c) * x)))%K).
    { intros i x. unfold mul. rewrite bigsum_conj, <- bigsum_mul_r. apply bigsum_ext. intros c _. rewrite kconj_mul. ring. }
    assert (C3 : bigsum m (fun i => kconj (mul d u w i j) * mul d u w i j)%K = bigsum d (fun c => kconj (w c j) * w c j)%K).
    { rewrite (bigsum_ext m _ (fun i => bigsum d (fun c => kconj (w c j) * (kconj (u i c) * mul d u w i j)))%K).
      - rewrite bigsum_swap. apply bigsum_ext. intros c Hc. rewrite bigsum_mul_l. f_equal.
        change (mul m (adj u) (mul d u w) c j = w c j). rewrite <- mul_assoc. rewrite (mul_ext d d n _ idm w w Hu (eqm_refl _ _ _) c j Hc Hj). apply (mul_id_l d n); assumption.
      - intros i _. apply G. }
    rewrite (bigsum_ext m _ (fun i => kconj (a i j) * a i j - kconj (mul d u w i j) * a i j - kconj (a i j) * mul d u w i j + kconj (mul d u w i j) * mul d u w i j)%K).
    - rewrite bigsum_add, !bigsum_sub, C1, C2, C3. ring.
    - intros i _. rewrite kconj_sub. ring. }
  unfold fro2. rewrite (bigsum_swap m n), (bigsum_swap m n), (bigsum_swap d n), <- bigsum_sub. apply bigsum_ext. intros j Hj. rewrite <- col by exact Hj.
  apply bigsum_ext. intros i Hi. rewrite E by assumption. reflexivity.
Qed.

(** ** The sketch *)
(** [(a^H a)^i om] *)
Fixpoint pw (m n : nat) (a om : mfun) (i : nat) : mfun :=
  match i with O => om | S i' => mul m (adj a) (mul n a (pw m n a om i')) end.
(** The sketch determines [a]: [a (a^H a)^i om x = a]. *)
Definition captured (m n sk : nat) (a om : mfun) (i : nat) : Prop :=
  exists x : mfun, eqm m n (mul sk (mul n a (pw m n a om i)) x) a.


Section Oracles.
Variables (qr lu : nd K -> res (nd K * nd K)) (thin_svd : nd K -> res (nd K * list K * nd K)).
Variable draw : list nat -> list nat -> K.
Hypothesis Hqr : qr_sound qr.
Hypothesis Hlu : lu_sound lu.
Hypothesis Hsvd : thin_sound thin_svd.
Definition rs_fails : Prop := qr_fails qr \/ lu_fails lu \/ svd_fails thin_svd.

Lemma qr_call a m n : is_mat a m n -> outc rs_fails (qr a) (fun r => qr_factors a m n (fst r) (snd r)).
Proof.
  intros Ha. pose proof (Hqr m n a Ha) as H. destruct (qr a) as [[q r]|e] eqn:E.
  - apply outc_ok. exact H.
  - subst e. right. split; [reflexivity|]. left. exists m, n, a. auto.
Qed.
Lemma lu_call a m n : is_mat a m n -> outc rs_fails (lu a) (fun r => lu_factors a m n (fst r) (snd r)).
Proof.
  intros Ha. pose proof (Hlu m n a Ha) as H. destruct (lu a) as [[q r]|e] eqn:E.
  - apply outc_ok. exact H.
  - subst e. right. split; [reflexivity|]. right. left. exists m, n, a. auto.
Qed.
Lemma svd_call a m n : is_mat a m n -> outc rs_fails (thin_svd a) (fun r => thin_factors a m n (fst (fst r)) (snd (fst r)) (snd r)).
Proof.
  intros Ha. pose proof (Hsvd m n a Ha) as H. destruct (thin_svd a) as [[[u s] v]|e] eqn:E.
  - apply outc_ok. exact H.
  - subst e. right. split; [reflexivity|]. right. right. exists m, n, a. auto.
Qed.

(** What the loop keeps: the columns of [q] span those of [(a^H a)^i om]. *)
Definition spans (m n sk : nat) (a om : mfun) (i : nat) (q : nd K) : Prop :=
  exists c, is_mat q n c /\ Nat.min m (Nat.min n c) = Nat.min m (Nat.min n sk) /\
    exists w, eqm n sk (mul c (ent q) w) (pw m n a om i).
(** Factors [l u] as [qr] and [lu] give them *)
Definition two_factors (a : nd K) (m n : nat) (l u : nd K) : Prop :=
  is_mat l m (Nat.min m n) /\ eqm m n (ent a) (mul (Nat.min m n) (ent l) (ent u)).
Lemma qr_two a m n l u : is_mat a m n -> qr_factors a m n l u -> two_factors a m n l u.
Proof.
  intros (_ & _ & Hm & Hn) (S1 & W1 & S2 & W2 & E & _). split; [|exact E].
  split; [exact S1|]. split; [exact W1|]. split; [exact Hm|]. apply Nat.min_glb_lt; assumption.
Qed.
Lemma lu_two a m n l u : is_mat a m n -> lu_factors a m n l u -> two_factors a m n l u.
Proof.
  intros (_ & _ & Hm & Hn) (S1 & W1 & S2 & W2 & E). split; [|exact E].
  split; [exact S1|]. split; [exact W1|]. split; [exact Hm|]. apply Nat.min_glb_lt; assumption.
Qed.

Lemma pw_step m n sk a om i q c w : is_mat a m n -> is_mat q n c -> eqm n sk (mul c (ent q) w) (pw m n (ent a) om i) ->
  eqm n sk (mul c (mul m (adj (ent a)) (mul n (ent a) (ent q))) w) (pw m n (ent a) om (S i)).
Proof.
  intros Ha Hq Hw x y Hx Hy. rewrite mul_assoc. cbn [pw].
  apply (mul_ext n m sk); [apply eqm_refl| |assumption|assumption]. intros x' y' Hx' Hy'. rewrite mul_assoc.
  apply (mul_ext m n sk); [apply eqm_refl|exact Hw|assumption|assumption].
Qed.
Lemma step_plain m n sk a om i q : is_mat a m n -> spans m n sk (ent a) om i q -> spans m n sk (ent a) om (S i) (mat_mul (mat_H a) (mat_mul a q)).
Proof.
  intros Ha (c & Hq & Hc & w & Hw).
  destruct (mat_mul_is a q m n c Ha Hq) as [I1 E1]. destruct (mat_H_is a m n Ha) as [I2 E2]. destruct (mat_mul_is _ _ n m c I2 I1) as [I3 E3].
  exists c. split; [exact I3|]. split; [exact Hc|]. exists w. eapply eqm_trans; [|exact (pw_step _ _ _ _ _ _ _ _ _ Ha Hq Hw)].
  apply mul_ext; [|apply eqm_refl]. eapply eqm_trans; [exact E3|]. apply mul_ext; [exact E2|exact E1].
Qed.
Lemma step_two m n sk a om i q l1 u1 l2 u2 c : is_mat a m n -> is_mat q n c -> Nat.min m (Nat.min n c) = Nat.min m (Nat.min n sk) ->
  (exists w, eqm n sk (mul c (ent q) w) (pw m n (ent a) om i)) ->
  two_factors (mat_mul a q) m c l1 u1 -> two_factors (mat_mul (mat_H a) l1) n (Nat.min m c) l2 u2 ->
  spans m n sk (ent a) om (S i) l2.
Proof.
  intros Ha Hq Hc (w & Hw) [I1 E1] [I2 E2]. set (r1 := Nat.min m c) in *.
  destruct (mat_mul_is a q m n c Ha Hq) as [J1 F1]. destruct (mat_H_is a m n Ha) as [J2 F2]. destruct (mat_mul_is _ _ n m r1 J2 I1) as [J3 F3].
  exists (Nat.min n r1). split; [exact I2|]. split; [subst r1; lia|]. exists (mul r1 (ent u2) (mul c (ent u1) w)).
  eapply eqm_trans; [|exact (pw_step _ _ _ _ _ _ _ _ _ Ha Hq Hw)]. apply eqm_sym.
  intros x y Hx Hy. rewrite <- (mul_assoc r1 (Nat.min n r1)).
  rewrite (mul_ext n r1 sk (mul (Nat.min n r1) (ent l2) (ent u2)) (mul m (adj (ent a)) (ent l1)) (mul c (ent u1) w) (mul c (ent u1) w)); try assumption; [|eapply eqm_trans; [apply eqm_sym; exact E2|eapply eqm_trans; [exact F3|apply mul_ext; [exact F2|apply eqm_refl]]]|apply eqm_refl].
  rewrite <- mul_assoc. apply (mul_ext n c sk); try assumption; [|apply eqm_refl]. intros x' y' Hx' Hy'. rewrite mul_assoc.
  apply (mul_ext n m c); try assumption; [apply eqm_refl|]. eapply eqm_trans; [apply eqm_sym; exact F1|exact E1].
Qed.

(** The iterations that are done: none for a normalizer that is not known. *)
Definition iters (nm : normalizer) (n_iter : nat) : nat := match nm with NUnknown => 0 | _ => n_iter end.
Lemma power_step_spec m n sk a om i q nm : nm <> NAuto -> nm <> NUnknown -> is_mat a m n -> spans m n sk (ent a) om i q ->
  outc rs_fails (power_step qr lu nm a q) (spans m n sk (ent a) om (S i)).
Proof.
  intros N1 N2 Ha Hs. destruct nm; [congruence| | | |congruence]; cbn [power_step].
  - apply outc_ok. apply step_plain; assumption.
  - destruct Hs as (c & Hq & Hc & Hw). destruct (mat_mul_is a q m n c Ha Hq) as [J1 F1].
    apply (outc_bind _ _ _ (fun r => two_factors (mat_mul a q) m c (fst r) (snd r))).
    { eapply outc_weaken; [exact (lu_call _ _ _ J1)|intros HF; exact HF|]. intros r Hr. apply lu_two; assumption. }
    intros [l1 u1] H1. cbn [fst snd] in *. destruct (mat_H_is a m n Ha) as [J2 F2]. destruct (mat_mul_is _ _ n m _ J2 (proj1 H1)) as [J3 F3].
    apply (outc_bind _ _ _ (fun r => two_factors (mat_mul (mat_H a) l1) n (Nat.min m c) (fst r) (snd r))).
    { eapply outc_weaken; [exact (lu_call _ _ _ J3)|intros HF; exact HF|]. intros r Hr. apply lu_two; assumption. }
    intros [l2 u2] H2. apply outc_ok. exact (step_two _ _ _ _ _ _ _ _ _ _ _ _ Ha Hq Hc Hw H1 H2).
  - destruct Hs as (c & Hq & Hc & Hw). destruct (mat_mul_is a q m n c Ha Hq) as [J1 F1].
    apply (outc_bind _ _ _ (fun r => two_factors (mat_mul a q) m c (fst r) (snd r))).
    { eapply outc_weaken; [exact (qr_call _ _ _ J1)|intros HF; exact HF|]. intros r Hr. apply qr_two; assumption. }
    intros [l1 u1] H1. cbn [fst snd] in *. destruct (mat_H_is a m n Ha) as [J2 F2]. destruct (mat_mul_is _ _ n m _ J2 (proj1 H1)) as [J3 F3].
    apply (outc_bind _ _ _ (fun r => two_factors (mat_mul (mat_H a) l1) n (Nat.min m c) (fst r) (snd r))).
    { eapply outc_weaken; [exact (qr_call _ _ _ J3)|intros HF; exact HF|]. intros r Hr. apply qr_two; assumption. }
    intros [l2 u2] H2. apply outc_ok. exact (step_two _ _ _ _ _ _ _ _ _ _ _ _ Ha Hq Hc Hw H1 H2).
Qed.
Lemma power_iter_spec m n sk a om nm it : nm <> NAuto -> is_mat a m n -> forall i q, spans m n sk (ent a) om i q ->
  outc rs_fails (power_iter qr lu nm a it q) (spans m n sk (ent a) om (iters nm it + i)).
Proof.
  intros N1 Ha. destruct nm eqn:En; [congruence| | | |].
  1-3: induction it as [|it IH]; intros i q Hs; cbn [power_iter iters Nat.add]; [apply outc_ok; exact Hs|].
  1-3: eapply outc_bind; [eapply power_step_spec; [discriminate|discriminate|exact Ha|exact Hs]|].
  1-3: intros q' Hq'; pose proof (IH _ _ Hq') as H; cbn [iters] in H; rewrite Nat.add_succ_r in H; exact H.
  induction it as [|it IH]; intros i q Hs; [apply outc_ok; exact Hs|]. cbn [power_iter power_step bind]. exact (IH i q Hs).
Qed.

(** ** The range finder *)
Definition omega (n sk : nat) : mfun := fun i j => draw [n; sk] [i; j].
Definition range_of (m n sk : nat) (a : mfun) (i : nat) (q : nd K) : Prop :=
  exists r, is_mat q m r /\ Nat.min r n = Nat.min m (Nat.min n sk) /\
    eqm r r (mul m (adj (ent q)) (ent q)) idm /\
    exists x, eqm m sk (mul n a (pw m n a (omega n sk) i)) (mul r (ent q) x).
Lemma range_finder_spec m n sk a it nm : is_mat a m n -> 0 < sk ->
  outc rs_fails (approx_range_finder qr lu draw true a sk it nm) (range_of m n sk (ent a) (iters nm it)).
Proof.
  intros Ha Hsk. pose proof Ha as (Sa & Wa & Hm & Hn). unfold approx_range_finder, standard_normal, praise_unless. cbn [bind]. unfold ncols. rewrite Sa. cbn [nth].
  set (nm' := match nm with NAuto => if Nat.leb it 2 then NNone else NLu | _ => nm end).
  assert (N : nm' <> NAuto) by (subst nm'; destruct nm; try discriminate; destruct (Nat.leb it 2); discriminate).
  assert (Ei : iters nm' it = iters nm it) by (subst nm'; destruct nm; try reflexivity; destruct (Nat.leb it 2); reflexivity).
  assert (S0 : spans m n sk (ent a) (omega n sk) 0 (tab [n; sk] (draw [n; sk]))).
  { exists sk. split; [split; [reflexivity|split; [apply wf_tab|auto]]|]. split; [reflexivity|]. exists idm. intros i j Hi Hj. rewrite (mul_id_r n sk) by assumption. unfold ent. rewrite get_tab by (repeat constructor; assumption). reflexivity. }
  eapply outc_bind; [exact (power_iter_spec m n sk a (omega n sk) nm' it N Ha 0 _ S0)|]. rewrite Nat.add_0_r, Ei.
  intros q' (c & Hq & Hc & w & Hw). destruct (mat_mul_is a q' m n c Ha Hq) as [J1 F1].
  eapply outc_bind; [exact (qr_call _ _ _ J1)|]. intros [q r] Hf. cbn [fst snd] in *. apply outc_ok.
  destruct (qr_two _ _ _ _ _ J1 Hf) as [I E]. destruct Hf as (_ & _ & _ & _ & _ & O).
  exists (Nat.min m c). split; [exact I|]. split; [lia|]. split; [exact O|]. exists (mul c (ent r) w).
  intros i j Hi Hj. rewrite <- mul_assoc. rewrite (mul_ext m n sk (ent a) (ent a) _ _ (eqm_refl _ _ _) (eqm_sym _ _ _ _ Hw) i j Hi Hj). rewrite <- mul_assoc.
  apply (mul_ext m c sk); try assumption; [|apply eqm_refl]. eapply eqm_trans; [apply eqm_sym; exact F1|exact E].
Qed.

(** ** The result *)
Lemma nth_firstn' {A : Type} (z : A) l : forall k i, i < k -> nth i (firstn k l) z = nth i l z.
Proof. induction l as [|x l IH]; intros [|k] [|i] H; cbn; try reflexivity; try lia. apply IH. lia. Qed.
(** Partial isometries with real weights, as many as asked for. *)
Definition frames (m n k : nat) (u : nd K) (s : list K) (v : nd K) : Prop :=
  let d := List.length s in
  d = Nat.min k (Nat.min m n) /\ shp u = [m; d] /\ ndwf u /\ shp v = [d; n] /\ ndwf v /\
  (forall c e, c < d -> e < d -> bigsum m (fun i => kconj (get u [i; c]) * get u [i; e])%K = delta c e) /\
  (forall c e, c < d -> e < d -> bigsum n (fun j => get v [c; j] * kconj (get v [e; j]))%K = delta c e) /\
  (forall c, c < d -> kconj (nth c s k0) = nth c s k0).
Definition left_eq (a : nd K) (m n : nat) (u : nd K) (s : list K) (v : nd K) : Prop :=
  forall c j, c < List.length s -> j < n -> bigsum m (fun i => kconj (get u [i; c]) * get a [i; j])%K = (nth c s k0 * get v [c; j])%K.
Definition right_eq (a : nd K) (m n : nat) (u : nd K) (s : list K) (v : nd K) : Prop :=
  forall i c, i < m -> c < List.length s -> bigsum n (fun j => get a [i; j] * kconj (get v [c; j]))%K = (get u [i; c] * nth c s k0)%K.
Definition product_eq (a : nd K) (m n : nat) (u : nd K) (s : list K) (v : nd K) : Prop :=
  forall i j, i < m -> j < n -> get a [i; j] = bigsum (List.length s) (fun c => get u [i; c] * nth c s k0 * get v [c; j])%K.
(** The squares of the entries of [a - u s v] *)
Definition sq_error (a : nd K) (m n : nat) (u : nd K) (s : list K) (v : nd K) : K :=
  bigsum m (fun i => bigsum n (fun j =>
    let e := (get a [i; j] - bigsum (List.length s) (fun c => get u [i; c] * nth c s k0 * get v [c; j]))%K in kconj e * e))%K.
Definition sq_sum (a : nd K) (m n : nat) : K := bigsum m (fun i => bigsum n (fun j => kconj (get a [i; j]) * get a [i; j]))%K.

Lemma usv_mul d u s v m n : eqm m n (fun i j => bigsum d (fun c => get u [i; c] * nth c s k0 * get v [c; j])%K) (mul d (mul d (ent u) (diag s)) (ent v)).
Proof. intros i j Hi Hj. unfold mul at 1. apply bigsum_ext. intros c Hc. rewrite (mul_diag_r m d) by assumption. reflexivity. Qed.
Lemma error_of_left a m n k u s v : frames m n k u s v -> left_eq a m n u s v ->
  sq_error a m n u s v = (sq_sum a m n - bigsum (List.length s) (fun c => nth c s k0 * nth c s k0))%K.
Proof.
  intros (Hd & _ & _ & _ & _ & Hu & Hv & Hs) Hl. set (d := List.length s) in *.
  change (sq_sum a m n) with (fro2 m n (ent a)). rewrite <- (error_left m n d (ent a) (ent u) (ent v) s).
  - unfold sq_error, fro2. apply bigsum_ext. intros i Hi. apply bigsum_ext. intros j Hj. cbv zeta. pose proof (usv_mul d u s v m n i j Hi Hj) as E. cbv beta in E. fold d. rewrite E. reflexivity.
  - exact Hu.
  - intros c j Hc Hj. rewrite (mul_diag_l d n) by assumption. exact (Hl c j Hc Hj).
  - exact Hv.
  - exact Hs.
Qed.

(** The result of the branch without a transposition *)
Definition plain_result (m n k sk it : nat) (a u : nd K) (s : list K) (v : nd K) : Prop :=
  frames m n k u s v /\ left_eq a m n u s v /\
  (captured m n sk (ent a) (omega n sk) it -> right_eq a m n u s v /\ (Nat.min m n <= k -> product_eq a m n u s v)).

Lemma plain_spec m n k sk it a q uh s v : is_mat a m n -> k <= sk -> range_of m n sk (ent a) it q ->
  (forall r, is_mat q m r -> thin_factors (mat_H (mat_mul (mat_H a) q)) r n uh s v) ->
  plain_result m n k sk it a (take_cols k (mat_mul q uh)) (firstn k s) (take_rows k v).
Proof.
  intros Ha Hk (r & Hq & Hr & Ho & x & Hx) Ht. specialize (Ht r Hq).
  pose proof Ha as (Sa & Wa & Hm & Hn). pose proof Hq as (Sq & Wq & _ & Hr0).
  destruct (mat_H_is a m n Ha) as [J1 F1]. destruct (mat_mul_is _ _ n m r J1 Hq) as [J2 F2]. destruct (mat_H_is _ n r J2) as [J3 F3].
  destruct Ht as (Su & Wu & Ls & Sv & Wv & E & Hu & Hv & Hs). set (d0 := Nat.min r n) in *.
  assert (Iu : is_mat uh r d0) by (split; [exact Su|split; [exact Wu|split; [exact Hr0|subst d0; lia]]]).
  destruct (mat_mul_is q uh m r d0 Hq Iu) as [J4 F4]. destruct J4 as (S4 & W4 & _ & _).
  assert (Hb : eqm r n (mul m (adj (ent q)) (ent a)) (mul d0 (mul d0 (ent uh) (diag s)) (ent v))).
  { eapply eqm_trans; [|eapply eqm_trans; [|apply usv_mul]; intros i j Hi Hj; exact (E i j Hi Hj)].
    apply eqm_sym. eapply eqm_trans; [exact F3|]. eapply eqm_trans; [apply adj_ext; exact F2|]. intros i j Hi Hj. rewrite adj_mul.
    apply (mul_ext r m n); try assumption; [apply eqm_refl|]. eapply eqm_trans; [apply adj_ext; exact F1|]. intros i' j' _ _. apply adj_adj. }
  pose proof (core_u m n r (ent q) (ent uh) Ho Hu) as CU.
  pose proof (core_left m n r (ent a) (ent q) (ent uh) (ent v) s Hb Hu) as CL.
  pose proof (core_proj m n r (ent a) (ent q) (ent uh) (ent v) s Hb) as CP.
  pose proof (core_right m n r (ent a) (ent q) (ent uh) (ent v) s Hb Hv) as CR.
  set (U := mul r (ent q) (ent uh)) in *.
  assert (Ld : List.length (firstn k s) = Nat.min k (Nat.min m n)) by (rewrite firstn_length, Ls; subst d0; lia).
  assert (Ld' : List.length (firstn k s) = Nat.min k d0) by (rewrite firstn_length, Ls; reflexivity).
  assert (Gu : forall i c, i < m -> c < Nat.min k d0 -> get (take_cols k (mat_mul q uh)) [i; c] = U i c).
  { intros i c Hi Hc. unfold take_cols. rewrite S4. cbn [nth]. rewrite get_tab by (repeat constructor; assumption). apply F4; lia. }
  assert (Gv : forall c j, c < Nat.min k d0 -> j < n -> get (take_rows k v) [c; j] = ent v c j).
  { intros c j Hc Hj. unfold take_rows. rewrite Sv. cbn [nth]. rewrite get_tab by (repeat constructor; assumption). reflexivity. }
  assert (Gs : forall c, c < Nat.min k d0 -> nth c (firstn k s) k0 = nth c s k0).
  { intros c Hc. apply nth_firstn'. lia. }
  split; [|split].
  - unfold frames. cbv zeta. split; [exact Ld|]. rewrite Ld'.
    split; [unfold take_cols; rewrite S4; reflexivity|]. split; [apply wf_tab|]. split; [unfold take_rows; rewrite Sv; reflexivity|]. split; [apply wf_tab|].
    split; [|split].
    + intros c e Hc He. etransitivity; [|apply (CU c e); lia]. unfold mul, adj. apply bigsum_ext. intros i Hi. rewrite !Gu by assumption. reflexivity.
    + intros c e Hc He. etransitivity; [|apply (Hv c e); lia]. apply bigsum_ext. intros j Hj. rewrite !Gv by assumption. reflexivity.
    + intros c Hc. rewrite Gs by assumption. apply Hs. lia.
  - intros c j Hc Hj. rewrite Ld' in Hc. rewrite Gs, Gv by assumption. pose proof (CL c j ltac:(lia) Hj) as H. rewrite (mul_diag_l d0 n) in H by lia. etransitivity; [|exact H].
    unfold mul, adj. apply bigsum_ext. intros i Hi. rewrite Gu by assumption. reflexivity.
  - intros (y & Hy).
    assert (CC : eqm m n (mul r (ent q) (mul m (adj (ent q)) (ent a))) (ent a)).
    { (* a = q (x y) *)
      assert (Ea : eqm m n (ent a) (mul r (ent q) (mul sk x y))).
      { eapply eqm_trans; [apply eqm_sym; exact Hy|]. intros i j Hi Hj. rewrite <- mul_assoc. apply (mul_ext m sk n); try assumption. apply eqm_refl. }
      eapply eqm_trans; [|apply eqm_sym; exact Ea]. apply mul_ext; [apply eqm_refl|].
      eapply eqm_trans; [apply mul_ext; [apply eqm_refl|exact Ea]|]. intros i j Hi Hj. rewrite <- mul_assoc.
      rewrite (mul_ext r r n _ idm (mul sk x y) (mul sk x y) Ho (eqm_refl _ _ _) i j Hi Hj). apply (mul_id_l r n); assumption. }
    specialize (CR CC). split.
    + intros i c Hi Hc. rewrite Ld' in Hc. rewrite Gs, Gu by assumption. pose proof (CR i c Hi ltac:(lia)) as H. rewrite (mul_diag_r m d0) in H by lia. etransitivity; [|exact H].
      unfold mul, adj. apply bigsum_ext. intros j Hj. rewrite Gv by assumption. reflexivity.
    + intros Hmn i j Hi Hj. rewrite Ld'. replace (Nat.min k d0) with d0 by lia.
      change (get a [i; j]) with (ent a i j). rewrite <- CC by assumption. rewrite CP by assumption. unfold mul at 1. apply bigsum_ext. intros c Hc. rewrite (mul_diag_r m d0) by assumption.
      rewrite Gs, Gu, Gv by lia. reflexivity.
Qed.

(** ** Transposing back *)
Lemma get_H (a : nd K) m n i j : shp a = [m; n] -> i < n -> j < m -> get (mat_H a) [i; j] = kconj (get a [j; i]).
Proof. intros Sa Hi Hj. unfold mat_H, nrows, ncols. rewrite Sa. cbn [nth]. rewrite get_tab by (repeat constructor; assumption). reflexivity. Qed.
Lemma shp_H (a : nd K) m n : shp a = [m; n] -> shp (mat_H a) = [n; m].
Proof. intros Sa. unfold mat_H, nrows, ncols. rewrite Sa. reflexivity. Qed.
Lemma frames_H m n k u s v : frames n m k u s v -> frames m n k (mat_H v) s (mat_H u).
Proof.
  intros (Hd & Su & Wu & Sv & Wv & Hu & Hv & Hs). unfold frames. cbv zeta. split; [lia|]. split; [exact (shp_H _ _ _ Sv)|]. split; [apply wf_tab|]. split; [exact (shp_H _ _ _ Su)|]. split; [apply wf_tab|].
  split; [|split; [|exact Hs]].
  - intros c e Hc He. etransitivity; [|exact (Hv c e Hc He)]. apply bigsum_ext. intros i Hi. rewrite !(get_H v _ _ i _ Sv) by assumption. rewrite kconj_invol. reflexivity.
  - intros c e Hc He. etransitivity; [|exact (Hu c e Hc He)]. apply bigsum_ext. intros i Hi. rewrite !(get_H u _ _ _ i Su) by assumption. rewrite kconj_invol. reflexivity.
Qed.
Lemma left_H m n k (a u : nd K) s v : shp a = [m; n] -> frames n m k u s v -> left_eq (mat_H a) n m u s v -> right_eq a m n (mat_H v) s (mat_H u).
Proof.
  intros Sa (Hd & Su & Wu & Sv & Wv & Hu & Hv & Hs) Hl i c Hi Hc. rewrite (get_H v _ _ _ _ Sv) by assumption.
  pose proof (f_equal kconj (Hl c i Hc Hi)) as H. rewrite kconj_mul, (Hs c Hc), bigsum_conj in H. transitivity (nth c s k0 * kconj (get v [c; i]))%K; [|ring]. rewrite <- H.
  apply bigsum_ext. intros j Hj. rewrite (get_H u _ _ _ _ Su), (get_H a _ _ _ _ Sa), kconj_mul, !kconj_invol by assumption. ring.
Qed.
Lemma right_H m n k (a u : nd K) s v : shp a = [m; n] -> frames n m k u s v -> right_eq (mat_H a) n m u s v -> left_eq a m n (mat_H v) s (mat_H u).
Proof.
  intros Sa (Hd & Su & Wu & Sv & Wv & Hu & Hv & Hs) Hl c j Hc Hj. rewrite (get_H u _ _ _ _ Su) by assumption.
  pose proof (f_equal kconj (Hl j c Hj Hc)) as H. rewrite kconj_mul, (Hs c Hc), bigsum_conj in H. transitivity (kconj (get u [j; c]) * nth c s k0)%K; [|ring]. rewrite <- H.
  apply bigsum_ext. intros i Hi. rewrite (get_H v _ _ _ _ Sv), (get_H a _ _ _ _ Sa), kconj_mul, !kconj_invol by assumption. ring.
Qed.
Lemma usv_H m n k u s v i j : frames n m k u s v -> i < m -> j < n ->
  bigsum (List.length s) (fun c => get (mat_H v) [i; c] * nth c s k0 * get (mat_H u) [c; j])%K =
  kconj (bigsum (List.length s) (fun c => get u [j; c] * nth c s k0 * get v [c; i])%K).
Proof.
  intros (Hd & Su & Wu & Sv & Wv & Hu & Hv & Hs) Hi Hj. rewrite bigsum_conj. apply bigsum_ext. intros c Hc.
  rewrite (get_H u _ _ _ _ Su), (get_H v _ _ _ _ Sv), !kconj_mul, (Hs c Hc) by assumption. ring.
Qed.
Lemma product_H m n k (a u : nd K) s v : shp a = [m; n] -> frames n m k u s v -> product_eq (mat_H a) n m u s v -> product_eq a m n (mat_H v) s (mat_H u).
Proof.
  intros Sa Hf Hp i j Hi Hj. rewrite (usv_H m n k) by assumption. rewrite <- (Hp j i Hj Hi), (get_H a _ _ _ _ Sa), kconj_invol by assumption. reflexivity.
Qed.
Lemma error_H m n k (a u : nd K) s v : shp a = [m; n] -> frames n m k u s v -> sq_error a m n (mat_H v) s (mat_H u) = sq_error (mat_H a) n m u s v.
Proof.
  intros Sa Hf. unfold sq_error. rewrite bigsum_swap. apply bigsum_ext. intros j Hj. apply bigsum_ext. intros i Hi. cbv zeta.
  rewrite (usv_H m n k) by assumption. rewrite (get_H a _ _ _ _ Sa) by assumption. rewrite !kconj_sub, !kconj_invol. ring.
Qed.
Lemma sum_H m n (a : nd K) : shp a = [m; n] -> sq_sum (mat_H a) n m = sq_sum a m n.
Proof.
  intros Sa. unfold sq_sum. rewrite bigsum_swap. apply bigsum_ext. intros i Hi. apply bigsum_ext. intros j Hj.
  rewrite (get_H a _ _ _ _ Sa) by assumption. rewrite kconj_invol. ring.
Qed.
Lemma pw_ext m n sk a a' om it : eqm m n a a' -> eqm n sk (pw m n a om it) (pw m n a' om it).
Proof.
  intros E. induction it as [|it IH]; [apply eqm_refl|]. cbn [pw]. apply mul_ext; [apply adj_ext; exact E|]. apply mul_ext; [exact E|exact IH].
Qed.
Lemma captured_ext m n sk a a' om it : eqm m n a a' -> captured m n sk a om it -> captured m n sk a' om it.
Proof.
  intros E (x & Hx). exists x. eapply eqm_trans; [|eapply eqm_trans; [exact Hx|exact E]]. apply eqm_sym. apply mul_ext; [|apply eqm_refl]. apply mul_ext; [exact E|]. apply pw_ext. exact E.
Qed.

(** The arguments *)
Definition auto_iter (m n k : nat) (n_iter : option nat) : nat :=
  match n_iter with Some i => i | None => if Nat.ltb (10 * k) (Nat.min m n) then 7 else 4 end.
Definition auto_transpose (m n : nat) (tr : option bool) : bool := match tr with Some b => b | None => Nat.ltb m n end.
Definition sketched (m n k p : nat) (n_iter : option nat) (nm : normalizer) (tr : option bool) (a : nd K) : Prop :=
  let it := iters nm (auto_iter m n k n_iter) in
  if auto_transpose m n tr then captured n m (k + p) (adj (ent a)) (omega m (k + p)) it
  else captured m n (k + p) (ent a) (omega n (k + p)) it.

Theorem randomized_svd_spec m n k p n_iter nm tr a : is_mat a m n -> 0 < k + p ->
  outc rs_fails (randomized_svd qr lu thin_svd draw true a k p n_iter nm tr) (fun r => let '(u, s, v) := r in
    frames m n k u s v /\
    (if auto_transpose m n tr then right_eq a m n u s v else left_eq a m n u s v) /\
    sq_error a m n u s v = (sq_sum a m n - bigsum (List.length s) (fun c => nth c s k0 * nth c s k0))%K /\
    (sketched m n k p n_iter nm tr a -> 0 < k -> tsvd_factors a m n k u s v)).
Proof.
  intros Ha Hk. pose proof Ha as (Sa & Wa & Hm & Hn). unfold randomized_svd. cbv zeta.
  assert (Er : nrows a = m) by (unfold nrows; rewrite Sa; reflexivity). assert (Ec : ncols a = n) by (unfold ncols; rewrite Sa; reflexivity). rewrite !Er, !Ec. unfold sketched.
  fold (auto_iter m n k n_iter). fold (auto_transpose m n tr). set (it := auto_iter m n k n_iter). cbv zeta.
  assert (Main : forall a' m' n', is_mat a' m' n' -> outc rs_fails (do q <- approx_range_finder qr lu draw true a' (k + p) it nm; do r <- thin_svd (mat_H (mat_mul (mat_H a') q)); Ok (q, r))
     (fun z => plain_result m' n' k (k + p) (iters nm it) a' (take_cols k (mat_mul (fst z) (fst (fst (snd z))))) (firstn k (snd (fst (snd z)))) (take_rows k (snd (snd z))))).
  { intros a' m' n' Ha'. eapply outc_bind; [exact (range_finder_spec m' n' (k + p) a' it nm Ha' Hk)|]. intros q Hq.
    destruct Hq as (r & Iq & Hq'). destruct (mat_H_is a' m' n' Ha') as [J1 F1]. destruct (mat_mul_is _ _ n' m' r J1 Iq) as [J2 F2]. destruct (mat_H_is _ n' r J2) as [J3 F3].
    eapply outc_bind; [exact (svd_call _ _ _ J3)|]. intros [[uh s] v] Ht. cbn [fst snd] in *. apply outc_ok. cbn [fst snd].
    apply plain_spec; [exact Ha'|lia|exists r; split; assumption|]. intros r' Hr'. replace r' with r; [exact Ht|].
    destruct Iq as (Sq & _), Hr' as (Sq' & _). rewrite Sq in Sq'. congruence. }
  assert (Re : forall (a' : nd K) (G : nd K -> nd K * list K * nd K -> res (nd K * list K * nd K)), 
     (do q <- approx_range_finder qr lu draw true a' (k + p) it nm; do r <- thin_svd (mat_H (mat_mul (mat_H a') q)); G q r) =
     (do z <- (do q <- approx_range_finder qr lu draw true a' (k + p) it nm; do r <- thin_svd (mat_H (mat_mul (mat_H a') q)); Ok (q, r)); G (fst z) (snd z))).
  { intros a' G. destruct (approx_range_finder qr lu draw true a' (k + p) it nm) as [q|e]; [|reflexivity]. cbn [bind]. destruct (thin_svd (mat_H (mat_mul (mat_H a') q))); reflexivity. }
  destruct (auto_transpose m n tr).
  - rewrite Re. destruct (mat_H_is a m n Ha) as [J1 F1]. eapply outc_bind; [exact (Main _ _ _ J1)|]. intros [q [[uh s] v]] (Hf & Hl & Hc). cbn [fst snd] in *. apply outc_ok.
    set (u' := take_cols k (mat_mul q uh)) in *. set (v' := take_rows k v) in *. set (s' := firstn k s) in *.
    pose proof (frames_H _ _ _ _ _ _ Hf) as Hf'. pose proof (left_H _ _ _ _ _ _ _ Sa Hf Hl) as Hr'.
    split; [exact Hf'|]. split; [exact Hr'|]. split; [rewrite (error_H m n k a u' s' v' Sa Hf), <- (sum_H m n a Sa); apply (error_of_left _ _ _ k); assumption|].
    intros HC Hk0. destruct Hc as [Hr Hp]; [eapply captured_ext; [apply eqm_sym; exact F1|exact HC]|].
    pose proof (right_H _ _ _ _ _ _ _ Sa Hf Hr) as Hl'.
    destruct Hf' as (Hd & Su & Wu & Sv & Wv & Hu & Hv & Hs).
    cbv zeta in Hd. unfold tsvd_factors. cbv zeta. repeat match goal with |- _ /\ _ => split end; try assumption; try lia. intros Hmn. apply (product_H m n k); [exact Sa|exact Hf|]. apply Hp. lia.
  - rewrite Re. eapply outc_bind; [exact (Main _ _ _ Ha)|]. intros [q [[uh s] v]] (Hf & Hl & Hc). cbn [fst snd] in *. apply outc_ok.
    split; [exact Hf|]. split; [exact Hl|]. split; [apply (error_of_left _ _ _ k); assumption|].
    intros HC Hk0. destruct (Hc HC) as [Hr Hp]. destruct Hf as (Hd & Su & Wu & Sv & Wv & Hu & Hv & Hs).
    cbv zeta in Hd. unfold tsvd_factors. cbv zeta. repeat match goal with |- _ /\ _ => split end; try assumption; try lia.
Qed.
End Oracles.

(** Low rank: if [a = l r] and [r om] has a right inverse, one sketch captures [a]. *)
Lemma captured_low_rank m n sk rho a om (l r y : mfun) : eqm m n a (mul rho l r) -> eqm rho rho (mul sk (mul n r om) y) idm -> captured m n sk a om 0.
Proof.
  intros Ea Ey. exists (mul rho y r). cbn [pw]. intros i j Hi Hj.
  transitivity (mul sk (mul rho l (mul n r om)) (mul rho y r) i j).
  { apply (mul_ext m sk n); try assumption; [|apply eqm_refl]. intros i' j' Hi' Hj'. rewrite <- mul_assoc. apply (mul_ext m n sk); try assumption. apply eqm_refl. }
  rewrite mul_assoc. rewrite Ea by assumption. apply (mul_ext m rho n); try assumption; [apply eqm_refl|]. intros c e Hc He. rewrite <- mul_assoc.
  rewrite (mul_ext rho rho n _ idm r r Ey (eqm_refl _ _ _) c e Hc He). apply (mul_id_l rho n); assumption.
Qed.
End Fun.
